(** * Springs in binary64: the forces on the two bodies are opposite (C75). *)

From Coq Require Import Reals.
From Coq Require Import Floats.SpecFloat.
From Verif Require Import Base Targets State Forces Logic SpecState StateFacts StateReal SpecForces ForceFacts.
Local Open Scope nat_scope.

Lemma round_aux_opp m e l sx : binary_round_aux 53 1024 (negb sx) m e l = SFopp (binary_round_aux 53 1024 sx m e l).
Proof.
  unfold binary_round_aux. destruct (shr_fexp 53 1024 m e l) as [mrs' e']. destruct (shr_fexp 53 1024 _ e' loc_Exact) as [mrs'' e''].
  destruct (shr_m mrs''); cbn; try reflexivity. destruct (Z.leb e'' _); reflexivity.
Qed.
Lemma round_opp m e sx : binary_round 53 1024 (negb sx) m e = SFopp (binary_round 53 1024 sx m e).
Proof. unfold binary_round. destruct (shl_align m e _). apply round_aux_opp. Qed.
Lemma normalize_opp m e s : f_opposite (binary_normalize 53 1024 m e s) (binary_normalize 53 1024 (- m) e s).
Proof.
  destruct m; cbn [binary_normalize Z.opp].
  - right. split; eexists; reflexivity.
  - left. apply (round_opp p e false).
  - left. apply (round_opp p e true).
Qed.
Lemma mul_opp x y : SFmul 53 1024 (SFopp x) y = SFopp (SFmul 53 1024 x y).
Proof. destruct x as [[]|[]| |[] mx ex], y as [[]|[]| |[] my ey]; try reflexivity; cbn [SFmul SFopp xorb negb];
  first [exact (round_aux_opp _ _ _ false)|exact (round_aux_opp _ _ _ true)]. Qed.
Lemma add_opp x y : f_opposite (SFadd 53 1024 x y) (SFsub 53 1024 (SFopp x) y).
Proof.
  destruct x as [[]|[]| |[] mx ex], y as [[]|[]| |[] my ey]; cbn [SFadd SFsub SFopp Bool.eqb negb];
  try (left; reflexivity); try (right; split; eexists; reflexivity);
  match goal with |- f_opposite (binary_normalize _ _ ?m ?e ?s) (binary_normalize _ _ ?m' _ _) => replace m' with (- m)%Z; [apply normalize_opp|] end;
  unfold cond_Zopp; lia.
Qed.

Section F.
Context {dbg : bool} {sn cs : f64 -> option f64}.
Notation tg := (F64_trig dbg sn cs).
Lemma c_opp_force (d x k v c : cell tg) :
  c_opposite (cadd (cmul (cmul d x) k) (cmul v c)) (csub (cmul (cmul (copp d) x) k) (cmul v c)).
Proof.
  destruct d as [d|], x as [x|], k as [k|], v as [v|], c as [c|]; try exact I.
  cbn [c_opposite cadd csub cmul copp lift1 lift2 lift2p n_add n_sub n_mul n_opp F64_trig].
  change (f_opposite (SFadd 53 1024 (SFmul 53 1024 (SFmul 53 1024 d x) k) (SFmul 53 1024 v c))
    (SFsub 53 1024 (SFmul 53 1024 (SFmul 53 1024 (SFopp d) x) k) (SFmul 53 1024 v c))).
  rewrite !mul_opp. apply add_opp.
Qed.
Lemma spring_end_ok (b : body tg) x y (s : sstate tg) px py th vx vy vt :
  ld s Fpx (b_index b) = Ok px -> ld s Fpy (b_index b) = Ok py -> ld s Ftheta (b_index b) = Ok th ->
  ld s Fvx (b_index b) = Ok vx -> ld s Fvy (b_index b) = Ok vy -> ld s Fvtheta (b_index b) = Ok vt ->
  exists r, spring_end b x y s = Ok r.
Proof.
  intros H1 H2 H3 H4 H5 H6. destruct (no_failure_ends b x y s) as [H|H]; [exact H|]. exfalso. revert H.
  unfold spring_end, st_velocity_at_point, st_local_to_world. destruct (negb _); [|discriminate].
  rewrite H1, H2, H3. cbn [bind]. rewrite ?H4, ?H5, ?H6. cbn [bind]. rewrite ?H1, ?H2, ?H3, ?H4, ?H5, ?H6. cbn [bind]. rewrite ?H4, ?H5, ?H6. cbn [bind]. discriminate.
Qed.
Lemma spring_float (p : spring tg) (bs : bodies tg) (s s' : sstate tg) i1 i2 :
  sp_b1 p = Some i1 -> sp_b2 p = Some i2 -> b_index (bs i1) <> b_index (bs i2) ->
  spring_apply p bs s = Ok s' ->
  exists fx fy gx gy a1 b1 a2 b2, c_opposite fx gx /\ c_opposite fy gy /\
    ld s Ffx (b_index (bs i1)) = Ok a1 /\ ld s' Ffx (b_index (bs i1)) = Ok (cadd a1 fx) /\
    ld s Ffy (b_index (bs i1)) = Ok b1 /\ ld s' Ffy (b_index (bs i1)) = Ok (cadd b1 fy) /\
    ld s Ffx (b_index (bs i2)) = Ok a2 /\ ld s' Ffx (b_index (bs i2)) = Ok (cadd a2 gx) /\
    ld s Ffy (b_index (bs i2)) = Ok b2 /\ ld s' Ffy (b_index (bs i2)) = Ok (cadd b2 gy).
Proof.
  intros E1 E2 N. unfold spring_apply. rewrite E1, E2.
  set (z1 := b_index (bs i1)) in *. set (z2 := b_index (bs i2)) in *.
  destruct (no_failure_ends (bs i1) (sp_p1x p) (sp_p1y p) s) as [[[[[x1 y1] vx1] vy1] ->]| ->]; [|discriminate]. cbn [bind].
  destruct (no_failure_ends (bs i2) (sp_p2x p) (sp_p2y p) s) as [[[[[x2 y2] vx2] vy2] ->]| ->]; [|discriminate]. cbn [bind].
  destruct (cle _ _) as [far| | |]; try discriminate. cbn [bind].
  set (dx := if far then _ else _). set (dy := if far then cdiv (csub y2 y1) _ else _).
  set (X := csub (csqrt _) (sp_rest p)).
  assert (O1 := c_opp_force dx X (sp_ks p) (csub vx2 vx1) (sp_kd p)).
  assert (O2 := c_opp_force dy X (sp_ks p) (csub vy2 vy1) (sp_kd p)).
  set (fx := cadd (cmul (cmul dx _) _) _) in *. set (fy := cadd (cmul (cmul dy _) _) _) in *.
  set (gx := csub (cmul (cmul (copp dx) _) _) _) in *. set (gy := csub (cmul (cmul (copp dy) _) _) _) in *.
  intros E. destruct (st_apply_force s _ _ fx fy z1) as [s1| | |] eqn:F1; try discriminate. cbn [bind] in E.
  assert (AF : forall (s s' : sstate tg) x y fx fy z, st_apply_force s x y fx fy z = Ok s' ->
    exists a b, ld s Ffx z = Ok a /\ ld s Ffy z = Ok b /\ forall f z', f = Ffx \/ f = Ffy ->
      ld s' f z' = if Z.eqb z' z then Ok (match f with Ffx => cadd a fx | _ => cadd b fy end) else ld s f z').
  { clear. intros s s' x y fx fy z E.
    assert (L : forall f, (exists x, ld s f z = Ok x) \/ ld s f z = UB) by (intros; apply aget_cases).
    assert (Z0 := E). revert Z0. unfold st_apply_force, st_local_to_world.
    destruct (L Fpx) as [[px P1]|P1]; rewrite P1; [|discriminate]. cbn [bind].
    destruct (L Fpy) as [[py P2]|P2]; rewrite P2; [|discriminate]. cbn [bind].
    destruct (L Ftheta) as [[th P3]|P3]; rewrite P3; [|discriminate]. cbn [bind].
    destruct (sto_add_cases s Ffx z fx) as [[_ ->]|(x1 & s1 & X1 & -> & L1 & _)]; [discriminate|]. cbn [bind].
    destruct (sto_add_cases s1 Ffy z fy) as [[_ ->]|(x2 & s2 & X2 & -> & L2 & _)]; [discriminate|]. cbn [bind].
    rewrite L2, L1. cbn [fld_eqb andb]. rewrite P2. cbn [bind]. rewrite L2, L1. cbn [fld_eqb andb]. rewrite P1. cbn [bind].
    match goal with |- sto_add s2 Ft z ?v = _ -> _ => destruct (sto_add_cases s2 Ft z v) as [[_ ->]|(x3 & s3 & X3 & -> & L3 & _)] end; [discriminate|].
    intros Q. inversion Q; subst s3. rewrite L1 in X2. cbn in X2. exists x1, x2. split; [exact X1|]. split; [exact X2|].
    intros f z' [-> | ->]; rewrite L3, L2, L1; cbn [fld_eqb andb]; destruct (Z.eqb z' z); reflexivity. }
  destruct (AF _ _ _ _ _ _ _ F1) as (a1 & b1 & A1 & B1 & K1). destruct (AF _ _ _ _ _ _ _ E) as (a2 & b2 & A2 & B2 & K2).
  rewrite K1 in A2, B2 by auto. destruct (Z.eqb_spec z2 z1); [congruence|].
  exists fx, fy, gx, gy, a1, b1, a2, b2. split; [exact O1|]. split; [exact O2|].
  rewrite !K2 by auto. rewrite !K1 by auto. destruct (Z.eqb_spec z1 z2); [congruence|]. destruct (Z.eqb_spec z2 z1); [congruence|]. rewrite !Z.eqb_refl.
  repeat split; assumption.
Qed.
End F.
