(** * The force generators (C44 - C50). *)

From Coq Require Import Reals Lra Psatz.
From Coq Require Import Floats.SpecFloat.
From Verif Require Import Base Targets State Forces Logic SpecState StateFacts StateReal SpecOde OdeFacts SpecForces.
Local Open Scope nat_scope.

(** ** every number format *)
Section T.
Context {tg : target}.

(** C44 *)
Lemma gravity_steps (s : sstate tg) n g gr : shows_st s n g ->
  exists s', gravity_apply gr s = Ok s' /\
    shows_st s' n (fun f i => match f with Ffy => cadd (g Ffy i) (cmul (copp (g Fm i)) gr) | _ => g f i end) /\
    same_beyond s s' n /\ s_dt s' = s_dt s.
Proof.
  intros H. unfold gravity_apply. rewrite (proj1 H).
  destruct (columns_loop (fun i c f => match f with Ffy => cadd (c Ffy) (cmul (copp (c Fm)) gr) | _ => c f end)
    (fun i s => let* m := ld s Fm (Z.of_nat i) in sto_add s Ffy (Z.of_nat i) (cmul (copp m) gr)) s n g) as (s' & E & K).
  - intros i a b Hab f. destruct f; rewrite ?Hab; reflexivity.
  - exact H.
  - intros i t h Hi Ht. rewrite (ld_shows t n h Fm i Ht eq_refl Hi). cbn [bind].
    destruct (sto_add_shows t n h Ffy i (cmul (copp (h Fm i)) gr) Ht eq_refl Hi) as (t' & E & K). exists t'. split; [exact E|].
    eapply keeps_ext; [exact K|]. intros f j _ _. unfold tset. cbn beta. destruct (Nat.eqb_spec j i); [subst|destruct f; reflexivity].
    destruct f; reflexivity.
  - exists s'. split; [exact E|]. exact K.
Qed.

(** applyForce, in full *)
Lemma apply_force_spec (s : sstate tg) x y fx fy z px py th f0 g0 t0 :
  ld s Fpx z = Ok px -> ld s Fpy z = Ok py -> ld s Ftheta z = Ok th ->
  ld s Ffx z = Ok f0 -> ld s Ffy z = Ok g0 -> ld s Ft z = Ok t0 ->
  exists s' wx wy, st_local_to_world s x y z = Ok (wx, wy) /\ st_apply_force s x y fx fy z = Ok s' /\
    (forall f z', ld s' f z' = if Z.eqb z' z then match f with Ffx => Ok (cadd f0 fx) | Ffy => Ok (cadd g0 fy)
        | Ft => Ok (cadd t0 (cadd (cmul (csub wy py) (copp fx)) (cmul (csub wx px) fy))) | _ => ld s f z' end else ld s f z') /\
    s_n s' = s_n s /\ s_nc s' = s_nc s /\ s_imap s' = s_imap s /\ s_dt s' = s_dt s /\ (forall f, length (s_arr s' f) = length (s_arr s f)).
Proof.
  intros H1 H2 H3 H4 H5 H6. unfold st_apply_force.
  assert (E0 : exists wx wy, st_local_to_world s x y z = Ok (wx, wy)).
  { unfold st_local_to_world. rewrite H1, H2, H3. cbn [bind]. eauto. }
  destruct E0 as (wx & wy & E0). rewrite E0. cbn [bind].
  destruct (sto_add_cases s Ffx z fx) as [[K _]|(x1 & s1 & X1 & -> & L1 & N1 & A1 & A2 & A3 & A4)]; [congruence|]. cbn [bind].
  destruct (sto_add_cases s1 Ffy z fy) as [[K _]|(x2 & s2 & X2 & -> & L2 & N2 & B1 & B2 & B3 & B4)]; [rewrite L1 in K; cbn in K; congruence|]. cbn [bind].
  rewrite !L2, !L1. cbn [fld_eqb andb]. rewrite H1, H2. cbn [bind].
  match goal with |- context [sto_add s2 Ft z ?v] => destruct (sto_add_cases s2 Ft z v) as [[K _]|(x3 & s3 & X3 & -> & L3 & N3 & C1 & C2 & C3 & C4)] end.
  { rewrite L2, L1 in K. cbn in K. congruence. }
  exists s3, wx, wy. split; [reflexivity|]. split; [reflexivity|].
  rewrite H4 in X1. inversion X1; subst x1. rewrite L1 in X2. cbn in X2. rewrite H5 in X2. inversion X2; subst x2.
  rewrite L2, L1 in X3. cbn in X3. rewrite H6 in X3. inversion X3; subst x3.
  split.
  - intros f z'. rewrite L3, L2, L1. destruct (Z.eqb z' z); rewrite ?andb_true_r, ?andb_false_r; [|reflexivity].
    destruct f; reflexivity.
  - do 4 (split; [congruence|]). intros f. now rewrite N3, N2, N1.
Qed.

(** C49 *)
Lemma apply_force_outside (s : sstate tg) x y fx fy : st_apply_force s x y fx fy (-1) = UB.
Proof. reflexivity. Qed.
Lemma no_failure_ends (b : body tg) x y s : (exists r, spring_end b x y s = Ok r) \/ spring_end b x y s = UB.
Proof.
  unfold spring_end. destruct (negb _); [|left; cbn; eauto].
  assert (L : forall f z, (exists x, ld s f z = Ok x) \/ ld s f z = UB) by (intros; apply aget_cases).
  unfold st_velocity_at_point, st_local_to_world.
  destruct (L Fpx (b_index b)) as [[px ->]| ->]; [|now right]. cbn [bind].
  destruct (L Fpy (b_index b)) as [[py ->]| ->]; [|now right]. cbn [bind].
  destruct (L Ftheta (b_index b)) as [[th ->]| ->]; [|now right]. cbn [bind].
  destruct (L Fvtheta (b_index b)) as [[vt ->]| ->]; [|now right]. cbn [bind].
  destruct (L Fvx (b_index b)) as [[vx ->]| ->]; [|now right]. cbn [bind].
  destruct (L Fvy (b_index b)) as [[vy ->]| ->]; [|now right]. cbn [bind]. left. eauto.
Qed.
Lemma force_or_ub (s : sstate tg) x y fx fy z : (exists s', st_apply_force s x y fx fy z = Ok s') \/ st_apply_force s x y fx fy z = UB.
Proof.
  assert (L : forall (s : sstate tg) f z, (exists x, ld s f z = Ok x) \/ ld s f z = UB) by (intros; apply aget_cases).
  unfold st_apply_force, st_local_to_world.
  destruct (L s Fpx z) as [[px ->]| ->]; [|now right]. cbn [bind].
  destruct (L s Fpy z) as [[py ->]| ->]; [|now right]. cbn [bind].
  destruct (L s Ftheta z) as [[th ->]| ->]; [|now right]. cbn [bind].
  destruct (sto_add_cases s Ffx z fx) as [[_ ->]|(x1 & s1 & _ & -> & _)]; [now right|]. cbn [bind].
  destruct (sto_add_cases s1 Ffy z fy) as [[_ ->]|(x2 & s2 & _ & -> & _)]; [now right|]. cbn [bind].
  destruct (L s2 Fpy z) as [[py2 ->]| ->]; [|now right]. cbn [bind].
  destruct (L s2 Fpx z) as [[px2 ->]| ->]; [|now right]. cbn [bind].
  match goal with |- context [sto_add s2 Ft z ?v] => destruct (sto_add_cases s2 Ft z v) as [[_ ->]|(x3 & s3 & _ & -> & _)] end; [now right|left; eauto].
Qed.
Lemma spring_outside (p : spring tg) bs s i1 i2 : sp_b1 p = Some i1 -> sp_b2 p = Some i2 ->
  b_index (bs i1) = (-1)%Z \/ b_index (bs i2) = (-1)%Z -> spring_apply p bs s = UB.
Proof.
  intros E1 E2 H. unfold spring_apply. rewrite E1, E2.
  destruct (no_failure_ends (bs i1) (sp_p1x p) (sp_p1y p) s) as [[[[[? ?] ?] ?] ->]| ->]; [|reflexivity]. cbn [bind].
  destruct (no_failure_ends (bs i2) (sp_p2x p) (sp_p2y p) s) as [[[[[? ?] ?] ?] ->]| ->]; [|reflexivity]. cbn [bind].
  match goal with |- context [cle ?a ?b] => assert (L : (exists r, cle a b = Ok r) \/ cle a b = UB) end.
  { unfold cle, cmp. destruct (clit 1 100); [|now right]. destruct (cabs _); [left; eauto|now right]. }
  destruct L as [[far ->]| ->]; [|reflexivity]. cbn [bind].
  destruct H as [H|H]; rewrite H; [reflexivity|].
  match goal with |- bind ?r _ = _ => assert (L : (exists s', r = Ok s') \/ r = UB) by apply force_or_ub; destruct L as [[s' ->]| ->]; reflexivity end.
Qed.
End T.

(** ** springs in exact arithmetic *)
Section R.
Context {dbg : bool}.
Notation tg := (RT dbg).
Notation cl := (cell tg).

(** the force on body 1 *)
Definition spring_fx (r : spring_pars) (q1 v1 q2 v2 : pose) : R :=
  (let l := spring_length r q1 q2 in
   (if Rle_dec (1 / 100) l then (end2x r q2 - end1x r q1) / l * (l - sr_rest r) * sr_ks r else 0) + relvx r q1 v1 q2 v2 * sr_kd r)%R.
Definition spring_fy (r : spring_pars) (q1 v1 q2 v2 : pose) : R :=
  (let l := spring_length r q1 q2 in
   (if Rle_dec (1 / 100) l then (end2y r q2 - end1y r q1) / l * (l - sr_rest r) * sr_ks r else 0) + relvy r q1 v1 q2 v2 * sr_kd r)%R.

Lemma spring_end_R (b : body tg) s q v (x y : R) : b_index b <> (-1)%Z -> state_pose s (b_index b) q -> state_velocity s (b_index b) v ->
  spring_end b (Some x : cl) (Some y : cl) s =
    Ok ((Some (world_x (q_x q) (q_th q) x y) : cl), (Some (world_y (q_y q) (q_th q) x y) : cl),
        (Some (ptvx q v (world_x (q_x q) (q_th q) x y) (world_y (q_y q) (q_th q) x y)) : cl),
        (Some (ptvy q v (world_x (q_x q) (q_th q) x y) (world_y (q_y q) (q_th q) x y)) : cl)).
Proof.
  intros N P V. unfold spring_end. destruct (Z.eqb_spec (b_index b) (-1)); [contradiction|]. cbn [negb].
  rewrite (s_l2w s _ q x y P). cbn [bind]. rewrite (s_vap s _ q v x y P V). cbn [bind]. reflexivity.
Qed.
Lemma R_sqrt_sum (a b : R) : R_sqrt (a * a + b * b)%R = Some (sqrt (a * a + b * b)%R).
Proof. unfold R_sqrt. destruct (Rlt_dec (a * a + b * b) 0); [nra|reflexivity]. Qed.

Lemma two_apply (s : sstate tg) z1 z2 q1 v1 q2 v2 (x1 y1 fx1 fy1 x2 y2 fx2 fy2 : R) :
  body_state s z1 q1 v1 -> body_state s z2 q2 v2 ->
  exists s1 s', st_apply_force s (Some x1 : cl) (Some y1 : cl) (Some fx1 : cl) (Some fy1 : cl) z1 = Ok s1 /\
    st_apply_force s1 (Some x2 : cl) (Some y2 : cl) (Some fx2 : cl) (Some fy2 : cl) z2 = Ok s' /\
    two_forces s s' z1 z2
      (point_force q1 (world_x (q_x q1) (q_th q1) x1 y1) (world_y (q_y q1) (q_th q1) x1 y1) fx1 fy1)
      (point_force q2 (world_x (q_x q2) (q_th q2) x2 y2) (world_y (q_y q2) (q_th q2) x2 y2) fx2 fy2).
Proof.
  intros (P1 & V1 & a1 & b1 & c1 & FA1 & FB1 & FC1) (P2 & V2 & a2 & b2 & c2 & FA2 & FB2 & FC2).
  destruct (apply_force_spec s (Some x1 : cl) (Some y1 : cl) (Some fx1 : cl) (Some fy1 : cl) z1 _ _ _ _ _ _
     (proj1 P1) (proj1 (proj2 P1)) (proj2 (proj2 P1)) FA1 FB1 FC1) as (s1 & wx1 & wy1 & W1 & E1 & L1 & N1 & N2 & N3 & N4 & _).
  rewrite (s_l2w s z1 q1 x1 y1 P1) in W1. inversion W1; subst wx1 wy1. clear W1.
  assert (P2' : state_pose s1 z2 q2).
  { destruct P2 as (A & B & C). repeat split; rewrite L1; destruct (Z.eqb z2 z1); assumption. }
  assert (F2 : exists a b c : R, ld s1 Ffx z2 = Ok (Some a : cl) /\ ld s1 Ffy z2 = Ok (Some b : cl) /\ ld s1 Ft z2 = Ok (Some c : cl)).
  { rewrite !L1. destruct (Z.eqb z2 z1); do 3 eexists; (split; [|split]); try eassumption; reflexivity. }
  destruct F2 as (a2' & b2' & c2' & FA2' & FB2' & FC2').
  destruct (apply_force_spec s1 (Some x2 : cl) (Some y2 : cl) (Some fx2 : cl) (Some fy2 : cl) z2 _ _ _ _ _ _
     (proj1 P2') (proj1 (proj2 P2')) (proj2 (proj2 P2')) FA2' FB2' FC2') as (s2 & wx2 & wy2 & W2 & E2 & L2 & M1 & M2 & M3 & M4 & _).
  rewrite (s_l2w s1 z2 q2 x2 y2 P2') in W2. inversion W2; subst wx2 wy2. clear W2.
  exists s1, s2. split; [exact E1|]. split; [exact E2|]. split; [|split].
  - split; [|repeat split; congruence]. intros f z H. rewrite L2, L1.
    destruct H as [H|H].
    + destruct (Z.eqb z z2), (Z.eqb z z1); destruct f; try discriminate; reflexivity.
    + destruct (Z.eqb_spec z z2); [subst; exfalso; apply H; cbn; auto|]. destruct (Z.eqb_spec z z1); [subst; exfalso; apply H; cbn; auto|]. reflexivity.
  - intros N. split.
    + exists a1, b1, c1. split; [auto|]. rewrite !L2, !L1. destruct (Z.eqb_spec z1 z2); [contradiction|]. rewrite Z.eqb_refl.
      split; [reflexivity|]. split; [reflexivity|]. rt_unfold. do 2 f_equal. unfold point_force. cbn [gf_t]. ring.
    + exists a2, b2, c2. split; [auto|]. rewrite L1 in FA2', FB2', FC2'. destruct (Z.eqb_spec z2 z1); [congruence|].
      rewrite FA2 in FA2'. rewrite FB2 in FB2'. rewrite FC2 in FC2'. inversion FA2'. inversion FB2'. inversion FC2'. subst a2' b2' c2'.
      rewrite !L2, Z.eqb_refl. split; [reflexivity|]. split; [reflexivity|]. rt_unfold. do 2 f_equal. unfold point_force. cbn [gf_t]. ring.
  - intros ->. exists a1, b1, c1. split; [auto|]. rewrite L1, Z.eqb_refl in FA2', FB2', FC2'.
    inversion FA2'. inversion FB2'. inversion FC2'. subst a2' b2' c2'. clear FA2' FB2' FC2'.
    rewrite !L2, Z.eqb_refl. assert (q2 = q1).
    { destruct P1 as (A1 & B1 & C1), P2 as (A2 & B2 & C2). rewrite A1 in A2. rewrite B1 in B2. rewrite C1 in C2.
      inversion A2. inversion B2. inversion C2. destruct q1, q2; cbn in *; congruence. }
    subst q2. unfold point_force. cbn [gf_x gf_y gf_t]. rt_unfold. repeat split; do 2 f_equal; ring.
Qed.

(** what a spring between two bodies of the system does *)
Lemma spring_effect (r : spring_pars) (bs : bodies tg) s i1 i2 q1 v1 q2 v2 :
  b_index (bs i1) <> (-1)%Z -> b_index (bs i2) <> (-1)%Z ->
  body_state s (b_index (bs i1)) q1 v1 -> body_state s (b_index (bs i2)) q2 v2 ->
  exists s', spring_apply (spring_of dbg r i1 i2) bs s = Ok s' /\
    two_forces s s' (b_index (bs i1)) (b_index (bs i2))
      (point_force q1 (end1x r q1) (end1y r q1) (spring_fx r q1 v1 q2 v2) (spring_fy r q1 v1 q2 v2))
      (point_force q2 (end2x r q2) (end2y r q2) (- spring_fx r q1 v1 q2 v2) (- spring_fy r q1 v1 q2 v2)).
Proof.
  intros N1 N2 B1 B2. unfold spring_apply. cbn [spring_of sp_b1 sp_b2 sp_p1x sp_p1y sp_p2x sp_p2y sp_rest sp_ks sp_kd].
  rewrite (spring_end_R (bs i1) s q1 v1 (sr_p1x r) (sr_p1y r) N1 (proj1 B1) (proj1 (proj2 B1))). cbn [bind].
  rewrite (spring_end_R (bs i2) s q2 v2 (sr_p2x r) (sr_p2y r) N2 (proj1 B2) (proj1 (proj2 B2))). cbn [bind].
  fold (end1x r q1) (end1y r q1) (end2x r q2) (end2y r q2).
  set (dx := (end2x r q2 - end1x r q1)%R). set (dy := (end2y r q2 - end1y r q1)%R).
  change (csub (Some (end2x r q2) : cl) (Some (end1x r q1) : cl)) with (Some dx : cl).
  change (csub (Some (end2y r q2) : cl) (Some (end1y r q1) : cl)) with (Some dy : cl).
  assert (El : csqrt (cadd (cmul (Some dx : cl) (Some dx : cl)) (cmul (Some dy : cl) (Some dy : cl))) = (Some (spring_length r q1 q2) : cl)).
  { unfold csqrt, lift1p. rt_unfold. rewrite R_sqrt_sum. f_equal. unfold spring_length, dist2. f_equal. unfold dx, dy. ring. }
  rewrite El. set (l := spring_length r q1 q2) in *.
  assert (Hl : (0 <= l)%R) by apply sqrt_pos.
  rewrite clit_R by lra. unfold cle, cmp. cbn [cabs lift1]. cbn [n_leb n_abs num RT]. rewrite (Rabs_pos_eq l Hl). unfold R_leb.
  unfold spring_fx, spring_fy. fold l dx dy.
  destruct (Rle_dec (IZR 1 / IZR 100) l) as [Hd|Hd]; cbn [bind].
  - assert (Nl : l <> 0%R) by lra.
    unfold cdiv, lift2p. cbn [n_div RT]. rewrite !(Rdiv_some _ l Nl).
    destruct (two_apply s (b_index (bs i1)) (b_index (bs i2)) q1 v1 q2 v2 (sr_p1x r) (sr_p1y r)
      (dx / l * (l - sr_rest r) * sr_ks r + relvx r q1 v1 q2 v2 * sr_kd r)%R (dy / l * (l - sr_rest r) * sr_ks r + relvy r q1 v1 q2 v2 * sr_kd r)%R
      (sr_p2x r) (sr_p2y r)
      (- (dx / l * (l - sr_rest r) * sr_ks r + relvx r q1 v1 q2 v2 * sr_kd r))%R (- (dy / l * (l - sr_rest r) * sr_ks r + relvy r q1 v1 q2 v2 * sr_kd r))%R
      B1 B2) as (s1 & s' & E1 & E2 & K).
    exists s'. split; [|exact K].
    etransitivity; [|exact E2]. etransitivity; [apply f_equal2; [exact E1|reflexivity]|]. cbn [bind].
    f_equal; rt_unfold; f_equal; unfold relvx, relvy; ring.
  - change (cofZ 0 : cl) with (Some 0%R : cl).
    destruct (two_apply s (b_index (bs i1)) (b_index (bs i2)) q1 v1 q2 v2 (sr_p1x r) (sr_p1y r)
      (0 + relvx r q1 v1 q2 v2 * sr_kd r)%R (0 + relvy r q1 v1 q2 v2 * sr_kd r)%R
      (sr_p2x r) (sr_p2y r)
      (- (0 + relvx r q1 v1 q2 v2 * sr_kd r))%R (- (0 + relvy r q1 v1 q2 v2 * sr_kd r))%R
      B1 B2) as (s1 & s' & E1 & E2 & K).
    exists s'. split; [|exact K].
    etransitivity; [|exact E2].
    match goal with |- bind (st_apply_force s _ _ ?fx ?fy _) _ = _ =>
      replace fx with (Some (0 + relvx r q1 v1 q2 v2 * sr_kd r)%R : cl) by (rt_unfold; f_equal; unfold relvx; cbn [n_ofZ RT]; ring);
      replace fy with (Some (0 + relvy r q1 v1 q2 v2 * sr_kd r)%R : cl) by (rt_unfold; f_equal; unfold relvy; cbn [n_ofZ RT]; ring) end.
    rewrite E1. cbn [bind]. f_equal; rt_unfold; f_equal; unfold relvx, relvy; cbn [n_ofZ RT]; ring.
Qed.
End R.
