(** * What the force generators mean (C45 - C51). *)

From Coq Require Import Reals Lra Psatz FunctionalExtensionality.
From Coq Require Import Floats.SpecFloat.
From Verif Require Import Base Targets State Forces System Logic SpecState StateFacts StateReal SpecOde OdeFacts SpecForces ForceFacts.
Local Open Scope nat_scope.

Section R.
Context {dbg : bool}.
Notation tg := (RT dbg).
Notation cl := (cell tg).

(** C45 *)
Lemma spring_third_law (r : spring_pars) (bs : bodies tg) s i1 i2 q1 v1 q2 v2 :
  b_index (bs i1) <> (-1)%Z -> b_index (bs i2) <> (-1)%Z ->
  body_state s (b_index (bs i1)) q1 v1 -> body_state s (b_index (bs i2)) q2 v2 ->
  exists s' F1 F2, spring_apply (spring_of dbg r i1 i2) bs s = Ok s' /\ two_forces s s' (b_index (bs i1)) (b_index (bs i2)) F1 F2 /\
    (gf_x F1 + gf_x F2 = 0)%R /\ (gf_y F1 + gf_y F2 = 0)%R.
Proof.
  intros N1 N2 B1 B2. destruct (spring_effect r bs s i1 i2 q1 v1 q2 v2 N1 N2 B1 B2) as (s' & E & K).
  exists s'. eexists. eexists. split; [exact E|]. split; [exact K|]. cbn [point_force gf_x gf_y]. lra.
Qed.

(** C46, C48: the moment *)
Lemma pair_moment r q1 v1 q2 v2 ox oy : (sr_kd r = 0)%R \/ along r q1 v1 q2 v2 ->
  (moment q1 (point_force q1 (end1x r q1) (end1y r q1) (spring_fx r q1 v1 q2 v2) (spring_fy r q1 v1 q2 v2)) ox oy +
   moment q2 (point_force q2 (end2x r q2) (end2y r q2) (- spring_fx r q1 v1 q2 v2) (- spring_fy r q1 v1 q2 v2)) ox oy = 0)%R.
Proof.
  intros H. unfold moment, point_force. cbn [gf_x gf_y gf_t].
  replace (_ + _)%R with (- ((end2x r q2 - end1x r q1) * spring_fy r q1 v1 q2 v2 - (end2y r q2 - end1y r q1) * spring_fx r q1 v1 q2 v2))%R by ring.
  unfold spring_fx, spring_fy, along in *. cbv zeta. set (l := spring_length r q1 q2).
  destruct (Rle_dec (1 / 100) l) as [Hl|Hl].
  - assert (l <> 0)%R by lra. unfold Rdiv.
    match type of H with (?a = 0)%R \/ (?b = 0)%R => transitivity (b * a)%R; [ring|destruct H as [H|H]; rewrite H; ring] end.
  - match type of H with (?a = 0)%R \/ (?b = 0)%R => transitivity (b * a)%R; [ring|destruct H as [H|H]; rewrite H; ring] end.
Qed.

(** C47 *)
Lemma spring_f_undamped r q1 v1 q2 v2 :
  (spring_fx r q1 v1 q2 v2 = spring_fx (undamped r) q1 v1 q2 v2 + relvx r q1 v1 q2 v2 * sr_kd r)%R /\
  (spring_fy r q1 v1 q2 v2 = spring_fy (undamped r) q1 v1 q2 v2 + relvy r q1 v1 q2 v2 * sr_kd r)%R.
Proof.
  unfold spring_fx, spring_fy. cbv zeta. change (spring_length (undamped r) q1 q2) with (spring_length r q1 q2).
  cbn [undamped sr_rest sr_ks sr_kd].
  change (end2x (undamped r) q2) with (end2x r q2). change (end1x (undamped r) q1) with (end1x r q1).
  change (end2y (undamped r) q2) with (end2y r q2). change (end1y (undamped r) q1) with (end1y r q1).
  split; ring.
Qed.
Lemma pair_power r q1 v1 q2 v2 (fx fy : R) :
  (power v1 (point_force q1 (end1x r q1) (end1y r q1) fx fy) + power v2 (point_force q2 (end2x r q2) (end2y r q2) (- fx) (- fy)) =
   - (relvx r q1 v1 q2 v2 * fx + relvy r q1 v1 q2 v2 * fy))%R.
Proof. unfold power, point_force, relvx, relvy, ptvx, ptvy. cbn [gf_x gf_y gf_t]. ring. Qed.
Lemma spring_damping (r : spring_pars) (bs : bodies tg) s i1 i2 q1 v1 q2 v2 :
  b_index (bs i1) <> (-1)%Z -> b_index (bs i2) <> (-1)%Z ->
  body_state s (b_index (bs i1)) q1 v1 -> body_state s (b_index (bs i2)) q2 v2 -> (0 <= sr_kd r)%R ->
  exists s' F1 F2 s0 G1 G2,
    spring_apply (spring_of dbg r i1 i2) bs s = Ok s' /\ two_forces s s' (b_index (bs i1)) (b_index (bs i2)) F1 F2 /\
    spring_apply (spring_of dbg (undamped r) i1 i2) bs s = Ok s0 /\ two_forces s s0 (b_index (bs i1)) (b_index (bs i2)) G1 G2 /\
    (power v1 F1 + power v2 F2 <= power v1 G1 + power v2 G2)%R.
Proof.
  intros N1 N2 B1 B2 Hk. destruct (spring_effect r bs s i1 i2 q1 v1 q2 v2 N1 N2 B1 B2) as (s' & E & K).
  destruct (spring_effect (undamped r) bs s i1 i2 q1 v1 q2 v2 N1 N2 B1 B2) as (s0 & E0 & K0).
  exists s'. eexists. eexists. exists s0. eexists. eexists. split; [exact E|]. split; [exact K|]. split; [exact E0|]. split; [exact K0|].
  rewrite pair_power. change (end1x (undamped r)) with (end1x r). change (end1y (undamped r)) with (end1y r).
  change (end2x (undamped r)) with (end2x r). change (end2y (undamped r)) with (end2y r). rewrite pair_power.
  destruct (spring_f_undamped r q1 v1 q2 v2) as [-> ->].
  set (a := relvx r q1 v1 q2 v2). set (b := relvy r q1 v1 q2 v2).
  assert (0 <= sr_kd r * (a * a + b * b))%R by (apply Rmult_le_pos; nra). nra.
Qed.

(** C46 and the true part of C48 *)
Lemma spring_central (r : spring_pars) (bs : bodies tg) s i1 i2 q1 v1 q2 v2 :
  b_index (bs i1) <> (-1)%Z -> b_index (bs i2) <> (-1)%Z ->
  body_state s (b_index (bs i1)) q1 v1 -> body_state s (b_index (bs i2)) q2 v2 -> (sr_kd r = 0)%R \/ along r q1 v1 q2 v2 ->
  exists s' F1 F2, spring_apply (spring_of dbg r i1 i2) bs s = Ok s' /\ two_forces s s' (b_index (bs i1)) (b_index (bs i2)) F1 F2 /\
    forall ox oy : R, (moment q1 F1 ox oy + moment q2 F2 ox oy = 0)%R.
Proof.
  intros N1 N2 B1 B2 H. destruct (spring_effect r bs s i1 i2 q1 v1 q2 v2 N1 N2 B1 B2) as (s' & E & K).
  exists s'. eexists. eexists. split; [exact E|]. split; [exact K|]. intros ox oy. now apply pair_moment.
Qed.

Definition energy_of (r : spring_pars) (q1 q2 : pose) : R :=
  (1 / 2 * sr_ks r * (spring_length r q1 q2 - sr_rest r) * (spring_length r q1 q2 - sr_rest r))%R.
Lemma spring_energy_R (r : spring_pars) (bs : bodies tg) i1 i2 q1 q2 : body_pose (bs i1) q1 -> body_pose (bs i2) q2 ->
  spring_energy (spring_of dbg r i1 i2) bs = (Some (energy_of r q1 q2) : cl).
Proof.
  intros P1 P2. unfold spring_energy. cbn [spring_of sp_b1 sp_b2 sp_p1x sp_p1y sp_p2x sp_p2y sp_ks sp_rest].
  rewrite (b_l2w (bs i1) q1 (sr_p1x r) (sr_p1y r) P1), (b_l2w (bs i2) q2 (sr_p2x r) (sr_p2y r) P2).
  fold (end1x r q1) (end1y r q1) (end2x r q2) (end2y r q2).
  set (dx := (end2x r q2 - end1x r q1)%R). set (dy := (end2y r q2 - end1y r q1)%R).
  change (csub (Some (end2x r q2) : cl) (Some (end1x r q1) : cl)) with (Some dx : cl).
  change (csub (Some (end2y r q2) : cl) (Some (end1y r q1) : cl)) with (Some dy : cl).
  assert (El : csqrt (cadd (cmul (Some dx : cl) (Some dx : cl)) (cmul (Some dy : cl) (Some dy : cl))) = (Some (spring_length r q1 q2) : cl)).
  { unfold csqrt, lift1p. rt_unfold. rewrite R_sqrt_sum. f_equal. unfold spring_length, dist2. f_equal. unfold dx, dy. ring. }
  rewrite El, clit_R by lra. reflexivity.
Qed.
Lemma dlim_sqrt f t l : (0 < f t)%R -> derivable_pt_lim f t l -> derivable_pt_lim (fun t => sqrt (f t)) t (/ (2 * sqrt (f t)) * l)%R.
Proof. intros P H. apply (derivable_pt_lim_comp f sqrt t l); [exact H|now apply derivable_pt_lim_sqrt]. Qed.
Lemma dlim_dist r m1 m2 t v1 v2 : moves m1 t v1 -> moves m2 t v2 -> (0 < spring_length r (m1 t) (m2 t))%R ->
  derivable_pt_lim (fun t => spring_length r (m1 t) (m2 t)) t
    (((end2x r (m2 t) - end1x r (m1 t)) * relvx r (m1 t) v1 (m2 t) v2 + (end2y r (m2 t) - end1y r (m1 t)) * relvy r (m1 t) v1 (m2 t) v2)
      / spring_length r (m1 t) (m2 t))%R.
Proof.
  intros M1 M2 Hl. unfold spring_length.
  assert (P : (0 < dist2 (end1x r (m1 t)) (end1y r (m1 t)) (end2x r (m2 t)) (end2y r (m2 t)))%R).
  { unfold spring_length in Hl. destruct (Rlt_dec 0 (dist2 (end1x r (m1 t)) (end1y r (m1 t)) (end2x r (m2 t)) (end2y r (m2 t)))) as [|N]; [assumption|].
    rewrite (sqrt_neg_0 _ (Rnot_lt_le _ _ N)) in Hl. lra. }
  eapply dlim_val; [|apply (dlim_sqrt (fun t => dist2 (end1x r (m1 t)) (end1y r (m1 t)) (end2x r (m2 t)) (end2y r (m2 t))));
    [exact P|unfold dist2; eapply dlim_eq with (g := fun t => ((end1x r (m1 t) - end2x r (m2 t)) * (end1x r (m1 t) - end2x r (m2 t)) + (end1y r (m1 t) - end2y r (m2 t)) * (end1y r (m1 t) - end2y r (m2 t)))%R); [intros; ring|]]].
  2:{ apply dlim_add; apply dlim_mul; apply dlim_sub; ((apply dlim_world_x; eassumption) || (apply dlim_world_y; eassumption)). }
  unfold Rdiv. set (L := sqrt (dist2 _ _ _ _)) in *. assert (L <> 0)%R by (apply Rgt_not_eq; apply sqrt_lt_R0; exact P).
  unfold relvx, relvy, ptvx, ptvy, end1x, end1y, end2x, end2y. field. assumption.
Qed.
Lemma spring_conservative (r : spring_pars) (Bt : R -> bodies tg) s i1 i2 m1 m2 t0 v1 v2 :
  (forall t, body_pose (Bt t i1) (m1 t)) -> (forall t, body_pose (Bt t i2) (m2 t)) -> moves m1 t0 v1 -> moves m2 t0 v2 ->
  b_index (Bt t0 i1) <> (-1)%Z -> b_index (Bt t0 i2) <> (-1)%Z ->
  body_state s (b_index (Bt t0 i1)) (m1 t0) v1 -> body_state s (b_index (Bt t0 i2)) (m2 t0) v2 ->
  (sr_kd r = 0)%R -> (1 / 100 <= spring_length r (m1 t0) (m2 t0))%R ->
  exists (E : R -> R) s' F1 F2, (forall t, spring_energy (spring_of dbg r i1 i2) (Bt t) = (Some (E t) : cl)) /\
    spring_apply (spring_of dbg r i1 i2) (Bt t0) s = Ok s' /\ two_forces s s' (b_index (Bt t0 i1)) (b_index (Bt t0 i2)) F1 F2 /\
    derivable_pt_lim E t0 (- (power v1 F1 + power v2 F2))%R.
Proof.
  intros P1 P2 M1 M2 N1 N2 B1 B2 Hk Hl. destruct (spring_effect r (Bt t0) s i1 i2 _ v1 _ v2 N1 N2 B1 B2) as (s' & E & K).
  exists (fun t => energy_of r (m1 t) (m2 t)), s'. eexists. eexists. split; [intros t; apply spring_energy_R; auto|].
  split; [exact E|]. split; [exact K|]. rewrite pair_power.
  assert (D := dlim_dist r m1 m2 t0 v1 v2 M1 M2 ltac:(lra)).
  unfold energy_of. eapply dlim_val; [|apply dlim_mul; [apply dlim_scal with (c := (1 / 2 * sr_ks r)%R); apply dlim_sub; [exact D|apply dlim_const]|apply dlim_sub; [exact D|apply dlim_const]]].
  unfold spring_fx, spring_fy. cbv zeta. set (l := spring_length r (m1 t0) (m2 t0)) in *.
  destruct (Rle_dec (1 / 100) l) as [|N]; [|contradiction]. rewrite Hk. field. lra.
Qed.
End R.

(** ** motors *)
Section Motor.
Context {tg : target}.
Lemma motor_effect (p : motor tg) (bs : bodies tg) s i0 i1 v0 a0 v1 a1 t0 t1 :
  mo_b0 p = Some i0 -> mo_b1 p = Some i1 ->
  base_spin s (b_index (bs i0)) v0 a0 -> ld s Fvtheta (b_index (bs i1)) = Ok v1 -> ld s Fatheta (b_index (bs i1)) = Ok a1 ->
  ld s Ft (b_index (bs i1)) = Ok t1 -> (b_index (bs i0) <> (-1)%Z -> ld s Ft (b_index (bs i0)) = Ok t0) ->
  exists s', motor_apply p bs s = Ok s' /\
    torque_pair s s' (b_index (bs i0)) (b_index (bs i1))
      (cfmin (mo_max p) (cfmax (copp (mo_max p)) (cadd (cmul (csub (mo_speed p) (csub v1 v0)) (mo_ks p)) (cmul (copp (csub a1 a0)) (mo_kd p))))).
Proof.
  intros E0 E1 HB HV HA HT1 HT0. unfold motor_apply. rewrite E0, E1. cbn [deref bind].
  set (z0 := b_index (bs i0)) in *. set (z1 := b_index (bs i1)) in *.
  assert (EB : (if Z.eqb z0 (-1) then Ok (cofZ 0, cofZ 0) else let* v := ld s Fvtheta z0 in let* a := ld s Fatheta z0 in Ok (v, a)) = Ok (v0, a0)).
  { destruct HB as [(-> & -> & ->)|(N & -> & ->)]; [reflexivity|]. destruct (Z.eqb_spec z0 (-1)); [contradiction|reflexivity]. }
  rewrite EB. cbn [bind]. rewrite HV. cbn [bind]. rewrite HA. cbn [bind].
  set (L := cfmin _ _).
  assert (R1 : forall z x, ld s Ft z = Ok x -> z <> (-1)%Z). { intros z x H ->. discriminate. }
  destruct (Z.eqb_spec z0 (-1)) as [Z0|Z0]; cbn [negb].
  - cbn [bind]. destruct (sto_add_cases s Ft z1 L) as [[K _]|(x1 & s1 & X1 & -> & L1 & N1 & A1 & A2 & A3 & A4)]; [congruence|].
    exists s1. split; [reflexivity|]. rewrite HT1 in X1. inversion X1; subst x1.
    repeat split; try congruence.
    + intros f z H. rewrite L1. destruct (fld_eqb f Ft) eqn:Ef; [|reflexivity]. apply fld_eqb_eq in Ef. subst f.
      destruct (Z.eqb_spec z z1); [|reflexivity]. subst. destruct H as [H|[_ H]]; contradiction.
    + intros _. exists t1. split; [exact HT1|]. rewrite L1, Z.eqb_refl. reflexivity.
    + intros EZ. exfalso. apply (R1 z1 t1 HT1). congruence.
  - specialize (HT0 Z0). rewrite HT0. cbn [bind].
    destruct (sto_spec s Ft z0 (csub t0 L) t0 HT0) as (s1 & E & L1 & N1 & A1 & A2 & A3 & A4). rewrite E. cbn [bind].
    destruct (sto_add_cases s1 Ft z1 L) as [[K _]|(x1 & s2 & X1 & -> & L2 & N2 & B1 & B2 & B3 & B4)].
    { rewrite L1 in K. destruct (fld_eqb Ft Ft && Z.eqb z1 z0); congruence. }
    exists s2. split; [reflexivity|]. repeat split; try congruence.
    + intros f z H. rewrite L2, L1. destruct (fld_eqb f Ft) eqn:Ef; [|reflexivity]. apply fld_eqb_eq in Ef. subst f.
      cbn [andb]. destruct H as [H|[H1 H2]]; [contradiction|].
      destruct (Z.eqb_spec z z1); [contradiction|]. destruct (Z.eqb_spec z z0); [contradiction|reflexivity].
    + intros N. exists t1. split; [exact HT1|]. rewrite L2, Z.eqb_refl. rewrite L1 in X1.
      destruct (Z.eqb_spec z1 z0); [congruence|]. cbn in X1. rewrite HT1 in X1. inversion X1. reflexivity.
    + intros N _. exists t0. split; [exact HT0|]. rewrite L2, L1. destruct (Z.eqb_spec z0 z1); [congruence|]. rewrite Z.eqb_refl. reflexivity.
    + intros EZ. exists t0. split; [exact HT0|]. rewrite L2. rewrite L1 in X1. rewrite EZ, Z.eqb_refl in *. cbn in X1 |- *. inversion X1. reflexivity.
Qed.
End Motor.

(** clamping in binary64 *)
Lemma f_nan x : f_isnan x = false -> SFcompare x x = Some Eq.
Proof. destruct x as [[]|[]| |[] m e]; try discriminate; try reflexivity; intros _; cbn; rewrite Z.compare_refl, ?Pos.compare_refl; cbn; rewrite ?Pos.compare_refl; reflexivity. Qed.
Lemma f_cmp x y : f_isnan x = false -> f_isnan y = false -> exists c, SFcompare x y = Some c.
Proof. destruct x as [[]|[]| |[] mx ex], y as [[]|[]| |[] my ey]; try discriminate; intros _ _; cbn; try (eexists; reflexivity); destruct (Z.compare ex ey); eexists; reflexivity. Qed.
Lemma f_opp_le mx : f_le (f_ofZ 0) mx -> f_le (SFopp mx) mx /\ f_isnan mx = false.
Proof. destruct mx as [[]|[]| |[] m e]; cbn; intros H; try discriminate; split; reflexivity. Qed.
Lemma f_clamp mx x : f_le (f_ofZ 0) mx -> let L := f_fmin mx (f_fmax (SFopp mx) x) in f_le (SFopp mx) L /\ f_le L mx.
Proof.
  intros H. destruct (f_opp_le mx H) as [HO HN]. cbv zeta.
  assert (HON : f_isnan (SFopp mx) = false) by (destruct mx; [reflexivity..|discriminate|reflexivity]).
  unfold f_fmax. rewrite HON. destruct (f_isnan x) eqn:Ex.
  - unfold f_fmin. rewrite HN, HON. destruct (SFltb (SFopp mx) mx) eqn:El.
    + split; [unfold f_le, SFleb; now rewrite (f_nan _ HON)|exact HO].
    + split; [exact HO|unfold f_le, SFleb; now rewrite (f_nan _ HN)].
  - destruct (f_cmp (SFopp mx) x HON Ex) as (c & Ec). destruct (f_cmp x mx Ex HN) as (d & Ed).
    unfold SFltb. rewrite Ec. destruct c.
    + unfold f_fmin. rewrite HN, HON. unfold SFltb. unfold f_le, SFleb in *.
      destruct (SFcompare (SFopp mx) mx) as [[]|] eqn:E; try discriminate; split; rewrite ?(f_nan _ HON), ?(f_nan _ HN), ?E; reflexivity.
    + unfold f_fmin. rewrite HN, Ex. unfold SFltb. rewrite Ed. unfold f_le, SFleb in *. destruct d.
      * split; [exact HO|]. now rewrite (f_nan _ HN).
      * split; [now rewrite Ec|now rewrite Ed].
      * split; [exact HO|]. now rewrite (f_nan _ HN).
    + unfold f_fmin. rewrite HN, HON. unfold SFltb. unfold f_le, SFleb in *.
      destruct (SFcompare (SFopp mx) mx) as [[]|] eqn:E; try discriminate; split; rewrite ?(f_nan _ HON), ?(f_nan _ HN), ?E; reflexivity.
Qed.

(** C50, binary64 *)
Lemma motor_limit dbg (p : motor (F64 dbg)) (bs : bodies (F64 dbg)) s i0 i1 (ks kd mx sp v0 a0 v1 a1 t0 t1 : f64) :
  mo_b0 p = Some i0 -> mo_b1 p = Some i1 -> mo_ks p = Some ks -> mo_kd p = Some kd -> mo_max p = Some mx -> mo_speed p = Some sp ->
  f_le (f_ofZ 0) mx ->
  base_spin s (b_index (bs i0)) (Some v0 : cell (F64 dbg)) (Some a0 : cell (F64 dbg)) ->
  ld s Fvtheta (b_index (bs i1)) = Ok (Some v1 : cell (F64 dbg)) -> ld s Fatheta (b_index (bs i1)) = Ok (Some a1 : cell (F64 dbg)) ->
  ld s Ft (b_index (bs i1)) = Ok (Some t1 : cell (F64 dbg)) ->
  (b_index (bs i0) <> (-1)%Z -> ld s Ft (b_index (bs i0)) = Ok (Some t0 : cell (F64 dbg))) ->
  exists s' (L : f64), motor_apply p bs s = Ok s' /\ torque_pair s s' (b_index (bs i0)) (b_index (bs i1)) (Some L : cell (F64 dbg)) /\
    f_le (SFopp mx) L /\ f_le L mx.
Proof.
  intros E0 E1 Ek Ed Em Es Hm HB HV HA HT1 HT0.
  destruct (motor_effect p bs s i0 i1 _ _ _ _ _ _ E0 E1 HB HV HA HT1 HT0) as (s' & E & K).
  rewrite Ek, Ed, Em, Es in K. exists s'. eexists. split; [exact E|]. split; [exact K|].
  apply (f_clamp mx _ Hm).
Qed.
(** C50, reals *)
Lemma motor_drives dbg (p : motor (RT dbg)) (bs : bodies (RT dbg)) s i0 i1 (ks kd mx sp v0 a0 v1 a1 t0 t1 : R) :
  mo_b0 p = Some i0 -> mo_b1 p = Some i1 -> mo_ks p = Some ks -> mo_kd p = Some kd -> mo_max p = Some mx -> mo_speed p = Some sp ->
  (0 <= mx)%R ->
  base_spin s (b_index (bs i0)) (Some v0 : cell (RT dbg)) (Some a0 : cell (RT dbg)) ->
  ld s Fvtheta (b_index (bs i1)) = Ok (Some v1 : cell (RT dbg)) -> ld s Fatheta (b_index (bs i1)) = Ok (Some a1 : cell (RT dbg)) ->
  ld s Ft (b_index (bs i1)) = Ok (Some t1 : cell (RT dbg)) ->
  (b_index (bs i0) <> (-1)%Z -> ld s Ft (b_index (bs i0)) = Ok (Some t0 : cell (RT dbg))) ->
  exists s' (L : R), motor_apply p bs s = Ok s' /\ torque_pair s s' (b_index (bs i0)) (b_index (bs i1)) (Some L : cell (RT dbg)) /\
    (- mx <= L <= mx)%R /\
    (let T := (ks * (sp - (v1 - v0)) - kd * (a1 - a0))%R in
     ((- mx <= T <= mx)%R -> L = T) /\ ((T <= - mx)%R -> L = (- mx)%R) /\ ((mx <= T)%R -> L = mx)) /\
    ((kd = 0 \/ a1 = a0)%R -> (0 < ks)%R -> (0 < mx)%R ->
       ((v1 - v0 < sp)%R <-> (0 < L)%R) /\ ((sp < v1 - v0)%R <-> (L < 0)%R)).
Proof.
  intros E0 E1 Ek Ed Em Es Hm HB HV HA HT1 HT0.
  destruct (motor_effect p bs s i0 i1 _ _ _ _ _ _ E0 E1 HB HV HA HT1 HT0) as (s' & E & K).
  rewrite Ek, Ed, Em, Es in K. exists s'. eexists. split; [exact E|]. split; [exact K|].
  cbn [n_add n_sub n_mul n_opp n_fmin n_fmax RT].
  set (T := ((sp - (v1 - v0)) * ks + - (a1 - a0) * kd)%R). replace (ks * (sp - (v1 - v0)) - kd * (a1 - a0))%R with T by (unfold T; ring).
  assert (C : ((- mx <= T <= mx /\ Rmin mx (Rmax (- mx) T) = T) \/ (T <= - mx /\ Rmin mx (Rmax (- mx) T) = - mx) \/ (mx <= T /\ Rmin mx (Rmax (- mx) T) = mx))%R).
  { unfold Rmin, Rmax. destruct (Rle_dec (- mx) T); destruct (Rle_dec mx _); lra. }
  split; [destruct C as [[? ->]|[[? ->]|[? ->]]]; lra|].
  split; [cbv zeta; destruct C as [[? ->]|[[? ->]|[? ->]]]; lra|].
  intros Hd Hk Hp. assert (ET : T = ((sp - (v1 - v0)) * ks)%R) by (unfold T; destruct Hd as [->| ->]; ring).
  assert (S1 : (v1 - v0 < sp <-> 0 < T)%R). { rewrite ET. split; intros; [apply Rmult_lt_0_compat; lra|nra]. }
  assert (S2 : (sp < v1 - v0 <-> T < 0)%R). { rewrite ET. split; intros; nra. }
  rewrite S1, S2. destruct C as [[? ->]|[[? ->]|[? ->]]]; lra.
Qed.

(** ** C51 *)
Section C51.
Context {tg : target}.
Lemma sto_ok (s : sstate tg) f z v : (exists s', sto s f z v = Ok s' /\
    (forall g z', ld s' g z' = if fld_eqb g f && Z.eqb z' z then Ok v else ld s g z') /\
    (forall g, length (s_arr s' g) = length (s_arr s g)) /\ s_n s' = s_n s /\ s_nc s' = s_nc s /\ s_imap s' = s_imap s /\ s_dt s' = s_dt s) \/
  (sto s f z v = UB /\ ~ (0 <= z < Z.of_nat (length (s_arr s f)))%Z).
Proof.
  destruct (aget_cases (s_arr s f) z) as [[x E]|E].
  - left. destruct (sto_spec s f z v x E) as (s' & A & B & C & D1 & D2 & D3 & D4). exists s'. auto 10.
  - right. split; [now apply sto_ub|]. intros H. destruct (aget_ex (s_arr s f) (Z.to_nat z)) as [x Ex]; [lia|]. rewrite Z2Nat.id in Ex by lia. congruence.
Qed.
(** the reset has been done up to body k *)
Definition reset_upto n k (s s' : sstate tg) : Prop :=
  (forall f z, is_force f = false \/ ~ (Z.of_nat k <= z < Z.of_nat n)%Z -> ld s' f z = ld s f z) /\
  (forall f, length (s_arr s' f) = length (s_arr s f)) /\
  s_n s' = s_n s /\ s_nc s' = s_nc s /\ s_imap s' = s_imap s /\ s_dt s' = s_dt s.

Lemma state_eq (s s' : sstate tg) : (forall f z, ld s' f z = ld s f z) -> (forall f, length (s_arr s' f) = length (s_arr s f)) ->
  s_n s' = s_n s -> s_nc s' = s_nc s -> s_imap s' = s_imap s -> s_dt s' = s_dt s -> s' = s.
Proof.
  intros H HL H1 H2 H3 H4. destruct s as [a m n nc dt], s' as [a' m' n' nc' dt']. cbn in *. subst. f_equal.
  apply functional_extensionality. intros f. apply nth_ext with (d := None) (d' := None); [apply HL|].
  intros i Hi. specialize (H f (Z.of_nat i)). unfold ld in H. rewrite !aget_nat in H. cbn in H.
  rewrite (nth_error_nth' (a' f) None Hi), (nth_error_nth' (a f) None) in H by (rewrite <- HL; exact Hi). now inversion H.
Qed.

Lemma sto_both (s s' : sstate tg) f z v (Q : fld -> Z -> Prop) :
  (forall g z', Q g z' -> ld s' g z' = ld s g z') -> (forall f, length (s_arr s' f) = length (s_arr s f)) ->
  s_n s' = s_n s -> s_nc s' = s_nc s -> s_imap s' = s_imap s -> s_dt s' = s_dt s ->
  rel (sto s f z v) (sto s' f z v) (fun t t' => (forall g z', Q g z' \/ (g = f /\ z' = z) -> ld t' g z' = ld t g z') /\
    (forall f, length (s_arr t' f) = length (s_arr t f)) /\ s_n t' = s_n t /\ s_nc t' = s_nc t /\ s_imap t' = s_imap t /\ s_dt t' = s_dt t).
Proof.
  intros H HL H1 H2 H3 H4.
  destruct (sto_ok s f z v) as [(t & -> & A & B & A1 & A2 & A3 & A4)|[-> N]];
  destruct (sto_ok s' f z v) as [(t' & -> & A' & B' & A1' & A2' & A3' & A4')|[-> N']].
  - cbn. split; [|split; [intros g; rewrite B, B'; apply HL|repeat split; congruence]].
    intros g z' HQ. rewrite A, A'. destruct (fld_eqb g f) eqn:Ef; cbn [andb].
    + destruct (Z.eqb_spec z' z); [reflexivity|]. apply H. destruct HQ as [HQ|[_ HQ]]; [exact HQ|contradiction].
    + apply H. destruct HQ as [HQ|[HQ _]]; [exact HQ|]. subst g. rewrite fld_eqb_refl in Ef. discriminate.
  - exfalso. apply N'. rewrite HL. destruct (aget_cases (s_arr s f) z) as [[x Hx]|Hx]; [exact (aget_range _ _ _ Hx)|].
    assert (K := A f z). rewrite fld_eqb_refl, Z.eqb_refl in K. cbn in K. apply aget_range in K. rewrite B in K. exact K.
  - exfalso. apply N. rewrite <- HL. assert (K := A' f z). rewrite fld_eqb_refl, Z.eqb_refl in K. cbn in K. apply aget_range in K. rewrite B' in K. exact K.
  - reflexivity.
Qed.

Lemma forces_fresh (w : world tg) (y : sys tg) (s s' : sstate tg) : same_but_forces (body_count y) s s' ->
  process_forces w y s' = process_forces w y s.
Proof.
  intros H. unfold process_forces.
  match goal with |- bind (for_ ?n ?f s') _ = _ => assert (R : rel (for_ n f s) (for_ n f s') (reset_upto n n)) end.
  { apply (for_rel _ _ (reset_upto (body_count y))); [exact H|]. intros i t t' Hi (A & B & A1 & A2 & A3 & A4).
    eapply rel_bind; [exact (sto_both t t' Ffx (Z.of_nat i) _ _ A B A1 A2 A3 A4)|]. clear. intros t t' (A & B & A1 & A2 & A3 & A4).
    eapply rel_bind; [exact (sto_both t t' Ffy (Z.of_nat i) _ _ A B A1 A2 A3 A4)|]. clear. intros t t' (A & B & A1 & A2 & A3 & A4).
    eapply rel_mono; [exact (sto_both t t' Ft (Z.of_nat i) _ _ A B A1 A2 A3 A4)|]. clear. intros t t' (A & B & A1 & A2 & A3 & A4).
    split; [|auto 6]. intros f z HQ. apply A.
    destruct HQ as [HQ|HQ]; [auto|]. destruct (Z.eq_dec z (Z.of_nat i)) as [->|N].
    - destruct f; auto 6.
    - left. left. left. right. lia. }
  unfold rel in R. destruct (for_ _ _ s) as [t| | |], (for_ _ _ s') as [t'| | |]; try contradiction; try discriminate; try congruence; try reflexivity.
  cbn [bind]. replace t' with t; [reflexivity|]. symmetry. destruct R as (A & B & A1 & A2 & A3 & A4). apply state_eq; auto.
  intros f z. apply A. right. lia.
Qed.

(** the reset sets zeros and nothing else *)
Lemma forces_reset (w : world tg) (y : sys tg) (s : sstate tg) n g : shows_st s n g -> body_count y <= n -> gen_count y = 0 ->
  exists s', process_forces w y s = Ok s' /\
    shows_st s' n (fun f i => if is_force f && Nat.ltb i (body_count y) then cofZ 0 else g f i) /\
    same_beyond s s' n /\ s_dt s' = s_dt s.
Proof.
  intros Hs Hn Hg. unfold process_forces. rewrite Hg.
  match goal with |- context [for_ ?k ?fn s] => assert (W : wp (for_ k fn s) (fun s' => keeps s n (fun f i => if is_force f && Nat.ltb i k then cofZ 0 else g f i) s')) end.
  { apply (for_inv _ (fun k s' => keeps s n (fun f i => if is_force f && Nat.ltb i k then cofZ 0 else g f i) s')).
    - eapply keeps_ext; [apply keeps_refl; exact Hs|]. intros f i _ _. cbn. now rewrite andb_false_r.
    - intros k t Hk Ht.
      destruct (sto_shows t n _ Ffx k (cofZ 0) (proj1 Ht) eq_refl ltac:(lia)) as (t1 & E1 & K1).
      rewrite E1. cbn [bind].
      destruct (sto_shows t1 n _ Ffy k (cofZ 0) (proj1 K1) eq_refl ltac:(lia)) as (t2 & E2 & K2).
      rewrite E2. cbn [bind].
      destruct (sto_shows t2 n _ Ft k (cofZ 0) (proj1 K2) eq_refl ltac:(lia)) as (t3 & E3 & K3).
      rewrite E3. cbn [wp].
      eapply keeps_ext; [eapply keeps_trans; [exact Ht|]; eapply keeps_trans; [exact K1|]; eapply keeps_trans; [exact K2|exact K3]|].
      intros f i _ _. unfold tset. destruct (Nat.eqb_spec i k).
      + subst. destruct (Nat.ltb_spec k (Datatypes.S k)); [|lia]. destruct (Nat.ltb_spec k k); [lia|]. destruct f; reflexivity.
      + destruct (Nat.ltb_spec i (Datatypes.S k)), (Nat.ltb_spec i k); try lia; destruct f; reflexivity.
    - auto. }
  apply wp_ok in W. destruct W as (t & E & W). rewrite E. exists t. split; [reflexivity|exact W].
Qed.
End C51.

(** ** C74 *)
Lemma static_effect dbg (bs : bodies (RT dbg)) s i q v (fx fy px py : R) : body_state s (b_index (bs i)) q v ->
  exists s', static_apply (@mkStatic (RT dbg) (Some fx) (Some fy) (Some px) (Some py) (Some i)) bs s = Ok s' /\
    forces_only s s' [b_index (bs i)] /\
    gains s s' (b_index (bs i)) (point_force q (world_x (q_x q) (q_th q) px py) (world_y (q_y q) (q_th q) px py) fx fy).
Proof.
  intros (P & V & a & b & c & FA & FB & FC). unfold static_apply. cbn [deref bind sf_body sf_fx sf_fy sf_px sf_py].
  destruct (apply_force_spec s (Some px : cell (RT dbg)) (Some py : cell (RT dbg)) (Some fx : cell (RT dbg)) (Some fy : cell (RT dbg)) (b_index (bs i)) _ _ _ _ _ _
     (proj1 P) (proj1 (proj2 P)) (proj2 (proj2 P)) FA FB FC) as (s1 & wx & wy & W & E & L & N1 & N2 & N3 & N4 & _).
  rewrite (s_l2w s _ q px py P) in W. inversion W; subst wx wy. exists s1. split; [exact E|]. split.
  - split; [|repeat split; congruence]. intros f z H. rewrite L. destruct (Z.eqb_spec z (b_index (bs i))); [|reflexivity].
    destruct H as [H|H]; [destruct f; try discriminate; reflexivity|]. subst. exfalso. apply H. now left.
  - exists a, b, c. split; [auto|]. rewrite !L, Z.eqb_refl. split; [reflexivity|]. split; [reflexivity|].
    rt_unfold. do 2 f_equal. unfold point_force. cbn [gf_t]. ring.
Qed.
Lemma static_outside {tg} (f : static_force tg) bs (s : sstate tg) :
  (sf_body f = None \/ exists i, sf_body f = Some i /\ b_index (bs i) = (-1)%Z) -> static_apply f bs s = UB.
Proof. unfold static_apply. intros [->|(i & -> & E)]; cbn [deref bind]; [reflexivity|]. rewrite E. reflexivity. Qed.
