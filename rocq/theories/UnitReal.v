(** * The constraints and forces of a system in other units or in a mirror. *)

From Coq Require Import Reals Lra.
From Verif Require Import Base Targets State Forces Constraints System Logic RealSum SpecMatrix SpecState SpecForces ForceFacts ForceReal SpecCon ConFacts
  SpecSys SpecDyn DynReact SpecSolve SolveReal SpecLaw SpecMom MomForce MomStep SpecLeast LeastReal LeastStep LeastPart LeastGal SpecTurn TurnReal SpecUnit.
Local Open Scope nat_scope.

(** ** both changes at once: e is 1, or -1 in a mirror *)
Definition sized (e l s : R) (u : nat -> nat -> R) (b d : nat) : R := match d with 0 => e * l * s * u b d | 1 => l * s * u b d | _ => e * s * u b d end%R.
Definition psized (e l s : R) (p : pose) : pose := mkPose (e * l * s * q_x p) (l * s * q_y p) (e * s * q_th p).
(** the limits do not matter here *)
Inductive ksized (e l t : R) : rkind -> rkind -> Prop :=
| KS1 lx ly wx wy ks kd : ksized e l t (RFixedPosition lx ly wx wy ks kd) (RFixedPosition (e * l * lx) (l * ly) (e * l * wx) (l * wy) (ks / t ^ 2) (kd / t))
| KS2 lx ly p0x p0y dx dy ks kd : ksized e l t (RLine lx ly p0x p0y dx dy ks kd) (RLine (e * l * lx) (l * ly) (e * l * p0x) (l * p0y) (e * dx) dy (ks / t ^ 2) (kd / t))
| KS3 x1 y1 x2 y2 mx mx' ks kd : ksized e l t (RLink x1 y1 x2 y2 mx ks kd) (RLink (e * l * x1) (l * y1) (e * l * x2) (l * y2) mx' (ks / t ^ 2) (kd / t))
| KS4 lx ly dx dy rad ks kd : ksized e l t (RRolling lx ly dx dy rad ks kd) (RRolling (e * l * lx) (l * ly) dx (e * dy) (l * rad) (ks / t ^ 2) (kd / t))
| KS5 rot ks kd : ksized e l t (RFixedRotation rot ks kd) (RFixedRotation (e * rot) (ks / t ^ 2) (kd / t))
| KS6 sp mx mn mx' mn' ks kd : ksized e l t (RConstantRotation sp mx mn ks kd) (RConstantRotation (e * sp / t) mx' mn' (ks / t ^ 2) (kd / t))
| KS7 mx mn mx' mn' ks kd : ksized e l t (RClutch mx mn ks kd) (RClutch mx' mn' (ks / t ^ 2) (kd / t))
| KS8 mx mn mx' mn' ks kd : ksized e l t (RFriction mx mn ks kd) (RFriction mx' mn' (ks / t ^ 2) (kd / t))
| KS9 ra n ks kd : ksized e l t (RGear ra n ks kd) (RGear ra n (ks / t ^ 2) (kd / t)).
Definition gsized (e l t m : R) (g : rgen) : rgen :=
  match g with
  | VSpring r i1 i2 => VSpring (mkSp (l * sr_rest r) (m / t ^ 2 * sr_ks r) (m / t * sr_kd r) (e * l * sr_p1x r) (l * sr_p1y r) (e * l * sr_p2x r) (l * sr_p2y r)) i1 i2
  | VGravity gr => VGravity (l / t ^ 2 * gr)
  | VStatic px py fx fy b => VStatic (e * l * px) (l * py) (e * (m * l / t ^ 2) * fx) (m * l / t ^ 2 * fy) b
  end%R.
(** the factor of each row *)
Definition factor (e l : R) (k : rkind) (j : nat) : R :=
  match k with
  | RFixedPosition _ _ _ _ _ _ | RLink _ _ _ _ _ _ _ => match j with 0 => e * l | _ => l end
  | RLine _ _ _ _ _ _ _ _ => e * l
  | RRolling _ _ _ _ _ _ _ => match j with 0 => e | _ => l end
  | _ => e
  end%R.
Definition fits (l : R) (k : rkind) : Prop := l = 1%R \/ no_rolling k.

Section Signs.
Variables (e l t : R).
Hypothesis (He : e = 1%R \/ e = (-1)%R).
Lemma e_sq : (e * e = 1)%R. Proof. destruct He as [-> | ->]; ring. Qed.
Lemma e_cos x : cos (e * x) = cos x.
Proof. destruct He as [-> | ->]; [now rewrite Rmult_1_l|]. replace (-1 * x)%R with (- x)%R by ring. apply cos_neg. Qed.
Lemma e_sin x : sin (e * x) = (e * sin x)%R.
Proof. destruct He as [-> | ->]; [now rewrite !Rmult_1_l|]. replace (-1 * x)%R with (- x)%R by ring. rewrite sin_neg. ring. Qed.
Lemma e_not0 : e <> 0%R. Proof. destruct He as [-> | ->]; lra. Qed.
Lemma rows_sized k k2 : ksized e l t k k2 -> rows k2 = rows k.
Proof. now intros []. Qed.
Lemma parties_sized k k2 : ksized e l t k k2 -> parties k2 = parties k.
Proof. now intros []. Qed.
Lemma factor_not0 k j : l <> 0%R -> factor e l k j <> 0%R.
Proof. intros Hl. pose proof e_not0 as He0. destruct k; cbn [factor]; try assumption; try (destruct j; try assumption); now apply Rmult_integral_contrapositive. Qed.

Ltac size E := unfold psized, at_x, at_y, world_x, world_y; cbn [q_x q_y q_th nth]; rewrite ?Rmult_1_r, ?e_cos, ?e_sin; ring [E].
Lemma C_sized k k2 P j : ksized e l t k k2 -> fits l k \/ j = 1 -> j < rows k -> C_of k2 (fun p => psized e l 1 (P p)) j = (factor e l k j * C_of k P j)%R.
Proof.
  pose proof e_sq as E. intros H HF Hj. destruct H; rowwise j Hj; cbn [C_of factor]; cbv zeta; try solve [size E].
  destruct HF as [[->|[]]|HF]; [|discriminate]. size E.
Qed.
Lemma J_sized s k k2 P U j : ksized e l t k k2 -> fits l k -> j < rows k ->
  stretch k (J_of k2 (fun p => psized e l 1 (P p)) j) (fun p => psized e l s (U p)) = (factor e l k j * s * stretch k (J_of k P j) U)%R.
Proof.
  pose proof e_sq as E. intros H HF Hj. destruct H; rowwise j Hj; unfold stretch; cbn [parties J_of factor]; cbv zeta; try solve [size E].
  all: destruct HF as [->|[]]; size E.
Qed.
Lemma Jd_sized s' s k k2 P V U j : ksized e l t k k2 -> fits l k -> j < rows k ->
  stretch k (Jd_of k2 (fun p => psized e l 1 (P p)) (fun p => psized e l s' (V p)) j) (fun p => psized e l s (U p)) = (factor e l k j * (s' * s) * stretch k (Jd_of k P V j) U)%R.
Proof.
  pose proof e_sq as E. intros H HF Hj. destruct H; rowwise j Hj; unfold stretch; cbn [parties Jd_of factor]; cbv zeta; try solve [size E].
  all: destruct HF as [->|[]]; size E.
Qed.
Lemma ks_sized k k2 j : ksized e l t k k2 -> ks_of k2 j = (ks_of k j / t ^ 2)%R.
Proof. intros []; try reflexivity. destruct j; cbn [ks_of]; [unfold Rdiv; ring|reflexivity]. Qed.
Lemma kd_sized k k2 j : ksized e l t k k2 -> kd_of k2 j = (kd_of k j / t)%R.
Proof. intros []; try reflexivity. destruct j; cbn [kd_of]; [unfold Rdiv; ring|reflexivity]. Qed.
Lemma bias_sized k k2 j : ksized e l t k k2 -> bias_of k2 = (factor e l k j * (bias_of k / t))%R.
Proof. intros []; cbn [bias_of factor]; unfold Rdiv; ring. Qed.

(** ** forces *)
Variable m : R.
Hypotheses (Hl : (0 < l)%R) (Ht : (0 < t)%R).
Notation fl := (m * l / t ^ 2)%R.
Notation pl := (psized e l 1).
Notation vl := (psized e l (/ t)).
Definition rsized (r : spring_pars) : spring_pars := mkSp (l * sr_rest r) (m / t ^ 2 * sr_ks r) (m / t * sr_kd r) (e * l * sr_p1x r) (l * sr_p1y r) (e * l * sr_p2x r) (l * sr_p2y r).
Ltac fsize E := unfold psized, rsized, at_x, at_y, world_x, world_y; cbn [q_x q_y q_th sr_rest sr_ks sr_kd sr_p1x sr_p1y sr_p2x sr_p2y]; rewrite ?Rmult_1_r, ?e_cos, ?e_sin; ring [E].
Lemma end_sized r q : (end1x (rsized r) (pl q) = e * l * end1x r q /\ end1y (rsized r) (pl q) = l * end1y r q /\ end2x (rsized r) (pl q) = e * l * end2x r q /\ end2y (rsized r) (pl q) = l * end2y r q)%R.
Proof. pose proof e_sq as E. unfold end1x, end1y, end2x, end2y. repeat split; fsize E. Qed.
Lemma length_sized r q1 q2 : spring_length (rsized r) (pl q1) (pl q2) = (l * spring_length r q1 q2)%R.
Proof.
  pose proof e_sq as E. destruct (end_sized r q1) as (A & B & _ & _), (end_sized r q2) as (_ & _ & C & D). unfold spring_length, dist2. rewrite A, B, C, D.
  rewrite <- (sqrt_Rsqr l) at 5 by lra. rewrite <- sqrt_mult_alt by apply Rle_0_sqr. f_equal. unfold Rsqr. ring [E].
Qed.
Lemma rel_sized r q1 v1 q2 v2 : (relvx (rsized r) (pl q1) (vl v1) (pl q2) (vl v2) = e * (l / t) * relvx r q1 v1 q2 v2 /\ relvy (rsized r) (pl q1) (vl v1) (pl q2) (vl v2) = l / t * relvy r q1 v1 q2 v2)%R.
Proof.
  pose proof e_sq as E. destruct (end_sized r q1) as (A & B & _ & _), (end_sized r q2) as (_ & _ & C & D). unfold relvx, relvy, ptvx, ptvy. rewrite A, B, C, D. unfold psized. cbn [q_x q_y q_th].
  split; unfold Rdiv; ring [E].
Qed.
Lemma spring_sized r q1 v1 q2 v2 : l = 1%R \/ ((1 / 100 <= spring_length r q1 q2)%R /\ (1 / 100 <= l * spring_length r q1 q2)%R) ->
  (spring_fx (rsized r) (pl q1) (vl v1) (pl q2) (vl v2) = e * fl * spring_fx r q1 v1 q2 v2)%R /\
  (spring_fy (rsized r) (pl q1) (vl v1) (pl q2) (vl v2) = fl * spring_fy r q1 v1 q2 v2)%R.
Proof.
  intros HL. destruct (end_sized r q1) as (A & B & _ & _), (end_sized r q2) as (_ & _ & C & D), (rel_sized r q1 v1 q2 v2) as (X & Y).
  unfold spring_fx, spring_fy. cbv zeta. rewrite length_sized, A, B, C, D, X, Y. unfold rsized. cbn [sr_rest sr_ks sr_kd].
  destruct HL as [E1|[H1 H2]].
  - rewrite E1 in *. rewrite Rmult_1_l. destruct (Rle_dec (1 / 100) (spring_length r q1 q2)); split; field; lra.
  - destruct (Rle_dec (1 / 100) (spring_length r q1 q2)) as [_|]; [|contradiction]. destruct (Rle_dec (1 / 100) (l * spring_length r q1 q2)) as [_|]; [|contradiction]. split; field; repeat split; lra.
Qed.
(** forces: torques have one more length *)
Definition fsized (f : nat -> nat -> R) (b d : nat) : R := match d with 0 => e * fl * f b d | 1 => fl * f b d | _ => e * (l * fl) * f b d end%R.
Definition gfsized (F : gforce) : gforce := mkGf (e * fl * gf_x F) (fl * gf_y F) (e * (l * fl) * gf_t F).
Lemma point_sized q x y x' y' fx fy fx' fy' : (x' = e * l * x)%R -> (y' = l * y)%R -> (fx' = e * fl * fx)%R -> (fy' = fl * fy)%R -> point_force (pl q) x' y' fx' fy' = gfsized (point_force q x y fx fy).
Proof. intros -> -> -> ->. pose proof e_sq as E. unfold point_force, gfsized, psized. cbn [gf_x gf_y gf_t q_x q_y q_th]. f_equal. unfold Rdiv. ring [E]. Qed.
Lemma on_sized b0 F b d : d < 3 -> on b0 (gfsized F) b d = fsized (on b0 F) b d.
Proof. intros Hd. unfold on, fsized. destruct d as [|[|[|d]]]; try (exfalso; lia); destruct (Nat.eqb b b0); cbn [gf_at gfsized gf_x gf_y gf_t]; ring. Qed.
Lemma pose_sized s q b : pose_of (sized e l s q) b = psized e l s (pose_of q b).
Proof. reflexivity. Qed.
Lemma force_sized M M2 q v k b d : d < 3 -> (M2 b 0%nat = m * M b 0%nat)%R ->
  (forall r i1 i2, k = VSpring r i1 i2 -> l = 1%R \/ ((1 / 100 <= spring_length r (pose_of q i1) (pose_of q i2))%R /\ (1 / 100 <= l * spring_length r (pose_of q i1) (pose_of q i2))%R)) ->
  force_of M2 (sized e l 1 q) (sized e l (/ t) v) (gsized e l t m k) b d = fsized (force_of M q v k) b d.
Proof.
  intros Hd HM HS. pose proof e_sq as E. destruct k as [r i1 i2|gr|px py fx fy b0].
  - unfold force_of at 1. cbn [gsized]. fold (rsized r). cbv zeta. rewrite !pose_sized.
    destruct (spring_sized r (pose_of q i1) (pose_of v i1) (pose_of q i2) (pose_of v i2) (HS r i1 i2 eq_refl)) as [-> ->].
    destruct (end_sized r (pose_of q i1)) as (A & B & _ & _), (end_sized r (pose_of q i2)) as (_ & _ & C & D).
    rewrite (point_sized (pose_of q i1) _ _ _ _ _ _ _ _ A B eq_refl eq_refl).
    rewrite (point_sized (pose_of q i2) _ _ _ _ (- spring_fx r (pose_of q i1) (pose_of v i1) (pose_of q i2) (pose_of v i2)) (- spring_fy r (pose_of q i1) (pose_of v i1) (pose_of q i2) (pose_of v i2)) _ _ C D) by ring.
    rewrite !on_sized by assumption. unfold fsized. destruct d as [|[|[|d]]]; try (exfalso; lia); cbn [force_of]; cbv zeta; ring.
  - cbn [gsized force_of fsized]. rewrite HM. unfold fsized. destruct d as [|[|[|d]]]; try (exfalso; lia); cbn [force_of]; unfold Rdiv; ring.
  - cbn [gsized force_of]. rewrite pose_sized.
    rewrite (point_sized (pose_of q b0) (at_x (pose_of q b0) px py) (at_y (pose_of q b0) px py) _ _ fx fy) by first [reflexivity|fsize E].
    now apply on_sized.
Qed.
Lemma Lsum_fsized {A} (L : list A) (F : A -> nat -> nat -> R) b d : Lsum L (fun g => fsized (F g) b d) = fsized (fun b d => Lsum L (fun g => F g b d)) b d.
Proof. induction L as [|g L IH]; [unfold fsized, Lsum; cbn [fold_right]; destruct d as [|[|d]]; ring|]. rewrite Lsum_cons, IH. unfold fsized. destruct d as [|[|d]]; rewrite ?Lsum_cons; ring. Qed.
End Signs.

Section S.
Context {dbg : bool}.
Notation T := (RT dbg).
Implicit Types (w : world T) (y : sys T).
Definition msized (l m : R) (M : nat -> nat -> R) (b d : nat) : R := match d with 0 | 1 => m * M b d | _ => m * (l * l) * M b d end%R.
Lemma kinetic_sized e l s m y M u : (e * e = 1)%R -> kinetic y (msized l m M) (sized e l s u) = (m * (l * l) * (s * s) * kinetic y M u)%R.
Proof.
  intros E. unfold kinetic. rewrite (Lsum_ext _ _ (fun b => (m * (l * l) * (s * s)) * (M b 0%nat * (u b 0%nat * u b 0%nat) + M b 1%nat * (u b 1%nat * u b 1%nat) + M b 2%nat * (u b 2%nat * u b 2%nat)))%R).
  - rewrite Lsum_scal. unfold Rdiv. ring.
  - intros b _. cbn [sized msized]. ring [E].
Qed.
Section Two.
Variables (e l t : R) (w1 : world T) (y1 : sys T) (w2 : world T) (y2 : sys T) (kc kc2 : nat -> rkind).
Hypotheses (HO : reordered w1 y1 w2 y2) (K1 : kinds_are w1 y1 kc) (K2 : kinds_are w2 y2 kc2) (He : e = 1%R \/ e = (-1)%R) (Hl : (0 < l)%R)
  (HT : forall c, In c (y_cons y1) -> ksized e l t (kc c) (kc2 c)) (HF : forall c, In c (y_cons y1) -> fits l (kc c)).
Lemma sized_pose s q c p : In c (y_cons y1) -> pose_at w2 (sized e l s q) c p = psized e l s (pose_at w1 q c p).
Proof. intros Hc. destruct HO as (_ & _ & _ & E). unfold pose_at, who. rewrite <- (E c Hc p). reflexivity. Qed.
Lemma stretch_sized c Jr U : In c (y_cons y1) -> stretch (kc2 c) Jr U = stretch (kc c) Jr U.
Proof. intros Hc. unfold stretch. now rewrite (parties_sized e l t _ _ (HT c Hc)). Qed.
Lemma along_sized s q u c j : In c (y_cons y1) -> j < rows (kc c) -> along w2 (Jat w2 kc2 (sized e l 1 q)) (sized e l s u) c j = (factor e l (kc c) j * s * along w1 (Jat w1 kc q) u c j)%R.
Proof.
  intros Hc Hj. rewrite (along_stretch w2 y2 kc2) by (auto; now apply HO). rewrite stretch_sized by assumption.
  rewrite (stretch_ext _ _ (J_of (kc2 c) (fun p => psized e l 1 (pose_at w1 q c p)) j) _ (fun p => psized e l s (pose_at w1 u c p))).
  - rewrite (J_sized e l t He s (kc c) (kc2 c) (pose_at w1 q c) (pose_at w1 u c) j (HT c Hc) (HF c Hc) Hj). f_equal. symmetry. now apply (along_stretch w1 y1).
  - intros i. unfold Jat. apply J_ext. intros p. now apply sized_pose.
  - intros p. now apply sized_pose.
Qed.
Lemma along_sized_d s' s q v u c j : In c (y_cons y1) -> j < rows (kc c) ->
  along w2 (fun c j i => Jd_of (kc2 c) (pose_at w2 (sized e l 1 q) c) (pose_at w2 (sized e l s' v) c) j i) (sized e l s u) c j =
  (factor e l (kc c) j * (s' * s) * along w1 (fun c j i => Jd_of (kc c) (pose_at w1 q c) (pose_at w1 v c) j i) u c j)%R.
Proof.
  intros Hc Hj. rewrite (along_stretch w2 y2 kc2) by (auto; now apply HO). rewrite stretch_sized by assumption.
  rewrite (stretch_ext _ _ (Jd_of (kc2 c) (fun p => psized e l 1 (pose_at w1 q c p)) (fun p => psized e l s' (pose_at w1 v c p)) j) _ (fun p => psized e l s (pose_at w1 u c p))).
  - rewrite (Jd_sized e l t He s' s (kc c) (kc2 c) (pose_at w1 q c) (pose_at w1 v c) (pose_at w1 u c) j (HT c Hc) (HF c Hc) Hj). f_equal. symmetry. now apply (along_stretch w1 y1).
  - intros i. apply Jd_ext; intros p; now apply sized_pose.
  - intros p. now apply sized_pose.
Qed.
Lemma sized_independent q : NoDup (y_bodies y1) -> NoDup (y_bodies y2) -> NoDup (y_cons y1) -> NoDup (y_cons y2) -> attached w1 y1 -> attached w2 y2 ->
  independent w1 y1 (Jat w1 kc q) -> independent w2 y2 (Jat w2 kc2 (sized e l 1 q)).
Proof.
  intros B1 B2 C1 C2 A1 A2 HI x Hx. set (x1 := fun c j => (factor e l (kc c) j * x c j)%R). set (J1 := Jat w1 kc q). set (J2 := Jat w2 kc2 (sized e l 1 q)).
  assert (Q : forall u, Lsum (y_bodies y1) (fun b => Rsum 3 (fun d => u b d * acts w1 y1 J1 x1 b d))%R = 0%R).
  { intros u. rewrite (acts_along w1 y1 J1 x1 u B1 A1).
    transitivity (Lsum (y_bodies y2) (fun b => Rsum 3 (fun d => sized e l 1 u b d * acts w2 y2 J2 x b d))%R).
    - rewrite (acts_along w2 y2 J2 x (sized e l 1 u) B2 A2). unfold row_list. rewrite !Lsum_flat.
      rewrite <- (Lsum_sub (y_cons y1) (y_cons y2)); auto; [|apply HO|intros c Hc N; now apply HO in Hc].
      apply Lsum_ext. intros c Hc. pose proof Hc as Hc1. apply HO in Hc1. rewrite !Lsum_map. destruct (K1 c Hc1) as (_ & -> & _), (K2 c Hc) as (_ & -> & _). rewrite (rows_sized e l t _ _ (HT c Hc1)).
      apply Lsum_ext. intros j Hj. apply in_seq in Hj. unfold J2. rewrite along_sized by (auto; lia). unfold x1. fold J1. ring.
    - rewrite (Lsum_ext _ _ (fun _ => 0%R)); [apply Lsum_zero|]. intros b Hb. cbn [Rsum]. rewrite !(Hx b) by (auto; lia). ring. }
  assert (Z : every_row w1 y1 (fun c j => x1 c j = 0%R)).
  { apply HI. intros b d Hb Hd. set (A := acts w1 y1 J1 x1) in *.
    assert (P : forall b', In b' (y_bodies y1) -> (0 <= Rsum 3 (fun d' => A b' d' * A b' d'))%R).
    { intros b' _. cbn [Rsum]. pose proof (Rle_0_sqr (A b' 0)) as S0. pose proof (Rle_0_sqr (A b' 1)) as S1. pose proof (Rle_0_sqr (A b' 2)) as S2. unfold Rsqr in *. lra. }
    pose proof (Lsum_nonneg_zero (y_bodies y1) (fun b' => Rsum 3 (fun d' => A b' d' * A b' d')%R) P (Q A) b Hb) as X. cbv beta in X.
    cbn [Rsum] in X. pose proof (Rle_0_sqr (A b 0)) as S0. pose proof (Rle_0_sqr (A b 1)) as S1. pose proof (Rle_0_sqr (A b 2)) as S2. unfold Rsqr in *.
    change (A b d = 0%R).
    destruct d as [|[|[|d]]]; try (exfalso; lia); apply Rsqr_0_uniq; unfold Rsqr; lra. }
  intros c j Hc Hj. pose proof Hc as Hc1. apply HO in Hc1. destruct (K1 c Hc1) as (_ & E1 & _), (K2 c Hc) as (_ & E2 & _). rewrite (rows_sized e l t _ _ (HT c Hc1)) in E2. rewrite E2 in Hj.
  assert (X : x1 c j = 0%R) by (apply Z; auto; now rewrite E1). unfold x1 in X. apply Rmult_integral in X. destruct X as [X|X]; [|exact X]. exfalso. revert X. apply factor_not0; auto. lra.
Qed.
End Two.
End S.
