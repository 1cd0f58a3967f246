(** * The constraints and forces of a system placed at another angle. *)

From Coq Require Import Reals Lra.
From Verif Require Import Base Targets State Forces Constraints System Logic RealSum SpecMatrix SpecState SpecForces ForceFacts ForceReal SpecCon ConFacts
  SpecSys SpecDyn DynReact SpecSolve SolveReal SpecLaw SpecMom MomForce MomStep SpecLeast LeastReal LeastStep LeastPart LeastGal SpecTurn.
Local Open Scope nat_scope.

Definition put (t ax ay : R) (p : pose) : pose := mkPose (cos t * q_x p - sin t * q_y p + ax) (sin t * q_x p + cos t * q_y p + ay) (q_th p + t).
Definition spun (t : R) (p : pose) : pose := mkPose (cos t * q_x p - sin t * q_y p) (sin t * q_x p + cos t * q_y p) (q_th p).
(** the rows of a turned constraint are mixtures of its rows *)
Definition mix (t : R) (k : rkind) (r : nat -> R) (j : nat) : R :=
  match k with
  | RFixedPosition _ _ _ _ _ _ | RLink _ _ _ _ _ _ _ => match j with 0 => cos t * r 0%nat - sin t * r 1%nat | _ => sin t * r 0%nat + cos t * r 1%nat end
  | _ => r j
  end%R.
Definition stretch (k : rkind) (Jr : nat -> R) (U : nat -> pose) : R :=
  match parties k with
  | 1 => Jr 0%nat * q_x (U 0%nat) + Jr 1%nat * q_y (U 0%nat) + Jr 2%nat * q_th (U 0%nat)
  | _ => Jr 0%nat * q_x (U 0%nat) + Jr 1%nat * q_y (U 0%nat) + Jr 2%nat * q_th (U 0%nat) + (Jr 3%nat * q_x (U 1%nat) + Jr 4%nat * q_y (U 1%nat) + Jr 5%nat * q_th (U 1%nat))
  end%R.
Lemma rows_turn t ax ay k : rows (turn_kind t ax ay k) = rows k.
Proof. now destruct k. Qed.
Lemma parties_turn t ax ay k : parties (turn_kind t ax ay k) = parties k.
Proof. now destruct k. Qed.

Lemma cs1 t : (sin t * sin t = 1 - cos t * cos t)%R.
Proof. pose proof (sin2_cos2 t) as H. unfold Rsqr in H. lra. Qed.
Ltac spin t E := unfold put, spun, at_x, at_y, world_x, world_y; cbn [q_x q_y q_th nth]; rewrite ?cos_plus, ?sin_plus; ring [E].
Ltac rowwise j Hj := cbn [rows] in Hj; destruct j as [|[|j]]; try (exfalso; lia).
Lemma C_turn t ax ay k P j : no_rolling k \/ j = 1 -> j < rows k -> C_of (turn_kind t ax ay k) (fun p => put t ax ay (P p)) j = mix t k (C_of k P) j.
Proof. intros HN Hj. pose proof (cs1 t) as E. destruct k; rowwise j Hj; try (now destruct HN as [[]|HN]); cbn [turn_kind C_of mix]; cbv zeta; spin t E. Qed.
Lemma J_turn t ax ay k P U j : j < rows k ->
  stretch k (J_of (turn_kind t ax ay k) (fun p => put t ax ay (P p)) j) (fun p => spun t (U p)) = mix t k (fun j => stretch k (J_of k P j) U) j.
Proof. intros Hj. pose proof (cs1 t) as E. destruct k; rowwise j Hj; unfold stretch; cbn [parties turn_kind J_of mix]; cbv zeta; spin t E. Qed.
Lemma Jd_turn t ax ay k P V U j : j < rows k ->
  stretch k (Jd_of (turn_kind t ax ay k) (fun p => put t ax ay (P p)) (fun p => spun t (V p)) j) (fun p => spun t (U p)) = mix t k (fun j => stretch k (Jd_of k P V j) U) j.
Proof. intros Hj. pose proof (cs1 t) as E. destruct k; rowwise j Hj; unfold stretch; cbn [parties turn_kind Jd_of mix]; cbv zeta; spin t E. Qed.
Lemma mix_ext t k r r' j : j < rows k -> (forall i, i < rows k -> r i = r' i) -> mix t k r j = mix t k r' j.
Proof. intros Hj H. destruct k; cbn [mix rows] in *; try (apply H; lia); rewrite !H by lia; reflexivity. Qed.
Lemma mix_back t k r j : j < rows k -> mix (- t) k (mix t k r) j = r j.
Proof. intros Hj. pose proof (cs1 t) as E. destruct k; rowwise j Hj; cbn [mix]; rewrite ?cos_neg, ?sin_neg; ring [E]. Qed.
Lemma mix_lin t k a r b r' j : mix t k (fun i => a * r i + b * r' i)%R j = (a * mix t k r j + b * mix t k r' j)%R.
Proof. destruct k; cbn [mix]; try reflexivity; destruct j; ring. Qed.
Lemma mix_gain t k (g : nat -> R) r j : (forall i i', g i = g i') -> mix t k (fun i => g i * r i)%R j = (g j * mix t k r j)%R.
Proof. intros H. destruct k; cbn [mix]; try reflexivity; rewrite (H 0 j), (H 1 j); destruct j; ring. Qed.
Lemma mix_adjoint t k x r : Lsum (seq 0 (rows k)) (fun j => x j * mix t k r j)%R = Lsum (seq 0 (rows k)) (fun j => mix (- t) k x j * r j)%R.
Proof. destruct k; cbn [rows seq]; unfold Lsum; cbn [map fold_right Lsum mix]; rewrite ?cos_neg, ?sin_neg; ring. Qed.
Lemma turned_back t u b d : d < 3 -> turned t (turned (- t) u) b d = u b d.
Proof. intros Hd. pose proof (cs1 t) as E. destruct d as [|[|[|d]]]; try (exfalso; lia); cbn [turned]; rewrite ?cos_neg, ?sin_neg; ring [E]. Qed.
Lemma turned_lin t a u b u' i d : turned t (fun i d => a * u i d + b * u' i d)%R i d = (a * turned t u i d + b * turned t u' i d)%R.
Proof. destruct d as [|[|d]]; cbn [turned]; ring. Qed.

(** ** forces *)
Lemma spring_turn t ax ay r q1 v1 q2 v2 :
  (spring_fx r (put t ax ay q1) (spun t v1) (put t ax ay q2) (spun t v2) = cos t * spring_fx r q1 v1 q2 v2 - sin t * spring_fy r q1 v1 q2 v2)%R /\
  (spring_fy r (put t ax ay q1) (spun t v1) (put t ax ay q2) (spun t v2) = sin t * spring_fx r q1 v1 q2 v2 + cos t * spring_fy r q1 v1 q2 v2)%R.
Proof.
  pose proof (cs1 t) as E.
  assert (EX : (end2x r (put t ax ay q2) - end1x r (put t ax ay q1) = cos t * (end2x r q2 - end1x r q1) - sin t * (end2y r q2 - end1y r q1))%R) by (unfold end1x, end2x, end1y, end2y; spin t E).
  assert (EY : (end2y r (put t ax ay q2) - end1y r (put t ax ay q1) = sin t * (end2x r q2 - end1x r q1) + cos t * (end2y r q2 - end1y r q1))%R) by (unfold end1x, end2x, end1y, end2y; spin t E).
  assert (EL : spring_length r (put t ax ay q1) (put t ax ay q2) = spring_length r q1 q2).
  { unfold spring_length, dist2. f_equal.
    replace (end1x r (put t ax ay q1) - end2x r (put t ax ay q2))%R with (- (cos t * (end2x r q2 - end1x r q1) - sin t * (end2y r q2 - end1y r q1)))%R by (rewrite <- EX; ring).
    replace (end1y r (put t ax ay q1) - end2y r (put t ax ay q2))%R with (- (sin t * (end2x r q2 - end1x r q1) + cos t * (end2y r q2 - end1y r q1)))%R by (rewrite <- EY; ring). ring [E]. }
  assert (RX : (relvx r (put t ax ay q1) (spun t v1) (put t ax ay q2) (spun t v2) = cos t * relvx r q1 v1 q2 v2 - sin t * relvy r q1 v1 q2 v2)%R).
  { unfold relvx, relvy, ptvx, ptvy, end1x, end2x, end1y, end2y. spin t E. }
  assert (RY : (relvy r (put t ax ay q1) (spun t v1) (put t ax ay q2) (spun t v2) = sin t * relvx r q1 v1 q2 v2 + cos t * relvy r q1 v1 q2 v2)%R).
  { unfold relvx, relvy, ptvx, ptvy, end1x, end2x, end1y, end2y. spin t E. }
  unfold spring_fx, spring_fy. cbv zeta. rewrite EL, EX, EY, RX, RY. destruct (Rle_dec (1 / 100) (spring_length r q1 q2)) as [Hl|Hl].
  - split; field; lra.
  - split; ring.
Qed.
Definition gturn (t : R) (F : gforce) : gforce := mkGf (cos t * gf_x F - sin t * gf_y F) (sin t * gf_x F + cos t * gf_y F) (gf_t F).
Lemma point_turn t ax ay q x y x' y' fx fy fx' fy' : (x' = cos t * x - sin t * y + ax)%R -> (y' = sin t * x + cos t * y + ay)%R ->
  (fx' = cos t * fx - sin t * fy)%R -> (fy' = sin t * fx + cos t * fy)%R -> point_force (put t ax ay q) x' y' fx' fy' = gturn t (point_force q x y fx fy).
Proof. intros -> -> -> ->. pose proof (cs1 t) as E. unfold point_force, gturn. cbn [gf_x gf_y gf_t]. f_equal. spin t E. Qed.
Lemma on_turn t b0 F b d : d < 3 -> on b0 (gturn t F) b d = turned t (on b0 F) b d.
Proof. intros Hd. unfold on, turned. destruct d as [|[|[|d]]]; try (exfalso; lia); destruct (Nat.eqb b b0); cbn [gf_at gturn gf_x gf_y gf_t]; ring. Qed.
Lemma pose_put t ax ay q b : pose_of (placed t ax ay q) b = put t ax ay (pose_of q b).
Proof. reflexivity. Qed.
Lemma pose_spun t v b : pose_of (turned t v) b = spun t (pose_of v b).
Proof. reflexivity. Qed.
Lemma force_turn t ax ay M q v k b d : weightless k -> d < 3 ->
  force_of M (placed t ax ay q) (turned t v) (turn_gen t k) b d = turned t (force_of M q v k) b d.
Proof.
  intros HW Hd. pose proof (cs1 t) as E. destruct k as [r i1 i2|gr|px py fx fy b0]; cbn [weightless] in HW; try contradiction.
  - unfold force_of at 1. cbn [turn_gen]. cbv zeta. rewrite !pose_put, !pose_spun.
    destruct (spring_turn t ax ay r (pose_of q i1) (pose_of v i1) (pose_of q i2) (pose_of v i2)) as [-> ->].
    rewrite (point_turn t ax ay (pose_of q i1) (end1x r (pose_of q i1)) (end1y r (pose_of q i1)) _ _ (spring_fx r (pose_of q i1) (pose_of v i1) (pose_of q i2) (pose_of v i2)) (spring_fy r (pose_of q i1) (pose_of v i1) (pose_of q i2) (pose_of v i2)))
      by first [reflexivity|unfold end1x, end1y; spin t E].
    rewrite (point_turn t ax ay (pose_of q i2) (end2x r (pose_of q i2)) (end2y r (pose_of q i2)) _ _ (- spring_fx r (pose_of q i1) (pose_of v i1) (pose_of q i2) (pose_of v i2)) (- spring_fy r (pose_of q i1) (pose_of v i1) (pose_of q i2) (pose_of v i2)))
      by first [ring|unfold end2x, end2y; spin t E].
    rewrite !on_turn by assumption. destruct d as [|[|[|d]]]; try (exfalso; lia); cbn [turned force_of]; cbv zeta; ring.
  - cbn [turn_gen force_of]. rewrite pose_put.
    rewrite (point_turn t ax ay (pose_of q b0) (at_x (pose_of q b0) px py) (at_y (pose_of q b0) px py) _ _ fx fy) by first [reflexivity|spin t E].
    now apply on_turn.
Qed.
Lemma Lsum_turned {A} t (l : list A) (F : A -> nat -> nat -> R) b d : Lsum l (fun g => turned t (F g) b d) = turned t (fun b d => Lsum l (fun g => F g b d)) b d.
Proof.
  induction l as [|g l IH]; [destruct d as [|[|d]]; unfold Lsum; cbn [turned map fold_right]; ring|]. rewrite Lsum_cons, IH. destruct d as [|[|d]]; cbn [turned]; rewrite ?Lsum_cons; ring.
Qed.

Section S.
Context {dbg : bool}.
Notation T := (RT dbg).
Implicit Types (w : world T) (y : sys T).
Lemma kinetic_turned t y (M : nat -> nat -> R) u : (forall b, In b (y_bodies y) -> M b 0 = M b 1) -> kinetic y M (turned t u) = kinetic y M u.
Proof.
  intros HM. pose proof (cs1 t) as E. unfold kinetic. f_equal. apply Lsum_ext. intros b Hb. rewrite <- (HM b Hb). cbn [turned]. ring [E].
Qed.
Lemma masses_level w y q v M b : bodies_are w y q v M -> In b (y_bodies y) -> M b 0 = M b 1.
Proof.
  intros H Hb. destruct (H b 0 Hb ltac:(lia)) as (_ & _ & E0 & _), (H b 1 Hb ltac:(lia)) as (_ & _ & E1 & _). unfold b_mass in E0, E1. rewrite E0 in E1. now injection E1.
Qed.
Lemma kinetic_same y1 y2 M u : NoDup (y_bodies y1) -> NoDup (y_bodies y2) -> (forall b, In b (y_bodies y1) <-> In b (y_bodies y2)) -> kinetic y1 M u = kinetic y2 M u.
Proof. intros N1 N2 H. unfold kinetic. f_equal. symmetry. apply Lsum_sub; auto; [apply H|]. intros b Hb N. now apply H in Hb. Qed.
Lemma along_stretch w y kc J u c j : kinds_are w y kc -> In c (y_cons y) -> along w J u c j = stretch (kc c) (J c j) (fun p => pose_at w u c p).
Proof.
  intros HK Hc. destruct (HK c Hc) as (_ & _ & Ep). unfold along, stretch. rewrite Ep. destruct (kc c); cbn [parties Rsum Nat.mul Nat.add pose_at q_x q_y q_th]; ring.
Qed.
Section Two.
Variables (t ax ay : R) (w1 : world T) (y1 : sys T) (w2 : world T) (y2 : sys T) (kc kc2 : nat -> rkind).
Hypotheses (HO : reordered w1 y1 w2 y2) (K1 : kinds_are w1 y1 kc) (K2 : kinds_are w2 y2 kc2) (HT : forall c, kc2 c = turn_kind t ax ay (kc c)).
Lemma place_pose q c p : In c (y_cons y1) -> pose_at w2 (placed t ax ay q) c p = put t ax ay (pose_at w1 q c p).
Proof. intros Hc. destruct HO as (_ & _ & _ & E). unfold pose_at, who. rewrite <- (E c Hc p). reflexivity. Qed.
Lemma turn_pose v c p : In c (y_cons y1) -> pose_at w2 (turned t v) c p = spun t (pose_at w1 v c p).
Proof. intros Hc. destruct HO as (_ & _ & _ & E). unfold pose_at, who. rewrite <- (E c Hc p). reflexivity. Qed.
Lemma stretch_ext k Jr Jr' U U' : (forall i, Jr i = Jr' i) -> (forall p, U p = U' p) -> stretch k Jr U = stretch k Jr' U'.
Proof. intros H H'. unfold stretch. destruct (parties k) as [|[|]]; rewrite !H, !H'; reflexivity. Qed.
Lemma stretch_turn k Jr U : stretch (turn_kind t ax ay k) Jr U = stretch k Jr U.
Proof. unfold stretch. now rewrite parties_turn. Qed.
Lemma along_turn q u c j : In c (y_cons y1) -> j < rows (kc c) -> along w2 (Jat w2 kc2 (placed t ax ay q)) (turned t u) c j = mix t (kc c) (along w1 (Jat w1 kc q) u c) j.
Proof.
  intros Hc Hj. rewrite (along_stretch w2 y2 kc2) by (auto; now apply HO). rewrite HT, stretch_turn.
  rewrite (stretch_ext _ _ (J_of (turn_kind t ax ay (kc c)) (fun p => put t ax ay (pose_at w1 q c p)) j) _ (fun p => spun t (pose_at w1 u c p))).
  - rewrite (J_turn t ax ay (kc c) (pose_at w1 q c) (pose_at w1 u c) j Hj). apply mix_ext; auto. intros i _. symmetry. now apply (along_stretch w1 y1).
  - intros i. unfold Jat. rewrite HT. apply J_ext. intros p. now apply place_pose.
  - intros p. now apply turn_pose.
Qed.
Lemma along_turn_d q v u c j : In c (y_cons y1) -> j < rows (kc c) ->
  along w2 (fun c j i => Jd_of (kc2 c) (pose_at w2 (placed t ax ay q) c) (pose_at w2 (turned t v) c) j i) (turned t u) c j =
  mix t (kc c) (along w1 (fun c j i => Jd_of (kc c) (pose_at w1 q c) (pose_at w1 v c) j i) u c) j.
Proof.
  intros Hc Hj. rewrite (along_stretch w2 y2 kc2) by (auto; now apply HO). rewrite HT, stretch_turn.
  rewrite (stretch_ext _ _ (Jd_of (turn_kind t ax ay (kc c)) (fun p => put t ax ay (pose_at w1 q c p)) (fun p => spun t (pose_at w1 v c p)) j) _ (fun p => spun t (pose_at w1 u c p))).
  - rewrite (Jd_turn t ax ay (kc c) (pose_at w1 q c) (pose_at w1 v c) (pose_at w1 u c) j Hj). apply mix_ext; auto. intros i _. symmetry. now apply (along_stretch w1 y1).
  - intros i. apply Jd_ext; intros p; [now apply place_pose|now apply turn_pose].
  - intros p. now apply turn_pose.
Qed.
(** independent rows stay independent *)
Lemma turn_independent q : NoDup (y_bodies y1) -> NoDup (y_bodies y2) -> NoDup (y_cons y1) -> NoDup (y_cons y2) -> attached w1 y1 -> attached w2 y2 ->
  independent w1 y1 (Jat w1 kc q) -> independent w2 y2 (Jat w2 kc2 (placed t ax ay q)).
Proof.
  intros B1 B2 C1 C2 A1 A2 HI x Hx. set (x1 := fun c => mix (- t) (kc c) (x c)). set (J1 := Jat w1 kc q). set (J2 := Jat w2 kc2 (placed t ax ay q)).
  assert (Q : forall u, Lsum (y_bodies y1) (fun b => Rsum 3 (fun d => u b d * acts w1 y1 J1 x1 b d))%R = 0%R).
  { intros u. rewrite (acts_along w1 y1 J1 x1 u B1 A1).
    transitivity (Lsum (y_bodies y2) (fun b => Rsum 3 (fun d => turned t u b d * acts w2 y2 J2 x b d))%R).
    - rewrite (acts_along w2 y2 J2 x (turned t u) B2 A2). unfold row_list. rewrite !Lsum_flat.
      rewrite <- (Lsum_sub (y_cons y1) (y_cons y2)); auto; [|apply HO|intros c Hc N; now apply HO in Hc].
      apply Lsum_ext. intros c Hc. pose proof Hc as Hc1. apply HO in Hc1. rewrite !Lsum_map. destruct (K1 c Hc1) as (_ & -> & _), (K2 c Hc) as (_ & -> & _). rewrite HT, rows_turn.
      unfold x1. rewrite <- (mix_adjoint t (kc c) (x c) (along w1 J1 u c)). apply Lsum_ext. intros j Hj. apply in_seq in Hj. f_equal. symmetry. apply along_turn; auto; lia.
    - rewrite (Lsum_ext _ _ (fun _ => 0%R)); [apply Lsum_zero|]. intros b Hb. cbn [Rsum]. rewrite !(Hx b) by (auto; lia). ring. }
  assert (Z : every_row w1 y1 (fun c j => x1 c j = 0%R)).
  { apply HI. intros b d Hb Hd. set (A := acts w1 y1 J1 x1) in *.
    assert (P : forall b', In b' (y_bodies y1) -> (0 <= Rsum 3 (fun d' => A b' d' * A b' d'))%R).
    { intros b' _. cbn [Rsum]. pose proof (Rle_0_sqr (A b' 0)) as S0. pose proof (Rle_0_sqr (A b' 1)) as S1. pose proof (Rle_0_sqr (A b' 2)) as S2. unfold Rsqr in *. lra. }
    pose proof (Lsum_nonneg_zero (y_bodies y1) (fun b' => Rsum 3 (fun d' => A b' d' * A b' d')%R) P (Q A) b Hb) as X. cbv beta in X.
    cbn [Rsum] in X. pose proof (Rle_0_sqr (A b 0)) as S0. pose proof (Rle_0_sqr (A b 1)) as S1. pose proof (Rle_0_sqr (A b 2)) as S2. unfold Rsqr in *.
    change (A b d = 0%R).
    destruct d as [|[|[|d]]]; try (exfalso; lia); apply Rsqr_0_uniq; unfold Rsqr; lra. }
  intros c j Hc Hj. pose proof Hc as Hc1. apply HO in Hc1. destruct (K1 c Hc1) as (_ & E1 & _), (K2 c Hc) as (_ & E2 & _). rewrite HT, rows_turn in E2. rewrite E2 in Hj.
  rewrite <- (mix_back (- t) (kc c) (x c) j Hj). rewrite (mix_ext _ _ _ (fun _ => 0%R)); auto.
  - destruct (kc c); cbn [mix]; try reflexivity; destruct j; ring.
  - intros i Hi. apply Z; auto. now rewrite E1.
Qed.
End Two.
End S.
