(** * Two bodies at the ends of a spring, call by call. *)

From Coq Require Import Reals Lra.
From Verif Require Import Base Targets State Ode Forces Constraints System Logic SpecState StateFacts StateReal SpecForces ForceFacts ForceReal SpecSys RegFacts SysFrame SysInv
  SpecDyn DynState DynReact DynRound DynStep DynForce RealSum SpecSolve SolveReal SolveStep SpecMom MomForce SpecSub LeastPart SpecRk RkStep RkReal SpecFlight FlightReal SpecSwing SwingStep SpecMotor MotorReal SpecRun RunStep SpecSpring.
Local Open Scope nat_scope.

Section S.
Context {dbg : bool}.
Notation T := (RT dbg).
Notation cl := (cell T).
Implicit Types (w : world T) (y : sys T).
Variable priv : nat -> bool.

(** generators whose effect is known as long as P holds of the forces so far *)
Lemma pushes_when w y K h (P : (nat -> nat -> cl) -> Prop) (E : nat -> (nat -> nat -> cl) -> nat -> nat -> cl) : all_gentle w y -> P (fun _ _ => cofZ 0) ->
  (forall g, In g (y_gens y) -> forall f, P f -> P (E g f) /\ forall s : sstate T, presents w y K h s -> forced w y f s -> wp (gen_apply (g_kind (w_gen w g)) (w_body w) s) (fun s' => forced w y (E g f) s')) ->
  pushes w y K h (fold_left (fun f g => E g f) (y_gens y) (fun _ _ => cofZ 0)).
Proof.
  intros HG H0 HE s HP. unfold process_forces.
  assert (G : wp (let* s := for_ (body_count y) (fun i s =>
    let* s := sto s Ffx (Z.of_nat i) (cofZ 0) in
    let* s := sto s Ffy (Z.of_nat i) (cofZ 0) in
    sto s Ft (Z.of_nat i) (cofZ 0)) s in
   for_ (gen_count y) (fun i s =>
    let* g := lift_opt (nth_error (y_gens y) i) in
    gen_apply (g_kind (w_gen w g)) (w_body w) s) s) (fun s' => forced w y (fold_left (fun f g => E g f) (y_gens y) (fun _ _ => cofZ 0)) s')).
  2:{ apply wp_ok in G. exact G. }
  eapply wp_seq; [apply (reset_forced w y K h s HP)|]. intros s1 [A1 F1].
  apply (for_inv _ (fun i s' => presents w y K h s' /\ P (fold_left (fun f g => E g f) (firstn i (y_gens y)) (fun _ _ => cofZ 0)) /\ forced w y (fold_left (fun f g => E g f) (firstn i (y_gens y)) (fun _ _ => cofZ 0)) s')).
  - split; [eapply presents_forces; eauto|]. split; [exact H0|exact F1].
  - intros i t Hi (Pt & PP & Ft). destruct (nth_error_ex (y_gens y) i Hi) as [g Eg]. rewrite Eg. cbn [lift_opt bind].
    pose proof (nth_error_In _ _ Eg) as Ig. destruct (HE g Ig _ PP) as [PE HE']. specialize (HE' t Pt Ft). apply wp_ok in HE'. destruct HE' as (t' & E' & F').
    eapply wp_eq; [exact E'|]. rewrite (firstn_snoc _ _ _ Eg), fold_left_app. split; [|split; [exact PE|exact F']].
    eapply presents_forces; [|exact Pt]. apply (pc_elim _ _ _ E'), gen_apply_alters, HG, Ig.
  - intros t (_ & _ & Ft). unfold gen_count in Ft. now rewrite firstn_all in Ft.
Qed.

(** the motion K has body b at x with velocity v *)
Definition has (K : kin T) (b : nat) (x v : nat -> R) : Prop := forall d, d < 3 -> k_q K b d = (Some (x d) : cl) /\ k_v K b d = (Some (v d) : cl).
Definition pose3 (x : nat -> R) : pose := mkPose (x 0) (x 1) (x 2).
(** the forces G1 on b1 and G2 on b2 *)
Definition add_two (b1 b2 : nat) (G1 G2 : nat -> R) (f : nat -> nat -> cl) (b d : nat) : cl :=
  if Nat.eqb b b1 then cadd (f b d) (Some (G1 d) : cl) else if Nat.eqb b b2 then cadd (f b d) (Some (G2 d) : cl) else f b d.
Definition two_real (b1 b2 : nat) (f : nat -> nat -> cl) : Prop := forall d, d < 3 -> (exists a : R, f b1 d = (Some a : cl)) /\ exists a : R, f b2 d = (Some a : cl).

Lemma spring_two w y K h b1 b2 sp x1 v1 x2 v2 f (s : sstate T) : listed w y -> In b1 (y_bodies y) -> In b2 (y_bodies y) -> b1 <> b2 -> has K b1 x1 v1 -> has K b2 x2 v2 -> two_real b1 b2 f ->
  presents w y K h s -> forced w y f s ->
  let q1 := pose3 x1 in let q2 := pose3 x2 in let u1 := pose3 v1 in let u2 := pose3 v2 in
  wp (gen_apply (GSpring (spring_of dbg sp b1 b2)) (w_body w) s) (fun s' => forced w y (add_two b1 b2
    (gf_at (point_force q1 (end1x sp q1) (end1y sp q1) (spring_fx sp q1 u1 q2 u2) (spring_fy sp q1 u1 q2 u2)))
    (gf_at (point_force q2 (end2x sp q2) (end2y sp q2) (- spring_fx sp q1 u1 q2 u2) (- spring_fy sp q1 u1 q2 u2))) f) s').
Proof.
  intros HL H1 H2 N K1 K2 HR HP HF q1 q2 u1 u2. apply In_nth_error in H1, H2. destruct H1 as [n1 E1], H2 as [n2 E2]. cbn [gen_apply].
  pose proof (proj1 HL _ _ E1) as I1. pose proof (proj1 HL _ _ E2) as I2. pose proof HP as (_ & _ & _ & _ & HD).
  assert (BS : forall n b x v, nth_error (y_bodies y) n = Some b -> has K b x v -> (forall d, d < 3 -> exists a : R, f b d = (Some a : cl)) -> body_state s (Z.of_nat n) (pose3 x) (pose3 v)).
  { intros n b x v En HK Hf. destruct (HD n b En) as (_ & D). unfold body_state, state_pose, state_velocity. cbn [pose3 q_x q_y q_th].
    destruct (D 0 ltac:(lia)) as (X & U & _), (D 1 ltac:(lia)) as (Y & V & _), (D 2 ltac:(lia)) as (TH & W & _). cbn [posf velf] in *.
    destruct (HK 0 ltac:(lia)) as [A0 B0], (HK 1 ltac:(lia)) as [A1 B1], (HK 2 ltac:(lia)) as [A2 B2]. rewrite X, Y, TH, U, V, W, A0, A1, A2, B0, B1, B2.
    split; [repeat split|]. split; [repeat split|]. destruct (Hf 0 ltac:(lia)) as [a0 F0], (Hf 1 ltac:(lia)) as [a1 F1], (Hf 2 ltac:(lia)) as [a2 F2].
    exists a0, a1, a2. split; [rewrite <- F0; exact (HF n b 0 En ltac:(lia))|]. split; [rewrite <- F1; exact (HF n b 1 En ltac:(lia))|rewrite <- F2; exact (HF n b 2 En ltac:(lia))]. }
  destruct (spring_effect sp (w_body w) s b1 b2 q1 u1 q2 u2) as (s' & E & (FO & TD & _)).
  { rewrite I1. lia. } { rewrite I2. lia. }
  { rewrite I1. apply (BS n1 b1); auto. intros d Hd. now apply HR. }
  { rewrite I2. apply (BS n2 b2); auto. intros d Hd. now apply HR. }
  rewrite I1, I2 in *. set (F1 := point_force q1 _ _ _ _) in *. set (F2 := point_force q2 _ _ _ _) in *.
  assert (Nn : Z.of_nat n1 <> Z.of_nat n2) by (intros X; apply Nat2Z.inj in X; congruence). destruct (TD Nn) as [G1 G2].
  eapply wp_eq; [exact E|]. intros i b d Eb Hd. unfold add_two.
  assert (GA : forall n b F, nth_error (y_bodies y) n = Some b -> gains s s' (Z.of_nat n) F -> (forall d, d < 3 -> exists a : R, f b d = (Some a : cl)) -> ld s' (frcf d) (Z.of_nat n) = Ok (cadd (f b d) (Some (gf_at F d) : cl))).
  { intros n b' F En G Hf. destruct (Hf 0 ltac:(lia)) as [a0 A0], (Hf 1 ltac:(lia)) as [a1 A1], (Hf 2 ltac:(lia)) as [a2 A2].
    rewrite (gains_at s s' n F (fun d => match d with 0 => a0 | 1 => a1 | _ => a2 end) G); [|intros d' Hd'; destruct d' as [|[|[|]]]; try lia; rewrite <- ?A0, <- ?A1, <- ?A2; exact (HF n b' _ En Hd')|exact Hd].
    destruct d as [|[|[|]]]; try lia; rewrite ?A0, ?A1, ?A2; reflexivity. }
  destruct (Nat.eqb_spec b b1) as [->|M1]; [|destruct (Nat.eqb_spec b b2) as [->|M2]].
  - assert (n1 = i) by (eapply listed_inj; eauto). subst i. apply (GA n1 b1); auto. intros d' Hd'. now apply HR.
  - assert (n2 = i) by (eapply listed_inj; eauto). subst i. apply (GA n2 b2); auto. intros d' Hd'. now apply HR.
  - rewrite (proj1 FO); [now apply HF|]. right. cbn. intros [X|[X|[]]]; apply Nat2Z.inj in X; congruence.
Qed.

(** the force of the spring on b1 *)
Definition tug (L ks kd : R) (x : (R * R) * (R * R)) : R * R :=
  let c := if Rle_dec (1 / 100) (apart x) then (ks * (1 - L / apart x))%R else 0%R in
  (c * fst (fst x) + kd * fst (snd x), c * snd (fst x) + kd * snd (snd x))%R.
Lemma spring_tug L ks kd x1 v1 x2 v2 : let sp := mkSp L ks kd 0 0 0 0 in let q1 := pose3 x1 in let q2 := pose3 x2 in let u1 := pose3 v1 in let u2 := pose3 v2 in let t := tug L ks kd (seen_from x1 x2 v1 v2) in
  (forall d, d < 3 -> gf_at (point_force q1 (end1x sp q1) (end1y sp q1) (spring_fx sp q1 u1 q2 u2) (spring_fy sp q1 u1 q2 u2)) d = match d with 0 => fst t | 1 => snd t | _ => 0%R end) /\
  forall d, d < 3 -> gf_at (point_force q2 (end2x sp q2) (end2y sp q2) (- spring_fx sp q1 u1 q2 u2) (- spring_fy sp q1 u1 q2 u2)) d = (match d with 0%nat => - fst t | 1%nat => - snd t | _ => 0 end)%R.
Proof.
  intros sp q1 q2 u1 u2 t.
  assert (X1 : end1x sp q1 = x1 0) by (unfold end1x, world_x; cbn; ring). assert (Y1 : end1y sp q1 = x1 1) by (unfold end1y, world_y; cbn; ring).
  assert (X2 : end2x sp q2 = x2 0) by (unfold end2x, world_x; cbn; ring). assert (Y2 : end2y sp q2 = x2 1) by (unfold end2y, world_y; cbn; ring).
  assert (RX : relvx sp q1 u1 q2 u2 = (v2 0%nat - v1 0%nat)%R) by (unfold relvx, ptvx; rewrite Y1, Y2; cbn; ring).
  assert (RY : relvy sp q1 u1 q2 u2 = (v2 1%nat - v1 1%nat)%R) by (unfold relvy, ptvy; rewrite X1, X2; cbn; ring).
  assert (EL : spring_length sp q1 q2 = apart (seen_from x1 x2 v1 v2)) by (unfold spring_length, apart, dist2; rewrite X1, Y1, X2, Y2; cbn [seen_from fst snd]; f_equal; ring).
  assert (FX : spring_fx sp q1 u1 q2 u2 = fst t /\ spring_fy sp q1 u1 q2 u2 = snd t).
  { unfold spring_fx, spring_fy, t, tug. rewrite EL, RX, RY, X1, Y1, X2, Y2. cbv zeta. set (l := apart _). cbn [seen_from fst snd sr_ks sr_kd sr_rest sp]. destruct (Rle_dec (1 / 100) l) as [Hl|Hl]; [|split; ring].
    assert (l <> 0)%R by lra. split; field; assumption. }
  destruct FX as [-> ->]. unfold point_force. split; intros d Hd; destruct d as [|[|[|]]]; try lia; cbn [gf_at gf_x gf_y gf_t]; rewrite ?X1, ?Y1, ?X2, ?Y2; cbn; ring.
Qed.

Lemma spring_pushes w y K h g b1 b2 L ks kd gr x1 v1 x2 v2 (m1 m2 : R) : listed w y -> NoDup (y_gens y) -> In b1 (y_bodies y) -> In b2 (y_bodies y) -> b1 <> b2 ->
  spring_on w y g b1 b2 L ks kd gr -> has K b1 x1 v1 -> has K b2 x2 v2 -> b_f (w_body w b1) Bm = (Some m1 : cl) -> b_f (w_body w b2) Bm = (Some m2 : cl) ->
  exists f, pushes w y K h f /\ let t := tug L ks kd (seen_from x1 x2 v1 v2) in
    (forall d, d < 3 -> f b1 d = (Some (match d with 0%nat => fst t | 1%nat => snd t - m1 * weight y g gr | _ => 0 end)%R : cl)) /\
    forall d, d < 3 -> f b2 d = (Some (match d with 0%nat => - fst t | 1%nat => - snd t - m2 * weight y g gr | _ => 0 end)%R : cl).
Proof.
  intros HL ND H1 H2 N (Hg & EG & HO) K1 K2 Em1 Em2. set (t := tug L ks kd (seen_from x1 x2 v1 v2)). set (sp := mkSp L ks kd 0 0 0 0) in *.
  set (G1 := fun d : nat => (match d with 0%nat => fst t | 1%nat => snd t | _ => 0 end)%R). set (G2 := fun d : nat => (match d with 0%nat => - fst t | 1%nat => - snd t | _ => 0 end)%R).
  set (E := fun g' => if Nat.eqb g' g then add_two b1 b2 G1 G2 else add_weight w (Some (gr g') : cl)).
  exists (fold_left (fun f g' => E g' f) (y_gens y) (fun _ _ => cofZ 0)). split.
  - apply (pushes_when w y K h (two_real b1 b2) E).
    + intros g' Hg'. destruct (Nat.eq_dec g' g) as [->|Ng]; [now rewrite EG|]. now rewrite (HO g' Hg' Ng).
    + intros d Hd. rewrite cofZ_R. split; eauto.
    + intros g' Hg' f HR. unfold E. destruct (Nat.eqb_spec g' g) as [->|Ng].
      * split.
        { intros d Hd. destruct (HR d Hd) as [[a Ea] [a' Ea']]. unfold add_two. rewrite Nat.eqb_refl. destruct (Nat.eqb_spec b2 b1); [congruence|]. rewrite Nat.eqb_refl, Ea, Ea', !addR. split; eauto. }
        intros s HP HF. rewrite EG. eapply wp_mono; [exact (spring_two w y K h b1 b2 sp x1 v1 x2 v2 f s HL H1 H2 N K1 K2 HR HP HF)|]. intros s' F' i b d Eb Hd. rewrite (F' i b d Eb Hd). f_equal.
        destruct (spring_tug L ks kd x1 v1 x2 v2) as [Q1 Q2]. fold sp t in Q1, Q2. unfold add_two, G1, G2. now rewrite Q1, Q2 by exact Hd.
      * split.
        { intros d Hd. destruct (HR d Hd) as [[a Ea] [a' Ea']]. unfold add_weight. rewrite Em1, Em2. destruct d as [|[|[|]]]; try lia; rewrite ?Ea, ?Ea'; cbn; split; eauto. }
        intros s HP HF. rewrite (HO g' Hg' Ng). exact (gravity_effect w y K h _ s f HP HF).
  - assert (G : forall b (m : R) (F : nat -> R), (b = b1 /\ F = G1 \/ b = b2 /\ F = G2) -> b_f (w_body w b) Bm = (Some m : cl) -> forall l (f : nat -> nat -> cl) (a : nat -> R), (forall d, d < 3 -> f b d = (Some (a d) : cl)) ->
      forall d, d < 3 -> fold_left (fun f g' => E g' f) l f b d = (Some (a d + Lsum l (fun g' => if Nat.eqb g' g then F d else match d with 1%nat => - m * gr g' | _ => 0 end))%R : cl)).
    { intros b m F HF Em. induction l as [|g' l IH]; intros f a Hf d Hd; cbn [fold_left].
      - rewrite (Hf d Hd). f_equal. rr. unfold Lsum. cbn. ring.
      - rewrite Lsum_cons. rewrite (IH _ (fun d => a d + if Nat.eqb g' g then F d else match d with 1%nat => - m * gr g' | _ => 0 end)%R); [f_equal; rr; ring| |exact Hd].
        intros d' Hd'. unfold E. destruct (Nat.eqb_spec g' g).
        + unfold add_two. destruct HF as [[-> ->]|[-> ->]]; [|destruct (Nat.eqb_spec b2 b1); [congruence|]]; rewrite Nat.eqb_refl, Hf, addR by exact Hd'; reflexivity.
        + unfold add_weight. rewrite Em. destruct d' as [|[|[|]]]; try lia; rewrite Hf by lia; cbn; f_equal; rr; ring. }
    assert (SP : forall (F : nat -> R) (m : R) d, d < 3 -> Lsum (y_gens y) (fun g' => if Nat.eqb g' g then F d else match d with 1%nat => - m * gr g' | _ => 0 end)%R = (F d + match d with 1%nat => - m * weight y g gr | _ => 0 end)%R).
    { intros F m d Hd. pose proof (Lsum_one (y_gens y) g (fun _ => F d) ND Hg) as E1. cbv beta in E1. set (c := F d) in *. transitivity (Lsum (y_gens y) (fun g' => if Nat.eqb g' g then c else 0%R) + match d with 1%nat => - m * weight y g gr | _ => 0 end)%R; [|now rewrite E1]. unfold weight.
      replace (match d with 1%nat => - m * Lsum (y_gens y) (fun g' => if Nat.eqb g' g then 0%R else gr g') | _ => 0 end)%R with (Lsum (y_gens y) (fun g' => match d with 1%nat => - m * (if Nat.eqb g' g then 0%R else gr g') | _ => 0 end)%R).
      - rewrite <- Lsum_plus. apply Lsum_ext. intros g' _. cbv beta. destruct (Nat.eqb g' g), d as [|[|]]; cbv iota; ring.
      - destruct d as [|[|]]; [apply Lsum_zero|apply Lsum_scal|apply Lsum_zero]. }
    cbv zeta. split; intros d Hd.
    + rewrite (G b1 m1 G1 (or_introl (conj eq_refl eq_refl)) Em1 _ _ (fun _ => 0%R)); [|intros; apply cofZ_R|exact Hd]. rewrite SP by exact Hd. f_equal. rr. unfold G1. destruct d as [|[|[|]]]; try lia; ring.
    + rewrite (G b2 m2 G2 (or_intror (conj eq_refl eq_refl)) Em2 _ _ (fun _ => 0%R)); [|intros; apply cofZ_R|exact Hd]. rewrite SP by exact Hd. f_equal. rr. unfold G2. destruct d as [|[|[|]]]; try lia; ring.
Qed.
End S.
