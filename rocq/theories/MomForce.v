(** * The force generators over the reals: what each adds, and the sum. *)

From Coq Require Import Reals Lra.
From Verif Require Import Base Targets State Ode Forces Constraints System Logic SpecMatrix
  SpecState StateFacts StateReal SpecOde OdeFacts SpecForces ForceFacts ForceReal SpecSys RegFacts SysFrame SysInv SpecCon
  SpecDyn DynState DynReact DynRound DynStep DynForce SpecSolve SolveReal SolveStep SpecLaw SpecMom.
Local Open Scope nat_scope.

Section R.
Context {dbg : bool}.
Notation T := (RT dbg).
Notation cl := (cell T).
Implicit Types (w : world T) (y : sys T) (K : kin T).

Definition somes (f : nat -> nat -> R) : nat -> nat -> cl := fun b d => (Some (f b d) : cl).
(** generator g adds the forces G *)
Definition adds w y K h (g : gkind T) (G : nat -> nat -> R) : Prop :=
  forall (s : sstate T) f, presents w y K h s -> forced w y (somes f) s ->
    wp (gen_apply g (w_body w) s) (fun s' => forced w y (somes (fun b d => f b d + G b d)%R) s').

Lemma pushes_adds w y K (h : R) (G : nat -> nat -> nat -> R) : all_gentle w y ->
  (forall g, In g (y_gens y) -> adds w y K (Some h : cl) (g_kind (w_gen w g)) (G g)) ->
  pushesR w y K h (fun b d => Lsum (y_gens y) (fun g => G g b d)).
Proof.
  intros HG HE s HP. unfold process_forces.
  assert (X : wp (let* s := for_ (body_count y) (fun i s =>
    let* s := sto s Ffx (Z.of_nat i) (cofZ 0) in
    let* s := sto s Ffy (Z.of_nat i) (cofZ 0) in
    sto s Ft (Z.of_nat i) (cofZ 0)) s in
   for_ (gen_count y) (fun i s =>
    let* g := lift_opt (nth_error (y_gens y) i) in
    gen_apply (g_kind (w_gen w g)) (w_body w) s) s) (fun s' => forced w y (somes (fun b d => Lsum (y_gens y) (fun g => G g b d))) s')).
  2:{ apply wp_ok in X. exact X. }
  eapply wp_seq; [apply (reset_forced w y K _ s HP)|]. intros s1 [A1 F1].
  apply (for_inv _ (fun i s' => presents w y K (Some h : cl) s' /\ forced w y (somes (fun b d => Lsum (firstn i (y_gens y)) (fun g => G g b d))) s')).
  - split; [eapply presents_forces; eauto|exact F1].
  - intros i t Hi [Pt Ft]. destruct (nth_error_ex (y_gens y) i Hi) as [g Eg]. rewrite Eg. cbn [lift_opt bind].
    pose proof (nth_error_In _ _ Eg) as Ig. specialize (HE g Ig t _ Pt Ft). apply wp_ok in HE. destruct HE as (t' & E' & F').
    eapply wp_eq; [exact E'|]. split.
    + eapply presents_forces; [|exact Pt]. apply (pc_elim _ _ _ E'), gen_apply_alters, HG, Ig.
    + rewrite (firstn_snoc _ _ _ Eg). intros i' b d Eb Hd. rewrite (F' i' b d Eb Hd). f_equal. unfold somes. f_equal.
      rewrite Lsum_app. unfold Lsum at 3. cbn [fold_right]. ring.
  - intros t [_ Ft]. unfold gen_count in Ft. now rewrite firstn_all in Ft.
Qed.

(** the motion K is real: positions q, velocities v *)
Definition kin_is y K (q v : nat -> nat -> R) : Prop :=
  forall b d, In b (y_bodies y) -> d < 3 -> k_q K b d = (Some (q b d) : cl) /\ k_v K b d = (Some (v b d) : cl).
Definition pose_of (q : nat -> nat -> R) (b : nat) : pose := mkPose (q b 0) (q b 1) (q b 2).
Definition gf_at (F : gforce) (d : nat) : R := match d with 0 => gf_x F | 1 => gf_y F | _ => gf_t F end.
(** F on body b0, nothing elsewhere *)
Definition on (b0 : nat) (F : gforce) (b d : nat) : R := if Nat.eqb b b0 then gf_at F d else 0%R.

Lemma body_state_at w y K h s q v f i b : presents w y K h s -> forced w y (somes f) s -> kin_is y K q v ->
  nth_error (y_bodies y) i = Some b -> body_state s (Z.of_nat i) (pose_of q b) (pose_of v b).
Proof.
  intros (_ & _ & _ & _ & HP) HF HK Ei. destruct (HP i b Ei) as (_ & HD). pose proof (nth_error_In _ _ Ei) as Hb.
  unfold body_state, state_pose, state_velocity. cbn [pose_of q_x q_y q_th].
  destruct (HD 0 ltac:(lia)) as (X & U & _), (HD 1 ltac:(lia)) as (Y & V & _), (HD 2 ltac:(lia)) as (TH & W & _). cbn [posf velf] in *.
  destruct (HK b 0 Hb ltac:(lia)) as [E0 V0], (HK b 1 Hb ltac:(lia)) as [E1 V1], (HK b 2 Hb ltac:(lia)) as [E2 V2].
  rewrite X, Y, TH, U, V, W, E0, E1, E2, V0, V1, V2. split; [repeat split|]. split; [repeat split|].
  exists (f b 0), (f b 1), (f b 2). split; [exact (HF i b 0 Ei ltac:(lia))|]. split; [exact (HF i b 1 Ei ltac:(lia))|exact (HF i b 2 Ei ltac:(lia))].
Qed.
Lemma listed_inj w y i j b : listed w y -> nth_error (y_bodies y) i = Some b -> nth_error (y_bodies y) j = Some b -> i = j.
Proof. intros [HL _] E1 E2. apply HL in E1, E2. rewrite E1 in E2. now apply Nat2Z.inj. Qed.
Lemma gains_at s s' i F (x : nat -> R) : gains s s' (Z.of_nat i) F -> (forall d, d < 3 -> ld s (frcf d) (Z.of_nat i) = Ok (Some (x d) : cl)) ->
  forall d, d < 3 -> ld s' (frcf d) (Z.of_nat i) = Ok (Some (x d + gf_at F d)%R : cl).
Proof.
  intros (a & b & c & (A & B & C) & A' & B' & C') H d Hd. pose proof (H 0 ltac:(lia)) as H0. pose proof (H 1 ltac:(lia)) as H1. pose proof (H 2 ltac:(lia)) as H2.
  cbn [frcf] in *. rewrite A in H0. rewrite B in H1. rewrite C in H2. injection H0 as ->. injection H1 as ->. injection H2 as ->.
  destruct d as [|[|[|]]]; try lia; cbn [frcf gf_at]; assumption.
Qed.

Lemma spring_adds w y K h q v r i1 i2 : listed w y -> kin_is y K q v -> In i1 (y_bodies y) -> In i2 (y_bodies y) ->
  let q1 := pose_of q i1 in let q2 := pose_of q i2 in let v1 := pose_of v i1 in let v2 := pose_of v i2 in
  adds w y K h (GSpring (spring_of dbg r i1 i2)) (fun b d =>
    on i1 (point_force q1 (end1x r q1) (end1y r q1) (spring_fx r q1 v1 q2 v2) (spring_fy r q1 v1 q2 v2)) b d +
    on i2 (point_force q2 (end2x r q2) (end2y r q2) (- spring_fx r q1 v1 q2 v2) (- spring_fy r q1 v1 q2 v2)) b d)%R.
Proof.
  intros HL HK H1 H2 q1 q2 v1 v2 s f HP HF. apply In_nth_error in H1, H2. destruct H1 as [n1 E1], H2 as [n2 E2]. cbn [gen_apply].
  pose proof (proj1 HL _ _ E1) as I1. pose proof (proj1 HL _ _ E2) as I2.
  destruct (spring_effect r (w_body w) s i1 i2 q1 v1 q2 v2) as (s' & E & (FO & TD & TS)).
  { rewrite I1. lia. } { rewrite I2. lia. }
  { rewrite I1. apply (body_state_at w y K h s q v f n1 i1 HP HF HK E1). }
  { rewrite I2. apply (body_state_at w y K h s q v f n2 i2 HP HF HK E2). }
  rewrite I1, I2 in *. set (F1 := point_force q1 _ _ _ _) in *. set (F2 := point_force q2 _ _ _ _) in *.
  eapply wp_eq; [exact E|]. intros i b d Eb Hd. unfold somes, on.
  destruct (Nat.eqb_spec b i1) as [X1|M1], (Nat.eqb_spec b i2) as [X2|M2].
  - assert (n1 = i) by (eapply listed_inj; [exact HL| |exact Eb]; congruence). assert (n2 = i) by (eapply listed_inj; [exact HL| |exact Eb]; congruence). subst n1 n2.
    rewrite (gains_at _ _ _ _ (fun d => f b d) (TS eq_refl) (fun d' Hd' => HF i b d' Eb Hd') d Hd). unfold somes. do 2 f_equal.
    destruct d as [|[|[|]]]; try lia; cbn [gf_at gf_x gf_y gf_t]; ring.
  - assert (n1 = i) by (eapply listed_inj; [exact HL| |exact Eb]; congruence). subst n1.
    assert (N : Z.of_nat i <> Z.of_nat n2) by (intros X; apply Nat2Z.inj in X; congruence).
    rewrite (gains_at _ _ _ _ (fun d => f b d) (proj1 (TD N)) (fun d' Hd' => HF i b d' Eb Hd') d Hd). unfold somes. do 2 f_equal. ring.
  - assert (n2 = i) by (eapply listed_inj; [exact HL| |exact Eb]; congruence). subst n2.
    assert (N : Z.of_nat n1 <> Z.of_nat i) by (intros X; apply Nat2Z.inj in X; congruence).
    rewrite (gains_at _ _ _ _ (fun d => f b d) (proj2 (TD N)) (fun d' Hd' => HF i b d' Eb Hd') d Hd). unfold somes. do 2 f_equal. ring.
  - rewrite (proj1 FO). 2:{ right. cbn. intros [X|[X|[]]]; apply Nat2Z.inj in X; congruence. }
    rewrite (HF i b d Eb Hd). unfold somes. do 2 f_equal. ring.
Qed.
Lemma gravity_adds w y K h (gr : R) (M : nat -> nat -> R) : (forall b, In b (y_bodies y) -> b_f (w_body w b) Bm = (Some (M b 0) : cl)) ->
  adds w y K h (GGravity (Some gr : cl)) (fun b d => match d with 1%nat => - M b 0%nat * gr | _ => 0 end)%R.
Proof.
  intros HM s f HP HF. eapply wp_mono; [apply (gravity_effect w y K h (Some gr : cl) s _ HP HF)|]. intros s' F' i b d Eb Hd.
  rewrite (F' i b d Eb Hd). f_equal. unfold add_weight, somes. rewrite (HM b (nth_error_In _ _ Eb)).
  destruct d as [|[|[|]]]; try lia; cbn [copp lift1 cmul lift2 cadd n_opp n_mul n_add RT]; f_equal; ring.
Qed.
Lemma static_adds w y K h q v px py fx fy b0 : listed w y -> kin_is y K q v -> In b0 (y_bodies y) ->
  adds w y K h (GStatic (static_of px py fx fy b0))
    (on b0 (point_force (pose_of q b0) (at_x (pose_of q b0) px py) (at_y (pose_of q b0) px py) fx fy)).
Proof.
  intros HL HK H0 s f HP HF. eapply wp_mono; [apply (static_force_effect w y K h _ b0 HL (eq_refl : sf_body (static_of px py fx fy b0) = Some b0) H0 s _ HP HF)|].
  intros s' F' i b d Eb Hd. rewrite (F' i b d Eb Hd). f_equal. unfold add_point, somes, on.
  destruct (Nat.eqb_spec b b0) as [->|]; [|f_equal; ring].
  destruct (HK b0 0 H0 ltac:(lia)) as [-> _], (HK b0 1 H0 ltac:(lia)) as [-> _], (HK b0 2 H0 ltac:(lia)) as [-> _].
  destruct d as [|[|[|]]]; try lia; cbn [static_of sf_px sf_py sf_fx sf_fy]; rt_unfold; f_equal;
    unfold at_x, at_y, world_x, world_y; cbn [gf_at point_force gf_x gf_y gf_t pose_of q_x q_y q_th]; ring.
Qed.

(** ** sums over the bodies *)
Lemma Lsum_zero {A} (l : list A) : Lsum l (fun _ => 0%R) = 0%R.
Proof. induction l as [|a l IH]; [reflexivity|]. rewrite Lsum_cons, IH. ring. Qed.
Lemma Lsum_plus {A} (l : list A) f g : Lsum l (fun a => f a + g a)%R = (Lsum l f + Lsum l g)%R.
Proof. induction l as [|a l IH]; [unfold Lsum; cbn; ring|]. rewrite !Lsum_cons, IH. ring. Qed.
Lemma Lsum_swap {A B} (l : list A) (l' : list B) f : Lsum l (fun a => Lsum l' (fun b => f a b)) = Lsum l' (fun b => Lsum l (fun a => f a b)).
Proof.
  induction l as [|a l IH]; [unfold Lsum at 1; cbn [fold_right]; symmetry; apply Lsum_zero|]. rewrite Lsum_cons, IH, <- Lsum_plus.
  apply Lsum_ext. intros b _. now rewrite Lsum_cons.
Qed.
Lemma Lsum_one (l : list nat) a g : NoDup l -> In a l -> Lsum l (fun b => if Nat.eqb b a then g b else 0%R) = g a.
Proof.
  induction 1 as [|b l N ND IH]; [intros []|]. intros H. rewrite Lsum_cons. destruct (Nat.eqb_spec b a) as [->|Nb].
  - rewrite (Lsum_ext l _ (fun _ => 0%R)); [rewrite Lsum_zero; ring|]. intros c Hc. destruct (Nat.eqb_spec c a); [congruence|reflexivity].
  - rewrite IH; [ring|]. destruct H; congruence.
Qed.
Lemma listed_nodup w y : listed w y -> NoDup (y_bodies y).
Proof. intros HL. apply NoDup_nth_error. intros i j Hi E. destruct (nth_error_ex _ i Hi) as [b Eb]. rewrite Eb in E. eapply listed_inj; eauto. Qed.
Lemma choose {A B} (P : nat -> (A -> B) -> Prop) (l : list nat) (z : A -> B) : (forall g, In g l -> exists G, P g G) -> exists GG, forall g, In g l -> P g (GG g).
Proof.
  induction l as [|a l IH]; intros H; [exists (fun _ => z); intros g []|].
  destruct (H a (or_introl eq_refl)) as [G HG]. destruct IH as [GG HGG]; [intros g Hg; apply H; now right|].
  exists (fun g => if Nat.eqb g a then G else GG g). intros g Hg. destruct (Nat.eqb_spec g a) as [->|N]; [exact HG|]. apply HGG. destruct Hg; congruence.
Qed.

(** what a generator adds to all bodies together *)
Lemma outer_adds w y K h q v (M : nat -> nat -> R) g e : listed w y -> kin_is y K q v -> (forall b, In b (y_bodies y) -> b_f (w_body w b) Bm = (Some (M b 0) : cl)) ->
  outer y M g e -> exists G, adds w y K h g G /\ forall d, d < 2 -> Lsum (y_bodies y) (fun b => G b d) = e d.
Proof.
  intros HL HK HM [(r & (i1 & i2 & -> & H1 & H2) & E0 & E1)|[(gr & -> & E0 & E1)|(px & py & b0 & H0 & ->)]].
  - eexists. split; [now apply (spring_adds w y K h q v r i1 i2)|]. intros d Hd. cbv beta. rewrite Lsum_plus. unfold on.
    rewrite (Lsum_one (y_bodies y) i1 (fun _ => gf_at _ d)), (Lsum_one (y_bodies y) i2 (fun _ => gf_at _ d)) by (auto; eapply listed_nodup; eauto).
    destruct d as [|[|]]; try lia; cbn [gf_at point_force gf_x gf_y]; rewrite ?E0, ?E1; ring.
  - eexists. split; [exact (gravity_adds w y K h gr M HM)|]. intros d Hd. destruct d as [|[|]]; try lia; cbv beta iota; [now rewrite Lsum_zero|]. rewrite E1.
    transitivity (Lsum (y_bodies y) (fun b => (- gr) * M b 0%nat)%R); [apply Lsum_ext; intros; ring|]. rewrite Lsum_scal. ring.
  - eexists. split; [now apply (static_adds w y K h q v)|]. intros d Hd. unfold on.
    rewrite (Lsum_one (y_bodies y) b0 (fun _ => gf_at _ d)) by (auto; eapply listed_nodup; eauto). destruct d as [|[|]]; try lia; reflexivity.
Qed.
Lemma outer_pushes w y K (h : R) q v (M : nat -> nat -> R) e : listed w y -> kin_is y K q v -> (forall b, In b (y_bodies y) -> b_f (w_body w b) Bm = (Some (M b 0) : cl)) ->
  (forall g, In g (y_gens y) -> outer y M (g_kind (w_gen w g)) (e g)) ->
  exists f, pushesR w y K h f /\ forall d, d < 2 -> Lsum (y_bodies y) (fun b => f b d) = Lsum (y_gens y) (fun g => e g d).
Proof.
  intros HL HK HM HG.
  destruct (choose (fun g G => adds w y K (Some h : cl) (g_kind (w_gen w g)) G /\ forall d, d < 2 -> Lsum (y_bodies y) (fun b => G b d) = e g d) (y_gens y) (fun _ _ => 0%R)) as [GG HGG].
  { intros g Hg. apply (outer_adds w y K _ q v M); auto. }
  exists (fun b d => Lsum (y_gens y) (fun g => GG g b d)). split.
  - apply pushes_adds; [|intros g Hg; now apply HGG]. intros g Hg. specialize (HG g Hg).
    destruct HG as [(r & (i1 & i2 & -> & _) & _)|[(gr & -> & _)|(px & py & b0 & _ & ->)]]; exact I.
  - intros d Hd. rewrite Lsum_swap. apply Lsum_ext. intros g Hg. now apply HGG.
Qed.
Lemma outer_gentle w y M e : (forall g, In g (y_gens y) -> outer y M (g_kind (w_gen w g)) (e g)) -> all_gentle w y.
Proof.
  intros HG g Hg. specialize (HG g Hg). destruct HG as [(r & (i1 & i2 & -> & _) & _)|[(gr & -> & _)|(px & py & b0 & _ & ->)]]; exact I.
Qed.

(** ** torques *)
Definition lever (q : nat -> nat -> R) (b d : nat) : R := match d with 0 => (- q b 1%nat)%R | 1 => q b 0%nat | _ => 1%R end.
Definition torque (q G : nat -> nat -> R) (b : nat) : R := Rsum 3 (fun d => lever q b d * G b d)%R.
Lemma torque_on q b0 F b : torque q (on b0 F) b = if Nat.eqb b b0 then moment (pose_of q b) F 0 0 else 0%R.
Proof.
  unfold torque, on, moment. destruct (Nat.eqb b b0); cbn [Rsum lever gf_at pose_of q_x q_y]; ring.
Qed.
Lemma torque_plus q G G' b : torque q (fun b d => G b d + G' b d)%R b = (torque q G b + torque q G' b)%R.
Proof. unfold torque. cbn [Rsum]. ring. Qed.
Lemma outer_twists w y K h q v (M : nat -> nat -> R) g e : listed w y -> kin_is y K q v -> (forall b, In b (y_bodies y) -> b_f (w_body w b) Bm = (Some (M b 0) : cl)) ->
  outer_torque y M q g e -> exists G, adds w y K h g G /\ Lsum (y_bodies y) (torque q G) = e.
Proof.
  intros HL HK HM [(r & (i1 & i2 & -> & H1 & H2) & E0 & ->)|[(gr & -> & ->)|(px & py & fx & fy & b0 & H0 & -> & ->)]].
  - eexists. split; [now apply (spring_adds w y K h q v r i1 i2)|].
    rewrite (Lsum_ext _ _ _ (fun b _ => torque_plus q (on i1 _) (on i2 _) b)), Lsum_plus.
    rewrite (Lsum_ext _ _ _ (fun b _ => torque_on q i1 _ b)), (Lsum_ext _ _ _ (fun b _ => torque_on q i2 _ b)).
    rewrite (Lsum_one (y_bodies y) i1 (fun b => moment (pose_of q b) _ 0 0)), (Lsum_one (y_bodies y) i2 (fun b => moment (pose_of q b) _ 0 0)) by (auto; eapply listed_nodup; eauto).
    apply pair_moment. now left.
  - eexists. split; [exact (gravity_adds w y K h gr M HM)|].
    transitivity (Lsum (y_bodies y) (fun b => (- gr) * (M b 0%nat * q b 0%nat))%R); [apply Lsum_ext; intros b _; unfold torque; cbn [Rsum lever]; ring|]. rewrite Lsum_scal. ring.
  - eexists. split; [now apply (static_adds w y K h q v)|].
    rewrite (Lsum_ext _ _ _ (fun b _ => torque_on q b0 _ b)).
    rewrite (Lsum_one (y_bodies y) b0 (fun b => moment (pose_of q b) _ 0 0)) by (auto; eapply listed_nodup; eauto).
    cbv zeta. unfold moment, point_force. cbn [gf_x gf_y gf_t]. change (mkPose (q b0 0) (q b0 1) (q b0 2)) with (pose_of q b0). ring.
Qed.
Lemma torque_sum q (GG : nat -> nat -> nat -> R) (l : list nat) b : torque q (fun b d => Lsum l (fun g => GG g b d)) b = Lsum l (fun g => torque q (GG g) b).
Proof.
  unfold torque. cbn [Rsum]. rewrite !Lsum_plus, Lsum_zero, !Lsum_scal. reflexivity.
Qed.
Lemma outer_torques_push w y K (h : R) q v (M : nat -> nat -> R) e : listed w y -> kin_is y K q v -> (forall b, In b (y_bodies y) -> b_f (w_body w b) Bm = (Some (M b 0) : cl)) ->
  (forall g, In g (y_gens y) -> outer_torque y M q (g_kind (w_gen w g)) (e g)) ->
  exists f, pushesR w y K h f /\ Lsum (y_bodies y) (torque q f) = Lsum (y_gens y) e.
Proof.
  intros HL HK HM HG.
  destruct (choose (fun g G => adds w y K (Some h : cl) (g_kind (w_gen w g)) G /\ Lsum (y_bodies y) (torque q G) = e g) (y_gens y) (fun _ _ => 0%R)) as [GG HGG].
  { intros g Hg. apply (outer_twists w y K _ q v M); auto. }
  exists (fun b d => Lsum (y_gens y) (fun g => GG g b d)). split.
  - apply pushes_adds; [|intros g Hg; now apply HGG]. intros g Hg. specialize (HG g Hg).
    destruct HG as [(r & (i1 & i2 & -> & _) & _)|[(gr & -> & _)|(px & py & fx & fy & b0 & _ & -> & _)]]; exact I.
  - rewrite (Lsum_ext _ _ _ (fun b _ => torque_sum q GG (y_gens y) b)), Lsum_swap. apply Lsum_ext. intros g Hg. now apply HGG.
Qed.
Lemma outer_torque_gentle w y M q e : (forall g, In g (y_gens y) -> outer_torque y M q (g_kind (w_gen w g)) (e g)) -> all_gentle w y.
Proof.
  intros HG g Hg. specialize (HG g Hg). destruct HG as [(r & (i1 & i2 & -> & _) & _)|[(gr & -> & _)|(px & py & fx & fy & b0 & _ & -> & _)]]; exact I.
Qed.
End R.
