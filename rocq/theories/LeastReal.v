(** * The principle of least constraint, in exact reals. *)

From Coq Require Import Reals Lra Permutation.
From Verif Require Import Base Targets State Constraints System Logic RealSum SpecMatrix SpecSys RegFacts SpecDyn DynReact SpecSolve SolveReal MomForce MomStep SpecLeast.
Local Open Scope nat_scope.

(** ** sums *)
Lemma Lsum_perm {A} (l l' : list A) f : Permutation l l' -> Lsum l f = Lsum l' f.
Proof. induction 1; rewrite ?Lsum_cons; lra. Qed.
Lemma Lsum_filter {A} (l : list A) (p : A -> bool) f : (forall a, In a l -> p a = false -> f a = 0%R) -> Lsum l f = Lsum (filter p l) f.
Proof.
  induction l as [|a l IH]; intros H; [reflexivity|]. cbn [filter]. rewrite Lsum_cons, IH by (intros; apply H; auto; now right).
  destruct (p a) eqn:E; [now rewrite Lsum_cons|]. rewrite (H a (or_introl eq_refl) E). lra.
Qed.
Lemma Lsum_sub (l l' : list nat) f : NoDup l -> NoDup l' -> (forall a, In a l -> In a l') -> (forall a, In a l' -> ~ In a l -> f a = 0%R) -> Lsum l' f = Lsum l f.
Proof.
  intros N N' S H. rewrite (Lsum_filter l' (fun a => if in_dec Nat.eq_dec a l then true else false)).
  - apply Lsum_perm, NoDup_Permutation; [now apply NoDup_filter|assumption|]. intros a. rewrite filter_In. destruct (in_dec Nat.eq_dec a l); split; intros H1; [tauto|split; [now apply S|reflexivity]|now destruct H1|contradiction].
  - intros a Ha Hp. destruct (in_dec Nat.eq_dec a l); [discriminate|]. now apply H.
Qed.
Lemma Lsum_nonneg {A} (l : list A) f : (forall a, In a l -> (0 <= f a)%R) -> (0 <= Lsum l f)%R.
Proof. induction l as [|a l IH]; intros H; [unfold Lsum; cbn; lra|]. rewrite Lsum_cons. pose proof (H a (or_introl eq_refl)). assert (0 <= Lsum l f)%R by (apply IH; intros; apply H; now right). lra. Qed.
Lemma Lsum_nonneg_zero {A} (l : list A) f : (forall a, In a l -> (0 <= f a)%R) -> Lsum l f = 0%R -> forall a, In a l -> f a = 0%R.
Proof.
  induction l as [|a l IH]; intros H E b Hb; [easy|]. rewrite Lsum_cons in E. pose proof (H a (or_introl eq_refl)) as H0.
  assert (0 <= Lsum l f)%R by (apply Lsum_nonneg; intros; apply H; now right). destruct Hb as [<-|Hb]; [lra|]. apply IH; auto; [intros; apply H; now right|lra].
Qed.

Section S.
Context {dbg : bool}.
Notation T := (RT dbg).
Implicit Types (w : world T) (y : sys T).

(** ** what J and its transpose do *)
Lemma acts_minus w y J x x' b d : acts w y J (fun c j => x c j - x' c j)%R b d = (acts w y J x b d - acts w y J x' b d)%R.
Proof.
  unfold acts. transitivity (Lsum (slots w y) (fun e => (let '(c, j, k) := e in if binds w b (c, j, k) then J c j (3 * k + d)%nat * x c j else 0) +
    (-1) * (let '(c, j, k) := e in if binds w b (c, j, k) then J c j (3 * k + d)%nat * x' c j else 0))%R).
  - apply Lsum_ext. intros [[c j] k] _. destruct (binds w b (c, j, k)); ring.
  - rewrite Lsum_plus, Lsum_scal. ring.
Qed.
Lemma acts_eq w y J x x' b d : every_row w y (fun c j => x c j = x' c j) -> acts w y J x b d = acts w y J x' b d.
Proof. intros H. unfold acts. apply Lsum_ext. intros [[c j] k] He. destruct (slots_in w y _ He) as (Hc & Hj & _). destruct (binds w b (c, j, k)); [|reflexivity]. now rewrite (H c j Hc Hj). Qed.
Lemma along_minus w J u u' c j : along w J (fun b d => u b d - u' b d)%R c j = (along w J u c j - along w J u' c j)%R.
Proof.
  transitivity (along w J (fun b d => u b d + (-1) * u' b d)%R c j).
  - apply along_ext. intros; ring.
  - rewrite along_plus, along_scal. ring.
Qed.
Lemma slots_sum w y (g : nat * nat * nat -> R) : Lsum (slots w y) g =
  Lsum (y_cons y) (fun c => Lsum (seq 0 (c_count (w_con w c))) (fun j => Lsum (seq 0 (c_bodycount (w_con w c))) (fun k => g (c, j, k)))).
Proof. unfold slots. rewrite Lsum_flat. apply Lsum_ext. intros c _. rewrite Lsum_flat. apply Lsum_ext. intros j _. now rewrite Lsum_map. Qed.

(** ** least constraint *)
Lemma dot_kinetic y M u u' : kinetic y M (fun b d => u b d + u' b d)%R =
  (kinetic y M u + kinetic y M u' + Lsum (y_bodies y) (fun b => Rsum 3 (fun d => u' b d * (M b d * u b d))))%R.
Proof.
  unfold kinetic.
  rewrite (Lsum_ext (y_bodies y) _ (fun b => (M b 0%nat * (u b 0%nat * u b 0%nat) + M b 1%nat * (u b 1%nat * u b 1%nat) + M b 2%nat * (u b 2%nat * u b 2%nat)) +
     (M b 0%nat * (u' b 0%nat * u' b 0%nat) + M b 1%nat * (u' b 1%nat * u' b 1%nat) + M b 2%nat * (u' b 2%nat * u' b 2%nat)) +
     2 * Rsum 3 (fun d => u' b d * (M b d * u b d))))%R by (intros; cbn [Rsum]; ring).
  rewrite !Lsum_plus, Lsum_scal. lra.
Qed.
Lemma kinetic_nonneg y (M : nat -> nat -> R) u : (forall b d, In b (y_bodies y) -> d < 3 -> (0 < M b d)%R) -> (0 <= kinetic y M u)%R.
Proof.
  intros H. unfold kinetic. apply Rmult_le_pos; [|lra]. apply Lsum_nonneg. intros b Hb.
  pose proof (H b 0 Hb ltac:(lia)). pose proof (H b 1 Hb ltac:(lia)). pose proof (H b 2 Hb ltac:(lia)).
  repeat apply Rplus_le_le_0_compat; (apply Rmult_le_pos; [lra|apply Rle_0_sqr]).
Qed.
Lemma kinetic_zero y (M : nat -> nat -> R) u : (forall b d, In b (y_bodies y) -> d < 3 -> (0 < M b d)%R) -> kinetic y M u = 0%R -> forall b d, In b (y_bodies y) -> d < 3 -> u b d = 0%R.
Proof.
  intros H E b d Hb Hd. unfold kinetic in E.
  assert (Q : forall b d, In b (y_bodies y) -> d < 3 -> (0 <= M b d * (u b d * u b d))%R).
  { intros b' d' Hb' Hd'. apply Rmult_le_pos; [left; now apply H|apply Rle_0_sqr]. }
  assert (Z : (M b 0%nat * (u b 0%nat * u b 0%nat) + M b 1%nat * (u b 1%nat * u b 1%nat) + M b 2%nat * (u b 2%nat * u b 2%nat) = 0)%R).
  { apply (Lsum_nonneg_zero (y_bodies y) (fun b => M b 0%nat * (u b 0%nat * u b 0%nat) + M b 1%nat * (u b 1%nat * u b 1%nat) + M b 2%nat * (u b 2%nat * u b 2%nat))%R); auto; [|lra].
    intros b' Hb'. pose proof (Q b' 0 Hb' ltac:(lia)). pose proof (Q b' 1 Hb' ltac:(lia)). pose proof (Q b' 2 Hb' ltac:(lia)). lra. }
  assert (Zd : (M b d * (u b d * u b d) = 0)%R).
  { pose proof (Q b 0 Hb ltac:(lia)). pose proof (Q b 1 Hb ltac:(lia)). pose proof (Q b 2 Hb ltac:(lia)). destruct d as [|[|[|]]]; try lia; lra. }
  apply Rmult_integral in Zd. pose proof (H b d Hb Hd). destruct Zd as [Zd|Zd]; [lra|]. apply Rmult_integral in Zd. tauto.
Qed.
(** the pull of the constraints is orthogonal to every difference of two allowed velocities *)
Lemma pull_orthogonal w y J x (r : nat -> nat -> R) u u' : NoDup (y_bodies y) -> attached w y -> allowed w y J r u -> allowed w y J r u' ->
  Lsum (y_bodies y) (fun b => Rsum 3 (fun d => (u b d - u' b d) * acts w y J x b d))%R = 0%R.
Proof.
  intros ND HA H H'. rewrite (acts_along w y J x (fun b d => u b d - u' b d)%R ND HA).
  rewrite (Lsum_ext _ _ (fun _ => 0%R)); [apply Lsum_zero|]. intros [c j] He. destruct (rows_in w y c j He) as (Hc & Hj).
  rewrite along_minus, (H c j Hc Hj), (H' c j Hc Hj). ring.
Qed.
Lemma least w y J M r (dt : R) x (v' s : nat -> nat -> R) : NoDup (y_bodies y) -> attached w y -> allowed w y J r v' ->
  (forall b d, In b (y_bodies y) -> d < 3 -> (M b d * (v' b d - s b d) = acts w y J x b d * dt)%R) ->
  forall u, allowed w y J r u ->
  kinetic y M (fun b d => u b d - s b d)%R = (kinetic y M (fun b d => v' b d - s b d) + kinetic y M (fun b d => u b d - v' b d))%R.
Proof.
  intros ND HA Hv He u Hu.
  transitivity (kinetic y M (fun b d => (v' b d - s b d) + (u b d - v' b d))%R).
  - unfold kinetic. f_equal. apply Lsum_ext. intros b _. ring.
  - rewrite (dot_kinetic y M (fun b d => v' b d - s b d)%R (fun b d => u b d - v' b d)%R).
    rewrite (Lsum_ext (y_bodies y) (fun b => Rsum 3 (fun d => (u b d - v' b d) * (M b d * (v' b d - s b d)))) (fun b => dt * Rsum 3 (fun d => (u b d - v' b d) * acts w y J x b d)))%R.
    + rewrite Lsum_scal, (pull_orthogonal w y J x r u v' ND HA Hu Hv). ring.
    + intros b Hb. rewrite <- Rsum_scal_l. apply Rsum_ext. intros d Hd. rewrite (He b d Hb Hd). ring.
Qed.

(** ** parts *)
Section Part.
Variables (w1 w2 : world T) (y1 y2 : sys T) (J : nat -> nat -> nat -> R).
Hypotheses (ND1 : NoDup (y_cons y1)) (ND2 : NoDup (y_cons y2)) (HA1 : attached w1 y1) (HP : part_of w1 y1 w2 y2).
Lemma part_along u c j : In c (y_cons y1) -> along w1 J u c j = along w2 J u c j.
Proof.
  intros Hc. destruct HP as (_ & H & _). destruct (H c Hc) as (_ & _ & Ep & Eb). unfold along. rewrite Ep. apply Rsum_ext. intros k _.
  unfold who. now rewrite Eb.
Qed.
Lemma part_sum_con b c (x : nat -> nat -> R) d : In c (y_cons y1) ->
  Lsum (seq 0 (c_count (w_con w1 c))) (fun j => Lsum (seq 0 (c_bodycount (w_con w1 c))) (fun k => if binds w1 b (c, j, k) then J c j (3 * k + d)%nat * x c j else 0))%R =
  Lsum (seq 0 (c_count (w_con w2 c))) (fun j => Lsum (seq 0 (c_bodycount (w_con w2 c))) (fun k => if binds w2 b (c, j, k) then J c j (3 * k + d)%nat * x c j else 0))%R.
Proof.
  intros Hc. destruct HP as (_ & H & _). destruct (H c Hc) as (_ & En & Ep & Eb). rewrite En, Ep. apply Lsum_ext. intros j _. apply Lsum_ext. intros k _.
  unfold binds. now rewrite Eb.
Qed.
(** on the part's bodies only the part's constraints act *)
Lemma part_acts x b d : In b (y_bodies y1) -> acts w2 y2 J x b d = acts w1 y1 J x b d.
Proof.
  intros Hb. unfold acts. rewrite !slots_sum. rewrite (Lsum_sub (y_cons y1) (y_cons y2)); auto.
  - apply Lsum_ext. intros c Hc. symmetry. now apply part_sum_con.
  - intros c Hc. destruct HP as (_ & H & _). now apply H.
  - intros c Hc N. rewrite (Lsum_ext _ _ (fun _ => 0%R)); [apply Lsum_zero|]. intros j _.
    rewrite (Lsum_ext _ _ (fun _ => 0%R)); [apply Lsum_zero|]. intros k Hk. apply in_seq in Hk. destruct HP as (_ & _ & H).
    unfold binds. destruct (c_bodies (w_con w2 c) k) as [b'|] eqn:E; [|reflexivity]. destruct (Nat.eqb_spec b' b); [|reflexivity]. subst b'.
    exfalso. exact (H c k b Hc N ltac:(lia) E Hb).
Qed.
(** the part's constraints act on the part's bodies only *)
Lemma part_acts_out x b d : (forall c j, ~ In c (y_cons y1) -> x c j = 0%R) -> ~ In b (y_bodies y1) -> acts w2 y2 J x b d = 0%R.
Proof.
  intros Hx Hb. unfold acts. rewrite slots_sum. rewrite (Lsum_ext _ _ (fun _ => 0%R)); [apply Lsum_zero|]. intros c Hc.
  rewrite (Lsum_ext _ _ (fun _ => 0%R)); [apply Lsum_zero|]. intros j _.
  rewrite (Lsum_ext _ _ (fun _ => 0%R)); [apply Lsum_zero|]. intros k Hk. apply in_seq in Hk.
  destruct (in_dec Nat.eq_dec c (y_cons y1)) as [I|N].
  - unfold binds. destruct HP as (_ & H & _). destruct (H c I) as (_ & _ & Ep & Eb). rewrite <- Eb.
    destruct (HA1 c k I ltac:(lia)) as (b' & E & Hb'). rewrite E. destruct (Nat.eqb_spec b' b); [subst; contradiction|reflexivity].
  - rewrite (Hx c j N). destruct (binds w2 b (c, j, k)); ring.
Qed.
Lemma part_regular M : attached w2 y2 -> regular w2 y2 M J -> regular w1 y1 M J.
Proof.
  intros HA2 HR x Hx. set (x' := fun c j => if in_dec Nat.eq_dec c (y_cons y1) then x c j else 0%R).
  assert (Z : every_row w2 y2 (fun c j => x' c j = 0%R)).
  { apply HR. intros c j Hc Hj. destruct (in_dec Nat.eq_dec c (y_cons y1)) as [I|N].
    - rewrite <- (part_along _ c j I). rewrite (along_ext w1 J _ (fun b d => acts w1 y1 J x b d / M b d)%R).
      + apply Hx; auto. destruct HP as (_ & H & _). destruct (H c I) as (_ & -> & _). exact Hj.
      + intros k d Hk _. destruct (HA1 c k I Hk) as (b & E & Hb). unfold who. rewrite E. rewrite (part_acts x' b d Hb). f_equal.
        apply acts_eq. intros c' j' Hc' _. unfold x'. destruct (in_dec Nat.eq_dec c' (y_cons y1)); [reflexivity|contradiction].
    - rewrite (along_ext w2 J _ (fun _ _ => 0%R)).
      + unfold along. apply Rsum_eq0. intros k _. apply Rsum_eq0. intros d _. ring.
      + intros k d Hk _. destruct (HA2 c k Hc Hk) as (b & E & Hb). unfold who. rewrite E. destruct HP as (_ & _ & H).
        rewrite (part_acts_out x' b d); [unfold Rdiv; ring| |exact (H c k b Hc N Hk E)].
        intros c' j' N'. unfold x'. destruct (in_dec Nat.eq_dec c' (y_cons y1)); [contradiction|reflexivity]. }
  intros c j Hc Hj. destruct HP as (_ & H & _). destruct (H c Hc) as (Hc2 & En & _). rewrite En in Hj. specialize (Z c j Hc2 Hj). unfold x' in Z.
  destruct (in_dec Nat.eq_dec c (y_cons y1)); [exact Z|contradiction].
Qed.
End Part.

(** ** there is only one such velocity *)
Lemma only_one w y J M r (dt : R) s x x' v v' : dt <> 0%R -> attached w y -> regular w y M J -> (forall b d, In b (y_bodies y) -> d < 3 -> M b d <> 0%R) ->
  allowed w y J r v -> allowed w y J r v' ->
  (forall b d, In b (y_bodies y) -> d < 3 -> (M b d * (v b d - s b d) = acts w y J x b d * dt)%R) ->
  (forall b d, In b (y_bodies y) -> d < 3 -> (M b d * (v' b d - s b d) = acts w y J x' b d * dt)%R) ->
  every_row w y (fun c j => x c j = x' c j) /\ forall b d, In b (y_bodies y) -> d < 3 -> v b d = v' b d.
Proof.
  intros Ndt HA HR HM Hv Hv' E E'.
  assert (D : forall b d, In b (y_bodies y) -> d < 3 -> (v b d - v' b d = dt * (acts w y J (fun c j => x c j - x' c j) b d / M b d))%R).
  { intros b d Hb Hd. rewrite acts_minus. pose proof (HM b d Hb Hd) as N. apply (Rmult_eq_reg_l (M b d)); [|exact N].
    replace (M b d * (v b d - v' b d))%R with (M b d * (v b d - s b d) - M b d * (v' b d - s b d))%R by ring. rewrite (E b d Hb Hd), (E' b d Hb Hd). field. exact N. }
  assert (X : every_row w y (fun c j => x c j - x' c j = 0)%R).
  { apply HR. intros c j Hc Hj. apply (Rmult_eq_reg_l dt); [|exact Ndt]. rewrite Rmult_0_r, <- along_scal.
    rewrite (along_ext w J _ (fun b d => v b d - v' b d)%R).
    - rewrite along_minus, (Hv c j Hc Hj), (Hv' c j Hc Hj). ring.
    - intros k d Hk Hd. destruct (HA c k Hc Hk) as (b & Eb & Hb). unfold who. rewrite Eb. symmetry. now apply D. }
  split.
  - intros c j Hc Hj. pose proof (X c j Hc Hj) as Q. cbv beta in Q. lra.
  - intros b d Hb Hd. pose proof (D b d Hb Hd) as Q.
    rewrite (acts_eq w y J (fun c j => x c j - x' c j)%R (fun c j => 0 * x c j)%R) in Q.
    + rewrite acts_scal in Q. assert (v b d - v' b d = 0)%R by (rewrite Q; unfold Rdiv; ring). lra.
    + intros c j Hc Hj. rewrite (X c j Hc Hj). ring.
Qed.
End S.
