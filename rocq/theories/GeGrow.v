(** * How large the elements of the eliminated matrix become. *)

From Coq Require Import Reals Lra.
From Verif Require Import Base Targets Matrix Sparse Sle Logic MatrixFacts MatrixOps SpecMatrix MatrixHist
  SparseFacts SpecSparse SparseHist SpecSle SleHist SleGe RealSum GeReal GeHist.
Local Open Scope nat_scope.

Section R.
Variable dbg : bool.
Variable m : nat.
Variable B : R.
Hypothesis HB : (0 <= B)%R.
Notation cl := (cell (RT dbg)).
Implicit Types (F : nat -> nat -> cl) (G : nat -> nat -> R).

Definition within G h : Prop :=
  forall r c, r < m -> c <= m -> (Rabs (G r c) <= 2 ^ (Nat.min r h) * B)%R.

Lemma within_final G h : within G h -> within G m.
Proof.
  intros H r c Hr Hc. eapply Rle_trans; [apply H; assumption|].
  apply Rmult_le_compat_r; [exact HB|]. apply Rle_pow; [lra|lia].
Qed.

Lemma within_swap G h i : h <= i < m -> within G h -> within (fun r c => G (swap_idx h i r) c) h.
Proof.
  intros Hi H r c Hr Hc. unfold swap_idx.
  destruct (Nat.eqb_spec r h) as [->|Nh].
  - eapply Rle_trans; [apply H; lia|]. replace (Nat.min i h) with (Nat.min h h) by lia. lra.
  - destruct (Nat.eqb_spec r i) as [->|Ni]; [|now apply H].
    eapply Rle_trans; [apply H; lia|]. replace (Nat.min i h) with (Nat.min h h) by lia. lra.
Qed.

Lemma within_elim G h k : h < m -> k <= m -> G h k <> 0%R ->
  (forall r, h <= r < m -> (Rabs (G r k) <= Rabs (G h k))%R) ->
  within G h -> within (relim G h k) (h + 1).
Proof.
  intros Hh Hk N Hmax H r c Hr Hc. unfold relim.
  destruct (Nat.ltb_spec h r) as [L|L].
  - replace (Nat.min r (h + 1)) with (S h) by lia. cbn [pow].
    assert (P : (0 <= 2 ^ h)%R) by (apply pow_le; lra).
    assert (P0 : (0 <= 2 ^ h * B)%R) by (apply Rmult_le_pos; assumption).
    pose proof (H r c Hr Hc) as H1. replace (Nat.min r h) with h in H1 by lia.
    destruct (Nat.eqb_spec c k); [rewrite Rabs_R0; lra|].
    destruct (Nat.ltb k c); [|lra].
    pose proof (H h c Hh Hc) as H2. rewrite Nat.min_id in H2.
    assert (Hq : (Rabs (G r k / G h k) <= 1)%R).
    { unfold Rdiv. rewrite Rabs_mult, Rabs_inv.
      apply Rabs_pos_lt in N. apply (Rmult_le_reg_r (Rabs (G h k))); [exact N|].
      rewrite Rmult_assoc, Rinv_l by lra. specialize (Hmax r ltac:(lia)). lra. }
    assert (H3 : (Rabs (G h c * (G r k / G h k)) <= 2 ^ h * B)%R).
    { rewrite Rabs_mult. pose proof (Rabs_pos (G h c)).
      apply Rle_trans with (Rabs (G h c) * 1)%R; [apply Rmult_le_compat_l; assumption|lra]. }
    eapply Rle_trans; [apply Rabs_triang|]. rewrite Rabs_Ropp. lra.
  - pose proof (H r c Hr Hc) as H1. replace (Nat.min r (h + 1)) with (Nat.min r h) by lia. exact H1.
Qed.

Lemma ploop_grows : forall fuel F G h k F',
  realF dbg m F G -> h <= m -> k <= m + 1 -> within G h ->
  ploop fuel F m (m + 1) h k = Ok F' -> exists G', realF dbg m F' G' /\ within G' m.
Proof.
  induction fuel as [|fuel IH]; intros F G h k F' HF Hh Hk HW; cbn [ploop].
  - destruct (_ && _); [discriminate|]. intros [= <-]. exists G. split; [exact HF|]. eapply within_final; eassumption.
  - destruct (Nat.ltb_spec h m) as [L|L]; cbn [andb];
      [destruct (Nat.ltb_spec k (m + 1)) as [L'|L']|];
      try (intros [= <-]; exists G; split; [exact HF|]; eapply within_final; eassumption).
    destruct (ppivot_R dbg m F G h k HF L ltac:(lia)) as (i & -> & Hi & Hmax). cbn [bind].
    unfold ceq, cmp, cofZ. cbn. destruct (R_eqb (Rabs (G i k)) 0) eqn:E.
    + intros E'. eapply (IH F G h (k + 1)); eauto; lia.
    + apply R_eqb_false in E.
      assert (N : G i k <> 0%R) by (intros E'; rewrite E', Rabs_R0 in E; auto).
      set (G1 := fun r c => G (swap_idx h i r) c).
      assert (E1 : swap_idx h i h = i) by (unfold swap_idx; now rewrite Nat.eqb_refl).
      assert (N1 : G1 h k <> 0%R) by (unfold G1; now rewrite E1).
      assert (HF1 : realF dbg m (fun r c => F (swap_idx h i r) c) G1) by (apply swap_R; auto; lia).
      assert (Hge : forall r, h <= r < m -> h <= swap_idx h i r < m).
      { intros r Hr. unfold swap_idx. destruct (Nat.eqb_spec r h); [lia|]. destruct (Nat.eqb_spec r i); lia. }
      intros E'. eapply (IH (pelim (fun r c => F (swap_idx h i r) c) h k) (relim G1 h k) (h + 1) (k + 1)); try lia.
      * apply pelim_R; auto; lia.
      * apply within_elim; auto; try lia.
        -- intros r Hr. unfold G1. rewrite E1. apply Hmax. now apply Hge.
        -- apply within_swap; auto.
      * exact E'.
Qed.
End R.

Lemma ge_grows dbg priv (hp : heap (RT dbg)) g J W right prev result n m D w b B :
  hreach priv hp -> ge_names g J W right result -> systemR hp J W right n m D w b -> 0 < m ->
  (forall r c, r < m -> c < m -> (Rabs (JWJt n D w r c) <= B)%R) -> (forall r, r < m -> (Rabs (b r) <= B)%R) ->
  forall hp', ge_solve g J W right prev result hp = Ok (hp', true) ->
  exists U, showsR (hm hp') (ge_a g) (m + 1) m U /\
    forall r c, r < m -> c <= m -> (Rabs (U r c) <= 2 ^ r * B)%R.
Proof.
  intros Hr Hn Hs Hm HA Hb hp' E.
  assert (HB0 : (0 <= B)%R) by (eapply Rle_trans; [apply Rabs_pos|apply (Hb 0); lia]).
  destruct (systemR_system dbg hp J W right n m D w b Hs) as (blk & v & Hsy & Hsum & Hin & Em).
  pose proof (ge_solve_sim_a priv hp g J W right prev result n m _ _ _ _ (hreach_inv _ _ Hr) Hn Hsy) as HR.
  rewrite E in HR.
  destruct (pge m (msys blk (fun r e k => Some (v r e k)) (fun i => Some (w i))) (fun i => Some (b i)))
    as [x| | |]; cbn [rel fst snd] in HR; try contradiction.
  destruct HR as (_ & _ & HR). destruct (HR Hm) as (_ & F & EF & HFa).
  destruct (ploop_grows dbg m B HB0 (m + 1) (aug (msys blk (fun r e k => Some (v r e k)) (fun i => Some (w i))) (fun i => Some (b i)) m) (fun r c => if Nat.ltb c m then JWJt n D w r c else b r) 0 0 F) as (U & HU & HW); try lia.
  - intros r c Hrr Hc. unfold aug. destruct (Nat.ltb_spec c m); [now apply Em|reflexivity].
  - intros r c Hrr Hc. rewrite Nat.min_0_r. cbn [pow]. rewrite Rmult_1_l.
    destruct (Nat.ltb_spec c m); [now apply HA|now apply Hb].
  - exact EF.
  - exists U. split.
    + apply is_mat_shows in HFa. destruct HFa as (E1 & E2 & E3). split; [exact E1|]. split; [exact E2|].
      intros r c Hrr Hc. rewrite E3 by assumption. now rewrite HU by lia.
    + intros r c Hrr Hc. specialize (HW r c Hrr Hc). replace (Nat.min r m) with r in HW by lia. exact HW.
Qed.
