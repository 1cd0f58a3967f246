(** * Conjugate gradient over the reals: residual, orthogonality, termination. *)

From Coq Require Import Reals Lra.
From Verif Require Import Base Targets Matrix Sparse Sle Logic SpecMatrix SpecSparse SpecSle RealSum GeReal SleCg.
Local Open Scope nat_scope.

(** ** vectors *)
Section Vec.
Variable m : nat.
Notation dt := (dot m).
Lemma dotc x y : dt x y = dt y x.
Proof. apply Rsum_ext. intros; apply Rmult_comm. Qed.
Lemma dot_lin x y z s : dt x (fun i => y i + s * z i)%R = (dt x y + s * dt x z)%R.
Proof. unfold dot. rewrite <- Rsum_scal_l, <- Rsum_plus. apply Rsum_ext. intros; ring. Qed.
Lemma dot_lin_l x y z s : dt (fun i => y i + s * z i)%R x = (dt y x + s * dt z x)%R.
Proof. rewrite dotc, dot_lin, (dotc x y), (dotc x z). reflexivity. Qed.
Lemma dot_ext x x' y y' : (forall i, i < m -> x i = x' i) -> (forall i, i < m -> y i = y' i) -> dt x y = dt x' y'.
Proof. intros H H'. apply Rsum_ext. intros i Hi. now rewrite H, H'. Qed.
Lemma dot_pos x : (0 <= dt x x)%R.
Proof. apply Rsum_nonneg. intros i Hi. apply Rle_0_sqr. Qed.
Lemma dot_zero x : dt x x = 0%R -> forall i, i < m -> x i = 0%R.
Proof.
  intros H i Hi. apply Rsqr_0_uniq. apply (Rsum_nonneg_zero m (fun i => x i * x i)%R); [|exact H|exact Hi].
  intros; apply Rle_0_sqr.
Qed.
Lemma dot_nonzero x i : i < m -> x i <> 0%R -> dt x x <> 0%R.
Proof. intros Hi N E. apply N. exact (dot_zero x E i Hi). Qed.

(** at most m non-zero vectors of R^m are mutually orthogonal *)
Section Bessel.
Variable u : nat -> nat -> R.
Variable N : nat.
Hypothesis Hnz : forall j, j < N -> dt (u j) (u j) <> 0%R.
Hypothesis Ho : forall i j, i < N -> j < N -> i <> j -> dt (u i) (u j) = 0%R.

Fixpoint proj (i k : nat) : nat -> R :=
  match k with
  | O => fun t => if Nat.eqb t i then 1%R else 0%R
  | S k => fun t => (proj i k t + (- (u k i / dt (u k) (u k))) * u k t)%R
  end.
Lemma proj_dot i k l : i < m -> k <= l < N -> dt (proj i k) (u l) = u l i.
Proof.
  intros Hi. revert l. induction k as [|k IH]; intros l Hl; cbn [proj].
  - unfold dot. rewrite (Rsum_ext m _ (fun t => if Nat.eqb t i then u l t else 0%R)).
    + rewrite (Rsum_single m i (fun t => u l t)) by exact Hi. reflexivity.
    + intros t Ht. destruct (Nat.eqb t i); lra.
  - rewrite dot_lin_l, IH by lia. rewrite (Ho k l) by lia. lra.
Qed.
Lemma proj_norm i k : i < m -> k <= N ->
  dt (proj i k) (proj i k) = (1 - Rsum k (fun j => u j i * u j i / dt (u j) (u j)))%R.
Proof.
  intros Hi. induction k as [|k IH]; intros Hk; cbn [proj Rsum].
  - unfold dot. rewrite (Rsum_ext m _ (fun t => if Nat.eqb t i then 1%R else 0%R)).
    + rewrite (Rsum_single m i (fun _ => 1%R)) by exact Hi. lra.
    + intros t Ht. cbn. destruct (Nat.eqb t i); lra.
  - rewrite dot_lin, !dot_lin_l, IH by lia. rewrite (dotc (u k) (proj i k)), proj_dot by lia.
    specialize (Hnz k ltac:(lia)). field. exact Hnz.
Qed.
Lemma orthogonal_bound : N <= m.
Proof.
  destruct (Nat.le_gt_cases N m) as [|L]; [assumption|exfalso].
  assert (H : (0 <= Rsum m (fun i => 1 - Rsum N (fun j => u j i * u j i / dt (u j) (u j))))%R).
  { apply Rsum_nonneg. intros i Hi. rewrite <- proj_norm by lia. apply dot_pos. }
  rewrite Rsum_minus, Rsum_const, Rsum_swap in H.
  rewrite (Rsum_ext N _ (fun _ => 1%R)) in H.
  - rewrite Rsum_const in H. apply lt_INR in L. lra.
  - intros j Hj. unfold Rdiv. rewrite Rsum_scal_r. change (Rsum m (fun i => u j i * u j i)%R) with (dt (u j) (u j)).
    apply Rinv_r. now apply Hnz.
Qed.
End Bessel.

(** ** the iteration *)
Variable A : nat -> nat -> R.
Variable b : nat -> R.
Notation mul x := (mulv m A x).
Lemma mul_lin x y s r : mul (fun i => x i + s * y i)%R r = (mul x r + s * mul y r)%R.
Proof. unfold mulv. rewrite <- Rsum_scal_l, <- Rsum_plus. apply Rsum_ext. intros; ring. Qed.
Lemma mul_sym x y : symmetric m A -> dt x (mul y) = dt y (mul x).
Proof.
  intros Hs. unfold dot, mulv.
  rewrite (Rsum_ext m _ (fun i => Rsum m (fun c => x i * (A i c * y c)))%R) by (intros; now rewrite Rsum_scal_l).
  rewrite Rsum_swap. apply Rsum_ext. intros c Hc. rewrite <- Rsum_scal_l.
  apply Rsum_ext. intros i Hi. rewrite (Hs c i) by assumption. ring.
Qed.

Definition alphaR (r p : nat -> R) : R := (dt r r / dt p (mul p))%R.
Definition xR (x r p : nat -> R) : nat -> R := fun i => (x i + alphaR r p * p i)%R.
Definition rR (r p : nat -> R) : nat -> R := fun i => (r i + (- alphaR r p) * mul p i)%R.
Definition betaR (r p : nat -> R) : R := (dt (rR r p) (rR r p) / dt r r)%R.
Definition pR (r p : nat -> R) : nat -> R := fun i => (rR r p i + betaR r p * p i)%R.

Fixpoint rp (r0 : nat -> R) (k : nat) : (nat -> R) * (nat -> R) :=
  match k with
  | O => (r0, r0)
  | S k => (rR (fst (rp r0 k)) (snd (rp r0 k)), pR (fst (rp r0 k)) (snd (rp r0 k)))
  end.
Section Orth.
Variable r0 : nat -> R.
Notation r k := (fst (rp r0 k)).
Notation p k := (snd (rp r0 k)).
Hypothesis Hs : symmetric m A.
Hypothesis Hp : positive_definite m A.

Lemma pAp_pos k : dt (r k) (r k) <> 0%R -> dt (r k) (p k) = dt (r k) (r k) -> (0 < dt (p k) (mul (p k)))%R.
Proof.
  intros N E. apply Hp.
  assert (D : (exists c, c < m /\ p k c <> 0%R) \/ (forall c, c < m -> p k c = 0%R)).
  { clear. induction m as [|m' IH]; [right; intros; lia|].
    destruct IH as [(c & Hc & N)|IH]; [left; exists c; split; [lia|exact N]|].
    destruct (Req_dec (p k m') 0) as [E|N]; [right|left; exists m'; split; [lia|exact N]].
    intros c Hc. destruct (Nat.eq_dec c m') as [->|]; [exact E|apply IH; lia]. }
  destruct D as [D|D]; [exact D|]. exfalso. apply N. rewrite <- E. apply Rsum_eq0. intros i Hi. rewrite D by exact Hi. ring.
Qed.

Definition orth (k : nat) : Prop :=
  (forall i j, i < j <= k -> dt (r i) (r j) = 0%R) /\
  (forall i j, i < j <= k -> dt (p j) (mul (p i)) = 0%R) /\
  (forall i j, i < j <= k -> dt (r j) (p i) = 0%R) /\
  (forall j, j <= k -> dt (r j) (p j) = dt (r j) (r j)).

Lemma orth_all k : (forall j, j < k -> dt (r j) (r j) <> 0%R) -> orth k.
Proof.
  induction k as [|k IH]; intros Hnz.
  { unfold orth. repeat split; intros; try lia. destruct j; [|lia]. reflexivity. }
  specialize (IH ltac:(intros; apply Hnz; lia)). destruct IH as (Irr & Ipp & Irp & Id).
  pose proof (pAp_pos k (Hnz k ltac:(lia)) (Id k ltac:(lia))) as Hpk.
  assert (Hd0 : (dt (r k) (r k) <> 0)%R) by (apply Hnz; lia).
  assert (Hrp : forall i, i < S k -> dt (r (S k)) (p i) = 0%R).
  { intros i Hi. cbn [rp fst snd]. unfold rR. rewrite dot_lin_l.
    rewrite (dotc (mul (p k)) (p i)). rewrite (mul_sym (p i) (p k) Hs).
    destruct (Nat.eq_dec i k) as [->|Ne].
    - rewrite (Id k) by lia. unfold alphaR. field. lra.
    - rewrite (Irp i k) by lia. rewrite (Ipp i k) by lia. lra. }
  assert (Hrr : forall i, i < S k -> dt (r i) (r (S k)) = 0%R).
  { intros i Hi. destruct i as [|i].
    - rewrite dotc. apply (Hrp 0). lia.
    - rewrite dotc.
      assert (E : dt (r (S k)) (p (S i)) = (dt (r (S k)) (r (S i)) + betaR (r i) (p i) * dt (r (S k)) (p i))%R).
      { rewrite <- dot_lin. reflexivity. }
      rewrite !Hrp in E by lia. lra. }
  assert (Hd : dt (r (S k)) (p (S k)) = dt (r (S k)) (r (S k))).
  { assert (E : dt (r (S k)) (p (S k)) = (dt (r (S k)) (r (S k)) + betaR (r k) (p k) * dt (r (S k)) (p k))%R).
    { rewrite <- dot_lin. reflexivity. }
    rewrite (Hrp k) in E by lia. lra. }
  assert (Hpp : forall i, i < S k -> dt (p (S k)) (mul (p i)) = 0%R).
  { intros i Hi.
    assert (E : dt (p (S k)) (mul (p i)) = (dt (r (S k)) (mul (p i)) + betaR (r k) (p k) * dt (p k) (mul (p i)))%R).
    { rewrite <- dot_lin_l. reflexivity. }
    assert (Ei : dt (r (S k)) (r (S i)) = (dt (r (S k)) (r i) + - alphaR (r i) (p i) * dt (r (S k)) (mul (p i)))%R).
    { rewrite <- dot_lin. reflexivity. }
    pose proof (pAp_pos i (Hnz i ltac:(lia)) (Id i ltac:(lia))) as Hpi.
    assert (Ha : alphaR (r i) (p i) <> 0%R).
    { unfold alphaR, Rdiv. apply Rmult_integral_contrapositive_currified; [apply Hnz; lia|]. apply Rinv_neq_0_compat. lra. }
    rewrite (dotc _ (r i)), Hrr in Ei by lia.
    destruct (Nat.eq_dec i k) as [->|Ne].
    - assert (E2 : dt (r (S k)) (mul (p k)) = (- dt (r (S k)) (r (S k)) / alphaR (r k) (p k))%R).
      { apply (Rmult_eq_reg_l (alphaR (r k) (p k))); [|exact Ha]. field_simplify; [lra|exact Ha]. }
      rewrite E, E2. change (rp r0 (S k)) with (rR (r k) (p k), pR (r k) (p k)). cbn [fst snd].
      unfold betaR. unfold alphaR. field. split; [exact Hd0|lra].
    - rewrite (dotc _ (r (S i))), (Hrr (S i)) in Ei by lia.
      assert (E2 : dt (r (S k)) (mul (p i)) = 0%R).
      { apply (Rmult_eq_reg_l (alphaR (r i) (p i))); [|exact Ha]. lra. }
      rewrite E, E2, (Ipp i k) by lia. lra. }
  unfold orth. repeat split.
  - intros i j Hij. destruct (Nat.eq_dec j (S k)) as [->|]; [apply Hrr; lia|apply Irr; lia].
  - intros i j Hij. destruct (Nat.eq_dec j (S k)) as [->|]; [apply Hpp; lia|apply Ipp; lia].
  - intros i j Hij. destruct (Nat.eq_dec j (S k)) as [->|]; [apply Hrp; lia|apply Irp; lia].
  - intros j Hj. destruct (Nat.eq_dec j (S k)) as [->|]; [exact Hd|apply Id; lia].
Qed.

(** some residual among the first m+1 vanishes *)
Lemma cg_bound k : (forall j, j <= k -> dt (r j) (r j) <> 0%R) -> k < m.
Proof.
  intros Hnz. apply (orthogonal_bound (fun j => r j) (S k)).
  - intros j Hj. apply Hnz. lia.
  - destruct (orth_all k) as (Irr & _); [intros; apply Hnz; lia|].
    intros i j Hi Hj Nij. destruct (Nat.lt_ge_cases i j); [apply Irr; lia|]. rewrite dotc. apply Irr. lia.
Qed.
End Orth.
End Vec.
