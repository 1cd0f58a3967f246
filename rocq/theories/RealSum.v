(** * Finite sums of reals. *)

From Coq Require Import Reals Lra.
From Verif Require Import Base Targets Matrix Logic MatrixFacts SpecMatrix.
Local Open Scope R_scope.

Lemma Rsum_ext n f g : (forall i, (i < n)%nat -> f i = g i) -> Rsum n f = Rsum n g.
Proof. induction n; intros H; cbn; [reflexivity|]. rewrite IHn, H; auto. Qed.
Lemma Rsum_zero n : Rsum n (fun _ => 0) = 0.
Proof. induction n; cbn; [reflexivity|]. rewrite IHn; lra. Qed.
Lemma Rsum_eq0 n f : (forall i, (i < n)%nat -> f i = 0) -> Rsum n f = 0.
Proof. intros H. rewrite (Rsum_ext _ _ (fun _ => 0)) by exact H. apply Rsum_zero. Qed.
Lemma Rsum_plus n f g : Rsum n (fun i => f i + g i) = Rsum n f + Rsum n g.
Proof. induction n; cbn; [lra|]. rewrite IHn; lra. Qed.
Lemma Rsum_minus n f g : Rsum n (fun i => f i - g i) = Rsum n f - Rsum n g.
Proof. induction n; cbn; [lra|]. rewrite IHn; lra. Qed.
Lemma Rsum_opp n f : Rsum n (fun i => - f i) = - Rsum n f.
Proof. induction n; cbn; [lra|]. rewrite IHn; lra. Qed.
Lemma Rsum_scal_l n a f : Rsum n (fun i => a * f i) = a * Rsum n f.
Proof. induction n; cbn; [lra|]. rewrite IHn; lra. Qed.
Lemma Rsum_scal_r n a f : Rsum n (fun i => f i * a) = Rsum n f * a.
Proof. induction n; cbn; [lra|]. rewrite IHn; lra. Qed.
Lemma Rsum_swap n m f : Rsum n (fun i => Rsum m (fun j => f i j)) = Rsum m (fun j => Rsum n (fun i => f i j)).
Proof.
  induction n; cbn; [now rewrite Rsum_zero|]. now rewrite IHn, <- Rsum_plus.
Qed.
Lemma Rsum_split n m f : Rsum (n + m) f = Rsum n f + Rsum m (fun i => f (n + i)%nat).
Proof.
  induction m; cbn; [rewrite Nat.add_0_r; lra|]. rewrite Nat.add_succ_r. cbn. rewrite IHm. lra.
Qed.
Lemma Rsum_head n f : Rsum (S n) f = f 0%nat + Rsum n (fun i => f (S i)).
Proof. rewrite (Rsum_split 1 n). cbn. lra. Qed.
Lemma Rsum_le n f g : (forall i, (i < n)%nat -> f i <= g i) -> Rsum n f <= Rsum n g.
Proof.
  induction n; intros H; cbn; [lra|]. apply Rplus_le_compat; [apply IHn; auto|apply H; lia].
Qed.
Lemma Rsum_nonneg n f : (forall i, (i < n)%nat -> 0 <= f i) -> 0 <= Rsum n f.
Proof. intros H. rewrite <- (Rsum_zero n). now apply Rsum_le. Qed.
Lemma Rsum_nonneg_zero n f :
  (forall i, (i < n)%nat -> 0 <= f i) -> Rsum n f = 0 -> forall i, (i < n)%nat -> f i = 0.
Proof.
  induction n; intros H E i Hi; [lia|]. cbn in E.
  pose proof (Rsum_nonneg n f (fun i h => H i (Nat.lt_lt_succ_r _ _ h))).
  pose proof (H n (Nat.lt_succ_diag_r n)).
  destruct (Nat.eq_dec i n) as [->|]; [lra|]. apply IHn; auto; [lra|lia].
Qed.
Lemma Rsum_single n j x :
  (j < n)%nat -> Rsum n (fun i => if Nat.eqb i j then x i else 0) = x j.
Proof.
  induction n; intros H; [lia|]. cbn. destruct (Nat.eqb_spec n j) as [->|N].
  - rewrite Rsum_eq0; [lra|]. intros i Hi. destruct (Nat.eqb_spec i j); [lia|reflexivity].
  - rewrite IHn; [lra|lia].
Qed.
(** isolating one term *)
Lemma Rsum_remove n j f :
  (j < n)%nat -> Rsum n f = f j + Rsum n (fun i => if Nat.eqb i j then 0 else f i).
Proof.
  intros H. rewrite <- (Rsum_single n j f) by exact H. rewrite <- Rsum_plus.
  apply Rsum_ext. intros i _. destruct (Nat.eqb_spec i j); [subst; lra|lra].
Qed.
(** a block of consecutive terms *)
Lemma Rsum_block w b st x :
  (b + st <= w)%nat ->
  Rsum w (fun c => if Nat.leb b c && Nat.ltb c (b + st) then x (c - b)%nat else 0) = Rsum st x.
Proof.
  intros H. replace w with (b + (st + (w - (b + st))))%nat by lia.
  rewrite Rsum_split, Rsum_split.
  rewrite (Rsum_eq0 b), (Rsum_eq0 (w - (b + st))); [|intros i Hi|intros i Hi].
  - rewrite (Rsum_ext st _ x); [lra|]. intros i Hi.
    destruct (Nat.leb_spec b (b + i)), (Nat.ltb_spec (b + i) (b + st)); try lia. cbn [andb].
    f_equal. lia.
  - destruct (Nat.ltb_spec (b + (st + i)) (b + st)); [lia|]. now rewrite andb_false_r.
  - destruct (Nat.leb_spec b i); [lia|]. reflexivity.
Qed.
(** grouping 3 n terms by threes *)
Lemma Rsum_mul n m f : Rsum (n * m) f = Rsum n (fun i => Rsum m (fun k => f (i * m + k)%nat)).
Proof.
  induction n; cbn [Nat.mul Rsum]; [reflexivity|].
  rewrite Nat.add_comm, Rsum_split, IHn. reflexivity.
Qed.
Lemma Rsum_const n a : Rsum n (fun _ => a) = INR n * a.
Proof. induction n; [cbn; lra|]. rewrite S_INR. cbn [Rsum]. rewrite IHn. lra. Qed.
Lemma Rsum_abs n f : Rabs (Rsum n f) <= Rsum n (fun i => Rabs (f i)).
Proof.
  induction n; cbn; [rewrite Rabs_R0; lra|].
  eapply Rle_trans; [apply Rabs_triang|]. lra.
Qed.

(** ** model sums over the reals *)
Lemma csum_R b n (f : nat -> cell (RT b)) g :
  (forall i, (i < n)%nat -> f i = Some (g i)) -> csum n f = Some (Rsum n g).
Proof.
  induction n; intros H; cbn; [reflexivity|]. rewrite IHn, (H n) by auto. reflexivity.
Qed.
Lemma iter_R b n (g : nat -> cell (RT b) -> cell (RT b)) f a :
  (forall i (x : R), (i < n)%nat -> g i (Some x) = Some (x + f i)) ->
  iter n g (Some a) = (Some (a + Rsum n f) : cell (RT b)).
Proof.
  induction n; intros H; cbn [iter Rsum]; [f_equal; cbn; lra|].
  rewrite IHn by auto. rewrite H by lia. f_equal. cbn; lra.
Qed.
Lemma cofZ_R b z : (cofZ z : cell (RT b)) = Some (IZR z).
Proof. reflexivity. Qed.
