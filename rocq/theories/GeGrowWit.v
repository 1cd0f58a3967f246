(** * A system for C127. *)

From Coq Require Import Reals Lra.
From Verif Require Import Base Targets Matrix Sparse Sle SpecMatrix SpecSparse SpecSle MatrixWit SleWit.
Local Open Scope nat_scope.

Lemma grow_bound : exists B,
  (forall r c, r < 2 -> c < 2 -> (Rabs (JWJt 6 D2 w2 r c) <= B)%R) /\ (forall r, r < 2 -> (Rabs (b2 r) <= B)%R).
Proof.
  exists 5%R. split.
  - intros r c Hr Hc. destruct r as [|[|r]]; [| |lia]; (destruct c as [|[|c]]; [| |lia]);
      unfold JWJt, D2, w2, row_major; cbn; apply Rabs_le; lra.
  - intros r Hr. destruct r as [|[|r]]; [| |lia]; unfold b2, row_major; cbn; apply Rabs_le; lra.
Qed.
