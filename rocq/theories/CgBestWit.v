(** * Scenes for C125 and C126. *)

From Coq Require Import Reals Lra.
From Verif Require Import Base Targets Matrix Sparse Sle SpecMatrix SpecSparse SpecSle RealSum SleWit SpecKrylov CgBest MatrixWit.
Local Open Scope nat_scope.

Lemma two_rows x : annihilated 2 (JWJt 6 D2 w2) (residual 2 (JWJt 6 D2 w2) b2 x) 2.
Proof.
  exists (fun j => match j with 0 => 7 / 9 | _ => - (1 / 9) end)%R. intros i Hi. cbn [Rsum power]. generalize (residual 2 (JWJt 6 D2 w2) b2 x). intros r.
  unfold mulv, JWJt, D2, w2, row_major. destruct i as [|[|i]]; [| |lia]; cbn; field.
Qed.
(* rows that do not interact and have the same weight, any number of them *)
Lemma alike m s r : s <> 0%R -> annihilated m (fun i j => if Nat.eqb i j then s else 0%R) r 1.
Proof.
  intros Hs. exists (fun _ => / s)%R. intros i Hi. cbn [Rsum power]. unfold mulv.
  rewrite (Rsum_ext m _ (fun c => if Nat.eqb c i then s * r c else 0%R)%R).
  - rewrite (Rsum_single m i (fun c => s * r c)%R) by exact Hi. field. exact Hs.
  - intros c Hc. rewrite (Nat.eqb_sym i c). destruct (Nat.eqb c i); ring.
Qed.
Lemma no_worse m A b x k y : best_of m A b x k y -> (energy m A b y <= energy m A b x)%R.
Proof.
  intros [_ H]. apply H. exists (fun _ => 0%R). intros i Hi. rewrite Rsum_eq0; [ring|]. intros; ring.
Qed.
