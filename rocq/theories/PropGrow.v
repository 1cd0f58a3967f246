(** * Property C127: how large the elements become during elimination. *)

From Coq Require Import Reals.
From Verif Require Import Base Targets Matrix Sparse Sle SpecMatrix SpecSparse SpecSle GeGrow SleWit GeGrowWit.
Local Open Scope nat_scope.

(** C127.  [ge_a g] is the private matrix m_a, the eliminated system with its
    right hand side as the last column. *)
Theorem C127_growth :
  forall (dbg : bool) priv (hp : heap (RT dbg)) g J W right prev result n m D w b B,
    hreach priv hp -> ge_names g J W right result -> systemR hp J W right n m D w b -> 0 < m ->
    (forall r c, r < m -> c < m -> (Rabs (JWJt n D w r c) <= B)%R) -> (forall r, r < m -> (Rabs (b r) <= B)%R) ->
    forall hp', ge_solve g J W right prev result hp = Ok (hp', true) ->
    exists U, showsR (hm hp') (ge_a g) (m + 1) m U /\
      forall r c, r < m -> c <= m -> (Rabs (U r c) <= 2 ^ r * B)%R.
Proof. exact ge_grows. Qed.
Print Assumptions C127_growth.
(** the other hypotheses, and a solve that ends, are those of C17 *)
Example C127_example : exists B,
  (forall r c, r < 2 -> c < 2 -> (Rabs (JWJt 6 D2 w2 r c) <= B)%R) /\ (forall r, r < 2 -> (Rabs (b2 r) <= B)%R).
Proof. exact grow_bound. Qed.
