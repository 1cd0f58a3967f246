(** * Specification vocabulary for conjugate gradient: Krylov spaces. *)

From Coq Require Import Reals.
From Verif Require Import Base SpecMatrix SpecSle.
Local Open Scope nat_scope.

(** A^j r *)
Fixpoint power (m : nat) (A : nat -> nat -> R) (r : nat -> R) (j : nat) : nat -> R :=
  match j with O => r | S j => mulv m A (power m A r j) end.
(** y = c_0 r + c_1 A r + ... + c_(k-1) A^(k-1) r *)
Definition krylov (m : nat) (A : nat -> nat -> R) (r : nat -> R) (k : nat) (y : nat -> R) : Prop :=
  exists c, forall i, i < m -> y i = Rsum k (fun j => c j * power m A r j i)%R.
(** b - A x *)
Definition residual (m : nat) (A : nat -> nat -> R) (b x : nat -> R) (i : nat) : R := (b i - mulv m A x i)%R.
(** r = c_1 A r + ... + c_d A^d r: a polynomial of degree d, 1 at zero, that
    vanishes at the eigenvalues of A which r has a part in *)
Definition annihilated (m : nat) (A : nat -> nat -> R) (r : nat -> R) (d : nat) : Prop :=
  exists c, forall i, i < m -> r i = Rsum d (fun j => c j * power m A r (S j) i)%R.
(** of all points that differ from x by a vector of the k-th Krylov space, y is
    the one of least energy *)
Definition best_of (m : nat) (A : nat -> nat -> R) (b x : nat -> R) (k : nat) (y : nat -> R) : Prop :=
  krylov m A (residual m A b x) k (fun i => y i - x i)%R /\
  forall z, krylov m A (residual m A b x) k (fun i => z i - x i)%R ->
    (energy m A b y <= energy m A b z)%R /\ (energy m A b z = energy m A b y -> forall i, i < m -> z i = y i).
(** the solver's notion of a good enough point *)
Definition good_enough (m : nat) (A : nat -> nat -> R) (b : nat -> R) (me mi : R) (x : nat -> R) : Prop :=
  forall i, i < m -> (Rabs (residual m A b x i) <= Rmax (Rabs (me * b i)) mi)%R.
