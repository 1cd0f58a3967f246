(** * Specification vocabulary for steps of the fourth-order solver, in the reals. *)

From Coq Require Import Reals.
From Verif Require Import Base Targets State Constraints System SpecState SpecDyn SpecSolve.
Local Open Scope nat_scope.

Section S.
Context {dbg : bool}.
Notation T := (RT dbg).
Notation cl := (cell T).

(** the motion K has positions q and velocities v *)
Definition real_kin (y : sys T) (K : kin T) (q v : nat -> nat -> R) : Prop :=
  forall b d, In b (y_bodies y) -> d < 3 -> k_q K b d = (Some (q b d) : cl) /\ k_v K b d = (Some (v b d) : cl).
(** in every motion the generators put the force f on the bodies, the
    constraints give J, dJ/dt, C, ks, kd, and J M^-1 J^T is not singular *)
Definition lawful (w : world T) (y : sys T) (M : nat -> nat -> R)
    (f : (nat -> nat -> R) -> (nat -> nat -> R) -> nat -> nat -> R)
    (J Jd : (nat -> nat -> R) -> (nat -> nat -> R) -> nat -> nat -> nat -> R)
    (C ks kd : (nat -> nat -> R) -> (nat -> nat -> R) -> nat -> nat -> R) : Prop :=
  forall K h q v, real_kin y K q v -> pushesR w y K h (f q v) /\ regular w y M (J q v) /\
    exists L, answers w y K (Some h : cl) L /\ rows_are w y (l_J L) (J q v) /\ rows_are w y (l_Jd L) (Jd q v) /\
      row_is w y (l_C L) (C q v) /\ row_is w y (l_ks L) (ks q v) /\ row_is w y (l_kd L) (kd q v).
(** the accelerations a in the motion K obey the stabilised constraint
    equation and Newton's law with forces J^T x *)
Definition stabilised w y M f J Jd C ks kd (K : kin T) (h : cl) (a : nat -> nat -> cl) : Prop :=
  exists q v ar x, real_kin y K q v /\ (forall b d, In b (y_bodies y) -> d < 3 -> a b d = (Some (ar b d) : cl)) /\
    every_row w y (fun c j => along w (J q v) ar c j + along w (Jd q v) v c j
      = - (ks q v c j * C q v c j) - kd q v c j * along w (J q v) v c j)%R /\
    forall b d, In b (y_bodies y) -> d < 3 -> (M b d * ar b d = f q v b d + acts w y (J q v) x b d)%R.
End S.
