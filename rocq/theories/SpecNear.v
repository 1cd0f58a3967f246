(** * Spec: how far the right side of row i may be off. *)

From Coq Require Import Reals.
From Verif Require Import Base Targets State Constraints System SpecMatrix SpecSle SpecCon SpecDyn SpecSolve SpecLimits SpecLaw.
From Verif Require SpecSlip.
Local Open Scope nat_scope.

(** the sum of |A i j| max(1/1000, |x j|) over the columns j after i *)
Definition later (m : nat) (A : nat -> nat -> R) (x : nat -> R) (i : nat) : R :=
  Rsum (m - (i + 1)) (fun u => Rabs (A i (i + 1 + u)%nat) * Rmax (1 / 1000) (Rabs (x (i + 1 + u)%nat)))%R.

(** the least and the greatest multiplier of a constraint of class and parameters k: its limits, or the greatest double *)
Definition least (k : rkind) : R := match limits_of k with Some (a, _) => a | None => (- R_dblmax)%R end.
Definition most (k : rkind) : R := match limits_of k with Some (_, a) => a | None => R_dblmax end.

Section S.
Context {dbg : bool}.
Notation T := (RT dbg).
(** what the other rows do to row (c,j), in magnitude: impulses x h, and 1/1000 where they are smaller *)
Definition others (w : world T) (y : sys T) (M : nat -> nat -> R) (J : nat -> nat -> nat -> R) (h : R) (x : nat -> nat -> R) (c j : nat) : R :=
  Lsum (row_list w y) (fun '(c', j') => if Nat.eqb c' c && Nat.eqb j' j then 0%R
    else (Rabs (SpecSlip.coupling w y M J c j c' j') * Rmax (1 / 1000) (Rabs (x c' j' * h)))%R).
(** the velocities v satisfy row (c,j) with multiplier x between lo and hi up
    to an error e: the row's velocity is e, or the multiplier is at a limit
    and the row is violated in the direction in which it may not push *)
Definition holds_within (lo hi x r e : R) : Prop :=
  (lo <= x <= hi /\ (r = e \/ (x = lo /\ r > e) \/ (x = hi /\ r < e)))%R.
(** a round (in the sense of motion_by) with multipliers x, which lead to
    velocities that satisfy every row within tol / (1 - tol) of what the other
    rows do to it; beta: the bias, M: the masses *)
Definition near_round (w : world T) (y : sys T) (h beta tol : R) (M : nat -> nat -> R)
    (K : kin T) (f : nat -> nat -> cell T) (F : nat -> nat -> nat -> nat -> cell T) : Prop :=
  forall L J C vb lo hi v g, answers w y K (Some h : cell T) L -> rows_are w y (l_J L) J -> row_is w y (l_C L) C -> row_is w y (l_vb L) vb ->
    row_is w y (l_lo L) lo -> row_is w y (l_hi L) hi ->
    (forall b d, In b (y_bodies y) -> d < 3 -> k_v K b d = Some (v b d) /\ f b d = Some (g b d)) ->
    every_row w y (fun c j => (0 < mobility w y M J c j)%R) -> every_row w y (fun c j => (lo c j <= hi c j)%R) ->
    exists x e, (forall c j k d, In c (y_cons y) -> j < c_count (w_con w c) -> k < c_bodycount (w_con w c) -> d < 3 ->
        F d c j k = Some (J c j (3 * k + d)%nat * x c j)%R) /\
      every_row w y (fun c j =>
        holds_within (lo c j) (hi c j) (x c j)
          (along w J (fun b d => v b d + (g b d + acts w y J x b d) / M b d * h) c j + vb c j + beta / h * C c j)%R (e c j) /\
        (Rabs (e c j) <= tol / (1 - tol) * others w y M J h x c j)%R).
End S.
