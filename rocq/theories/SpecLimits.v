(** * Specification vocabulary for multipliers and force limits. *)

From Coq Require Import Reals.
From Verif Require Import Base Targets Matrix Sle State Constraints System SpecDyn SpecSolve.
Local Open Scope nat_scope.

Section S.
Context {tg : target}.

(** one of the three linear solvers of the library *)
Definition supplied (l : sle tg) : Prop := match l with SleBase _ => False | _ => True end.
(** the constraint forces F are multipliers x, one per row, times the rows of J *)
Definition by_rows (w : world tg) (y : sys tg) (J : nat -> nat -> nat -> cell tg) (x : nat -> nat -> cell tg)
    (F : nat -> nat -> nat -> nat -> cell tg) : Prop :=
  forall c j k d, In c (y_cons y) -> j < c_count (w_con w c) -> k < c_bodycount (w_con w c) -> d < 3 ->
    F d c j k = cmul (x c j) (J c j (3 * k + d)).
(** a round (in the sense of motion_by): the forces are multipliers times
    the rows the constraints compute in the motion K, and the multipliers satisfy P *)
Definition with_rows (w : world tg) (y : sys tg) (h : cell tg) (P : law tg -> (nat -> nat -> cell tg) -> Prop)
    (K : kin tg) (f : nat -> nat -> cell tg) (F : nat -> nat -> nat -> nat -> cell tg) : Prop :=
  forall L, answers w y K h L -> exists x, P L x /\ by_rows w y (l_J L) x F.
(** the multipliers are impulses divided by h, and every impulse is clamped to
    the limits times h *)
Definition clamped (w : world tg) (y : sys tg) (h : cell tg) (L : law tg) (x : nat -> nat -> cell tg) : Prop :=
  forall c j, In c (y_cons y) -> j < c_count (w_con w c) ->
    exists lo hi z, cmul (l_lo L c j) h = Some lo /\ cmul (l_hi L c j) h = Some hi /\
      x c j = cmul (cdiv (cofZ 1) h) (Some (n_fmax tg lo (n_fmin tg hi z))).
End S.

Section R.
Context {dbg : bool}.
Notation T := (RT dbg).
(** the multipliers satisfy the limits of the law, wherever these are in order *)
Definition inside (w : world T) (y : sys T) (L : law T) (x : nat -> nat -> cell T) : Prop :=
  forall c j, In c (y_cons y) -> j < c_count (w_con w c) ->
    exists lo hi X, l_lo L c j = Some lo /\ l_hi L c j = Some hi /\ x c j = Some X /\ ((lo <= hi)%R -> (lo <= X <= hi)%R).
(** what a unit multiplier of row (c,j) does to that row, the reciprocal of an effective mass *)
Definition mobility (w : world T) (y : sys T) (M : nat -> nat -> R) (J : nat -> nat -> nat -> R) (c j : nat) : R :=
  along w J (fun b d => acts w y J (fun c' j' => if Nat.eqb c' c && Nat.eqb j' j then 1%R else 0%R) b d / M b d)%R c j.
(** the multipliers remembered from the last step, if they have the right number, are real *)
Definition remembers (w : world T) (y : sys T) : Prop :=
  forall r, m_h (hm (y_heap y) ilambda) = full_count w y -> r < full_count w y ->
    exists x : R, mget (hm (y_heap y)) ilambda 0 r = Ok (Some x : cell T).
End R.
