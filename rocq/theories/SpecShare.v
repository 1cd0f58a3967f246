(** * Specification vocabulary: systems that share a linear solver. *)

From Verif Require Import Base Targets Matrix Sparse Sle State Ode Forces Constraints System SpecSle SpecSys SpecDyn.
Local Open Scope nat_scope.

Section S.
Context {tg : target}.

(** the system's own matrices are the same; the others may differ *)
Definition alike (hp hp' : heap tg) : Prop :=
  (forall i, i < ifree -> hm hp' i = hm hp i) /\ (forall i, i < sfree -> hs hp' i = hs hp i).
(** the same system but for the matrices of its linear solver *)
Definition same_own (y y' : sys tg) : Prop := exists hp, y' = with_heap y hp /\ alike (y_heap y) hp.

(** the same outcome: results that differ in nothing but the solver's matrices,
    or the same kind of failure *)
Definition agree (r r' : res (world tg * sys tg)) : Prop :=
  match r, r' with
  | Ok (w, y), Ok (w', y') => w' = w /\ same_own y y'
  | AssertFail, AssertFail | UB, UB | OutOfFuel, OutOfFuel => True
  | _, _ => False
  end.

(** a call of process on one of several systems *)
Record turn := mkTurn { t_who : nat; t_dt : cell tg; t_steps : nat; t_time : timing }.

(** Systems, with objects of their own, that use one linear solver: after a
    call on system i the others find the solver's matrices as system i left them. *)
Definition handed (y : nat -> sys tg) (i : nat) (y' : sys tg) : nat -> sys tg :=
  fun j => if Nat.eqb j i then y' else with_heap (y j) (lent (y_heap (y j)) (y_heap y')).
Fixpoint take_turns (k : nat -> flavour) (l : list turn) (w : nat -> world tg) (y : nat -> sys tg)
  : res ((nat -> world tg) * (nat -> sys tg)) :=
  match l with
  | [] => Ok (w, y)
  | c :: l =>
      let i := t_who c in
      let* (w', y') := process (k i) (t_dt c) (t_steps c) (t_time c) (w i) (y i) in
      take_turns k l (upd w i w') (handed y i y')
  end.

(** one system alone *)
Fixpoint in_row (k : flavour) (l : list turn) (w : world tg) (y : sys tg) : res (world tg * sys tg) :=
  match l with
  | [] => Ok (w, y)
  | c :: l => let* (w, y) := process k (t_dt c) (t_steps c) (t_time c) w y in in_row k l w y
  end.
Definition own_calls (i : nat) (l : list turn) : list turn := filter (fun c => Nat.eqb (t_who c) i) l.

(** a system that has come about by the calls of the library, whose constraints
    are bound to bodies in it and whose generators keep to their task *)
Definition in_order (priv : nat -> bool) (k : flavour) (w : world tg) (y : sys tg) : Prop :=
  (exists m, yreach k priv m w y) /\ attached w y /\ shaped w y /\ forall g, In g (y_gens y) -> orderly (g_kind (w_gen w g)).
(** matrices and linear solvers are used directly, except the matrices that are the system's own *)
Inductive used_directly (priv : nat -> bool) : sys tg -> sys tg -> Prop :=
| used_not y : used_directly priv y y
| used_once y o hp' y' : hallowed priv (y_heap y) o -> hstep (y_heap y) o = Ok hp' ->
    used_directly priv (with_heap y (lent (y_heap y) hp')) y' -> used_directly priv y y'.
(** integrators of one class that keep nothing but the length of the step *)
Definition same_method (o o' : ode tg) : Prop :=
  match o, o' with OdeBase _, OdeBase _ | OdeEuler _, OdeEuler _ | OdeNsv _, OdeNsv _ => True | _, _ => False end.
(** both stop, and in the same way *)
Definition fails {A B} (r : res A) (r' : res B) : Prop :=
  match r, r' with AssertFail, AssertFail | UB, UB | OutOfFuel, OutOfFuel => True | _, _ => False end.
End S.
Arguments turn : clear implicits.
