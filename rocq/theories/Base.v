(** * Base: outcomes, number targets, cells, loops.

    Nothing in this file models one particular C++ function; it fixes the
    vocabulary every model file uses.

    - [res] : outcome of running a piece of C++: normal result, a failed
      [assert] (only in builds without NDEBUG), undefined behaviour, or a
      [while] loop that ran out of the fuel the model gave it.
    - [target] : the arithmetic the code is compiled for (the type [double],
      its operations) and whether asserts are compiled in.  It is a record of
      *operations only*, no laws: a theorem stated for every [target] holds in
      particular for IEEE binary64 ([Targets.F64]).
    - [cell] : the content of one [double] in memory.  [None] is an
      indeterminate value (storage from [new double[k]] never written), or a
      value the exact-arithmetic targets cannot represent (division by zero).
      Indeterminate values may be copied; arithmetic on them is again
      indeterminate; branching on them is [UB]. *)

From Coq Require Export List ZArith Lia Bool Arith.
Export ListNotations.

(** ** Outcomes *)

Inductive res (A : Type) : Type :=
| Ok (a : A)
| AssertFail      (* assert(...) failed, NDEBUG not defined *)
| UB              (* undefined behaviour *)
| OutOfFuel.      (* the model's bound on a while loop was exhausted *)
Arguments Ok {A} a.
Arguments AssertFail {A}.
Arguments UB {A}.
Arguments OutOfFuel {A}.

Definition bind {A B : Type} (r : res A) (k : A -> res B) : res B :=
  match r with
  | Ok a => k a
  | AssertFail => AssertFail
  | UB => UB
  | OutOfFuel => OutOfFuel
  end.

Notation "'let*' x := e 'in' k" := (bind e (fun x => k))
  (at level 200, x pattern, e at level 100, k at level 200, right associativity).

(** ** Targets: what [double] is, and whether asserts are compiled in *)

Record target := mkTarget {
  num : Type;
  n_ofZ : Z -> num;                     (* int / literal to double *)
  n_add : num -> num -> num;
  n_sub : num -> num -> num;
  n_mul : num -> num -> num;
  n_opp : num -> num;
  n_abs : num -> num;                   (* std::abs *)
  n_div : num -> num -> option num;     (* None: not representable (exact targets, x/0) *)
  n_sqrt : num -> option num;
  n_sin : num -> option num;
  n_cos : num -> option num;
  n_ltb : num -> num -> bool;           (* x < y  *)
  n_leb : num -> num -> bool;           (* x <= y *)
  n_eqb : num -> num -> bool;           (* x == y *)
  n_fmin : num -> num -> num;           (* std::fmin *)
  n_fmax : num -> num -> num;           (* std::fmax *)
  n_finite : num -> bool;               (* !isnan && !isinf *)
  n_dblmax : num;                       (* DBL_MAX *)
  asserts_on : bool                     (* true: NDEBUG not defined *)
}.

(** [assert(b)] *)
Definition massert (tg : target) (b : bool) : res unit :=
  if b then Ok tt else if asserts_on tg then AssertFail else Ok tt.

(** ** Cells *)

Definition cell (tg : target) : Type := option (num tg).

Definition lift1 {tg} (f : num tg -> num tg) (a : cell tg) : cell tg :=
  match a with Some x => Some (f x) | None => None end.
Definition lift1p {tg} (f : num tg -> option (num tg)) (a : cell tg) : cell tg :=
  match a with Some x => f x | None => None end.
Definition lift2 {tg} (f : num tg -> num tg -> num tg) (a b : cell tg) : cell tg :=
  match a, b with Some x, Some y => Some (f x y) | _, _ => None end.
Definition lift2p {tg} (f : num tg -> num tg -> option (num tg)) (a b : cell tg) : cell tg :=
  match a, b with Some x, Some y => f x y | _, _ => None end.

Definition cadd {tg} (a b : cell tg) : cell tg := lift2 (n_add tg) a b.
Definition csub {tg} (a b : cell tg) : cell tg := lift2 (n_sub tg) a b.
Definition cmul {tg} (a b : cell tg) : cell tg := lift2 (n_mul tg) a b.
Definition cdiv {tg} (a b : cell tg) : cell tg := lift2p (n_div tg) a b.
Definition copp {tg} (a : cell tg) : cell tg := lift1 (n_opp tg) a.
Definition cabs {tg} (a : cell tg) : cell tg := lift1 (n_abs tg) a.
Definition csqrt {tg} (a : cell tg) : cell tg := lift1p (n_sqrt tg) a.
Definition csin {tg} (a : cell tg) : cell tg := lift1p (n_sin tg) a.
Definition ccos {tg} (a : cell tg) : cell tg := lift1p (n_cos tg) a.
Definition cfmin {tg} (a b : cell tg) : cell tg := lift2 (n_fmin tg) a b.
Definition cfmax {tg} (a b : cell tg) : cell tg := lift2 (n_fmax tg) a b.
Definition cofZ {tg} (z : Z) : cell tg := Some (n_ofZ tg z).
(** decimal literal a/b with a, b exactly representable, e.g. 1E-3 = lit 1 1000 *)
Definition clit {tg} (a b : Z) : cell tg := cdiv (cofZ a) (cofZ b).
Definition cdblmax {tg} : cell tg := Some (n_dblmax tg).

Declare Scope cell_scope.
Delimit Scope cell_scope with cell.
Notation "a + b" := (cadd a b) : cell_scope.
Notation "a - b" := (csub a b) : cell_scope.
Notation "a * b" := (cmul a b) : cell_scope.
Notation "a / b" := (cdiv a b) : cell_scope.
Notation "- a" := (copp a) : cell_scope.

(** branching on an indeterminate value is undefined behaviour *)
Definition cmp {tg} (f : num tg -> num tg -> bool) (a b : cell tg) : res bool :=
  match a, b with Some x, Some y => Ok (f x y) | _, _ => UB end.
Definition clt {tg} (a b : cell tg) : res bool := cmp (n_ltb tg) a b.   (* a < b *)
Definition cle {tg} (a b : cell tg) : res bool := cmp (n_leb tg) a b.   (* a <= b *)
Definition ceq {tg} (a b : cell tg) : res bool := cmp (n_eqb tg) a b.   (* a == b *)
Definition cfinite {tg} (a : cell tg) : res bool :=
  match a with Some x => Ok (n_finite tg x) | None => UB end.

(** ** Loops *)

(** [k] iterations starting at [i]: for (int x = i; x < i + k; ++x) *)
Fixpoint for_from {S : Type} (k i : nat) (f : nat -> S -> res S) (s : S) : res S :=
  match k with
  | O => Ok s
  | Datatypes.S k' => let* s' := f i s in for_from k' (Datatypes.S i) f s'
  end.

(** for (int i = 0; i < n; ++i) *)
Definition for_ {S : Type} (n : nat) (f : nat -> S -> res S) (s : S) : res S :=
  for_from n 0 f s.

(** for (int i = lo; i < hi; ++i) *)
Definition for_range {S : Type} (lo hi : nat) (f : nat -> S -> res S) (s : S) : res S :=
  for_from (hi - lo) lo f s.

(** the nested loop over rows i < h and columns j < w *)
Definition for2 {S : Type} (h w : nat) (f : nat -> nat -> S -> res S) (s : S) : res S :=
  for_ h (fun i s => for_ w (fun j s => f i j s) s) s.

(** ** Memory blocks *)

(** write position [i] of a block; [None] when out of bounds *)
Fixpoint list_set {A : Type} (l : list A) (i : nat) (v : A) : option (list A) :=
  match l, i with
  | [], _ => None
  | _ :: r, O => Some (v :: r)
  | x :: r, Datatypes.S i' =>
      match list_set r i' v with Some r' => Some (x :: r') | None => None end
  end.

Definition lift_opt {A : Type} (o : option A) : res A :=
  match o with Some a => Ok a | None => UB end.

(** stores of named objects *)
Definition upd {A : Type} (s : nat -> A) (i : nat) (v : A) : nat -> A :=
  fun k => if Nat.eqb k i then v else s k.
