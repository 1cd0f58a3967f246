(** * Specification vocabulary for the Matrix properties.

    Nothing here looks inside a matrix: a matrix is observed through its
    dimensions and [get]; histories are lists of API calls. *)

From Coq Require Import Reals.
From Verif Require Import Base Targets Matrix.

(** ** API calls *)

Inductive mop (tg : target) : Type :=
| MInit0 (t w h : nat)
| MInitVal (t w h : nat) (v : cell tg)
| MResize (t w h : nat)
| MDestroy (t : nat)
| MSet (t c r : nat) (v : cell tg)
| MAdd (t c r : nat) (v : cell tg)
| MLoad (t : nat) (data : list (cell tg))
| MCopy (t ref : nat)
| MSwap (t a b : nat)
| MMul (this b t : nat)
| MComp (this b t : nat)
| MTMul (this b t : nat)
| MLScale (this sc t : nat)
| MRScale (this sc t : nat)
| MScale (this : nat) (s : cell tg) (t : nat)
| MSub (this b t : nat)
| MPlus (this b t : nat)
| MNeg (this t : nat)
| MMadd (this b : nat) (s : cell tg)
| MPmadd (this b : nat) (s : cell tg)
| MTrans (this t : nat).
Arguments MInit0 {tg}. Arguments MInitVal {tg}. Arguments MResize {tg}. Arguments MDestroy {tg}.
Arguments MSet {tg}. Arguments MAdd {tg}. Arguments MLoad {tg}. Arguments MCopy {tg}.
Arguments MSwap {tg}. Arguments MMul {tg}. Arguments MComp {tg}. Arguments MTMul {tg}.
Arguments MLScale {tg}. Arguments MRScale {tg}. Arguments MScale {tg}. Arguments MSub {tg}.
Arguments MPlus {tg}. Arguments MNeg {tg}. Arguments MMadd {tg}. Arguments MPmadd {tg}.
Arguments MTrans {tg}.

(** performing one call *)
Definition mstep {tg} (ms : mats tg) (o : mop tg) : res (mats tg) :=
  match o with
  | MInit0 t w h => minit0 ms t w h
  | MInitVal t w h v => minit_val ms t w h v
  | MResize t w h => mresize ms t w h
  | MDestroy t => Ok (mdestroy ms t)
  | MSet t c r v => mset ms t c r v
  | MAdd t c r v => maddto ms t c r v
  | MLoad t data => let* m := mat_load (ms t) data in Ok (upd ms t m)
  | MCopy t ref => mset_ref ms t ref
  | MSwap t a b => let* m := mat_row_swap (ms t) a b in Ok (upd ms t m)
  | MMul this b t => mmultiply ms this b t
  | MComp this b t => mcomponent ms this b t
  | MTMul this b t => mtranspose_multiply ms this b t
  | MLScale this sc t => mleft_scale ms this sc t
  | MRScale this sc t => mright_scale ms this sc t
  | MScale this s t => mscale ms this s t
  | MSub this b t => msubtract ms this b t
  | MPlus this b t => madd2 ms this b t
  | MNeg this t => mnegate ms this t
  | MMadd this b s => mmadd ms this b s
  | MPmadd this b s => mpmadd ms this b s
  | MTrans this t => mtranspose ms this t
  end.

(** the only calls whose arguments the library does not check even in debug
    builds: rows to swap must exist, the loaded block must be long enough *)
Definition margs_ok {tg} (ms : mats tg) (o : mop tg) : Prop :=
  match o with
  | MSwap t a b => a < m_h (ms t) /\ b < m_h (ms t)
  | MLoad t data => m_w (ms t) * m_h (ms t) <= length data
  | _ => True
  end.
Definition is_swap {tg} (o : mop tg) : bool := match o with MSwap _ _ _ => true | _ => false end.

(** every matrix freshly constructed *)
Definition fresh {tg} : mats tg := fun _ => mat_new.

(** stores reachable by API calls; with [noswap = true] the history contains
    no fastRowSwap *)
Inductive mreach {tg} (noswap : bool) : mats tg -> Prop :=
| reach_fresh : mreach noswap fresh
| reach_step ms o ms' :
    mreach noswap ms -> margs_ok ms o -> (noswap = true -> is_swap o = false) ->
    mstep ms o = Ok ms' -> mreach noswap ms'.

Fixpoint mrun {tg} (ms : mats tg) (os : list (mop tg)) : res (mats tg) :=
  match os with [] => Ok ms | o :: r => let* ms := mstep ms o in mrun ms r end.

(** ** Observations *)

(** matrix [id] is w by h and get(c, r) returns [f r c] *)
Definition shows {tg} (ms : mats tg) (id w h : nat) (f : nat -> nat -> cell tg) : Prop :=
  m_w (ms id) = w /\ m_h (ms id) = h /\
  forall r c, r < h -> c < w -> mget ms id c r = Ok (f r c).

(** the same for real contents *)
Definition showsR {b} (ms : mats (RT b)) (id w h : nat) (g : nat -> nat -> R) : Prop :=
  m_w (ms id) = w /\ m_h (ms id) = h /\
  forall r c, r < h -> c < w -> mget ms id c r = Ok (Some (g r c)).

(** sum of g 0 .. g (n-1) *)
Fixpoint Rsum (n : nat) (g : nat -> R) : R :=
  match n with O => 0%R | S n' => (Rsum n' g + g n')%R end.

(** the same fold in any arithmetic, from the left, starting at 0.0 *)
Fixpoint fold_sum {tg} (n : nat) (g : nat -> cell tg) : cell tg :=
  match n with O => cofZ 0 | S n' => cadd (fold_sum n' g) (g n') end.

(** ** Abstract tables (C01)

    A table has dimensions and, per element, either a known value or
    "unspecified" ([None]: never written since the last change of size). *)

Record table (tg : target) := mkTab {
  tb_w : nat; tb_h : nat; tb_at : nat -> nat -> option (cell tg) }.
Arguments mkTab {tg}. Arguments tb_w {tg}. Arguments tb_h {tg}. Arguments tb_at {tg}.

Definition tab_fresh {tg} : table tg := mkTab 0 0 (fun _ _ => None).
Definition tab_const {tg} (w h : nat) (v : cell tg) : table tg := mkTab w h (fun _ _ => Some v).
Definition tab_set {tg} (x : table tg) (c r : nat) (v : option (cell tg)) : table tg :=
  mkTab (tb_w x) (tb_h x)
    (fun r' c' => if Nat.eqb r' r && Nat.eqb c' c then v else tb_at x r' c').

(** the table machine: [None] when the arguments are out of range; only the
    calls named in C01 are given a meaning here *)
Definition tstep {tg} (ts : nat -> table tg) (o : mop tg) : option (nat -> table tg) :=
  match o with
  | MInit0 t w h => Some (upd ts t (tab_const w h (cofZ 0)))
  | MInitVal t w h v => Some (upd ts t (tab_const w h v))
  | MResize t w h =>
      if Nat.eqb w (tb_w (ts t)) && Nat.eqb h (tb_h (ts t)) then Some ts
      else Some (upd ts t (mkTab w h (fun _ _ => None)))
  | MDestroy t => Some (upd ts t tab_fresh)
  | MSet t c r v =>
      if Nat.ltb c (tb_w (ts t)) && Nat.ltb r (tb_h (ts t))
      then Some (upd ts t (tab_set (ts t) c r (Some v))) else None
  | MAdd t c r v =>
      if Nat.ltb c (tb_w (ts t)) && Nat.ltb r (tb_h (ts t))
      then Some (upd ts t (tab_set (ts t) c r
        (match tb_at (ts t) r c with Some x => Some (cadd x v) | None => None end))) else None
  | MCopy t ref => Some (upd ts t (ts ref))
  | MSwap t a b =>
      if Nat.ltb a (tb_h (ts t)) && Nat.ltb b (tb_h (ts t))
      then Some (upd ts t (mkTab (tb_w (ts t)) (tb_h (ts t))
        (fun r c => tb_at (ts t) (if Nat.eqb r a then b else if Nat.eqb r b then a else r) c)))
      else None
  | _ => None
  end.
Fixpoint trun {tg} (ts : nat -> table tg) (os : list (mop tg)) : option (nat -> table tg) :=
  match os with
  | [] => Some ts
  | o :: r => match tstep ts o with Some ts' => trun ts' r | None => None end
  end.

(** the store reads as the tables say *)
Definition agrees {tg} (ms : mats tg) (ts : nat -> table tg) : Prop :=
  forall id, m_w (ms id) = tb_w (ts id) /\ m_h (ms id) = tb_h (ts id) /\
    forall r c, r < tb_h (ts id) -> c < tb_w (ts id) ->
      exists x, mget ms id c r = Ok x /\
        (forall v, tb_at (ts id) r c = Some v -> x = v).
