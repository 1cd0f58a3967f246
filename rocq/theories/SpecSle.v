(** * Specification vocabulary for the linear solver properties. *)

From Coq Require Import Reals.
From Verif Require Import Base Targets Matrix Sparse Sle SpecMatrix SpecSparse.

(** ** Histories of a program that owns dense and sparse matrices and solvers *)

Inductive hop (tg : target) : Type :=
| HM (o : mop tg)                       (* a Matrix call *)
| HS (o : sop tg)                       (* a SparseMatrix<3> call *)
| HSolve (s : sle tg) (J W right a4 a5 : nat)
| HSolveLim (s : sle tg) (J W right limits result previous : nat).
Arguments HM {tg}. Arguments HS {tg}. Arguments HSolve {tg}. Arguments HSolveLim {tg}.

Definition hstep {tg} (hp : heap tg) (o : hop tg) : res (heap tg) :=
  match o with
  | HM o => let* ms := mstep (hm hp) o in Ok {| hm := ms; hs := hs hp |}
  | HS o => let* ss := sstep 3 2 (hs hp) o in Ok {| hm := hm hp; hs := ss |}
  | HSolve s J W rhs a4 a5 => let* x := sle_solve s J W rhs a4 a5 hp in Ok (fst x)
  | HSolveLim s J W rhs l r p => let* x := sle_solve_limits s J W rhs l r p hp in Ok (fst x)
  end.

(** unchecked arguments are in range; no SparseMatrix::destroy (C15); the
    matrices marked [priv] never have rows swapped (used for the private
    vectors of the conjugate gradient solver, to which only it has access) *)
Definition hallowed {tg} (priv : nat -> bool) (hp : heap tg) (o : hop tg) : Prop :=
  match o with
  | HM o => margs_ok (hm hp) o /\ forall t a b, o = MSwap t a b -> priv t = false
  | HS o => is_destroy o = false
  | HSolve (SleGe g) _ _ _ _ _ => priv (ge_a g) = false
  | _ => True
  end.

Definition hfresh {tg} : heap tg := {| hm := fresh; hs := sfresh |}.

Inductive hreach {tg} (priv : nat -> bool) : heap tg -> Prop :=
| hreach_fresh : hreach priv hfresh
| hreach_step hp o hp' :
    hreach priv hp -> hallowed priv hp o -> hstep hp o = Ok hp' -> hreach priv hp'.

Fixpoint hrun {tg} (hp : heap tg) (os : list (hop tg)) : res (heap tg) :=
  match os with [] => Ok hp | o :: r => let* hp := hstep hp o in hrun hp r end.

(** ** Inputs of a solve

    J has n columns and m rows (m constraints); W has n entries, right has m. *)
Definition system {tg} (hp : heap tg) (J W right n m : nat)
    (blk : nat -> nat -> Z) (v : nat -> nat -> nat -> cell tg) (w b : nat -> cell tg) : Prop :=
  sp_shows 3 2 (hs hp J) n m blk v /\ blocks_inside 3 2 n m blk /\
  shows (hm hp) W 1 n (fun r _ => w r) /\ shows (hm hp) right 1 m (fun r _ => b r).

(** the same with real contents; D is the dense form of J *)
Definition systemR {dbg} (hp : heap (RT dbg)) (J W right n m : nat)
    (D : nat -> nat -> R) (w b : nat -> R) : Prop :=
  exists blk v,
    sp_shows 3 2 (hs hp J) n m blk (fun r e k => Some (v r e k)) /\ blocks_inside 3 2 n m blk /\
    sums 3 2 n m blk v D /\
    showsR (hm hp) W 1 n (fun r _ => w r) /\ showsR (hm hp) right 1 m (fun r _ => b r).

(** the solver's own matrices and the arguments are different objects *)
Definition ge_names (g : ge_solver) (J W right result : nat) : Prop :=
  NoDup [W; right; result; ge_a g; ge_M g] /\ J <> ge_reg g.
Definition gs_names {tg} (g : gs_solver tg) (J W right result : nat) : Prop :=
  NoDup [W; right; result; gs_M g] /\ J <> gs_reg g.
Definition gs_names_limits {tg} (g : gs_solver tg) (J W right limits result : nat) : Prop :=
  NoDup [W; right; limits; result; gs_M g] /\ J <> gs_reg g.
Definition cg_names {tg} (g : cg_solver tg) (W right result : nat) (previous : option nat) : Prop :=
  NoDup [W; right; result; cg_mreg0 g; cg_mreg1 g; cg_Ap g; cg_x g; cg_r g; cg_p g] /\
  forall p, previous = Some p -> ~ In p [cg_mreg0 g; cg_mreg1 g; cg_Ap g; cg_x g; cg_r g; cg_p g].
Definition cg_private {tg} (g : cg_solver tg) (priv : nat -> bool) : Prop :=
  priv (cg_Ap g) = true /\ priv (cg_r g) = true /\ priv (cg_p g) = true.

(** J, W and right are still the same objects *)
Definition inputs_kept {tg} (hp hp' : heap tg) (J W right : nat) : Prop :=
  hs hp' J = hs hp J /\ hm hp' W = hm hp W /\ hm hp' right = hm hp right.

(** every value is determinate *)
Definition defined {tg} (x : cell tg) : Prop := x <> None.
(** division always yields a value, as in IEEE arithmetic *)
Definition total_division (tg : target) : Prop := forall x y, exists z, n_div tg x y = Some z.

(** ** Linear algebra *)

(** J diag(w) J^T *)
Definition JWJt (n : nat) (D : nat -> nat -> R) (w : nat -> R) (r c : nat) : R :=
  Rsum n (fun k => D r k * w k * D c k)%R.
(** (A x)_r *)
Definition mulv (m : nat) (A : nat -> nat -> R) (x : nat -> R) (r : nat) : R :=
  Rsum m (fun c => A r c * x c)%R.
Definition solves (m : nat) (A : nat -> nat -> R) (x b : nat -> R) : Prop :=
  forall r, r < m -> mulv m A x r = b r.
Definition nonsingular (m : nat) (A : nat -> nat -> R) : Prop :=
  forall x, solves m A x (fun _ => 0%R) -> forall c, c < m -> x c = 0%R.
Definition dot (m : nat) (x y : nat -> R) : R := Rsum m (fun i => x i * y i)%R.
Definition symmetric (m : nat) (A : nat -> nat -> R) : Prop :=
  forall r c, r < m -> c < m -> A r c = A c r.
Definition positive_definite (m : nat) (A : nat -> nat -> R) : Prop :=
  forall x, (exists c, c < m /\ x c <> 0%R) -> (0 < dot m x (mulv m A x))%R.
(** x^T A x / 2 - b^T x *)
Definition energy (m : nat) (A : nat -> nat -> R) (b x : nat -> R) : R :=
  (dot m x (mulv m A x) / 2 - dot m b x)%R.
Definition within (m : nat) (lo hi x : nat -> R) : Prop :=
  forall i, i < m -> (lo i <= x i <= hi i)%R.
(** x solves A x = b subject to lo <= x <= hi: where the residual does not
    vanish, it points out of the box at the limit x sits on *)
Definition solves_limited (m : nat) (A : nat -> nat -> R) (lo hi b x : nat -> R) : Prop :=
  within m lo hi x /\
  forall i, i < m ->
    (mulv m A x i = b i \/ (x i = lo i /\ mulv m A x i > b i) \/ (x i = hi i /\ mulv m A x i < b i))%R.

(** two runs end the same way, with the same vector of height m as result *)
Definition same_solution {tg} (r r' : res (heap tg * bool)) (result result' m : nat) : Prop :=
  match r, r' with
  | Ok (hp, ok), Ok (hp', ok') =>
      ok = ok' /\ exists x, shows (hm hp) result 1 m x /\ shows (hm hp') result' 1 m x
  | AssertFail, AssertFail | UB, UB | OutOfFuel, OutOfFuel => True
  | _, _ => False
  end.

(** every value of the system is determinate *)
Definition defined_system {tg} (n m : nat) (blk : nat -> nat -> Z) (v : nat -> nat -> nat -> cell tg)
    (w b : nat -> cell tg) : Prop :=
  (forall r e k, r < m -> e < 2 -> k < 3 -> blk r e <> 255%Z -> defined (v r e k)) /\
  (forall i, i < n -> defined (w i)) /\ (forall i, i < m -> defined (b i)).

(** ** The vector Gauss-Seidel starts from

    previous, if given and of height m; otherwise what result contains.  With
    limits, a result of another height counts as zero. *)
Definition start_limits {tg} (hp : heap tg) (previous : option nat) (result m : nat) (x : nat -> cell tg) : Prop :=
  (exists p, previous = Some p /\ shows (hm hp) p 1 m (fun r _ => x r)) \/
  ((forall p, previous = Some p -> m_h (hm hp p) <> m) /\
   (shows (hm hp) result 1 m (fun r _ => x r) \/
    (m_h (hm hp result) <> m /\ forall r, x r = cofZ 0))).
Definition start_plain {tg} (hp : heap tg) (previous : option nat) (result m : nat) (x : nat -> cell tg) : Prop :=
  (exists p, previous = Some p /\ shows (hm hp) p 1 m (fun r _ => x r)) \/
  ((forall p, previous = Some p -> m_h (hm hp p) <> m) /\ shows (hm hp) result 1 m (fun r _ => x r)).
(** the limits matrix: lower limits in column 0, upper limits in column 1 *)
Definition limits_are {tg} (ms : mats tg) (limits m : nat) (lo hi : nat -> cell tg) : Prop :=
  shows ms limits 2 m (fun r c => if Nat.eqb c 0 then lo r else hi r).

(** the same solver with another iteration limit *)
Definition with_iterations {tg} (g : gs_solver tg) (k : nat) : gs_solver tg :=
  mkGs (gs_M g) (gs_reg g) k (gs_min_delta g).

(** the vector conjugate gradient starts from: previous if given and of height
    m, otherwise zero *)
Definition start_cg {tg} (hp : heap tg) (previous : option nat) (m : nat) (x : nat -> cell tg) : Prop :=
  (exists p, previous = Some p /\ shows (hm hp) p 1 m (fun r _ => x r)) \/
  ((forall p, previous = Some p -> m_h (hm hp p) <> m) /\ forall r, x r = cofZ 0).
