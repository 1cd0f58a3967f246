(** * Models of the linear solvers.

    src/sle_solver.cpp, src/gaussian_elimination_sle_solver.cpp,
    src/gauss_seidel_sle_solver.cpp, src/conjugate_gradient_sle_solver.cpp.

    A heap is a store of Matrix objects [hm] and of SparseMatrix<3> objects
    [hs].  A solver is described by the names of its member objects and its
    parameters.  All solvers use SparseMatrix<3>, i.e. stride 3, 2 entries. *)

From Verif Require Import Base Matrix Sparse.

Section SleModel.
Context {tg : target}.
Local Open Scope cell_scope.

Record heap := mkHeap { hm : mats tg; hs : sps tg }.
Definition with_hm (h : heap) (ms : mats tg) : heap := {| hm := ms; hs := hs h |}.

(** ** Gaussian elimination *)

(* include/gaussian_elimination_sle_solver.h:28-30  m_a, m_M, m_reg *)
Record ge_solver := mkGe { ge_a : nat; ge_M : nat; ge_reg : nat }.

(* include/gaussian_elimination_sle_solver.h:21-25  fastAbs *)
Definition fast_abs (v : cell tg) : res (cell tg) :=
  let* pos := clt (cofZ 0) v in
  if (pos : bool) then Ok v else Ok (- v).

(* src/gaussian_elimination_sle_solver.cpp:51-59  search for the pivot row *)
Definition ge_find_pivot (ms : mats tg) (A : nat) (m h k : nat) : res (nat * cell tg) :=
  let* a0 := mget ms A k h in
  let* v0 := fast_abs a0 in
  for_range (h + 1) m (fun i '(imax, maxV) =>
    let* a := mget ms A k i in
    let* v := fast_abs a in
    let* gt := clt maxV v in
    if (gt : bool) then Ok (i, v) else Ok (imax, maxV)) (h, v0).

(* src/gaussian_elimination_sle_solver.cpp:67-74  eliminate below row h *)
Definition ge_eliminate (ms : mats tg) (A : nat) (m n h k : nat) : res (mats tg) :=
  for_range (h + 1) m (fun i ms =>
    let* x := mget ms A k i in
    let* y := mget ms A k h in
    let f := x / y in
    let* ms := mset ms A k i (cofZ 0) in
    for_range (k + 1) n (fun j ms =>
      let* p := mget ms A j i in
      let* q := mget ms A j h in
      mset ms A j i (p - q * f)) ms) ms.

(* src/gaussian_elimination_sle_solver.cpp:49-79  the while loop; every
   iteration increments k, so n iterations of fuel suffice *)
Fixpoint ge_loop (fuel : nat) (ms : mats tg) (A : nat) (m n h k : nat) : res (mats tg) :=
  if Nat.ltb h m && Nat.ltb k n then
    match fuel with
    | O => OutOfFuel
    | S fuel' =>
        let* (imax, maxV) := ge_find_pivot ms A m h k in
        let* z := ceq maxV (cofZ 0) in
        if (z : bool) then ge_loop fuel' ms A m n h (k + 1)
        else
          let* a := mat_row_swap (ms A) h imax in
          let* ms := ge_eliminate (upd ms A a) A m n h k in
          ge_loop fuel' ms A m n (h + 1) (k + 1)
    end
  else Ok ms.

(* src/gaussian_elimination_sle_solver.cpp:85-100  back substitution *)
Definition ge_back_substitute (ms : mats tg) (A result m n : nat) : res (mats tg) :=
  let* p := mget ms A (n - 1) (m - 1) in
  let* q := mget ms A (n - 2) (m - 1) in
  let* ms := mset ms result 0 (m - 1) (p / q) in
  for_ (m - 1) (fun t ms =>
    let i := (m - 2 - t)%nat in
    let* b_i := mget ms A (n - 1) i in
    let* sum := for_ (m - 1 - i) (fun u sum =>
      let j := (m - 1 - u)%nat in
      let* x := mget ms A j i in
      let* y := mget ms result 0 j in
      Ok (sum + x * y)) (cofZ 0) in
    let* d := mget ms A i i in
    let* z := ceq d (cofZ 0) in
    if negb z then mset ms result 0 i ((b_i - sum) / d)
    else mset ms result 0 i (cofZ 0)) ms.

(* src/gaussian_elimination_sle_solver.cpp:20-109  solve; the fourth argument
   (previous) is unused, as in the code *)
Definition ge_solve (g : ge_solver) (J W right previous result : nat) (hp : heap)
  : res (heap * bool) :=
  let* ss := sp_right_scale 3 2 (hs hp) (hm hp) J W (ge_reg g) in
  let* ms := sp_multiply_transpose 3 2 (ss (ge_reg g)) (ss J) (hm hp) (ge_M g) in
  let n := (m_w (ms (ge_M g)) + 1)%nat in
  let m := m_h (ms (ge_M g)) in
  let* _ := massert tg (Nat.eqb (m_h (ms right)) (m_w (ms (ge_M g)))) in
  if Nat.eqb n 0 || Nat.eqb m 0 then Ok ({| hm := ms; hs := ss |}, true)
  else
    let* ms := mresize ms result 1 m in
    let A := ge_a g in
    let* ms := mresize ms A n m in
    let* ms := for_ m (fun i ms =>
      let* ms := for_ (n - 1) (fun j ms =>
        let* x := mget ms (ge_M g) j i in
        mset ms A j i x) ms in
      let* x := mget ms right 0 i in
      mset ms A (n - 1) i x) ms in
    let* ms := ge_loop n ms A m n 0 0 in
    let* d := mget ms A (n - 2) (m - 1) in
    let* z := ceq d (cofZ 0) in
    let* _ := massert tg (negb z) in
    let* ms := ge_back_substitute ms A result m n in
    let* _ := for_ m (fun i _ =>
      let* x := mget ms result 0 i in
      let* f := cfinite x in
      massert tg f) tt in
    Ok ({| hm := ms; hs := ss |}, true).

(** ** Gauss-Seidel *)

(* include/gauss_seidel_sle_solver.h:26-27,42-43 *)
Record gs_solver := mkGs {
  gs_M : nat; gs_reg : nat; gs_max_iterations : nat; gs_min_delta : cell tg }.

(* src/gauss_seidel_sle_solver.cpp:6-13 default parameters *)
Definition gs_default (M reg : nat) : gs_solver :=
  {| gs_M := M; gs_reg := reg; gs_max_iterations := 128; gs_min_delta := clit 1 10 |}.

(* src/gauss_seidel_sle_solver.cpp:98-109 (= 133-144)  the candidate for
   component i.  k_next and k may be the same object *)
Definition gs_candidate (ms : mats tg) (left right k_next k n i : nat) : res (cell tg) :=
  let* s0 := for_ i (fun j s0 =>
    let* x := mget ms left j i in
    let* y := mget ms k_next 0 j in
    Ok (s0 + x * y)) (cofZ 0) in
  let* s1 := for_range (i + 1) n (fun j s1 =>
    let* x := mget ms left j i in
    let* y := mget ms k 0 j in
    Ok (s1 + x * y)) (cofZ 0) in
  let* d := mget ms left i i in
  let* r := mget ms right 0 i in
  Ok ((cofZ 1 / d) * (r - s0 - s1)).

(* src/gauss_seidel_sle_solver.cpp:113-115  maxDifference = max(...) *)
Definition gs_max (delta maxDifference : cell tg) : res (cell tg) :=
  let* gt := clt maxDifference delta in
  if (gt : bool) then Ok delta else Ok maxDifference.

(* src/gauss_seidel_sle_solver.cpp:89-121  solveIteration without limits *)
Definition gs_iteration (ms : mats tg) (left right k_next k : nat) : res (mats tg * cell tg) :=
  let n := m_h (ms k) in
  for_ n (fun i '(ms, maxDifference) =>
    let* k_next_i := gs_candidate ms left right k_next k n i in
    let* k_i := mget ms k 0 i in
    let min_k := cfmax (clit 1 1000) k_i in
    let delta := (cabs k_next_i - min_k) / min_k in
    let* maxDifference := gs_max delta maxDifference in
    let* ms := mset ms k_next 0 i k_next_i in
    Ok (ms, maxDifference)) (ms, cofZ 0).

(* src/gauss_seidel_sle_solver.cpp:146-148  clamp to the limits *)
Definition gs_clamp (limitMin limitMax x : cell tg) : cell tg :=
  cfmax limitMin (cfmin limitMax x).

(* src/gauss_seidel_sle_solver.cpp:123-160  solveIteration with limits *)
Definition gs_iteration_limits (ms : mats tg) (left right limits k_next k : nat)
  : res (mats tg * cell tg) :=
  let n := m_h (ms k) in
  for_ n (fun i '(ms, maxDifference) =>
    let* k_next_i := gs_candidate ms left right k_next k n i in
    let* limitMin := mget ms limits 0 i in
    let* limitMax := mget ms limits 1 i in
    let x := gs_clamp limitMin limitMax k_next_i in
    let* k_i := mget ms k 0 i in
    let min_k := cfmax (clit 1 1000) (cabs k_i) in
    let delta := cabs (x - k_i) / min_k in
    let* maxDifference := gs_max delta maxDifference in
    let* ms := mset ms k_next 0 i x in
    Ok (ms, maxDifference)) (ms, cofZ 0).

(* src/gauss_seidel_sle_solver.cpp:38-50 (and 73-86)  iterate until converged *)
Fixpoint gs_iterate (step : mats tg -> res (mats tg * cell tg)) (min_delta : cell tg)
  (iters : nat) (ms : mats tg) : res (mats tg * bool) :=
  match iters with
  | O => Ok (ms, false)
  | S iters' =>
      let* (ms, maxDelta) := step ms in
      let* conv := clt maxDelta min_delta in
      if (conv : bool) then Ok (ms, true) else gs_iterate step min_delta iters' ms
  end.

(* the common prefix: previous != nullptr && previous->getHeight() == n *)
Definition warm_start (ms : mats tg) (previous : option nat) (target n : nat) : res (mats tg) :=
  match previous with
  | Some p => if Nat.eqb (m_h (ms p)) n then mset_ref ms target p else Ok ms
  | None => Ok ms
  end.

(* src/gauss_seidel_sle_solver.cpp:20-51  solve(J, W, right, previous, result) *)
Definition gs_solve (g : gs_solver) (J W right : nat) (previous : option nat) (result : nat)
  (hp : heap) : res (heap * bool) :=
  let n := m_h (hm hp right) in
  let* ms := mresize (hm hp) result 1 n in
  let* ms := warm_start ms previous result n in
  let* ss := sp_right_scale 3 2 (hs hp) ms J W (gs_reg g) in
  let* ms := sp_multiply_transpose 3 2 (ss (gs_reg g)) (ss J) ms (gs_M g) in
  let* (ms, ok) := gs_iterate (fun ms => gs_iteration ms (gs_M g) right result result)
                     (gs_min_delta g) (gs_max_iterations g) ms in
  Ok ({| hm := ms; hs := ss |}, ok).

(* src/gauss_seidel_sle_solver.cpp:53-87  solveWithLimits(J, W, right, limits, result, previous) *)
Definition gs_solve_limits (g : gs_solver) (J W right limits result : nat)
  (previous : option nat) (hp : heap) : res (heap * bool) :=
  let n := m_h (hm hp right) in
  let* ms := (if negb (Nat.eqb (m_h (hm hp result)) n)
              then minit0 (hm hp) result 1 n else Ok (hm hp)) in
  let* ms := warm_start ms previous result n in
  let* ss := sp_right_scale 3 2 (hs hp) ms J W (gs_reg g) in
  let* ms := sp_multiply_transpose 3 2 (ss (gs_reg g)) (ss J) ms (gs_M g) in
  let* (ms, ok) := gs_iterate (fun ms => gs_iteration_limits ms (gs_M g) right limits result result)
                     (gs_min_delta g) (gs_max_iterations g) ms in
  Ok ({| hm := ms; hs := ss |}, ok).

(** ** Conjugate gradient *)

(* include/conjugate_gradient_sle_solver.h:32-43 (m_A is never used) *)
Record cg_solver := mkCg {
  cg_mreg0 : nat; cg_mreg1 : nat; cg_Ap : nat; cg_x : nat; cg_r : nat; cg_p : nat;
  cg_max_iterations : nat; cg_max_error : cell tg; cg_min_error : cell tg }.

(* src/conjugate_gradient_sle_solver.cpp:6-12  default parameters *)
Definition cg_default (mreg0 mreg1 Ap x r p : nat) : cg_solver :=
  {| cg_mreg0 := mreg0; cg_mreg1 := mreg1; cg_Ap := Ap; cg_x := x; cg_r := r; cg_p := p;
     cg_max_iterations := 1000; cg_max_error := clit 1 100; cg_min_error := clit 1 1000 |}.

(* src/conjugate_gradient_sle_solver.cpp:78-89  multiply: target = J W J^T x *)
Definition cg_multiply (g : cg_solver) (J : sparse tg) (ms : mats tg) (W x t : nat)
  : res (mats tg) :=
  let* ms := mresize ms t 1 (m_h (ms x)) in
  let* ms := sp_transpose_multiply_vector 3 2 J ms x (cg_mreg0 g) in
  let* ms := mcomponent ms W (cg_mreg0 g) (cg_mreg1 g) in
  sp_multiply 3 2 J ms (cg_mreg1 g) t.

(* src/conjugate_gradient_sle_solver.cpp:91-104  sufficientlySmall(x, target) *)
Definition cg_small (g : cg_solver) (ms : mats tg) (x t : nat) : res bool :=
  for_ (m_h (ms x)) (fun i ok =>
    if (ok : bool) then
      let* err := mget ms x 0 i in
      let* tv := mget ms t 0 i in
      let* big := clt (cfmax (cabs (cg_max_error g * tv)) (cg_min_error g)) (cabs err) in
      Ok (negb big)
    else Ok false) true.

(* src/conjugate_gradient_sle_solver.cpp:53-68  the main loop *)
Fixpoint cg_loop (g : cg_solver) (J : sparse tg) (W right : nat) (iters : nat) (ms : mats tg)
  : res (mats tg * bool) :=
  match iters with
  | O => Ok (ms, false)
  | S iters' =>
      let* ms := cg_multiply g J ms W (cg_p g) (cg_Ap g) in
      let* rk_mag := mvecmag2 ms (cg_r g) in
      let* pAp := mdot ms (cg_p g) (cg_Ap g) in
      let alpha := rk_mag / pAp in
      let* ms := mmadd ms (cg_x g) (cg_p g) alpha in
      let* ms := mmadd ms (cg_r g) (cg_Ap g) (- alpha) in
      let* small := cg_small g ms (cg_r g) right in
      if (small : bool) then Ok (ms, true)
      else
        let* rk1_mag := mvecmag2 ms (cg_r g) in
        let beta := rk1_mag / rk_mag in
        let* ms := mpmadd ms (cg_p g) (cg_r g) beta in
        cg_loop g J W right iters' ms
  end.

(* src/conjugate_gradient_sle_solver.cpp:23-76  solve(J, W, right, previous, result) *)
Definition cg_solve (g : cg_solver) (J W right : nat) (previous : option nat) (result : nat)
  (hp : heap) : res (heap * bool) :=
  let ms := hm hp in
  let n := m_h (ms right) in
  let* ms := mresize ms (cg_r g) 1 n in
  let* ms := mresize ms (cg_p g) 1 n in
  let* ms := mresize ms (cg_Ap g) 1 n in
  let* ms := minit0 ms (cg_x g) 1 n in
  let* ms := warm_start ms previous (cg_x g) n in
  let* ms := mresize ms result 1 n in
  let* ms := mset_ref ms (cg_r g) right in
  let* ms := cg_multiply g (hs hp J) ms W (cg_x g) (cg_Ap g) in
  let* ms := mmadd ms (cg_r g) (cg_Ap g) (cofZ (-1)) in
  let* small := cg_small g ms (cg_r g) right in
  let* (ms, ok) :=
    (if (small : bool) then Ok (ms, true)
     else
       let* ms := mset_ref ms (cg_p g) (cg_r g) in
       cg_loop g (hs hp J) W right (cg_max_iterations g) ms) in
  if (ok : bool) then
    let* ms := mset_ref ms result (cg_x g) in
    Ok (with_hm hp ms, true)
  else Ok (with_hm hp ms, false).

(** ** Dispatch *)

Inductive sle :=
| SleBase (limits : bool)              (* src/sle_solver.cpp:3-30: solve always returns false *)
| SleGe (g : ge_solver)
| SleGs (g : gs_solver)
| SleCg (g : cg_solver).

(* include/sle_solver.h:27; constructors pass true only for Gauss-Seidel *)
Definition supports_limits (s : sle) : bool :=
  match s with
  | SleBase b => b
  | SleGs _ => true
  | SleGe _ | SleCg _ => false
  end.

(* virtual solve called as solve(J, W, right, a4, a5); the concrete solvers
   name a4 "previous" and a5 "result" *)
Definition sle_solve (s : sle) (J W right a4 a5 : nat) (hp : heap) : res (heap * bool) :=
  match s with
  | SleBase _ => Ok (hp, false)
  | SleGe g => ge_solve g J W right a4 a5 hp
  | SleGs g => gs_solve g J W right (Some a4) a5 hp
  | SleCg g => cg_solve g J W right (Some a4) a5 hp
  end.

(* virtual solveWithLimits called as (J, W, right, limits, result, previous);
   only Gauss-Seidel overrides it *)
Definition sle_solve_limits (s : sle) (J W right limits result previous : nat) (hp : heap)
  : res (heap * bool) :=
  match s with
  | SleGs g => gs_solve_limits g J W right limits result (Some previous) hp
  | SleBase _ | SleGe _ | SleCg _ => Ok (hp, false)
  end.

End SleModel.

Arguments heap : clear implicits.
Arguments gs_solver : clear implicits.
Arguments cg_solver : clear implicits.
Arguments sle : clear implicits.
