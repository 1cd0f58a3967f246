(** * Property C130: what an accepted Gauss-Seidel result solves. *)

From Coq Require Import Reals.
From Verif Require Import Base Targets Matrix Sparse Sle SpecMatrix SpecSparse SpecSle RealSum SleHist SpecNear.
From Verif Require GsNear.
From Verif Require Import MatrixWit SleWit NearWit.
Local Open Scope nat_scope.

(** C130: the result solves the limited problem exactly for a right side that
    differs from the given one by at most tol / (1 - tol) times the weight of
    the later columns in each row; the last row is not off at all *)
Theorem C130_nearby :
  forall (dbg : bool) priv (hp hp' : heap (RT dbg)) (g : gs_solver (RT dbg)) J W right limits previous result
    n m D w b (lo hi x : nat -> R) (tol : R),
    hreach priv hp -> gs_names_limits g J W right limits result -> systemR hp J W right n m D w b ->
    limits_are (hm hp) limits m (fun i => Some (lo i)) (fun i => Some (hi i)) ->
    start_limits hp previous result m (fun i => Some (x i)) -> gs_min_delta g = Some tol -> (0 < tol < 1)%R ->
    (forall i, i < m -> (0 < JWJt n D w i i)%R) -> (forall i, i < m -> (lo i <= hi i)%R) ->
    gs_solve_limits g J W right limits result previous hp = Ok (hp', true) ->
    exists x' e, showsR (hm hp') result 1 m (fun r _ => x' r) /\
      solves_limited m (JWJt n D w) lo hi (fun i => b i + e i)%R x' /\
      forall i, i < m -> (Rabs (e i) <= tol / (1 - tol) * later m (JWJt n D w) x' i)%R.
Proof. exact GsNear.gs_nearby. Qed.
Print Assumptions C130_nearby.

(** and where lam is a lower bound of the eigenvalues of the system, the exact
    solution z is within that error divided by lam, in the Euclidean norm *)
Theorem C130_distance :
  forall (dbg : bool) priv (hp hp' : heap (RT dbg)) (g : gs_solver (RT dbg)) J W right limits previous result
    n m D w b (lo hi x : nat -> R) (tol lam : R) (z : nat -> R),
    hreach priv hp -> gs_names_limits g J W right limits result -> systemR hp J W right n m D w b ->
    limits_are (hm hp) limits m (fun i => Some (lo i)) (fun i => Some (hi i)) ->
    start_limits hp previous result m (fun i => Some (x i)) -> gs_min_delta g = Some tol -> (0 < tol < 1)%R ->
    (0 < lam)%R -> (forall v, (lam * Rsum m (fun i => v i * v i) <= dot m v (mulv m (JWJt n D w) v))%R) ->
    solves_limited m (JWJt n D w) lo hi b z ->
    gs_solve_limits g J W right limits result previous hp = Ok (hp', true) ->
    exists x', showsR (hm hp') result 1 m (fun r _ => x' r) /\
      (lam * lam * Rsum m (fun i => (x' i - z i) * (x' i - z i)) <=
        (tol / (1 - tol)) * (tol / (1 - tol)) * Rsum m (fun i => later m (JWJt n D w) x' i * later m (JWJt n D w) x' i))%R.
Proof. exact GsNear.gs_distance. Qed.
Print Assumptions C130_distance.

(** at work on two constraints between two bodies, from a start far outside
    the limits: the accepted result is within a ninth of its own second
    component of the solution (1, 1) *)
Example C130_example : exists k hp' x',
  gs_solve_limits (gsW k (Some (1 / 10)%R : cell (RT true))) 0 0 1 2 3 (Some 4) hp2 = Ok (hp', true) /\
  showsR (hm hp') 3 1 2 (fun r _ => x' r) /\
  ((x' 0%nat - 1) * (x' 0%nat - 1) + (x' 1%nat - 1) * (x' 1%nat - 1) <=
    1 / 81 * (Rmax (1 / 1000) (Rabs (x' 1%nat)) * Rmax (1 / 1000) (Rabs (x' 1%nat))))%R.
Proof. exact near_case. Qed.
Example C130_hypotheses :
  (forall v, (1 * Rsum 2 (fun i => v i * v i) <= dot 2 v (mulv 2 (JWJt 6 D2 w2) v))%R) /\
  solves_limited 2 (JWJt 6 D2 w2) lo2 hi2 b2 z2 /\ (forall i, i < 2 -> (0 < JWJt 6 D2 w2 i i)%R).
Proof. exact (conj near_lam (conj near_solution near_diag)). Qed.
