(** * Properties C17 - C29: the linear solvers. *)

From Coq Require Import Reals.
From Coq Require Import Floats.SpecFloat.
From Verif Require Import Base Targets Matrix Sparse Sle SpecMatrix SpecSparse SpecSle RealSum SleHist.
From Verif Require GeHist GsHist CgHist.
From Verif Require Import MatrixWit SleWit.
Local Open Scope nat_scope.

(** C17 *)
Theorem C17_elimination_solves :
  forall (dbg : bool) priv (hp : heap (RT dbg)) g J W right prev result n m D w b,
    hreach priv hp -> ge_names g J W right result -> systemR hp J W right n m D w b ->
    nonsingular m (JWJt n D w) ->
    exists hp' x, ge_solve g J W right prev result hp = Ok (hp', true) /\
      (0 < m -> showsR (hm hp') result 1 m (fun r _ => x r)) /\
      solves m (JWJt n D w) x b /\ inputs_kept hp hp' J W right.
Proof. exact GeHist.ge_solves. Qed.
Print Assumptions C17_elimination_solves.
Example C17_example :
  hreach privW hp2 /\ ge_names geW 0 0 1 3 /\ systemR hp2 0 0 1 6 2 D2 w2 b2 /\ nonsingular 2 (JWJt 6 D2 w2).
Proof. exact (conj hp2_reach (conj geW_names (conj hp2_system nonsingular2))). Qed.

(** C18, debug builds and exact arithmetic: the assertion fires, also on
    singular systems that have solutions.  Release builds: refuted below. *)
Theorem C18_elimination_unsolvable_partial :
  forall priv (hp : heap (RT true)) g J W right prev result n m D w b,
    hreach priv hp -> ge_names g J W right result -> systemR hp J W right n m D w b ->
    ((forall x, ~ solves m (JWJt n D w) x b) -> ge_solve g J W right prev result hp = AssertFail) /\
    (~ nonsingular m (JWJt n D w) -> ge_solve g J W right prev result hp = AssertFail).
Proof.
  exact (fun priv hp g J W right prev result n m D w b H1 H2 H3 => conj
    (GeHist.ge_unsolvable_asserts priv hp g J W right prev result n m D w b H1 H2 H3)
    (GeHist.ge_singular_asserts priv hp g J W right prev result n m D w b H1 H2 H3)).
Qed.
Print Assumptions C18_elimination_unsolvable_partial.
Example C18_example :
  hreach privW hpS /\ ge_names geW 0 0 1 3 /\ systemR hpS 0 0 1 3 2 DS w2 bS /\
  forall x, ~ solves 2 (JWJt 3 DS w2) x bS.
Proof. exact (conj hpS_reach (conj geW_names (conj hpS_system hpS_unsolvable))). Qed.

(** C18 in release builds: 0 * x = 1 is reported solved (x is infinite).  All
    values are integers, so the system the code sees is the real one. *)
Theorem C18_elimination_unsolvable_refuted :
  exists priv (hp : heap (F64 false)) g J W right prev result n m blk v w b D,
    hreach priv hp /\ ge_names g J W right result /\
    system hp J W right n m blk (fun r e k => cofZ (v r e k)) (fun i => cofZ (w i)) (fun i => cofZ (b i)) /\
    sums 3 2 n m blk (fun r e k => IZR (v r e k)) D /\
    (forall x, ~ solves m (JWJt n D (fun i => IZR (w i))) x (fun i => IZR (b i))) /\
    exists hp', ge_solve g J W right prev result hp = Ok (hp', true) /\
      mget (hm hp') result 0 0 = Ok (Some (S754_infinity false)).
Proof.
  exact (ex_intro _ privW (ex_intro _ (hpZ false) (ex_intro _ geW (ex_intro _ 0 (ex_intro _ 0 (ex_intro _ 1
    (ex_intro _ 4 (ex_intro _ 3 (ex_intro _ 3 (ex_intro _ 1 (ex_intro _ blkZ (ex_intro _ vZ (ex_intro _ wZ
    (ex_intro _ bZ (ex_intro _ DZ (conj (hpZ_reach false) (conj geW_names (conj (hpZ_system false)
    (conj hpZ_sums (conj hpZ_unsolvable (solved_inv _ _ _ _ _ hpZ_ge))))))))))))))))))))).
Qed.
Print Assumptions C18_elimination_unsolvable_refuted.

(** C19, at least one constraint: two runs on equal J, W and right end the
    same way with the same result, whatever the two solver objects and the
    result and previous arguments went through before. *)
Theorem C19_elimination_forgets_partial :
  forall (tg : target) priv priv' (hp hp' : heap tg) g g' J W right prev result J' W' right' prev' result'
      n m blk v w b,
    hreach priv hp -> ge_names g J W right result -> system hp J W right n m blk v w b ->
    hreach priv' hp' -> ge_names g' J' W' right' result' -> system hp' J' W' right' n m blk v w b ->
    0 < m ->
    same_solution (ge_solve g J W right prev result hp) (ge_solve g' J' W' right' prev' result' hp')
      result result' m.
Proof. exact @GeHist.ge_forgets. Qed.
Print Assumptions C19_elimination_forgets_partial.
Example C19_example :
  hreach privW hpN /\ ge_names geW 0 0 1 3 /\ system hpN 0 0 1 6 2 blk2 vN wN bN.
Proof. exact (conj hpN_reach (conj geW_names hpN_system)). Qed.

(** C19 with no constraints: solve returns true and keeps the old result (of
    height 1 here), so the result depends on what it held before. *)
Theorem C19_elimination_forgets_refuted :
  exists priv (hp : heap (F64 true)) g J W right prev result n blk v w b,
    hreach priv hp /\ ge_names g J W right result /\ system hp J W right n 0 blk v w b /\
    height_after (ge_solve g J W right prev result hp) result = Ok (true, 1) /\
    ~ same_solution (ge_solve g J W right prev result hp) (ge_solve g J W right prev result hp) result result 0.
Proof.
  exact (ex_intro _ privW (ex_intro _ hpE (ex_intro _ geW (ex_intro _ 0 (ex_intro _ 0 (ex_intro _ 1
    (ex_intro _ 4 (ex_intro _ 3 (ex_intro _ 3 (ex_intro _ _ (ex_intro _ _ (ex_intro _ _ (ex_intro _ _
    (conj hpE_reach (conj geW_names (conj hpE_system (conj hpE_ge hpE_ge_not_same))))))))))))))))).
Qed.
Print Assumptions C19_elimination_forgets_refuted.

(** C20: binary64; v, w, b and x are arbitrary, NaN and infinities included.
    That solveWithLimits does return is C28. *)
Theorem C20_limits_respected :
  forall (dbg : bool) priv (hp hp' : heap (F64 dbg)) g J W right limits previous result n m blk v w b lo hi x ok,
    hreach priv hp -> gs_names_limits g J W right limits result -> system hp J W right n m blk v w b ->
    limits_are (hm hp) limits m (fun i => Some (lo i)) (fun i => Some (hi i)) ->
    start_limits hp previous result m x ->
    (forall i, i < m -> SFleb (lo i) (hi i) = true) -> 0 < gs_max_iterations g ->
    gs_solve_limits g J W right limits result previous hp = Ok (hp', ok) ->
    forall i, i < m -> exists y, mget (hm hp') result 0 i = Ok (Some y) /\
      SFleb (lo i) y = true /\ SFleb y (hi i) = true.
Proof. exact GsHist.gs_limits_inside. Qed.
Print Assumptions C20_limits_respected.
Example C20_example :
  hreach privW hpN /\ gs_names_limits (gsW 128 (clit 1 10) : gs_solver (F64 true)) 0 0 1 2 3 /\
  system hpN 0 0 1 6 2 blk2 vN wN bN /\
  limits_are (hm hpN) 2 2 (fun i => Some (loN i)) (fun i => Some (hiN i)) /\
  start_limits hpN (Some 4) 3 2 xN /\ (forall i, i < 2 -> SFleb (loN i) (hiN i) = true) /\
  exists hp' ok, gs_solve_limits (gsW 128 (clit 1 10) : gs_solver (F64 true)) 0 0 1 2 3 (Some 4) hpN = Ok (hp', ok).
Proof.
  exact (conj hpN_reach (conj (gsW_names_limits _ _) (conj hpN_system (conj hpN_limits (conj hpN_start
    (conj orderedN hpN_gs_ends)))))).
Qed.

(** C21 *)
Theorem C21_stationary_solves :
  forall (dbg : bool) (ms : mats (RT dbg)) left right limits k m A b (lo hi : nat -> R) x,
    mreach false ms -> left <> k -> right <> k -> limits <> k ->
    showsR ms left m m A -> showsR ms right 1 m (fun r _ => b r) ->
    limits_are ms limits m (fun i => Some (lo i)) (fun i => Some (hi i)) ->
    showsR ms k 1 m (fun r _ => x r) ->
    (forall i, i < m -> (0 < A i i)%R) -> (forall i, i < m -> (lo i <= hi i)%R) ->
    exists ms' d, gs_iteration_limits ms left right limits k k = Ok (ms', d) /\
      (showsR ms' k 1 m (fun r _ => x r) <-> solves_limited m A lo hi b x).
Proof. exact GsHist.gs_stationary. Qed.
Print Assumptions C21_stationary_solves.
Theorem C21_stationary_solves_without_limits :
  forall (dbg : bool) (ms : mats (RT dbg)) left right k m A b x,
    mreach false ms -> left <> k -> right <> k ->
    showsR ms left m m A -> showsR ms right 1 m (fun r _ => b r) ->
    showsR ms k 1 m (fun r _ => x r) -> (forall i, i < m -> A i i <> 0%R) ->
    exists ms' d, gs_iteration ms left right k k = Ok (ms', d) /\
      (showsR ms' k 1 m (fun r _ => x r) <-> solves m A x b).
Proof. exact GsHist.gs_stationary_plain. Qed.
Print Assumptions C21_stationary_solves_without_limits.
(** z2 is stationary, at a limit in one component; y2 is not *)
Example C21_example :
  mreach false ms2 /\
  (showsR ms2 0 2 2 A2 /\ showsR ms2 1 1 2 (fun r _ => b2 r) /\
   limits_are ms2 2 2 (fun i => Some (lo2 i)) (fun i => Some (hi2 i)) /\
   showsR ms2 3 1 2 (fun r _ => y2 r) /\ showsR ms2 4 1 2 (fun r _ => z2 r)) /\
  (forall i, i < 2 -> (0 < A2 i i)%R) /\ (forall i, i < 2 -> (lo2 i <= hi2 i)%R) /\
  solves_limited 2 A2 lo2 hi2 b2 z2.
Proof. exact (conj ms2_reach (conj ms2_shows (conj A2_diagonal (conj ordered2 z2_solution)))). Qed.

(** C22 *)
Theorem C22_sweep_lowers_energy :
  forall (dbg : bool) (ms : mats (RT dbg)) left right limits k m A b (lo hi : nat -> R) x,
    mreach false ms -> left <> k -> right <> k -> limits <> k ->
    showsR ms left m m A -> showsR ms right 1 m (fun r _ => b r) ->
    limits_are ms limits m (fun i => Some (lo i)) (fun i => Some (hi i)) ->
    showsR ms k 1 m (fun r _ => x r) ->
    symmetric m A -> (forall i, i < m -> (0 < A i i)%R) -> within m lo hi x ->
    exists ms' d x', gs_iteration_limits ms left right limits k k = Ok (ms', d) /\
      showsR ms' k 1 m (fun r _ => x' r) /\ within m lo hi x' /\
      (energy m A b x' <= energy m A b x)%R /\
      (energy m A b x' = energy m A b x -> forall i, i < m -> x' i = x i).
Proof. exact GsHist.gs_energy. Qed.
Print Assumptions C22_sweep_lowers_energy.
Example C22_example : symmetric 2 A2 /\ (forall i, i < 2 -> (0 < A2 i i)%R) /\ within 2 lo2 hi2 y2.
Proof. exact (conj A2_symmetric (conj A2_diagonal y2_within)). Qed.

(** C23: one bound for all builds, objects, solver states and starts. *)
Theorem C23_limited_converges :
  forall n m D w b lo hi tol,
    positive_definite m (JWJt n D w) -> (forall i, i < m -> (lo i <= hi i)%R) -> (0 < tol)%R ->
    exists N, forall dbg priv (hp : heap (RT dbg)) M reg k J W right limits previous result x,
      let g := mkGs M reg k (Some tol : cell (RT dbg)) in
      N <= k -> hreach priv hp -> gs_names_limits g J W right limits result -> systemR hp J W right n m D w b ->
      limits_are (hm hp) limits m (fun i => Some (lo i)) (fun i => Some (hi i)) ->
      start_limits hp previous result m (fun i => Some (x i)) ->
      exists hp', gs_solve_limits g J W right limits result previous hp = Ok (hp', true).
Proof. exact GsHist.gs_converges. Qed.
Print Assumptions C23_limited_converges.
Example C23_example :
  positive_definite 2 (JWJt 6 D2 w2) /\ (forall i, i < 2 -> (lo2 i <= hi2 i)%R) /\
  hreach privW hp2 /\ (forall k (d : cell (RT true)), gs_names_limits (gsW k d) 0 0 1 2 3) /\
  systemR hp2 0 0 1 6 2 D2 w2 b2 /\
  limits_are (hm hp2) 2 2 (fun i => Some (lo2 i)) (fun i => Some (hi2 i)) /\
  start_limits hp2 (Some 4) 3 2 (fun i => Some (x2 i)) /\ start_limits hp2 (Some 3) 3 2 (fun _ => Some 0%R : cell (RT true)).
Proof.
  exact (conj posdef2 (conj ordered2 (conj hp2_reach (conj (@gsW_names_limits _) (conj hp2_system
    (conj hp2_limits (conj hp2_start hp2_start_cold))))))).
Qed.

(** C24 for solveWithLimits (solve: refuted below).  When it succeeds, there
    is a number k of sweeps after which a run with that iteration limit ends
    without success in y, and one more sweep ends with success in x'. *)
Theorem C24_success_small_change_partial :
  forall (dbg : bool) priv (hp hp' : heap (RT dbg)) g J W right limits previous result n m D w b lo hi x tol,
    hreach priv hp -> gs_names_limits g J W right limits result -> systemR hp J W right n m D w b ->
    limits_are (hm hp) limits m (fun i => Some (lo i)) (fun i => Some (hi i)) ->
    start_limits hp previous result m (fun i => Some (x i)) -> gs_min_delta g = Some tol ->
    gs_solve_limits g J W right limits result previous hp = Ok (hp', true) ->
    exists k before y x', k < gs_max_iterations g /\
      gs_solve_limits (with_iterations g k) J W right limits result previous hp = Ok (before, false) /\
      gs_solve_limits (with_iterations g (S k)) J W right limits result previous hp = Ok (hp', true) /\
      showsR (hm before) result 1 m (fun r _ => y r) /\ showsR (hm hp') result 1 m (fun r _ => x' r) /\
      forall i, i < m -> (Rabs (x' i - y i) < tol * Rmax (1 / 1000) (Rabs (y i)))%R.
Proof. exact GsHist.gs_success_small. Qed.
Print Assumptions C24_success_small_change_partial.
(** the other hypotheses: C23_example *)
Example C24_example : exists k hp',
  gs_solve_limits (gsW k (Some (1 / 10)%R : cell (RT true))) 0 0 1 2 3 (Some 4) hp2 = Ok (hp', true).
Proof. exact hp2_gs_succeeds. Qed.

(** C24 for solve, default tolerance 1/10, binary64: success although the only
    sweep took the first component from 100 to 50. *)
Theorem C24_success_small_change_refuted :
  exists priv (hp : heap (F64 true)) M reg J W right result n m blk v w b,
    let g k := mkGs M reg k (clit 1 10) in
    hreach priv hp /\ gs_names (g 1) J W right result /\ system hp J W right n m blk v w b /\
    start_plain hp (Some result) result m (fun _ => cofZ 100) /\
    (exists before, gs_solve (g 0) J W right (Some result) result hp = Ok (before, false) /\
       mget (hm before) result 0 0 = Ok (cofZ 100)) /\
    (exists hp', gs_solve (g 1) J W right (Some result) result hp = Ok (hp', true) /\
       mget (hm hp') result 0 0 = Ok (cofZ 50)).
Proof.
  exact (ex_intro _ privW (ex_intro _ hpH (ex_intro _ 12 (ex_intro _ 6 (ex_intro _ 0 (ex_intro _ 0 (ex_intro _ 1
    (ex_intro _ 3 (ex_intro _ 3 (ex_intro _ 2 (ex_intro _ blkH (ex_intro _ _ (ex_intro _ _ (ex_intro _ _
    (conj hpH_reach (conj (gsW_names _ _) (conj hpH_system (conj hpH_start
    (conj (solved_inv _ _ _ _ _ hpH_before) (solved_inv _ _ _ _ _ hpH_after)))))))))))))))))))).
Qed.
Print Assumptions C24_success_small_change_refuted.

(** C25 *)
Theorem C25_success_small_residual :
  forall (dbg : bool) priv (hp : heap (RT dbg)) g J W right previous result n m D w b x me mi,
    hreach priv hp -> cg_names g W right result previous -> cg_private g priv ->
    systemR hp J W right n m D w b -> start_cg hp previous m (fun i => Some (x i)) ->
    cg_max_error g = Some me -> cg_min_error g = Some mi ->
    forall hp', cg_solve g J W right previous result hp = Ok (hp', true) ->
    exists x', showsR (hm hp') result 1 m (fun r _ => x' r) /\
      forall i, i < m -> (Rabs (b i - mulv m (JWJt n D w) x' i) <= Rmax (Rabs (me * b i)) mi)%R.
Proof. exact CgHist.cg_residual_small. Qed.
Print Assumptions C25_success_small_residual.

(** C26: J*diag(W)*J^T is symmetric by construction. *)
Theorem C26_finishes_in_n_iterations :
  forall (dbg : bool) priv (hp : heap (RT dbg)) g J W right previous result n m D w b x me mi,
    hreach priv hp -> cg_names g W right result previous -> cg_private g priv ->
    systemR hp J W right n m D w b -> start_cg hp previous m (fun i => Some (x i)) ->
    cg_max_error g = Some me -> cg_min_error g = Some mi ->
    positive_definite m (JWJt n D w) -> m <= cg_max_iterations g ->
    exists hp', cg_solve g J W right previous result hp = Ok (hp', true).
Proof. exact CgHist.cg_terminates. Qed.
Print Assumptions C26_finishes_in_n_iterations.
Example C25_C26_example :
  hreach privW hp2 /\ cg_names (cgW 2 (Some 0%R : cell (RT true)) (Some 0%R : cell (RT true))) 0 1 3 (Some 4) /\
  cg_private (cgW 2 (Some 0%R : cell (RT true)) (Some 0%R : cell (RT true))) privW /\
  systemR hp2 0 0 1 6 2 D2 w2 b2 /\ start_cg hp2 (Some 4) 2 (fun i => Some (x2 i)) /\
  positive_definite 2 (JWJt 6 D2 w2) /\
  exists hp', cg_solve (cgW 2 (Some 0%R : cell (RT true)) (Some 0%R : cell (RT true))) 0 0 1 (Some 4) 3 hp2 = Ok (hp', true).
Proof.
  exact (conj hp2_reach (conj (cgW_names _ _ _ 4 ltac:(repeat constructor)) (conj (cgW_private _ _ _) (conj hp2_system (conj hp2_start_cg (conj posdef2 hp2_cg_succeeds)))))).
Qed.

(** C27: J = 0, right = 1, default tolerances. *)
Theorem C27_success_finite_refuted :
  exists priv (hp : heap (F64 true)) g J W right previous result n m blk v w b,
    hreach priv hp /\ cg_names g W right result previous /\ cg_private g priv /\
    system hp J W right n m blk (fun r e k => cofZ (v r e k)) (fun i => cofZ (w i)) (fun i => cofZ (b i)) /\
    exists hp', cg_solve g J W right previous result hp = Ok (hp', true) /\
      mget (hm hp') result 0 0 = Ok (Some (S754_infinity false)).
Proof.
  exact (ex_intro _ privW (ex_intro _ (hpZ true) (ex_intro _ (cgW 10 (clit 1 100) (clit 1 1000)) (ex_intro _ 0
    (ex_intro _ 0 (ex_intro _ 1 (ex_intro _ (Some 4) (ex_intro _ 3 (ex_intro _ 3 (ex_intro _ 1 (ex_intro _ blkZ
    (ex_intro _ vZ (ex_intro _ wZ (ex_intro _ bZ (conj (hpZ_reach true) (conj (cgW_names _ _ _ 4 ltac:(repeat constructor))
    (conj (cgW_private _ _ _) (conj (hpZ_system true) (solved_inv _ _ _ _ _ hpZ_cg))))))))))))))))))).
Qed.
Print Assumptions C27_success_finite_refuted.

(** C28: every arithmetic whose division is total, such as binary64. *)
Theorem C28_elimination_safe :
  forall (tg : target) priv (hp : heap tg) g J W right prev result n m blk v w b,
    hreach priv hp -> ge_names g J W right result -> system hp J W right n m blk v w b ->
    defined_system n m blk v w b -> total_division tg ->
    (exists hp', ge_solve g J W right prev result hp = Ok (hp', true) /\ inputs_kept hp hp' J W right /\
       (0 < m -> exists x, shows (hm hp') result 1 m (fun r _ => x r) /\
          forall i, i < m -> defined (x i) /\ (asserts_on tg = true -> cfinite (x i) = Ok true))) \/
    (ge_solve g J W right prev result hp = AssertFail /\ asserts_on tg = true).
Proof. exact @GeHist.ge_safe. Qed.
Print Assumptions C28_elimination_safe.
Theorem C28_gauss_seidel_safe :
  forall (tg : target) priv (hp : heap tg) g J W right previous result n m blk v w b x,
    hreach priv hp -> gs_names g J W right result -> system hp J W right n m blk v w b ->
    start_plain hp previous result m x ->
    defined_system n m blk v w b -> (forall i, i < m -> defined (x i)) -> defined (gs_min_delta g) ->
    total_division tg ->
    exists hp' ok y, gs_solve g J W right previous result hp = Ok (hp', ok) /\ inputs_kept hp hp' J W right /\
      shows (hm hp') result 1 m (fun r _ => y r) /\ forall i, i < m -> defined (y i).
Proof. exact @GsHist.gs_safe. Qed.
Print Assumptions C28_gauss_seidel_safe.
Theorem C28_limited_gauss_seidel_safe :
  forall (tg : target) priv (hp : heap tg) g J W right limits previous result n m blk v w b lo hi x,
    hreach priv hp -> gs_names_limits g J W right limits result -> system hp J W right n m blk v w b ->
    limits_are (hm hp) limits m lo hi -> start_limits hp previous result m x ->
    defined_system n m blk v w b -> (forall i, i < m -> defined (lo i) /\ defined (hi i)) ->
    (forall i, i < m -> defined (x i)) -> defined (gs_min_delta g) -> total_division tg ->
    exists hp' ok y, gs_solve_limits g J W right limits result previous hp = Ok (hp', ok) /\
      inputs_kept hp hp' J W right /\ hm hp' limits = hm hp limits /\
      shows (hm hp') result 1 m (fun r _ => y r) /\ forall i, i < m -> defined (y i).
Proof. exact @GsHist.gs_limits_safe. Qed.
Print Assumptions C28_limited_gauss_seidel_safe.
Theorem C28_conjugate_gradient_safe :
  forall (tg : target) priv (hp : heap tg) g J W right previous result n m blk v w b x,
    hreach priv hp -> cg_names g W right result previous -> cg_private g priv ->
    system hp J W right n m blk v w b ->
    start_cg hp previous m x -> defined_system n m blk v w b -> (forall i, i < m -> defined (x i)) ->
    defined (cg_max_error g) -> defined (cg_min_error g) -> total_division tg ->
    exists hp' ok, cg_solve g J W right previous result hp = Ok (hp', ok) /\ inputs_kept hp hp' J W right /\
      (ok = true -> exists y, shows (hm hp') result 1 m (fun r _ => y r) /\ forall i, i < m -> defined (y i)).
Proof. exact @CgHist.cg_safe. Qed.
Print Assumptions C28_conjugate_gradient_safe.
(** a system with NaN and infinities in J, W, right, the limits and the start *)
Example C28_example :
  hreach privW hpN /\ system hpN 0 0 1 6 2 blk2 vN wN bN /\ defined_system 6 2 blk2 vN wN bN /\
  total_division (F64 true) /\ (forall i, i < 2 -> defined (xN i)) /\
  ge_names geW 0 0 1 3 /\
  gs_names (gsW 128 (clit 1 10) : gs_solver (F64 true)) 0 0 1 3 /\ start_plain hpN (Some 4) 3 2 xN /\
  gs_names_limits (gsW 128 (clit 1 10) : gs_solver (F64 true)) 0 0 1 2 3 /\
  limits_are (hm hpN) 2 2 (fun i => Some (loN i)) (fun i => Some (hiN i)) /\ start_limits hpN (Some 4) 3 2 xN /\
  cg_names (cgW 10 (clit 1 100) (clit 1 1000) : cg_solver (F64 true)) 0 1 3 (Some 4) /\
  cg_private (cgW 10 (clit 1 100) (clit 1 1000) : cg_solver (F64 true)) privW /\ start_cg hpN (Some 4) 2 xN.
Proof.
  exact (conj hpN_reach (conj hpN_system (conj definedN (conj (F64_division true) (conj definedN_x (conj geW_names
    (conj (gsW_names _ _) (conj hpN_start_plain (conj (gsW_names_limits _ _) (conj hpN_limits (conj hpN_start
    (conj (cgW_names _ _ _ 4 ltac:(repeat constructor)) (conj (cgW_private _ _ _) hpN_start_cg))))))))))))).
Qed.

(** C29 when result or previous has the right height and determinate values:
    the outcome is a function of J, W, right and those values. *)
Theorem C29_determined_partial :
  forall (tg : target) priv priv' (hp hp' : heap tg) g g' J W right previous result J' W' right' previous' result'
      n m blk v w b x,
    hreach priv hp -> gs_names g J W right result -> system hp J W right n m blk v w b ->
    hreach priv' hp' -> gs_names g' J' W' right' result' -> system hp' J' W' right' n m blk v w b ->
    start_plain hp previous result m x -> start_plain hp' previous' result' m x ->
    gs_max_iterations g = gs_max_iterations g' -> gs_min_delta g = gs_min_delta g' ->
    same_solution (gs_solve g J W right previous result hp) (gs_solve g' J' W' right' previous' result' hp')
      result result' m.
Proof. exact @GsHist.gs_determined. Qed.
Print Assumptions C29_determined_partial.
(** the limited variant zero-fills a result of another height: always
    determined *)
Theorem C29_limited_determined :
  forall (tg : target) priv priv' (hp hp' : heap tg) g g' J W right limits previous result
      J' W' right' limits' previous' result' n m blk v w b lo hi x,
    hreach priv hp -> gs_names_limits g J W right limits result -> system hp J W right n m blk v w b ->
    hreach priv' hp' -> gs_names_limits g' J' W' right' limits' result' -> system hp' J' W' right' n m blk v w b ->
    limits_are (hm hp) limits m lo hi -> limits_are (hm hp') limits' m lo hi ->
    start_limits hp previous result m x -> start_limits hp' previous' result' m x ->
    gs_max_iterations g = gs_max_iterations g' -> gs_min_delta g = gs_min_delta g' ->
    same_solution (gs_solve_limits g J W right limits result previous hp)
      (gs_solve_limits g' J' W' right' limits' result' previous' hp') result result' m.
Proof. exact @GsHist.gs_limits_determined. Qed.
Print Assumptions C29_limited_determined.
Example C29_example :
  start_plain hpN (Some 4) 3 2 xN /\ start_limits hpN (Some 4) 3 2 xN /\ start_limits hp2 (Some 3) 3 2 (fun _ => Some 0%R : cell (RT true)).
Proof. exact (conj hpN_start_plain (conj hpN_start hp2_start_cold)). Qed.

(** C29, fresh result passed as previous, as the rigid body systems do: the
    first sweep compares an indeterminate value. *)
Theorem C29_determined_refuted :
  exists priv (hp : heap (F64 true)) g J W right result n m blk v w b,
    hreach priv hp /\ gs_names g J W right result /\ system hp J W right n m blk v w b /\
    defined_system n m blk v w b /\ hm hp result = hm hfresh result /\
    gs_solve g J W right (Some result) result hp = UB.
Proof.
  exact (ex_intro _ privW (ex_intro _ hpU (ex_intro _ (gsW 1 (clit 1 10)) (ex_intro _ 0 (ex_intro _ 0 (ex_intro _ 1
    (ex_intro _ 3 (ex_intro _ 3 (ex_intro _ 2 (ex_intro _ blkH (ex_intro _ _ (ex_intro _ _ (ex_intro _ _
    (conj hpU_reach (conj (gsW_names _ _) (conj hpU_system (conj hpU_defined (conj hpU_untouched hpU_ub)))))))))))))))))).
Qed.
Print Assumptions C29_determined_refuted.
