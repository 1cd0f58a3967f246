(** * Properties C125 and C126: which point conjugate gradient returns. *)

From Coq Require Import Reals.
From Verif Require Import Base Targets Matrix Sparse Sle SpecMatrix SpecSparse SpecSle SleWit SpecKrylov CgBest CgBestWit.
Local Open Scope nat_scope.

(** C125 *)
Theorem C125_best_point :
  forall (dbg : bool) priv (hp : heap (RT dbg)) g J W right previous result n m D w b x me mi,
    hreach priv hp -> cg_names g W right result previous -> cg_private g priv ->
    systemR hp J W right n m D w b -> start_cg hp previous m (fun i => Some (x i)) ->
    cg_max_error g = Some me -> cg_min_error g = Some mi -> positive_definite m (JWJt n D w) ->
    forall hp', cg_solve g J W right previous result hp = Ok (hp', true) ->
    exists k y, k <= cg_max_iterations g /\ showsR (hm hp') result 1 m (fun r _ => y r) /\
      best_of m (JWJt n D w) b x k y /\ good_enough m (JWJt n D w) b me mi y /\
      forall j z, j < k -> best_of m (JWJt n D w) b x j z -> ~ good_enough m (JWJt n D w) b me mi z.
Proof. exact cg_best. Qed.
Print Assumptions C125_best_point.
(** in particular the energy does not grow *)
Theorem C125_no_worse : forall m A b x k y, best_of m A b x k y -> (energy m A b y <= energy m A b x)%R.
Proof. exact no_worse. Qed.
Print Assumptions C125_no_worse.

(** C126 *)
Theorem C126_degree :
  forall (dbg : bool) priv (hp : heap (RT dbg)) g J W right previous result n m D w b x me mi,
    hreach priv hp -> cg_names g W right result previous -> cg_private g priv ->
    systemR hp J W right n m D w b -> start_cg hp previous m (fun i => Some (x i)) ->
    cg_max_error g = Some me -> cg_min_error g = Some mi -> positive_definite m (JWJt n D w) ->
    forall d, annihilated m (JWJt n D w) (residual m (JWJt n D w) b x) d -> d <= cg_max_iterations g ->
    exists hp' k y, cg_solve g J W right previous result hp = Ok (hp', true) /\ k <= d /\
      showsR (hm hp') result 1 m (fun r _ => y r) /\ best_of m (JWJt n D w) b x k y /\ good_enough m (JWJt n D w) b me mi y.
Proof. exact cg_degree. Qed.
Print Assumptions C126_degree.
(** the other hypotheses are those of C26 *)
Example C126_example : forall x, annihilated 2 (JWJt 6 D2 w2) (residual 2 (JWJt 6 D2 w2) b2 x) 2.
Proof. exact two_rows. Qed.
Example C126_alike : forall m s r, s <> 0%R -> annihilated m (fun i j => if Nat.eqb i j then s else 0%R) r 1.
Proof. exact alike. Qed.
