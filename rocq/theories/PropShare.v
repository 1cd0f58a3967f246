(** * Property C88: systems that share a linear solver do not affect one another. *)

From Verif Require Import Base Targets Matrix Sparse Sle State Ode Forces Constraints System SpecSle SpecSys SpecDyn RegWit EdgeWit SpecShare ShareRun ShareOde ShareWit.
Local Open Scope nat_scope.

(** C88: whatever is in the matrices of the linear solver, a call of process has the same outcome *)
Theorem C88_call :
  forall tg priv k (dt : cell tg) steps t (w : world tg) (y y' : sys tg),
    in_order priv k w y -> in_order priv k w y' -> same_own y y' -> agree (process k dt steps t w y) (process k dt steps t w y').
Proof. exact @process_agree. Qed.
Print Assumptions C88_call.

(** C88: and so do any number of calls *)
Theorem C88_calls :
  forall tg priv k (l : list (turn tg)) (w : world tg) (y y' : sys tg),
    in_order priv k w y -> in_order priv k w y' -> same_own y y' -> agree (in_row k l w y) (in_row k l w y').
Proof. exact @in_row_agree. Qed.
Print Assumptions C88_calls.

(** C88: the solver may have been used directly in between *)
Theorem C88_direct :
  forall tg priv k (l : list (turn tg)) (w : world tg) (y y' : sys tg),
    in_order priv k w y -> used_directly priv y y' -> agree (in_row k l w y) (in_row k l w y').
Proof. exact @direct_agree. Qed.
Print Assumptions C88_direct.

(** C88: any number of systems of either class, called in any order, end up where each would have alone *)
Theorem C88_turns :
  forall tg priv (k : nat -> flavour) (l : list (turn tg)) (w : nat -> world tg) (y : nat -> sys tg),
    (forall i, in_order priv (k i) (w i) (y i)) ->
    match take_turns k l w y with
    | Ok (w', y') => forall i, exists y1, in_row (k i) (own_calls i l) (w i) (y i) = Ok (w' i, y1) /\ same_own y1 (y' i)
    | r => exists i, fails r (in_row (k i) (own_calls i l) (w i) (y i))
    end.
Proof. exact @turns_agree. Qed.
Print Assumptions C88_turns.
(** each of the three solvers; the solver's matrices are not those that system 0 would have left *)
Example C88_example : forall i, let k := class_with i in exists (w : nat -> world (QT true)) (y : nat -> sys (QT true)),
  (forall j, in_order privc (class_no k j) (w j) (y j)) /\ con_count (y 0) = 1 /\ con_count (y 1) = 2 /\
  (exists a b, y_sle (y 0) = Some a /\ y_sle (y 1) = Some b /\ same_class a (solver_no i) = true /\ same_class b (solver_no i) = true) /\
  exists w' y' w2 y2 j, take_turns (class_no k) calls_two w y = Ok (w', y') /\ in_row Optimized (own_calls 0 calls_two) (w 0) (y 0) = Ok (w2, y2) /\
    hm (y_heap (y' 0)) j <> hm (y_heap y2) j.
Proof. exact share_runs. Qed.
(** after a call of process the same solver solves a larger system of equations directly *)
Example C88_direct_example : exists (w : world (QT true)) (y y' : sys (QT true)), in_order privc Optimized w y /\ y_sle y = Some (SleGe geS) /\
  used_directly privc y y' /\ m_h (hm (y_heap y) (ge_a geS)) = 1 /\ m_h (hm (y_heap y') (ge_a geS)) = 2 /\
  exists w2 y2, process Optimized dtQ 1 (t0 9) w y' = Ok (w2, y2).
Proof. exact direct_runs. Qed.

(** C88: the base class of the integrators, Euler and semi-implicit Euler may be shared too; a Runge-Kutta solver must not (C79) *)
Theorem C88_integrator :
  forall tg k (dt : cell tg) steps t (w : world tg) (y : sys tg) o o', same_method o o' -> 0 < steps ->
    process k dt steps t w (with_ode y (Some o)) = process k dt steps t w (with_ode y (Some o')).
Proof. exact @process_method. Qed.
Print Assumptions C88_integrator.
(** an integrator last used with steps of 1 and one last used with steps of 2 *)
Example C88_integrator_example : same_method (OdeNsv (cofZ 1 : cell (QT true))) (OdeNsv (cofZ 2)) /\ OdeNsv (cofZ 1 : cell (QT true)) <> OdeNsv (cofZ 2).
Proof. split; [exact I|]. intros E. discriminate E. Qed.
