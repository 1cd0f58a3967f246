(** * Property theorems: no undefined behaviour in a call (C92), sizes of constraints (C93). *)

From Verif Require Import Base Targets Sle State Ode Forces Constraints System SpecSle SpecState SpecForces SpecSys SpecDyn SpecRk RegWit EdgeWit SpecSafe SafeStep SafeWit.
Local Open Scope nat_scope.

(** C92: in arithmetic where every operation yields a value, a system with
    everything set, whatever was done to it before, goes through a call without
    undefined behaviour and everything is set again after it; in the optimized
    class the reported constraint forces are values too *)
Theorem C92_process_partial :
  forall tg, total_arithmetic tg -> forall priv k m (dt : cell tg) n t w y,
    yreach k priv m w y -> integrator_set priv k y -> all_determinate k w y -> defined dt -> 0 < n ->
    ends_properly (process k dt n t w y) (fun w' y' => all_determinate k w' y' /\ integrator_set priv k y' /\ (k = Optimized -> forces_reported w y w')).
Proof. exact @process_ends. Qed.
Print Assumptions C92_process_partial.
(** any number of calls *)
Theorem C92_calls_partial :
  forall tg, total_arithmetic tg -> forall priv k l m (w : world tg) y,
    yreach k priv m w y -> integrator_set priv k y -> all_determinate k w y -> Forall (fun x => defined (fst (fst x)) /\ 0 < snd (fst x)) l ->
    ends_properly (process_all k l w y) (fun w' y' => all_determinate k w' y').
Proof. exact @process_all_ends. Qed.
Print Assumptions C92_calls_partial.
(** binary64 is such an arithmetic, whatever the library computes for sine and cosine *)
Theorem C92_binary64_partial : forall dbg sn cs, (forall x, exists z, sn x = Some z) -> (forall x, exists z, cs x = Some z) -> total_arithmetic (F64_trig dbg sn cs).
Proof. exact f64_total. Qed.
Print Assumptions C92_binary64_partial.
(** three bodies, three constraints and four generators, with elimination, Gauss-Seidel and conjugate gradients in
    the optimized class, and three pairs of solvers in the generic one: two calls turn bodies 1 and 2 *)
Example C92_example : forall i, exists m (w : world (FT true)) y w' y', let k := kind_no i in yreach k privc m w y /\ integrator_set privc k y /\ all_determinate k w y /\
  body_count y = 3 /\ con_count y = 3 /\ gen_count y = 4 /\ Forall (fun x => defined (tg := FT true) (fst (fst x)) /\ 0 < snd (fst x)) two_calls /\
  process_all k two_calls w y = Ok (w', y') /\ b_vel (w_body w' 1) 2 <> b_vel (w_body w 1) 2 /\ b_vel (w_body w' 2) 2 <> b_vel (w_body w 2) 2.
Proof. exact scenes. Qed.
(** Gauss-Seidel in the generic class starts from values that were never set *)
Theorem C92_gauss_seidel_refuted : exists m (w : world (FT false)) y g, yreach Generic privc m w y /\ integrator_set privc Generic y /\ scene_determinate w y /\
  y_sle y = Some (SleGs g) /\ defined (gs_min_delta g) /\ process Generic dtF 1 (t0 3) w y = UB.
Proof. exact gs_undefined. Qed.
Print Assumptions C92_gauss_seidel_refuted.
(** without assertions conjugate gradients that give up leave a velocity that was never computed, and the next call
    branches on it *)
Theorem C92_gradients_refuted : forall k, exists m (w : world (FT false)) y g w' y', yreach k privc m w y /\ integrator_set privc k y /\ scene_determinate w y /\
  y_sle y = Some (SleCg g) /\ defined (cg_max_error g) /\ defined (cg_min_error g) /\
  process k dtF 1 (t0 3) w y = Ok (w', y') /\ ~ defined (b_vel (w_body w' 0) 0) /\ process k dtF 1 (t0 5) w' y' = UB.
Proof. exact cg_undefined. Qed.
Print Assumptions C92_gradients_refuted.

(** C93: at most three rows and two bodies are accepted; anything else stops at an assertion, if there are assertions *)
Theorem C93_fits_partial : forall tg (k : ckind tg) n m, n <= 3 -> m <= 2 -> exists c, con_new k n m = Ok c /\ fresh_con k n m c.
Proof. exact con_new_fits. Qed.
Print Assumptions C93_fits_partial.
Theorem C93_rejects_partial : forall tg (k : ckind tg) n m, 3 < n \/ 2 < m ->
  if asserts_on tg then con_new k n m = AssertFail else exists c, con_new k n m = Ok c /\ fresh_con k n m c.
Proof. exact con_new_else. Qed.
Print Assumptions C93_rejects_partial.
(** the library's own classes fit *)
Theorem C93_classes_partial : forall tg (k : ckind tg) n m, class_counts k = Some (n, m) ->
  n <= 3 /\ m <= 2 /\ exists c, con_new k n m = Ok c /\ fresh_con k n m c /\ (pars_set k -> con_set c).
Proof. exact con_new_class. Qed.
Print Assumptions C93_classes_partial.
Example C93_example : exists c, con_new (KLink (mkLink (cofZ 1) (cofZ 0) (cofZ (-1)) (cofZ 0) cdblmax (cofZ 1) (cofZ 1)) : ckind (FT true)) 2 2 = Ok c /\ con_set c /\
  con_new (holding : ckind (FT true)) 4 1 = AssertFail /\ con_new (holding : ckind (FT true)) 3 3 = AssertFail.
Proof. exact sizes. Qed.
(** without assertions a constraint of a fourth row is accepted and a call goes out of the bounds of its arrays; the same with three rows works *)
Theorem C93_release_refuted : forall k n, n = 3 \/ n = 4 -> exists c m (w : world (FT false)) y,
  con_new (holding : ckind (FT false)) n 1 = Ok c /\ yreach k privc m w y /\ y_cons y = [0] /\ c_kind (w_con w 0) = holding /\ c_count (w_con w 0) = n /\ c_bodycount (w_con w 0) = 1 /\
  match process k dtF 1 (t0 3) w y with Ok _ => n = 3 | UB => n = 4 | _ => False end.
Proof. exact too_many. Qed.
Print Assumptions C93_release_refuted.
