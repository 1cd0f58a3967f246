(** * Properties C65-C69: corners of the interface. *)

From Coq Require Import Reals QArith.
From Verif Require Import Base Targets Matrix Sle State Ode Constraints System Destroy SpecSys RegWit SpecDyn SpecCon ConFacts SpecSolve SpecLaw
  SpecEdge EdgeNone EdgeHalt EdgeOut EdgeDtor LimitWit EdgeWit.
Local Open Scope nat_scope.

(** C65: the body ends at the opposite of the speed asked for, always *)
Theorem C65_reversed :
  forall dbg priv m (dt : R) t (w : world (RT dbg)) (y : sys (RT dbg)) g (beta : R) q v M f kc c b sp mx mn ks kd,
    yreach Optimized priv m w y -> y_sle y = Some (SleGe g) -> attached w y -> kinds_are w y kc -> all_gentle w y -> body_count y <= 255 ->
    dt <> 0%R -> y_bias y = Some beta -> bodies_are w y q v M -> pushesR w y (kin_of w) dt f ->
    regular w y M (fun c j i => J_of (kc c) (pose_at w q c) j i) ->
    In c (y_cons y) -> kc c = RConstantRotation sp mx mn ks kd -> c_bodies (w_con w c) 0 = Some b ->
    exists w' y', process Optimized (Some dt : cell (RT dbg)) 1 t w y = Ok (w', y') /\ b_f (w_body w' b) Bvtheta = Some (- sp)%R.
Proof. exact @motor_law. Qed.
Print Assumptions C65_reversed.
Example C65_example : forall dbg, exists m (w : world (RT dbg)) y q v M f kc, yreach Optimized nopriv m w y /\
  y_sle y = Some (SleGe geS) /\ attached w y /\ kinds_are w y kc /\ all_gentle w y /\ body_count y = 2 /\
  y_cons y = [0] /\ kc 0 = RConstantRotation 3 500 (-500) 0 2 /\ y_bias y = Some 1%R /\ bodies_are w y q v M /\ (forall dt, pushesR w y (kin_of w) dt f) /\
  regular w y M (fun c j i => J_of (kc c) (pose_at w q c) j i) /\ c_bodies (w_con w 0) 0 = Some 0.
Proof. exact @motor_ge. Qed.
(** asked for 3 the optimized system ends at -3; the generic one, from 1, at 4/5 *)
Theorem C65_refuted :
  forall k, exists m (w : world (QT true)) y w' y' g q, yreach k nopriv m w y /\ attached w y /\ shaped w y /\ all_gentle w y /\
    y_bodies y = [0] /\ y_cons y = [4] /\ y_sle y = Some (SleGe g) /\ asks w 4 0 3 /\
    process k dtQ 1 (t0 7) w y = Ok (w', y') /\ b_f (w_body w' 0) Bvtheta = Some q /\ (q == match k with Optimized => - 3 | Generic => 4 # 5 end)%Q.
Proof. exact turns_wrong. Qed.
Print Assumptions C65_refuted.

(** C66: of 257 bodies the last is held by a brake; it turns with 257 before the step, with 256 after *)
Theorem C66_refuted :
  exists m (w : world (QT true)) y w' y' g q, yreach Optimized nopriv m w y /\ attached w y /\ shaped w y /\ all_gentle w y /\
    body_count y = S last /\ y_cons y = [4] /\ y_sle y = Some (SleGe g) /\ (exists k, c_kind (w_con w 4) = KFriction k) /\ c_bodies (w_con w 4) 0 = Some last /\
    process Optimized dtQ 1 (t0 7) w y = Ok (w', y') /\ b_f (w_body w' last) Bvtheta = Some q /\ (q == 256)%Q.
Proof. exact crowd_wrong. Qed.
Print Assumptions C66_refuted.

(** C67: process never ends normally when a constraint names a body with index -1 *)
Theorem C67_absent :
  forall tg k dt n t (w : world tg) (y : sys tg) w' y', process k dt (S n) t w y = Ok (w', y') ->
    forall c j, In c (y_cons y) -> 0 < c_count (w_con w c) -> j < c_bodycount (w_con w c) -> exists i, slot_index w c j = Some i /\ (0 <= i)%Z.
Proof. exact @process_hits. Qed.
Print Assumptions C67_absent.
Theorem C67_refuted :
  forall dbg k, exists m (w : world (QT dbg)) y, yreach k nopriv m w y /\ y_bodies y = [0] /\ y_cons y = [4] /\ 0 < c_count (w_con w 4) /\ 1 < c_bodycount (w_con w 4) /\
    slot_index w 4 1 = Some (-1)%Z /\ process k (cdiv (cofZ 1) (cofZ 10)) 1 (t0 7) w y = UB.
Proof. exact half_ub. Qed.
Print Assumptions C67_refuted.
Example C67_example : forall k, exists m (w : world (QT true)) y w' y', yreach k nopriv m w y /\ con_count y = 1 /\
  process k dtQ 2 (t0 7) w y = Ok (w', y') /\ b_f (w_body w' 0) Bvy <> b_f (w_body w 0) Bvy.
Proof. exact shaft_steps. Qed.

(** C68: no constraints left *)
Theorem C68_none_partial :
  forall tg priv k z m dt t (w : world tg) (y : sys tg) l f, yreach k priv m w y -> y_cons y = [] -> uses k z y -> y_sle y = Some l ->
    idles l (hm (y_heap y) ilambda) -> all_gentle w y -> pushes w y (kin_of w) (cdiv dt (cofZ 1)) f ->
    exists w' y' K', process k dt 1 t w y = Ok (w', y') /\ free_motion z w y (cdiv dt (cofZ 1)) f (kin_of w) K' /\ arrives w' y K'.
Proof. exact @process_none. Qed.
Print Assumptions C68_none_partial.
Example C68_none_example : forall i, exists m (w : world (QT true)) y z l f, yreach Optimized privc m w y /\ length (calls m) = Nat.min i 1 /\ y_bodies y = [0; 1] /\ y_cons y = [] /\
  uses Optimized z y /\ y_sle y = Some l /\ same_class l (solver_no i) = true /\ idles l (hm (y_heap y) ilambda) /\ all_gentle w y /\ forall h, pushes w y (kin_of w) h f.
Proof. exact copes. Qed.
(** before the first call elimination and Gauss-Seidel cope *)
Theorem C68_first_partial :
  forall tg priv k z m dt t (w : world tg) (y : sys tg) l f, yreach k priv m w y -> calls m = [] -> y_cons y = [] -> uses k z y -> y_sle y = Some l ->
    match l with SleBase _ | SleCg _ => False | SleGe _ => True | SleGs g => 0 < gs_max_iterations g /\ clt (cofZ 0) (gs_min_delta g) = Ok true end ->
    all_gentle w y -> pushes w y (kin_of w) (cdiv dt (cofZ 1)) f ->
    exists w' y' K', process k dt 1 t w y = Ok (w', y') /\ free_motion z w y (cdiv dt (cofZ 1)) f (kin_of w) K' /\ arrives w' y K'.
Proof. exact @first_others. Qed.
Print Assumptions C68_first_partial.
(** in a debug build the others always stop at an assertion *)
Theorem C68_balks_refuted :
  forall tg priv k z m dt n t (w : world tg) (y : sys tg) l f, asserts_on tg = true -> yreach k priv m w y -> y_cons y = [] -> uses k z y -> y_sle y = Some l ->
    balks l (hm (y_heap y) ilambda) -> all_gentle w y -> pushes w y (kin_of w) (cdiv dt (cofZ (Z.of_nat (S n)))) f ->
    process k dt (S n) t w y = AssertFail.
Proof. exact @process_balks. Qed.
Print Assumptions C68_balks_refuted.
Example C68_balks_example : forall k, exists m (w : world (QT true)) y z g f, yreach k nopriv m w y /\ length (calls m) = 1 /\ y_bodies y = [0; 1] /\ y_cons y = [] /\
  uses k z y /\ y_sle y = Some (SleGe g) /\ balks (SleGe (tg := QT true) g) (hm (y_heap y) ilambda) /\ all_gentle w y /\ forall h, pushes w y (kin_of w) h f.
Proof. exact gone_balks. Qed.
(** conjugate gradient stops there at the first call *)
Theorem C68_first_refuted :
  forall tg priv k z m dt n t (w : world tg) (y : sys tg) g f, asserts_on tg = true -> yreach k priv m w y -> calls m = [] -> y_cons y = [] -> uses k z y -> y_sle y = Some (SleCg g) ->
    all_gentle w y -> pushes w y (kin_of w) (cdiv dt (cofZ (Z.of_nat (S n)))) f -> process k dt (S n) t w y = AssertFail.
Proof. exact @first_cg. Qed.
Print Assumptions C68_first_refuted.
Example C68_first_example : forall k, exists m (w : world (QT true)) y z g f, yreach k privc m w y /\ calls m = [] /\ y_bodies y = [0; 1] /\ y_cons y = [] /\
  uses k z y /\ y_sle y = Some (SleCg g) /\ all_gentle w y /\ forall h, pushes w y (kin_of w) h f.
Proof. exact never_cg. Qed.

(** C69 *)
Theorem C69_optimized : forall tg (y : sys tg), opt_dtor y = Ok tt.
Proof. exact @opt_dtor_ok. Qed.
Print Assumptions C69_optimized.
Theorem C69_solvers : forall tg (l : sle tg) (hp : heap tg) (o : ode tg), sle_dtor l hp = Ok tt /\ ode_dtor o = Ok tt.
Proof. intros tg l hp o. exact (conj (sle_dtor_ok l hp) (ode_dtor_ok o)). Qed.
Print Assumptions C69_solvers.
(** the generic system can be destroyed before the first call of process; after one a debug build stops *)
Theorem C69_generic_refuted : forall tg priv m (w : world tg) (y : sys tg), yreach Generic priv m w y ->
  (calls m = [] -> gen_dtor y = Ok tt) /\
  (calls m <> [] -> gen_dtor y = if asserts_on tg then AssertFail else Ok tt).
Proof. exact @gen_dtor_used. Qed.
Print Assumptions C69_generic_refuted.
Example C69_generic_example : exists m (w : world (QT true)) y, yreach Generic nopriv m w y /\ length (calls m) = 2 /\ gen_dtor y = AssertFail.
Proof. exact used_generic. Qed.
Example C69_fresh_example : exists m (w : world (QT true)) y, yreach Generic nopriv m w y /\ calls m = [] /\ body_count y = 2 /\ gen_dtor y = Ok tt.
Proof. exact fresh_generic. Qed.
