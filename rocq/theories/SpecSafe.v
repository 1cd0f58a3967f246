(** * Specification vocabulary: systems in which every value is determinate. *)

From Verif Require Import Base Matrix Sle State Ode Forces Constraints System SpecSle SpecState SpecSys SpecDyn SpecRk.
Local Open Scope nat_scope.

(** arithmetic in which division, square root, sine and cosine always yield a
    value, as they do for floating point numbers *)
Definition total_arithmetic (tg : target) : Prop :=
  total_division tg /\ (forall x, exists z, n_sqrt tg x = Some z) /\
  (forall x, exists z, n_sin tg x = Some z) /\ (forall x, exists z, n_cos tg x = Some z).

Section S.
Context {tg : target}.
Implicit Types (w : world tg) (y : sys tg).

Definition all_set (l : list (cell tg)) : Prop := forall x, In x l -> defined x.
(** a body with its position, velocity, mass and moment of inertia *)
Definition body_set (b : body tg) : Prop :=
  forall d, d < 3 -> defined (b_pos b d) /\ defined (b_vel b d) /\ defined (b_mass b d).
(** a constraint of one of the library's classes with all its parameters *)
Definition pars_set (k : ckind tg) : Prop :=
  match k with
  | KFixedPosition p => all_set [fp_lx p; fp_ly p; fp_wx p; fp_wy p; fp_ks p; fp_kd p]
  | KLine p => all_set [li_lx p; li_ly p; li_p0x p; li_p0y p; li_dx p; li_dy p; li_ks p; li_kd p]
  | KLink p => all_set [lk_x1 p; lk_y1 p; lk_x2 p; lk_y2 p; lk_max p; lk_ks p; lk_kd p]
  | KRolling p => all_set [ro_lx p; ro_ly p; ro_dx p; ro_dy p; ro_radius p; ro_ks p; ro_kd p]
  | KFixedRotation p => all_set [fr_rot p; fr_ks p; fr_kd p]
  | KConstantRotation p => all_set [cr_speed p; cr_max p; cr_min p; cr_ks p; cr_kd p]
  | KClutch p => all_set [cl_max p; cl_min p; cl_ks p; cl_kd p]
  | KFriction p => all_set [rf_max p; rf_min p; rf_ks p; rf_kd p]
  | KGear p => all_set [ge_ratio p; ge_ks p; ge_kd p]
  | KBase | KCustom _ => False
  end.
Definition con_set (c : constraint tg) : Prop :=
  class_counts (c_kind c) = Some (c_count c, c_bodycount c) /\ pars_set (c_kind c).
(** a generator of one of the library's classes with all its parameters, which
    acts on bodies in the system; a motor may push off a body outside *)
Definition gen_set w y (g : gkind tg) : Prop :=
  match g with
  | GGravity x => defined x
  | GStatic f => all_set [sf_fx f; sf_fy f; sf_px f; sf_py f] /\ exists b, sf_body f = Some b /\ In b (y_bodies y)
  | GSpring p => all_set [sp_rest p; sp_ks p; sp_kd p; sp_p1x p; sp_p1y p; sp_p2x p; sp_p2y p] /\
      match sp_b1 p, sp_b2 p with Some b1, Some b2 => In b1 (y_bodies y) /\ In b2 (y_bodies y) | _, _ => True end
  | GMotor p => all_set [mo_ks p; mo_kd p; mo_max p; mo_speed p] /\
      (exists b0, mo_b0 p = Some b0 /\ (In b0 (y_bodies y) \/ b_index (w_body w b0) = (-1)%Z)) /\
      exists b1, mo_b1 p = Some b1 /\ In b1 (y_bodies y)
  | GCustom _ => False
  end.
(** the multipliers kept from the last call *)
Definition multipliers_set y : Prop :=
  forall r c, r < m_h (hm (y_heap y) ilambda) -> c < m_w (hm (y_heap y) ilambda) ->
    exists x, mget (hm (y_heap y)) ilambda c r = Ok x /\ defined x.
(** a linear solver that always leaves a result: elimination, or Gauss-Seidel
    in the optimized class; with assertions, which catch a failure, conjugate
    gradients too *)
Definition solver_set (k : flavour) (l : sle tg) : Prop :=
  match l, k with
  | SleGe _, _ => True
  | SleGs g, Optimized => defined (gs_min_delta g)
  | SleCg g, _ => defined (cg_max_error g) /\ defined (cg_min_error g) /\ asserts_on tg = true
  | _, _ => False
  end.
(** an integrator of the library; a fourth-order solver must be the system's own *)
Definition integrator_set (priv : nat -> bool) (k : flavour) y : Prop :=
  match k with
  | Optimized => True
  | Generic => (exists z h, y_ode y = Some (ode_of z h)) \/ (lone priv y /\ exists r, y_ode y = Some (OdeRk4 r))
  end.
Definition scene_determinate w y : Prop :=
  (forall b, In b (y_bodies y) -> body_set (w_body w b)) /\
  (forall c, In c (y_cons y) -> con_set (w_con w c)) /\ attached w y /\
  (forall g, In g (y_gens y) -> gen_set w y (g_kind (w_gen w g))) /\
  y_cons y <> [] /\ body_count y <= 255 /\ defined (y_bias y) /\ multipliers_set y.
Definition all_determinate (k : flavour) w y : Prop :=
  scene_determinate w y /\ exists l, y_sle y = Some l /\ solver_set k l.
(** a constraint as its constructor leaves it: attached to nothing, no forces *)
Definition fresh_con (k : ckind tg) (rows parties : nat) (c : constraint tg) : Prop :=
  c_kind c = k /\ c_count c = rows /\ c_bodycount c = parties /\ c_index c = (-1)%Z /\
  (forall p, c_bodies c p = None) /\ (forall d j i, c_force c d j i = cofZ 0).
(** the reported constraint forces are determinate *)
Definition forces_reported w y w' : Prop :=
  forall c j i d, In c (y_cons y) -> j < c_count (w_con w c) -> i < c_bodycount (w_con w c) -> d < 3 -> defined (c_force (w_con w' c) d j i).
(** several calls of process, with these step sizes, sub-steps and times *)
Fixpoint process_all (k : flavour) (l : list (cell tg * nat * timing)) w y : res (world tg * sys tg) :=
  match l with
  | [] => Ok (w, y)
  | (dt, n, t) :: l => let* (w, y) := process k dt n t w y in process_all k l w y
  end.
(** no undefined behaviour and no endless loop; an assertion may stop it in a
    build that has assertions *)
Definition ends_properly (r : res (world tg * sys tg)) (Q : world tg -> sys tg -> Prop) : Prop :=
  match r with Ok (w, y) => Q w y | AssertFail => asserts_on tg = true | UB | OutOfFuel => False end.
End S.
