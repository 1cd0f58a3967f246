(** * Properties C52 - C57, C76: the constraints. *)

From Coq Require Import Reals.
From Verif Require Import Base Targets State Forces Constraints Logic SpecMatrix SpecState SpecForces SpecCon ForceWit ConReal ConWit.
Local Open Scope nat_scope.

(** C52 *)
Theorem C52_partial_derivatives :
  forall (dbg : bool) (k : rkind) (bs : bodies (RT dbg)) (c : constraint (RT dbg)) (o : output (RT dbg)) (S : R -> sstate (RT dbg)) (q : nat -> pose) (w : nat -> R -> pose) i,
    positional k = true -> c_kind c = kind_of dbg k -> i < 3 * parties k ->
    (forall t, bound bs c (parties k) (S t) (bump i t q) (fun p => w p t)) ->
    exists out C J, (forall t, calculate bs c o (S t) = Ok (out t)) /\
      forall r, r < rows k -> (forall t, o_C (out t) r = (Some (C r t) : cell (RT dbg))) /\ o_J (out 0%R) r i = (Some (J r) : cell (RT dbg)) /\
        derivable_pt_lim (C r) 0 (J r).
Proof. exact @jacobian_partial. Qed.
Print Assumptions C52_partial_derivatives.
Theorem C52_along_motions :
  forall (dbg : bool) (k : rkind) (bs : bodies (RT dbg)) (c : constraint (RT dbg)) (o : output (RT dbg)) (S : R -> sstate (RT dbg)) (m w : nat -> R -> pose) t0 v,
    positional k = true -> c_kind c = kind_of dbg k ->
    (forall t, bound bs c (parties k) (S t) (fun p => m p t) (fun p => w p t)) -> (forall p, p < parties k -> moves (m p) t0 (v p)) ->
    exists out C J, (forall t, calculate bs c o (S t) = Ok (out t)) /\
      forall r, r < rows k -> (forall t, o_C (out t) r = (Some (C r t) : cell (RT dbg))) /\
        (forall i, i < 3 * parties k -> o_J (out t0) r i = (Some (J r i) : cell (RT dbg))) /\
        derivable_pt_lim (C r) t0 (Rsum (3 * parties k) (fun i => J r i * coord v i)%R).
Proof. exact @jacobian_curve. Qed.
Print Assumptions C52_along_motions.
Example C52_example : forall t, bound bsW (conW (kind_of true kRoll)) (parties kRoll) (SB t) (bump 2 t (fun p => mW p 0)) (fun p => two v1W v2W p).
Proof. exact (fun t => SB_bound _ _ t (le_n 2)). Qed.
Example C52_example_motion : forall t0, (forall t, bound bsW (conW (kind_of true kLink)) (parties kLink) (SW t) (fun p => mW p t) (fun p => two v1W v2W p)) /\
  forall p, p < parties kLink -> moves (mW p) t0 (two v1W v2W p).
Proof. exact (fun t0 => conj (fun t => SW_bound _ _ t (le_n 2)) (mW_moves 2 t0)). Qed.

(** C53 *)
Theorem C53_jacobian_rate :
  forall (dbg : bool) (k : rkind) (bs : bodies (RT dbg)) (c : constraint (RT dbg)) (o : output (RT dbg)) (S : R -> sstate (RT dbg)) (m w : nat -> R -> pose) t0,
    c_kind c = kind_of dbg k ->
    (forall t, bound bs c (parties k) (S t) (fun p => m p t) (fun p => w p t)) -> (forall p, p < parties k -> moves (m p) t0 (w p t0)) ->
    exists out J Jd, (forall t, calculate bs c o (S t) = Ok (out t)) /\
      forall r i, r < rows k -> i < 3 * parties k -> (forall t, o_J (out t) r i = (Some (J r i t) : cell (RT dbg))) /\
        o_Jdot (out t0) r i = (Some (Jd r i) : cell (RT dbg)) /\ derivable_pt_lim (J r i) t0 (Jd r i).
Proof. exact @jacobian_rate. Qed.
Print Assumptions C53_jacobian_rate.
Example C53_example : forall t0, (forall t, bound bsW (conW (kind_of true kRoll)) (parties kRoll) (SW t) (fun p => mW p t) (fun p => two v1W v2W p)) /\
  forall p, p < parties kRoll -> moves (mW p) t0 (two v1W v2W p).
Proof. exact (fun t0 => conj (fun t => SW_bound _ _ t (le_n 2)) (mW_moves 2 t0)). Qed.

(** C54 *)
Theorem C54_geometry :
  forall (dbg : bool) (k : rkind) (bs : bodies (RT dbg)) (c : constraint (RT dbg)) (o : output (RT dbg)) s q v,
    c_kind c = kind_of dbg k -> bound bs c (parties k) s q v ->
    exists o', calculate bs c o s = Ok o' /\
      match k with
      | RFixedPosition lx ly wx wy _ _ =>
          (o_C o' 0 = (Some 0%R : cell (RT dbg)) /\ o_C o' 1 = (Some 0%R : cell (RT dbg))) <-> (at_x (q 0) lx ly = wx /\ at_y (q 0) lx ly = wy)
      | RLine lx ly p0x p0y dx dy _ _ => (dx <> 0 \/ dy <> 0)%R ->
          (o_C o' 0 = (Some 0%R : cell (RT dbg))) <-> exists u : R, (at_x (q 0%nat) lx ly = p0x + u * dx /\ at_y (q 0%nat) lx ly = p0y + u * dy)%R
      | RLink x1 y1 x2 y2 _ _ _ =>
          (o_C o' 0 = (Some 0%R : cell (RT dbg)) /\ o_C o' 1 = (Some 0%R : cell (RT dbg))) <->
          (at_x (q 0) x1 y1 = at_x (q 1) x2 y2 /\ at_y (q 0) x1 y1 = at_y (q 1) x2 y2)
      | RRolling lx ly dx dy rad _ _ => (dx ^ 2 + dy ^ 2 = 1)%R ->
          o_C o' 1 = (Some 0%R : cell (RT dbg)) <-> exists u : R,
            q_x (q 1) = at_x (q 0) (lx + u * dx - rad * dy) (ly + u * dy + rad * dx) /\
            q_y (q 1) = at_y (q 0) (lx + u * dx - rad * dy) (ly + u * dy + rad * dx)
      | RFixedRotation rot _ _ => o_C o' 0 = (Some 0%R : cell (RT dbg)) <-> q_th (q 0) = rot
      | _ => o_C o' 0 = (Some 0%R : cell (RT dbg))
      end.
Proof. exact @geometry. Qed.
Print Assumptions C54_geometry.
Example C54_example : bound bsW (conW (kind_of true kJoint)) (parties kJoint) (pairS rest rest (mkPose 3 1 0) rest) (two rest (mkPose 3 1 0)) (two rest rest) /\
  at_x rest 1 2 = at_x (mkPose 3 1 0) (-2) 1 /\ at_y rest 1 2 = at_y (mkPose 3 1 0) (-2) 1.
Proof. exact (conj (conW_bound _ _ _ _ _ _ (le_n 2)) joint_closed). Qed.

(** C55: the wheel touches the surface at its centre minus radius times the
    surface normal (nx, ny).  With unit radius the factor 1 - rad^2 is zero and
    the contact point is at rest *)
Theorem C55_no_slip_partial :
  forall (dbg : bool) (bs : bodies (RT dbg)) (c : constraint (RT dbg)) (o : output (RT dbg)) s q v lx ly dx dy rad ks kd,
    c_kind c = kind_of dbg (RRolling lx ly dx dy rad ks kd) -> bound bs c 2 s q v ->
    (dx ^ 2 + dy ^ 2 = 1)%R -> v 0 = mkPose 0 0 0 ->
    exists o' J, calculate bs c o s = Ok o' /\ (forall r i, r < 2 -> i < 6 -> o_J o' r i = (Some (J r i) : cell (RT dbg))) /\
      let nx := (- (dx * sin (q_th (q 0%nat)) + dy * cos (q_th (q 0%nat))))%R in
      let ny := (dx * cos (q_th (q 0%nat)) - dy * sin (q_th (q 0%nat)))%R in
      ((Rsum 6 (fun i => J 0%nat i * coord v i) = 0 /\ Rsum 6 (fun i => J 1%nat i * coord v i) = 0)%R ->
        ptvx (q 1) (v 1) (q_x (q 1%nat) - rad * nx)%R (q_y (q 1%nat) - rad * ny)%R = ((1 - rad ^ 2) * (q_x (v 1%nat)))%R /\
        ptvy (q 1) (v 1) (q_x (q 1%nat) - rad * nx)%R (q_y (q 1%nat) - rad * ny)%R = ((1 - rad ^ 2) * (q_y (v 1%nat)))%R).
Proof. exact @rolling_no_slip. Qed.
Print Assumptions C55_no_slip_partial.
Example C55_example :
  exists o' J, calculate bsW (conW (kind_of true (kWheel 1))) out_new (SWheel 1) = Ok o' /\
    (forall a i, a < 2 -> i < 6 -> o_J o' a i = (Some (J a i) : cell (RT true))) /\
    (Rsum 6 (fun i => J 0%nat i * coord (two rest (vWheel 1)) i) = 0)%R /\ (Rsum 6 (fun i => J 1%nat i * coord (two rest (vWheel 1)) i) = 0)%R /\
    o_C o' 1 = (Some 0%R : cell (RT true)).
Proof. exact (wheel_rows 1). Qed.
(** a wheel of radius 2 on the x axis meets both conditions while its contact point slides *)
Theorem C55_no_slip_refuted :
  bound bsW (conW (kind_of true (kWheel 2))) 2 (SWheel 2) (two rest (qWheel 2)) (two rest (vWheel 2)) /\
  exists o' J, calculate bsW (conW (kind_of true (kWheel 2))) out_new (SWheel 2) = Ok o' /\
    (forall a i, a < 2 -> i < 6 -> o_J o' a i = (Some (J a i) : cell (RT true))) /\
    (Rsum 6 (fun i => J 0%nat i * coord (two rest (vWheel 2)) i) = 0)%R /\ (Rsum 6 (fun i => J 1%nat i * coord (two rest (vWheel 2)) i) = 0)%R /\
    o_C o' 1 = (Some 0%R : cell (RT true)) /\
    (ptvx (qWheel 2) (vWheel 2) 7 0 = -3)%R.
Proof. exact (conj (conW_bound _ _ _ _ _ _ (le_n 2)) wheel_slips). Qed.
Print Assumptions C55_no_slip_refuted.

(** C56 *)
Theorem C56_own_output_partial :
  forall (tg : target) (bs : bodies tg) (c : constraint tg) (o o2 : output tg) s n m, class_counts (c_kind c) = Some (n, m) ->
    rel (calculate bs c o s) (calculate bs c o2 s) (same_rows n m).
Proof. exact @own_output. Qed.
Print Assumptions C56_own_output_partial.
Theorem C56_limits_partial :
  forall (tg : target) (bs : bodies tg) (c : constraint tg) (o o' : output tg) s n m, class_counts (c_kind c) = Some (n, m) ->
    n_leb tg (n_opp tg (n_dblmax tg)) (n_dblmax tg) = true -> n_leb tg (n_ofZ tg 0) (n_ofZ tg 0) = true -> limits_given (c_kind c) ->
    calculate bs c o s = Ok o' -> forall r, r < n -> ordered (o_limits o' r 0) (o_limits o' r 1).
Proof. exact @limits_ordered. Qed.
Print Assumptions C56_limits_partial.
Example C56_example : forall b, limits_given (@kClutchT (F64 b)) /\ n_leb (F64 b) (n_opp (F64 b) (n_dblmax (F64 b))) (n_dblmax (F64 b)) = true /\
  n_leb (F64 b) (n_ofZ (F64 b) 0) (n_ofZ (F64 b) 0) = true.
Proof. exact clutch_ordered. Qed.
(** the base class writes nothing, so what was there before shows *)
Theorem C56_base_refuted : forall b,
  let c := @mkCon (F64 b) KBase (-1) 1 (fun _ => None) (fun _ _ => cofZ 0) (fun _ _ => cofZ 0) (fun _ _ => cofZ 0) 1 in
  con_new (@KBase (F64 b)) 1 1 = Ok c /\
  forall s, ~ rel (calculate bsW c dirty s) (calculate bsW c out_new s) (same_rows 1 1).
Proof. exact base_leaks. Qed.
Print Assumptions C56_base_refuted.
(** limits the user gave the wrong way round are passed on *)
Theorem C56_limits_refuted : forall b s, exists o',
  calculate bsW (@conW (F64 b) (@KClutch (F64 b) (@mkClutch (F64 b) (cofZ (-1)) (cofZ 1) (cofZ 1) (cofZ 1)))) out_new s = Ok o' /\
  ~ ordered (o_limits o' 0 0) (o_limits o' 0 1).
Proof. exact link_limits_crossed. Qed.
Print Assumptions C56_limits_refuted.

(** C57 *)
Theorem C57_link_forces :
  forall (dbg : bool) (bs : bodies (RT dbg)) (c : constraint (RT dbg)) (o : output (RT dbg)) s q v x1 y1 x2 y2 mx ks kd,
    c_kind c = kind_of dbg (RLink x1 y1 x2 y2 mx ks kd) -> bound bs c 2 s q v ->
    exists o' J, calculate bs c o s = Ok o' /\ (forall r i, r < 2 -> i < 6 -> o_J o' r i = (Some (J r i) : cell (RT dbg))) /\
      forall l : nat -> R, (gf_x (pull 2 J l 0) + gf_x (pull 2 J l 1) = 0)%R /\ (gf_y (pull 2 J l 0) + gf_y (pull 2 J l 1) = 0)%R /\
        (o_C o' 0 = (Some 0%R : cell (RT dbg)) -> o_C o' 1 = (Some 0%R : cell (RT dbg)) ->
         forall ox oy : R, (moment (q 0%nat) (pull 2 J l 0) ox oy + moment (q 1%nat) (pull 2 J l 1) ox oy = 0)%R).
Proof. exact @link_forces. Qed.
Print Assumptions C57_link_forces.
Example C57_example : bound bsW (conW (kind_of true kJoint)) 2 (pairS rest rest (mkPose 3 1 0) rest) (two rest (mkPose 3 1 0)) (two rest rest) /\
  at_x rest 1 2 = at_x (mkPose 3 1 0) (-2) 1 /\ at_y rest 1 2 = at_y (mkPose 3 1 0) (-2) 1.
Proof. exact (conj (conW_bound _ _ _ _ _ _ (le_n 2)) joint_closed). Qed.

(** C76 *)
Theorem C76_rotational :
  forall (dbg : bool) (k : rkind) (bs : bodies (RT dbg)) (c : constraint (RT dbg)) (o : output (RT dbg)) s q v,
    positional k = false -> c_kind c = kind_of dbg k -> bound bs c (parties k) s q v ->
    exists o' J, calculate bs c o s = Ok o' /\ (forall i, i < 3 * parties k -> o_J o' 0 i = (Some (J i) : cell (RT dbg))) /\
      (forall u : nat -> pose, Rsum (3 * parties k) (fun i => J i * coord u i)%R =
        match k with RClutch _ _ _ _ => (q_th (u 1%nat) - q_th (u 0%nat))%R | RGear ra _ _ _ => (q_th (u 0%nat) - ra * q_th (u 1%nat))%R | _ => q_th (u 0%nat) end) /\
      o_vbias o' 0 = match k with RConstantRotation sp _ _ _ _ => (Some sp : cell (RT dbg)) | _ => (Some 0%R : cell (RT dbg)) end /\
      match k with
      | RConstantRotation _ mx mn _ _ | RClutch mx mn _ _ | RFriction mx mn _ _ => o_limits o' 0 0 = (Some mn : cell (RT dbg)) /\ o_limits o' 0 1 = (Some mx : cell (RT dbg))
      | RGear _ true _ _ => o_limits o' 0 0 = (Some 0%R : cell (RT dbg)) /\ o_limits o' 0 1 = (Some 0%R : cell (RT dbg))
      | _ => True
      end.
Proof. exact @rotational. Qed.
Print Assumptions C76_rotational.
Example C76_example : bound bsW (conW (kind_of true (RGear 3 false 1 1))) 2 (SW 0) (fun p => mW p 0) (fun p => two v1W v2W p).
Proof. exact (SW_bound _ _ 0 (le_n 2)). Qed.
