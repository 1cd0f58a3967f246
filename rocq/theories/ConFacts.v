(** * What the constraints compute (C52 - C57). *)

From Coq Require Import Reals Lra Psatz.
From Verif Require Import Base Targets State Forces Constraints Logic SpecMatrix SpecState StateFacts StateReal SpecForces SpecCon.
Local Open Scope nat_scope.

Definition C_of (k : rkind) (q : nat -> pose) (r : nat) : R :=
  match k with
  | RFixedPosition lx ly wx wy _ _ => nth r [at_x (q 0%nat) lx ly - wx; at_y (q 0%nat) lx ly - wy] 0
  | RLine lx ly p0x p0y dx dy _ _ => (at_x (q 0%nat) lx ly - p0x) * - dy + (at_y (q 0%nat) lx ly - p0y) * dx
  | RLink x1 y1 x2 y2 _ _ _ => nth r [at_x (q 0%nat) x1 y1 - at_x (q 1%nat) x2 y2; at_y (q 0%nat) x1 y1 - at_y (q 1%nat) x2 y2] 0
  | RRolling lx ly dx dy rad _ _ =>
      let ox := at_x (q 0%nat) lx ly in let oy := at_y (q 0%nat) lx ly in
      let Dx := cos (q_th (q 0%nat)) * dx - sin (q_th (q 0%nat)) * dy in let Dy := sin (q_th (q 0%nat)) * dx + cos (q_th (q 0%nat)) * dy in
      let ex := q_x (q 1%nat) - ox in let ey := q_y (q 1%nat) - oy in
      nth r [- q_th (q 1%nat) - (ex * Dx + ey * Dy) * rad; rad - (- Dy * ex + Dx * ey)] 0
  | RFixedRotation rot _ _ => q_th (q 0%nat) - rot
  | _ => 0
  end%R.
Definition J_of (k : rkind) (q : nat -> pose) (r i : nat) : R :=
  let c0 := cos (q_th (q 0%nat)) in let s0 := sin (q_th (q 0%nat)) in let c1 := cos (q_th (q 1%nat)) in let s1 := sin (q_th (q 1%nat)) in
  match k with
  | RFixedPosition lx ly wx wy _ _ => nth i (nth r [[1; 0; - s0 * lx - c0 * ly]; [0; 1; c0 * lx - s0 * ly]] []) 0
  | RLine lx ly p0x p0y dx dy _ _ => nth i (nth r [[- dy; dx; (- s0 * lx - c0 * ly) * - dy + (c0 * lx - s0 * ly) * dx]] []) 0
  | RLink x1 y1 x2 y2 _ _ _ => nth i (nth r [[1; 0; - s0 * x1 - c0 * y1; - (1); 0; s1 * x2 + c1 * y2];
                                             [0; 1; c0 * x1 - s0 * y1; 0; - (1); - c1 * x2 + s1 * y2]] []) 0
  | RRolling lx ly dx dy rad _ _ =>
      let ox := at_x (q 0%nat) lx ly in let oy := at_y (q 0%nat) lx ly in
      let Dx := c0 * dx - s0 * dy in let Dy := s0 * dx + c0 * dy in
      let ex := q_x (q 1%nat) - ox in let ey := q_y (q 1%nat) - oy in
      let px := - s0 * lx - c0 * ly in let py := c0 * lx - s0 * ly in
      nth i (nth r [[Dx * rad; Dy * rad; - (- px * Dx + ex * - Dy + (- py * Dy + ey * Dx)) * rad; - Dx * rad; - Dy * rad; - (1)];
                    [- Dy; Dx; (Dx * ex + Dy * - px) - (- Dy * ey + Dx * - py); Dy; - Dx; 0]] []) 0
  | RFixedRotation _ _ _ | RConstantRotation _ _ _ _ _ | RFriction _ _ _ _ => nth i [0; 0; 1] 0
  | RClutch _ _ _ _ => nth i [0; 0; - (1); 0; 0; 1] 0
  | RGear ra _ _ _ => nth i [0; 0; 1; 0; 0; - ra] 0
  end%R.
Definition Jd_of (k : rkind) (q v : nat -> pose) (r i : nat) : R :=
  let c0 := cos (q_th (q 0%nat)) in let s0 := sin (q_th (q 0%nat)) in let c1 := cos (q_th (q 1%nat)) in let s1 := sin (q_th (q 1%nat)) in
  let w0 := q_th (v 0%nat) in let w1 := q_th (v 1%nat) in
  match k with
  | RFixedPosition lx ly wx wy _ _ => nth i (nth r [[0; 0; - c0 * w0 * lx + s0 * w0 * ly]; [0; 0; - s0 * w0 * lx - c0 * w0 * ly]] []) 0
  | RLine lx ly p0x p0y dx dy _ _ => nth i (nth r [[0; 0; (- c0 * w0 * lx + s0 * w0 * ly) * - dy + (- s0 * w0 * lx - c0 * w0 * ly) * dx]] []) 0
  | RLink x1 y1 x2 y2 _ _ _ => nth i (nth r [[0; 0; - c0 * w0 * x1 + s0 * w0 * y1; 0; 0; c1 * w1 * x2 - s1 * w1 * y2];
                                             [0; 0; - s0 * w0 * x1 - c0 * w0 * y1; 0; 0; s1 * w1 * x2 + c1 * w1 * y2]] []) 0
  | RRolling lx ly dx dy rad _ _ =>
      let ox := at_x (q 0%nat) lx ly in let oy := at_y (q 0%nat) lx ly in
      let Dx := c0 * dx - s0 * dy in let Dy := s0 * dx + c0 * dy in
      let Ex := - Dy * w0 in let Ey := Dx * w0 in
      let ex := q_x (q 1%nat) - ox in let ey := q_y (q 1%nat) - oy in
      let px := - s0 * lx - c0 * ly in let py := c0 * lx - s0 * ly in
      let fx := q_x (v 1%nat) - (q_x (v 0%nat) + px * w0) in let fy := q_y (v 1%nat) - (q_y (v 0%nat) + py * w0) in
      nth i (nth r [[Ex * rad; Ey * rad;
                     - ((py * w0 * Dx + - px * Ex) + (fx * - Dy + ex * - Ey) + (- px * w0 * Dy + - py * Ey) + (fy * Dx + ey * Ex)) * rad;
                     - Ex * rad; - Ey * rad; 0];
                    [- Ey; Ex; (Ex * ex + Dx * fx) + (Ey * - px + Dy * (py * w0)) - (- Ey * ey + - Dy * fy) - (Ex * - py + Dx * (- px * w0)); Ey; - Ex; 0]] []) 0
  | _ => 0
  end%R.

Section R.
Context {dbg : bool}.
Notation tg := (RT dbg).
Notation cl := (cell tg).

Lemma some_eq (x y : R) : x = y -> (Some x : cl) = (Some y : cl).
Proof. now intros ->. Qed.
Lemma cofZ_R z : (cofZ z : cl) = (Some (IZR z) : cl).
Proof. reflexivity. Qed.

Ltac small r := first [exfalso; lia|destruct r as [|r]; [|small r]].
Ltac fin := cbn [write_out o_C o_J o_Jdot wr1 wr2 nth_error fp_lx fp_ly fp_wx fp_wy li_lx li_ly li_p0x li_p0y li_dx li_dy lk_x1 lk_y1 lk_x2 lk_y2
    ro_lx ro_ly ro_dx ro_dy ro_radius fr_rot ge_ratio]; rt_unfold; unfold cofZ; apply some_eq;
  cbn [C_of J_of Jd_of nth]; unfold at_x, at_y, world_x, world_y; cbn [n_ofZ RT]; ring.
Ltac entries := eexists; split; [reflexivity|]; intros r Hr; split;
  [small r; fin|let i := fresh "i" in let Hi := fresh "Hi" in intros i Hi; split; small r; small i; fin].

Lemma calc_R (bs : bodies tg) (c : constraint tg) (o : output tg) s k q v :
  c_kind c = kind_of dbg k -> bound bs c (parties k) s q v ->
  exists o', calculate bs c o s = Ok o' /\ reads o' (rows k) (parties k) (C_of k q) (J_of k q) (Jd_of k q v).
Proof.
  intros Ek B.
  assert (B0 : 0 < parties k) by (destruct k; cbn; lia). destruct (B 0 B0) as (i0 & E0 & P0 & V0).
  unfold calculate. rewrite Ek. destruct k; cbn [kind_of parties rows] in *.
  - unfold con_body_index. rewrite E0. cbn [deref bind]. destruct P0 as (X & Y & T), V0 as (_ & _ & W).
    unfold fp_calculate. rewrite X, Y, T, W. cbn [bind]. entries.
  - unfold con_body_index. rewrite E0. cbn [deref bind]. destruct P0 as (X & Y & T), V0 as (_ & _ & W).
    unfold line_calculate. rewrite X, Y, T, W. cbn [bind]. entries.
  - destruct (B 1 ltac:(lia)) as (i1 & E1 & P1 & V1). unfold con_body_index. rewrite E0, E1. cbn [deref bind].
    destruct P0 as (X & Y & T), V0 as (_ & _ & W), P1 as (X1 & Y1 & T1), V1 as (_ & _ & W1).
    unfold link_calculate. rewrite X, Y, T, X1, Y1, T1, W, W1. cbn [bind]. entries.
  - destruct (B 1 ltac:(lia)) as (i1 & E1 & P1 & V1). unfold con_body_index. rewrite E0, E1. cbn [deref bind].
    destruct P0 as (X & Y & T), V0 as (U & V & W), P1 as (X1 & Y1 & T1), V1 as (U1 & V1 & W1).
    unfold rolling_calculate. rewrite X, Y, T, X1, Y1, T1, U, V, W, U1, V1. cbn [bind]. entries.
  - unfold con_body_index. rewrite E0. cbn [deref bind]. destruct P0 as (X & Y & T).
    unfold fr_calculate. rewrite T. cbn [bind]. entries.
  - unfold cr_calculate. entries.
  - unfold clutch_calculate. entries.
  - unfold con_body_index. rewrite E0. cbn [deref bind]. unfold friction_calculate. entries.
  - unfold gear_calculate. entries.
Qed.
End R.
