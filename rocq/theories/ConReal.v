(** * The meaning of the constraints (C52 - C57). *)

From Coq Require Import Reals Lra Psatz.
From Verif Require Import Base Targets State Forces Constraints Logic SpecMatrix SpecState StateFacts StateReal SpecForces SpecCon ConFacts.
Local Open Scope nat_scope.

Ltac dlim1 := first
  [ match goal with H : derivable_pt_lim ?f ?t ?l |- derivable_pt_lim ?g ?t _ => exact H end
  | apply dlim_const
  | apply dlim_cos | apply dlim_sin | apply dlim_add | apply dlim_sub | apply dlim_mul | apply dlim_opp ].
Ltac dlim := eapply dlim_val; [|solve [repeat dlim1]].

Lemma C_deriv k (m : nat -> R -> pose) t0 v r : positional k = true -> r < rows k -> (forall p, p < parties k -> moves (m p) t0 (v p)) ->
  derivable_pt_lim (fun t => C_of k (fun p => m p t) r) t0 (Rsum (3 * parties k) (fun i => J_of k (fun p => m p t0) r i * coord v i)%R).
Proof.
  intros Hk Hr M. destruct (M 0) as (A & B & D); [destruct k; cbn; lia|].
  destruct k; try discriminate; cbn [rows parties] in *.
  - destruct r as [|[|r]]; [| |exfalso; lia]; cbn [C_of nth]; unfold at_x, at_y, world_x, world_y; dlim; cbn; ring.
  - destruct r as [|r]; [|exfalso; lia]; cbn [C_of nth]; unfold at_x, at_y, world_x, world_y; dlim; cbn; ring.
  - destruct (M 1 ltac:(lia)) as (A1 & B1 & D1). destruct r as [|[|r]]; [| |exfalso; lia]; cbn [C_of nth]; unfold at_x, at_y, world_x, world_y; dlim; cbn; ring.
  - destruct (M 1 ltac:(lia)) as (A1 & B1 & D1). destruct r as [|[|r]]; [| |exfalso; lia]; cbn [C_of nth]; unfold at_x, at_y, world_x, world_y; dlim; cbn;
    unfold at_x, at_y, world_x, world_y; ring.
  - destruct r as [|r]; [|exfalso; lia]; cbn [C_of]; dlim; cbn; ring.
Qed.
Ltac small r := first [exfalso; lia|destruct r as [|r]; [|small r]].
Lemma J_deriv k (m : nat -> R -> pose) t0 v r i : r < rows k -> i < 3 * parties k -> (forall p, p < parties k -> moves (m p) t0 (v p)) ->
  derivable_pt_lim (fun t => J_of k (fun p => m p t) r i) t0 (Jd_of k (fun p => m p t0) v r i).
Proof.
  intros Hr Hi M. destruct (M 0) as (A & B & D); [destruct k; cbn; lia|].
  destruct k; cbn [rows parties] in *; small r; small i; cbn [J_of Jd_of nth]; try (apply dlim_const);
  try (destruct (M 1 ltac:(lia)) as (A1 & B1 & D1)); unfold at_x, at_y, world_x, world_y; dlim; cbv beta; ring.
Qed.

Section R.
Context {dbg : bool}.
Notation tg := (RT dbg).
Notation cl := (cell tg).

(** C52 *)
Lemma jacobian_curve (k : rkind) (bs : bodies tg) (c : constraint tg) (o : output tg) (S : R -> sstate tg) (m w : nat -> R -> pose) t0 v :
  positional k = true -> c_kind c = kind_of dbg k ->
  (forall t, bound bs c (parties k) (S t) (fun p => m p t) (fun p => w p t)) -> (forall p, p < parties k -> moves (m p) t0 (v p)) ->
  exists out C J, (forall t, calculate bs c o (S t) = Ok (out t)) /\
    forall r, r < rows k -> (forall t, o_C (out t) r = (Some (C r t) : cl)) /\
      (forall i, i < 3 * parties k -> o_J (out t0) r i = (Some (J r i) : cl)) /\
      derivable_pt_lim (C r) t0 (Rsum (3 * parties k) (fun i => J r i * coord v i)%R).
Proof.
  intros Hp Ek B M.
  assert (X : forall t, exists o', calculate bs c o (S t) = Ok o' /\
    reads o' (rows k) (parties k) (C_of k (fun p => m p t)) (J_of k (fun p => m p t)) (Jd_of k (fun p => m p t) (fun p => w p t))).
  { intros t. now apply calc_R. }
  exists (fun t => match calculate bs c o (S t) with Ok o' => o' | _ => out_new end), (fun r t => C_of k (fun p => m p t) r), (J_of k (fun p => m p t0)).
  split; [intros t; destruct (X t) as (o' & -> & _); reflexivity|]. intros r Hr. split; [|split].
  - intros t. destruct (X t) as (o' & -> & H). apply (H r Hr).
  - intros i Hi. destruct (X t0) as (o' & -> & H). apply (H r Hr). exact Hi.
  - now apply C_deriv.
Qed.
Lemma bump_moves i q p : moves (fun t => bump i t q p) 0 (bump i 1 (fun _ => mkPose 0 0 0) p).
Proof.
  assert (L : forall (a : R) (c : bool), derivable_pt_lim (fun t => (a + (if c then t else 0))%R) 0 (0 + (if c then 1 else 0))%R).
  { intros a c. apply (dlim_add (fun _ => a)); [apply dlim_const|]. destruct c; [apply derivable_pt_lim_id|apply dlim_const]. }
  unfold moves, bump. cbn [q_x q_y q_th]. split; [apply L|]. split; apply L.
Qed.
Lemma coord_bump i : coord (fun p => bump i 1 (fun _ => mkPose 0 0 0) p) i = 1%R /\
  forall j, j <> i -> coord (fun p => bump i 1 (fun _ => mkPose 0 0 0) p) j = 0%R.
Proof.
  assert (K : forall j, coord (fun p => bump i 1 (fun _ => mkPose 0 0 0) p) j = if Nat.eqb i j then 1%R else 0%R).
  { intros j. unfold coord, bump. cbn [q_x q_y q_th]. assert (D := Nat.div_mod j 3 ltac:(lia)). assert (U := Nat.mod_upper_bound j 3 ltac:(lia)).
    destruct (Nat.modulo j 3) as [|[|[|n]]]; [| | |exfalso; lia].
    - replace (Nat.eqb i (3 * (j / 3))) with (Nat.eqb i j) by (f_equal; lia). destruct (Nat.eqb i j); ring.
    - replace (Nat.eqb i (3 * (j / 3) + 1)) with (Nat.eqb i j) by (f_equal; lia). destruct (Nat.eqb i j); ring.
    - replace (Nat.eqb i (3 * (j / 3) + 2)) with (Nat.eqb i j) by (f_equal; lia). destruct (Nat.eqb i j); ring. }
  split; [rewrite K, Nat.eqb_refl; reflexivity|]. intros j N. rewrite K. destruct (Nat.eqb_spec i j); [congruence|reflexivity].
Qed.
Lemma Rsum_one n f i : i < n -> (forall j, j < n -> j <> i -> f j = 0%R) -> Rsum n f = f i.
Proof.
  induction n as [|n IH]; [lia|]. intros Hi H. cbn [Rsum]. destruct (Nat.eq_dec i n) as [->|N].
  - assert (Rsum n f = 0%R) as ->; [|ring]. assert (K : forall j, j < n -> f j = 0%R) by (intros; apply H; lia). clear -K.
    induction n; [reflexivity|]. cbn. rewrite IHn by (intros; apply K; lia). rewrite K by lia. ring.
  - rewrite IH by (try lia; intros; apply H; lia). rewrite (H n) by lia. ring.
Qed.
Lemma jacobian_partial (k : rkind) (bs : bodies tg) (c : constraint tg) (o : output tg) (S : R -> sstate tg) (q : nat -> pose) (w : nat -> R -> pose) i :
  positional k = true -> c_kind c = kind_of dbg k -> i < 3 * parties k ->
  (forall t, bound bs c (parties k) (S t) (bump i t q) (fun p => w p t)) ->
  exists out C J, (forall t, calculate bs c o (S t) = Ok (out t)) /\
    forall r, r < rows k -> (forall t, o_C (out t) r = (Some (C r t) : cl)) /\ o_J (out 0%R) r i = (Some (J r) : cl) /\
      derivable_pt_lim (C r) 0 (J r).
Proof.
  intros Hp Ek Hi B.
  destruct (jacobian_curve k bs c o S (fun p t => bump i t q p) w 0 (fun p => bump i 1 (fun _ => mkPose 0 0 0) p) Hp Ek B) as (out & C & J & E & H).
  { intros p _. apply bump_moves. }
  exists out, C, (fun r => J r i). split; [exact E|]. intros r Hr. destruct (H r Hr) as (H1 & H2 & H3). split; [exact H1|]. split; [now apply H2|].
  eapply dlim_val; [|exact H3]. rewrite (Rsum_one _ _ i Hi).
  - rewrite (proj1 (coord_bump i)). ring.
  - intros j _ N. rewrite (proj2 (coord_bump i) j N). ring.
Qed.
(** C53 *)
Lemma jacobian_rate (k : rkind) (bs : bodies tg) (c : constraint tg) (o : output tg) (S : R -> sstate tg) (m w : nat -> R -> pose) t0 :
  c_kind c = kind_of dbg k ->
  (forall t, bound bs c (parties k) (S t) (fun p => m p t) (fun p => w p t)) -> (forall p, p < parties k -> moves (m p) t0 (w p t0)) ->
  exists out J Jd, (forall t, calculate bs c o (S t) = Ok (out t)) /\
    forall r i, r < rows k -> i < 3 * parties k -> (forall t, o_J (out t) r i = (Some (J r i t) : cl)) /\
      o_Jdot (out t0) r i = (Some (Jd r i) : cl) /\ derivable_pt_lim (J r i) t0 (Jd r i).
Proof.
  intros Ek B M.
  assert (X : forall t, exists o', calculate bs c o (S t) = Ok o' /\
    reads o' (rows k) (parties k) (C_of k (fun p => m p t)) (J_of k (fun p => m p t)) (Jd_of k (fun p => m p t) (fun p => w p t))).
  { intros t. now apply calc_R. }
  exists (fun t => match calculate bs c o (S t) with Ok o' => o' | _ => out_new end), (fun r i t => J_of k (fun p => m p t) r i), (Jd_of k (fun p => m p t0) (fun p => w p t0)).
  split; [intros t; destruct (X t) as (o' & -> & _); reflexivity|]. intros r i Hr Hi. split; [|split].
  - intros t. destruct (X t) as (o' & -> & H). now apply (H r Hr).
  - destruct (X t0) as (o' & -> & H). now apply (H r Hr).
  - now apply J_deriv.
Qed.

(** C54 *)
Lemma some_zero (x : R) : (Some x : cl) = (Some 0%R : cl) <-> x = 0%R.
Proof. split; [intros H; now inversion H|now intros ->]. Qed.
Lemma geometry (k : rkind) (bs : bodies tg) (c : constraint tg) (o : output tg) s q v :
  c_kind c = kind_of dbg k -> bound bs c (parties k) s q v ->
  exists o', calculate bs c o s = Ok o' /\
    match k with
    | RFixedPosition lx ly wx wy _ _ =>
        (o_C o' 0 = (Some 0%R : cl) /\ o_C o' 1 = (Some 0%R : cl)) <-> (at_x (q 0%nat) lx ly = wx /\ at_y (q 0%nat) lx ly = wy)
    | RLine lx ly p0x p0y dx dy _ _ => (dx <> 0 \/ dy <> 0)%R ->
        (o_C o' 0 = (Some 0%R : cl)) <-> exists u : R, (at_x (q 0%nat) lx ly = p0x + u * dx /\ at_y (q 0%nat) lx ly = p0y + u * dy)%R
    | RLink x1 y1 x2 y2 _ _ _ =>
        (o_C o' 0 = (Some 0%R : cl) /\ o_C o' 1 = (Some 0%R : cl)) <-> (at_x (q 0%nat) x1 y1 = at_x (q 1%nat) x2 y2 /\ at_y (q 0%nat) x1 y1 = at_y (q 1%nat) x2 y2)
    | RRolling lx ly dx dy rad _ _ => (dx ^ 2 + dy ^ 2 = 1)%R ->
        o_C o' 1 = (Some 0%R : cl) <-> exists u : R,
          q_x (q 1%nat) = at_x (q 0%nat) (lx + u * dx - rad * dy) (ly + u * dy + rad * dx) /\ q_y (q 1%nat) = at_y (q 0%nat) (lx + u * dx - rad * dy) (ly + u * dy + rad * dx)
    | RFixedRotation rot _ _ => o_C o' 0 = (Some 0%R : cl) <-> q_th (q 0%nat) = rot
    | _ => o_C o' 0 = (Some 0%R : cl)
    end.
Proof.
  intros Ek B. destruct (calc_R bs c o s k q v Ek B) as (o' & E & H). exists o'. split; [exact E|].
  destruct k; cbn [rows parties] in H;
  try (rewrite (proj1 (H 0 ltac:(lia)))); try (rewrite (proj1 (H 1 ltac:(lia)))); rewrite ?some_zero; cbn [C_of nth]; try reflexivity.
  - split; intros [? ?]; split; lra.
  - intros N. set (X := at_x (q 0%nat) lx ly). set (Y := at_y (q 0%nat) lx ly). split.
    + intros E0. assert (P : (0 < dx * dx + dy * dy)%R) by (destruct N; nra).
      exists (((X - p0x) * dx + (Y - p0y) * dy) / (dx * dx + dy * dy))%R. split.
      * apply Rmult_eq_reg_r with (dx * dx + dy * dy)%R; [|lra]. field_simplify; [|lra].
        replace (X * dx ^ 2 + X * dy ^ 2)%R with (X * dx ^ 2 + p0x * dy ^ 2 + dy * ((X - p0x) * dy))%R by ring.
        replace ((X - p0x) * dy)%R with ((Y - p0y) * dx)%R by lra. ring.
      * apply Rmult_eq_reg_r with (dx * dx + dy * dy)%R; [|lra]. field_simplify; [|lra].
        replace (Y * dx ^ 2 + Y * dy ^ 2)%R with (p0y * dx ^ 2 + Y * dy ^ 2 + dx * ((Y - p0y) * dx))%R by ring.
        replace ((Y - p0y) * dx)%R with ((X - p0x) * dy)%R by lra. ring.
    + intros (u & -> & ->). ring.
  - split; intros [? ?]; split; lra.
  - intros N. unfold at_x, at_y, world_x, world_y. set (cs := cos (q_th (q 0%nat))). set (sn := sin (q_th (q 0%nat))).
    assert (SC : (sn * sn + cs * cs = 1)%R) by apply sc1. set (X0 := q_x (q 0%nat)). set (Y0 := q_y (q 0%nat)). set (X := q_x (q 1%nat)). set (Y := q_y (q 1%nat)).
    split.
    + intros E0. exists ((X - X0) * (cs * dx - sn * dy) + (Y - Y0) * (sn * dx + cs * dy) - (lx * dx + ly * dy))%R.
      set (a := (X - (X0 + lx * cs - ly * sn))%R) in *. set (b := (Y - (Y0 + lx * sn + ly * cs))%R) in *.
      assert (EX : X = (X0 + lx * cs - ly * sn + a)%R) by (unfold a; ring). assert (EY : Y = (Y0 + lx * sn + ly * cs + b)%R) by (unfold b; ring).
      assert (U : ((X - X0) * (cs * dx - sn * dy) + (Y - Y0) * (sn * dx + cs * dy) - (lx * dx + ly * dy) = a * (cs * dx - sn * dy) + b * (sn * dx + cs * dy))%R).
      { rewrite EX, EY. transitivity (a * (cs * dx - sn * dy) + b * (sn * dx + cs * dy) + (lx * dx + ly * dy) * (sn * sn + cs * cs - 1))%R; [ring|rewrite SC; ring]. }
      rewrite U. set (Dx := (cs * dx - sn * dy)%R) in *. set (Dy := (sn * dx + cs * dy)%R) in *.
      assert (DD : (Dx * Dx + Dy * Dy = 1)%R).
      { unfold Dx, Dy. transitivity ((sn * sn + cs * cs) * (dx ^ 2 + dy ^ 2))%R; [ring|]. rewrite SC, N. ring. }
      assert (ER : (radius = - Dy * a + Dx * b)%R) by lra. rewrite EX at 1. rewrite EY at 1. rewrite ER.
      assert (K1 : (cs * dx - sn * dy = Dx)%R) by reflexivity. assert (K2 : (sn * dx + cs * dy = Dy)%R) by reflexivity.
      split.
      * transitivity (X0 + lx * cs - ly * sn + (a * Dx + b * Dy) * (cs * dx - sn * dy) - (- Dy * a + Dx * b) * (sn * dx + cs * dy))%R; [|ring].
        rewrite K1, K2. transitivity (X0 + lx * cs - ly * sn + a * (Dx * Dx + Dy * Dy))%R; [rewrite DD; ring|ring].
      * transitivity (Y0 + lx * sn + ly * cs + (a * Dx + b * Dy) * (sn * dx + cs * dy) + (- Dy * a + Dx * b) * (cs * dx - sn * dy))%R; [|ring].
        rewrite K1, K2. transitivity (Y0 + lx * sn + ly * cs + b * (Dx * Dx + Dy * Dy))%R; [rewrite DD; ring|ring].
    + intros (u & -> & ->). transitivity (radius - radius * ((sn * sn + cs * cs) * (dx ^ 2 + dy ^ 2)))%R; [ring|rewrite SC, N; ring].
  - split; intros; lra.
Qed.

(** C55 *)
Lemma rolling_no_slip (bs : bodies tg) (c : constraint tg) (o : output tg) s q v lx ly dx dy rad ks kd :
  c_kind c = kind_of dbg (RRolling lx ly dx dy rad ks kd) -> bound bs c 2 s q v ->
  (dx ^ 2 + dy ^ 2 = 1)%R -> v 0 = mkPose 0 0 0 ->
  exists o' J, calculate bs c o s = Ok o' /\ (forall r i, r < 2 -> i < 6 -> o_J o' r i = (Some (J r i) : cl)) /\
    let nx := (- (dx * sin (q_th (q 0%nat)) + dy * cos (q_th (q 0%nat))))%R in let ny := (dx * cos (q_th (q 0%nat)) - dy * sin (q_th (q 0%nat)))%R in
    ((Rsum 6%nat (fun i => J 0%nat i * coord v i) = 0 /\ Rsum 6%nat (fun i => J 1%nat i * coord v i) = 0)%R ->
      ptvx (q 1%nat) (v 1%nat) (q_x (q 1%nat) - rad * nx)%R (q_y (q 1%nat) - rad * ny)%R = ((1 - rad ^ 2) * (q_x (v 1%nat)))%R /\
      ptvy (q 1%nat) (v 1%nat) (q_x (q 1%nat) - rad * nx)%R (q_y (q 1%nat) - rad * ny)%R = ((1 - rad ^ 2) * (q_y (v 1%nat)))%R).
Proof.
  intros Ek B N V0. destruct (calc_R bs c o s (RRolling lx ly dx dy rad ks kd) q v Ek B) as (o' & E & H).
  exists o', (J_of (RRolling lx ly dx dy rad ks kd) q). split; [exact E|]. split.
  { intros r i Hr Hi. now apply (H r Hr). }
  cbv zeta. unfold ptvx, ptvy. cbn -[sin cos]. rewrite V0. cbn [q_x q_y q_th].
  set (cs := cos (q_th (q 0%nat))). set (sn := sin (q_th (q 0%nat))).
  assert (SC : (sn * sn + cs * cs = 1)%R) by apply sc1. set (U := q_x (v 1%nat)). set (V := q_y (v 1%nat)). set (w := q_th (v 1%nat)).
  intros [E0 E1]. set (Dx := (cs * dx - sn * dy)%R) in *. set (Dy := (sn * dx + cs * dy)%R) in *.
  assert (DD : (Dx * Dx + Dy * Dy = 1)%R).
  { unfold Dx, Dy. transitivity ((sn * sn + cs * cs) * (dx ^ 2 + dy ^ 2))%R; [ring|]. rewrite SC, N. ring. }
  replace (dx * cs - dy * sn)%R with Dx by (unfold Dx; ring). replace (dx * sn + dy * cs)%R with Dy by (unfold Dy; ring).
  assert (W : (w = - (Dx * U + Dy * V) * rad)%R) by lra. assert (P : (Dy * U = Dx * V)%R) by lra. rewrite W. split.
  - transitivity (U - rad ^ 2 * (Dx * (Dx * U) + Dy * (Dx * V)))%R; [ring|]. rewrite <- P.
    transitivity (U - rad ^ 2 * U * (Dx * Dx + Dy * Dy))%R; [ring|rewrite DD; ring].
  - transitivity (V - rad ^ 2 * (Dx * (Dy * U) + Dy * (Dy * V)))%R; [ring|]. rewrite P.
    transitivity (V - rad ^ 2 * V * (Dx * Dx + Dy * Dy))%R; [ring|rewrite DD; ring].
Qed.

(** C57 *)
Lemma link_forces (bs : bodies tg) (c : constraint tg) (o : output tg) s q v x1 y1 x2 y2 mx ks kd :
  c_kind c = kind_of dbg (RLink x1 y1 x2 y2 mx ks kd) -> bound bs c 2 s q v ->
  exists o' J, calculate bs c o s = Ok o' /\ (forall r i, r < 2 -> i < 6 -> o_J o' r i = (Some (J r i) : cl)) /\
    forall l : nat -> R, (gf_x (pull 2%nat J l 0%nat) + gf_x (pull 2%nat J l 1%nat) = 0)%R /\ (gf_y (pull 2%nat J l 0%nat) + gf_y (pull 2%nat J l 1%nat) = 0)%R /\
      (o_C o' 0 = (Some 0%R : cl) -> o_C o' 1 = (Some 0%R : cl) ->
       forall ox oy : R, (moment (q 0%nat) (pull 2%nat J l 0%nat) ox oy + moment (q 1%nat) (pull 2%nat J l 1%nat) ox oy = 0)%R).
Proof.
  intros Ek B. destruct (calc_R bs c o s (RLink x1 y1 x2 y2 mx ks kd) q v Ek B) as (o' & E & H).
  exists o', (J_of (RLink x1 y1 x2 y2 mx ks kd) q). split; [exact E|]. split.
  { intros r i Hr Hi. now apply (H r Hr). }
  intros l. split; [cbn; ring|]. split; [cbn; ring|].
  rewrite (proj1 (H 0 ltac:(cbn; lia))), (proj1 (H 1 ltac:(cbn; lia))), !some_zero. cbn [C_of nth]. unfold at_x, at_y, world_x, world_y, moment. intros E0 E1 ox oy.
  cbn [pull gf_x gf_y gf_t Rsum Nat.mul Nat.add J_of nth].
  match type of E0 with (?a = 0)%R => match type of E1 with (?b = 0)%R => transitivity (a * l 1%nat - b * l 0%nat)%R; [ring|rewrite E0, E1; ring] end end.
Qed.
(** C76 *)
Lemma rotational (k : rkind) (bs : bodies tg) (c : constraint tg) (o : output tg) s q v :
  positional k = false -> c_kind c = kind_of dbg k -> bound bs c (parties k) s q v ->
  exists o' J, calculate bs c o s = Ok o' /\ (forall i, i < 3 * parties k -> o_J o' 0 i = (Some (J i) : cl)) /\
    (forall u : nat -> pose, Rsum (3 * parties k) (fun i => J i * coord u i)%R =
      match k with RClutch _ _ _ _ => (q_th (u 1%nat) - q_th (u 0%nat))%R | RGear ra _ _ _ => (q_th (u 0%nat) - ra * q_th (u 1%nat))%R | _ => q_th (u 0%nat) end) /\
    o_vbias o' 0 = match k with RConstantRotation sp _ _ _ _ => (Some sp : cl) | _ => (Some 0%R : cl) end /\
    match k with
    | RConstantRotation _ mx mn _ _ | RClutch mx mn _ _ | RFriction mx mn _ _ => o_limits o' 0 0 = (Some mn : cl) /\ o_limits o' 0 1 = (Some mx : cl)
    | RGear _ true _ _ => o_limits o' 0 0 = (Some 0%R : cl) /\ o_limits o' 0 1 = (Some 0%R : cl)
    | _ => True
    end.
Proof.
  intros Hp Ek B. destruct (calc_R bs c o s k q v Ek B) as (o' & E & H). exists o', (J_of k q 0). split; [exact E|]. split.
  { intros i Hi. apply (H 0); [destruct k; cbn; lia|exact Hi]. }
  unfold calculate in E. rewrite Ek in E.
  assert (B0 : 0 < parties k) by (destruct k; cbn; lia). destruct (B 0 B0) as (i0 & E0 & _).
  destruct k; try discriminate; cbn [kind_of] in E; unfold con_body_index in E; rewrite ?E0 in E; cbn [deref bind] in E; inversion E; subst o'; clear E;
  (split; [intros u; cbn; ring|]); split; try reflexivity; try (split; reflexivity).
  destruct neutral; [split; reflexivity|exact I].
Qed.
End R.

(** ** C56, every number format *)
Section T.
Context {tg : target}.
Ltac rows1 := let r := fresh "r" in let Hr := fresh "Hr" in intros r Hr; small r; cbn [write_out o_C o_J o_Jdot o_vbias o_limits o_ks o_kd];
  (split; [reflexivity|split; [reflexivity|split; [reflexivity|split; [reflexivity|split]]]]);
  let i := fresh "i" in let Hi := fresh "Hi" in intros i Hi; small i; try split; reflexivity.
Lemma own_output (bs : bodies tg) (c : constraint tg) (o o2 : output tg) s n m : class_counts (c_kind c) = Some (n, m) ->
  rel (calculate bs c o s) (calculate bs c o2 s) (same_rows n m).
Proof.
  assert (L : forall f z, (exists x, ld s f z = Ok x) \/ ld s f z = UB) by (intros; apply aget_cases).
  assert (X : forall b, (exists z, con_body_index bs (c_bodies c) b = Ok z) \/ con_body_index bs (c_bodies c) b = UB).
  { intros b. unfold con_body_index. destruct (c_bodies c b); cbn; eauto. }
  unfold calculate. destruct (c_kind c) as [|p|p|p|p|p|p|p|p|p|]; try discriminate; intros E; inversion E; subst n m; clear E.
  - destruct (X 0) as [[z ->]| ->]; [|exact I]. cbn [bind]. unfold fp_calculate.
    do 4 (match goal with |- context [ld s ?f ?y] => destruct (L f y) as [[? ->]| ->]; [|exact I]; cbn [bind] end). cbn [rel]. rows1.
  - destruct (X 0) as [[z ->]| ->]; [|exact I]. cbn [bind]. unfold line_calculate.
    do 4 (match goal with |- context [ld s ?f ?y] => destruct (L f y) as [[? ->]| ->]; [|exact I]; cbn [bind] end). cbn [rel]. rows1.
  - destruct (X 0) as [[z ->]| ->]; [|exact I]. cbn [bind]. destruct (X 1) as [[z' ->]| ->]; [|exact I]. cbn [bind]. unfold link_calculate.
    do 8 (match goal with |- context [ld s ?f ?y] => destruct (L f y) as [[? ->]| ->]; [|exact I]; cbn [bind] end). cbn [rel]. rows1.
  - destruct (X 0) as [[z ->]| ->]; [|exact I]. cbn [bind]. destruct (X 1) as [[z' ->]| ->]; [|exact I]. cbn [bind]. unfold rolling_calculate.
    do 11 (match goal with |- context [ld s ?f ?y] => destruct (L f y) as [[? ->]| ->]; [|exact I]; cbn [bind] end). cbn [rel]. rows1.
  - destruct (X 0) as [[z ->]| ->]; [|exact I]. cbn [bind]. unfold fr_calculate.
    match goal with |- context [ld s ?f ?y] => destruct (L f y) as [[? ->]| ->]; [|exact I]; cbn [bind] end. cbn [rel]. rows1.
  - cbn [rel]. unfold cr_calculate. rows1.
  - cbn [rel]. unfold clutch_calculate. rows1.
  - destruct (X 0) as [[z ->]| ->]; [|exact I]. cbn [bind rel]. unfold friction_calculate. rows1.
  - cbn [rel]. unfold gear_calculate. destruct (ge_neutral p); rows1.
Qed.
Lemma limits_ordered (bs : bodies tg) (c : constraint tg) (o o' : output tg) s n m : class_counts (c_kind c) = Some (n, m) ->
  n_leb tg (n_opp tg (n_dblmax tg)) (n_dblmax tg) = true -> n_leb tg (n_ofZ tg 0) (n_ofZ tg 0) = true -> limits_given (c_kind c) ->
  calculate bs c o s = Ok o' -> forall r, r < n -> ordered (o_limits o' r 0) (o_limits o' r 1).
Proof.
  intros E D0 Z0 G.
  assert (L : forall f z, (exists x, ld s f z = Ok x) \/ ld s f z = UB) by (intros; apply aget_cases).
  assert (X : forall b, (exists z, con_body_index bs (c_bodies c) b = Ok z) \/ con_body_index bs (c_bodies c) b = UB).
  { intros b. unfold con_body_index. destruct (c_bodies c b); cbn; eauto. }
  assert (D : ordered (copp (cdblmax : cell tg)) cdblmax). { exists (n_opp tg (n_dblmax tg)), (n_dblmax tg). auto. }
  assert (ZZ : ordered (cofZ 0 : cell tg) (cofZ 0)). { exists (n_ofZ tg 0), (n_ofZ tg 0). auto. }
  revert E G. unfold calculate. destruct (c_kind c) as [|p|p|p|p|p|p|p|p|p|]; try discriminate; intros E G; inversion E; subst n m; clear E; cbn [limits_given] in G.
  - destruct (X 0) as [[z ->]| ->]; [|discriminate]. cbn [bind]. unfold fp_calculate.
    do 4 (match goal with |- context [ld s ?f ?y] => destruct (L f y) as [[? ->]| ->]; [|discriminate]; cbn [bind] end).
    intros Q; inversion Q; subst o'. intros r Hr. small r; cbn [write_out o_limits]; [exact D..].
  - destruct (X 0) as [[z ->]| ->]; [|discriminate]. cbn [bind]. unfold line_calculate.
    do 4 (match goal with |- context [ld s ?f ?y] => destruct (L f y) as [[? ->]| ->]; [|discriminate]; cbn [bind] end).
    intros Q; inversion Q; subst o'. intros r Hr. small r; cbn [write_out o_limits]; [exact D..].
  - destruct (X 0) as [[z ->]| ->]; [|discriminate]. cbn [bind]. destruct (X 1) as [[z' ->]| ->]; [|discriminate]. cbn [bind]. unfold link_calculate.
    do 8 (match goal with |- context [ld s ?f ?y] => destruct (L f y) as [[? ->]| ->]; [|discriminate]; cbn [bind] end).
    intros Q; inversion Q; subst o'. intros r Hr. small r; cbn [write_out o_limits]; [exact G..].
  - destruct (X 0) as [[z ->]| ->]; [|discriminate]. cbn [bind]. destruct (X 1) as [[z' ->]| ->]; [|discriminate]. cbn [bind]. unfold rolling_calculate.
    do 11 (match goal with |- context [ld s ?f ?y] => destruct (L f y) as [[? ->]| ->]; [|discriminate]; cbn [bind] end).
    intros Q; inversion Q; subst o'. intros r Hr. small r; cbn [write_out o_limits]; [exact D..].
  - destruct (X 0) as [[z ->]| ->]; [|discriminate]. cbn [bind]. unfold fr_calculate.
    match goal with |- context [ld s ?f ?y] => destruct (L f y) as [[? ->]| ->]; [|discriminate]; cbn [bind] end.
    intros Q; inversion Q; subst o'. intros r Hr. small r; cbn [write_out o_limits]; [exact D..].
  - unfold cr_calculate. intros Q; inversion Q; subst o'. intros r Hr. small r; exact G.
  - unfold clutch_calculate. intros Q; inversion Q; subst o'. intros r Hr. small r; exact G.
  - destruct (X 0) as [[z ->]| ->]; [|discriminate]. unfold friction_calculate. intros Q; inversion Q; subst o'. intros r Hr. small r; exact G.
  - unfold gear_calculate. intros Q; inversion Q; subst o'. intros r Hr. destruct (ge_neutral p); small r; assumption.
Qed.
End T.
