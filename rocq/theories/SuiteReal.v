(** * What the test of the rolling constraint checks, in real arithmetic. *)

From Coq Require Import Reals Ratan Lra Psatz Nsatz.
From Verif Require Import Base Logic Targets State Forces Constraints Suite SpecMatrix SpecState StateFacts StateReal SpecForces SpecCon ConFacts SpecSuite.
Local Open Scope R_scope.

(** ** Functions of one angle *)

Definition wave (f g : R -> R) (B : R) : Prop :=
  exists th P Q, Rabs P + Rabs Q <= B /\ forall t,
    f t = (f 0 - P * cos th - Q * sin th) + (g 0 + P * sin th - Q * cos th) * t + P * cos (th + t) + Q * sin (th + t) /\
    g t = (g 0 + P * sin th - Q * cos th) - P * sin (th + t) + Q * cos (th + t).

Lemma sinc_cos (x : R) : 0 < x <= 1 -> Rabs (cos x - sin x / x) <= x * x / 2.
Proof.
  intros H. pose proof PI2_1 as P.
  assert (U : sin x / x <= 1). { apply Rmult_le_reg_r with x; [lra|]. unfold Rdiv. rewrite Rmult_assoc, Rinv_l, Rmult_1_r, Rmult_1_l by lra. pose proof (sin_lt_x x ltac:(lra)). lra. }
  assert (Lc : 1 - x * x / 2 <= cos x).
  { replace x with (2 * (x / 2)) at 3 by field. rewrite cos_2a_sin. pose proof (sin_lt_x (x / 2) ltac:(lra)) as S1.
    assert (S0 : 0 < sin (x / 2)) by (apply sin_gt_0; lra). nra. }
  assert (W : x * cos x <= sin x).
  { destruct (MVT_cor2 (fun z => sin z - z * cos z) (fun z => z * sin z) 0 x (proj1 H)) as (c & E & Hc).
    - intros c _. apply (dlim_val _ _ (cos c * 1 - (1 * cos c + c * (- sin c * 1)))); [ring|].
      apply (dlim_sub sin (fun z => z * cos z)); [apply (dlim_sin (fun z => z)); apply derivable_pt_lim_id|].
      apply (dlim_mul (fun z => z) cos); [apply derivable_pt_lim_id|]. apply (dlim_cos (fun z => z)). apply derivable_pt_lim_id.
    - cbv beta in E. rewrite sin_0 in E. assert (0 < sin c) by (apply sin_gt_0; lra). assert (0 < c * sin c) by nra. nra. }
  assert (W' : cos x <= sin x / x). { apply Rmult_le_reg_r with x; [lra|]. unfold Rdiv. rewrite Rmult_assoc, Rinv_l, Rmult_1_r by lra. lra. }
  rewrite Rabs_left1 by lra. lra.
Qed.
Lemma wave_near f g B (h : R) : wave f g B -> 0 < h <= 1 -> Rabs ((f h - f 0) / h - (g 0 + g h) / 2) <= B * (h * h / 8).
Proof.
  intros (th & P & Q & HB & W) Hh. destruct (W h) as [F G]. rewrite F, G.
  set (m := th + h / 2). set (z := h / 2).
  assert (C1 : cos th = cos m * cos z + sin m * sin z) by (rewrite <- cos_minus; f_equal; unfold m, z; lra).
  assert (S1 : sin th = sin m * cos z - cos m * sin z) by (rewrite <- sin_minus; f_equal; unfold m, z; lra).
  assert (C2 : cos (th + h) = cos m * cos z - sin m * sin z) by (rewrite <- cos_plus; f_equal; unfold m, z; lra).
  assert (S2 : sin (th + h) = sin m * cos z + cos m * sin z) by (rewrite <- sin_plus; f_equal; unfold m, z; lra).
  rewrite C1, S1, C2, S2. assert (Ez : h = 2 * z) by (unfold z; lra). assert (Hz : 0 < z <= 1) by (unfold z; lra). clearbody z m. subst h.
  replace (((f 0 - P * (cos m * cos z + sin m * sin z) - Q * (sin m * cos z - cos m * sin z) + (g 0 + P * (sin m * cos z - cos m * sin z) - Q * (cos m * cos z + sin m * sin z)) * (2 * z) + P * (cos m * cos z - sin m * sin z) + Q * (sin m * cos z + cos m * sin z) - f 0) / (2 * z) -
     (g 0 + (g 0 + P * (sin m * cos z - cos m * sin z) - Q * (cos m * cos z + sin m * sin z) - P * (sin m * cos z + cos m * sin z) + Q * (cos m * cos z - sin m * sin z))) / 2))
    with ((P * sin m - Q * cos m) * (cos z - sin z / z)) by (field; lra).
  rewrite Rabs_mult. pose proof (sinc_cos z Hz) as Z.
  assert (A : Rabs (P * sin m - Q * cos m) <= B).
  { apply Rle_trans with (2 := HB). unfold Rminus. apply Rle_trans with (1 := Rabs_triang _ _). rewrite Rabs_Ropp, !Rabs_mult.
    assert (Rabs (sin m) <= 1) by (apply Rabs_le; pose proof (SIN_bound m); lra). assert (Rabs (cos m) <= 1) by (apply Rabs_le; pose proof (COS_bound m); lra).
    pose proof (Rabs_pos P). pose proof (Rabs_pos Q). pose proof (Rabs_pos (sin m)). pose proof (Rabs_pos (cos m)). nra. }
  replace (2 * z * (2 * z) / 8) with (z * z / 2) by field.
  apply Rmult_le_compat; auto using Rabs_pos.
Qed.
Lemma wave_more f g B B' : wave f g B -> B <= B' -> wave f g B'.
Proof. intros (th & P & Q & H & W) L. exists th, P, Q. split; [lra|exact W]. Qed.
(** those that do not depend on an angle *)
Lemma wave_line f g B : 0 <= B -> (forall t, f t = f 0 + g 0 * t /\ g t = g 0) -> wave f g B.
Proof.
  intros H W. exists 0, 0, 0. rewrite Rabs_R0. split; [lra|]. intros t. destruct (W t) as [-> ->]. split; ring.
Qed.

(** ** The rows as functions of one coordinate *)

Definition still : nat -> pose := fun _ => mkPose 0 0 0.
Definition Cof (k : rkind) (q : nat -> pose) (r j : nat) (t : R) : R := C_of k (bump j t q) r.
Definition Jof (k : rkind) (q : nat -> pose) (r i j : nat) (t : R) : R := J_of k (bump j t q) r i.
Definition Jdof (k : rkind) (q : nat -> pose) (r i j : nat) (t : R) : R := Jd_of k (bump j t q) (bump j 1 still) r i.

Ltac small r := first [exfalso; lia|destruct r as [|r]; [|small r]].
Lemma Jd_scale k q r i j (d : R) : (j < 6)%nat -> (r < 2)%nat -> (i < 6)%nat -> Jd_of k q (bump j d still) r i = d * Jd_of k q (bump j 1 still) r i.
Proof.
  intros Hj Hr Hi. unfold bump, still.
  destruct k; cbn [Jd_of q_x q_y q_th]; try ring; small j; cbv [Nat.eqb Nat.mul Nat.add]; small r; small i; cbn [nth]; ring.
Qed.

(** the rows are waves *)
Lemma mixed (x y u v : R) : Rabs (x * u + y * v) + Rabs (- x * v + y * u) <= (Rabs x + Rabs y) * (Rabs u + Rabs v).
Proof.
  pose proof (Rabs_triang (x * u) (y * v)) as A. pose proof (Rabs_triang (- x * v) (y * u)) as B. rewrite !Rabs_mult in A, B. rewrite Rabs_Ropp in B. nra.
Qed.
Lemma rolls (rad X Y u v : R) : let T := 2 * ((1 + Rabs rad) * ((1 + Rabs X + Rabs Y) * (Rabs u + Rabs v))) in
  Rabs rad * ((Rabs X + Rabs Y) * (Rabs u + Rabs v)) <= T /\ (Rabs X + Rabs Y) * (Rabs u + Rabs v) <= T /\ (Rabs u + Rabs v) * Rabs rad <= T /\ Rabs u + Rabs v <= T.
Proof.
  intros T. unfold T. pose proof (Rabs_pos rad) as A. pose proof (Rabs_pos X). pose proof (Rabs_pos Y). pose proof (Rabs_pos u). pose proof (Rabs_pos v).
  set (a := Rabs rad) in *. set (b := Rabs X + Rabs Y) in *. set (c := Rabs u + Rabs v) in *. assert (B : 0 <= b) by (unfold b; lra). assert (C : 0 <= c) by (unfold c; lra).
  replace (2 * ((1 + a) * ((1 + Rabs X + Rabs Y) * c))) with (2 * (c + b * c + c * a + a * (b * c))) by (unfold b; ring).
  assert (0 <= b * c) by now apply Rmult_le_pos. assert (0 <= c * a) by now apply Rmult_le_pos. assert (0 <= a * (b * c)) by now apply Rmult_le_pos. lra.
Qed.
Section Waves.
Variable q : nat -> pose.
Ltac open_ := unfold Cof, Jof, Jdof, bump, still; cbn [C_of J_of Jd_of nth q_x q_y q_th]; cbv [Nat.eqb Nat.mul Nat.add]; unfold at_x, at_y, world_x, world_y; cbn [q_x q_y q_th]; rewrite ?Rplus_0_r.
Lemma cs2 (x : R) : sin x * sin x = 1 - cos x * cos x.
Proof. pose proof (sin2_cos2 x) as H. unfold Rsqr in H. lra. Qed.
(** linear rows *)
Ltac line_ := solve [apply wave_line; [assumption|]; intros t; open_; split; ring].
(** identities with the square of a sine *)
Ltac trig th t := let A := fresh in let B := fresh in pose proof (cs2 th) as A; pose proof (cs2 (th + t)) as B;
  generalize dependent (sin (th + t)); generalize dependent (cos (th + t)); generalize dependent (sin th); generalize dependent (cos th); intros; nsatz.
Ltac wave_ th P Q := exists th, P, Q; split; [|intros t; open_; split; ring].
Ltac wave2_ th P Q := exists th, P, Q; split; [|intros t; open_; split; trig th t].

Lemma reach_pos k : 0 <= reach k q.
Proof. assert (A := Rabs_pos). destruct k; cbn [reach]; try lra; repeat first [apply Rplus_le_le_0_compat|apply Rmult_le_pos|apply A|lra]. Qed.
Lemma lever k lx ly : Rabs lx + Rabs ly <= reach k q -> Rabs lx + Rabs (- ly) <= reach k q /\ Rabs ly + Rabs lx <= reach k q /\ Rabs (- ly) + Rabs (- lx) <= reach k q /\ Rabs (- lx) + Rabs ly <= reach k q /\ Rabs (- ly) + Rabs lx <= reach k q /\ Rabs (- lx) + Rabs (- ly) <= reach k q /\ Rabs ly + Rabs (- lx) <= reach k q.
Proof. rewrite !Rabs_Ropp. lra. Qed.

Lemma C_wave k r j : positional k = true -> (r < rows k)%nat -> (j < 3 * parties k)%nat -> wave (Cof k q r j) (Jof k q r j j) (reach k q).
Proof.
  intros Hp Hr Hj. assert (A := Rabs_pos). assert (R0 := reach_pos k). destruct k; try discriminate Hp; cbn [rows parties] in *; clear Hp.
  - assert (L := lever (RFixedPosition lx ly wx wy ks kd) lx ly ltac:(cbn [reach]; lra)).
    small j; small r; try line_; [wave_ (q_th (q 0%nat)) lx (- ly)|wave_ (q_th (q 0%nat)) ly lx]; apply L.
  - small j; small r; try line_. wave_ (q_th (q 0%nat)) (lx * - dy + ly * dx) (lx * dx + ly * dy).
    cbn [reach]. pose proof (mixed lx ly dx dy) as M. replace (lx * - dy + ly * dx) with (- lx * dy + ly * dx) by ring. pose proof (A (lx * dx + ly * dy)). pose proof (A (- lx * dy + ly * dx)). lra.
  - assert (L1 := lever (RLink x1 y1 x2 y2 mx ks kd) x1 y1 ltac:(cbn [reach]; pose proof (A x2); pose proof (A y2); lra)).
    assert (L2 := lever (RLink x1 y1 x2 y2 mx ks kd) x2 y2 ltac:(cbn [reach]; pose proof (A x1); pose proof (A y1); lra)).
    small j; small r; try line_; [wave_ (q_th (q 0%nat)) x1 (- y1)|wave_ (q_th (q 0%nat)) y1 x1|wave_ (q_th (q 1%nat)) (- x2) y2|wave_ (q_th (q 1%nat)) (- y2) (- x2)]; try apply L1; apply L2.
  - small j; small r; try line_.
    + wave2_ (q_th (q 0%nat)) (- radius * ((q_x (q 1%nat) - q_x (q 0%nat)) * dx + (q_y (q 1%nat) - q_y (q 0%nat)) * dy))
        (- radius * (- (q_x (q 1%nat) - q_x (q 0%nat)) * dy + (q_y (q 1%nat) - q_y (q 0%nat)) * dx)).
      rewrite !Rabs_mult, Rabs_Ropp, <- Rmult_plus_distr_l. cbn [reach]. apply Rle_trans with (2 := proj1 (rolls _ _ _ _ _)). apply Rmult_le_compat_l; [apply A|]. apply mixed.
    + wave2_ (q_th (q 0%nat)) (- (- (q_x (q 1%nat) - q_x (q 0%nat)) * dy + (q_y (q 1%nat) - q_y (q 0%nat)) * dx))
        ((q_x (q 1%nat) - q_x (q 0%nat)) * dx + (q_y (q 1%nat) - q_y (q 0%nat)) * dy).
      rewrite Rabs_Ropp, Rplus_comm. cbn [reach]. apply Rle_trans with (2 := proj1 (proj2 (rolls _ _ _ _ _))). apply mixed.
  - small j; small r; line_.
Qed.

Lemma J_wave k r i j : positional k = true -> (r < rows k)%nat -> (i < 3 * parties k)%nat -> (j < 3 * parties k)%nat -> wave (Jof k q r i j) (Jdof k q r i j) (reach k q).
Proof.
  intros Hp Hr Hi Hj. assert (A := Rabs_pos). assert (R0 := reach_pos k). destruct k; try discriminate Hp; cbn [rows parties] in *; clear Hp.
  - assert (L := lever (RFixedPosition lx ly wx wy ks kd) lx ly ltac:(cbn [reach]; lra)).
    small j; small r; small i; try line_; [wave_ (q_th (q 0%nat)) (- ly) (- lx)|wave_ (q_th (q 0%nat)) lx (- ly)]; apply L.
  - small j; small r; small i; try line_. wave_ (q_th (q 0%nat)) (lx * dx + ly * dy) (- (lx * - dy + ly * dx)).
    cbn [reach]. rewrite Rabs_Ropp. pose proof (mixed lx ly dx dy) as M. replace (lx * - dy + ly * dx) with (- lx * dy + ly * dx) by ring. pose proof (A (lx * dx + ly * dy)). pose proof (A (- lx * dy + ly * dx)). lra.
  - assert (L1 := lever (RLink x1 y1 x2 y2 mx ks kd) x1 y1 ltac:(cbn [reach]; pose proof (A x2); pose proof (A y2); lra)).
    assert (L2 := lever (RLink x1 y1 x2 y2 mx ks kd) x2 y2 ltac:(cbn [reach]; pose proof (A x1); pose proof (A y1); lra)).
    small j; small r; small i; try line_; [wave_ (q_th (q 0%nat)) (- y1) (- x1)|wave_ (q_th (q 0%nat)) x1 (- y1)|wave_ (q_th (q 1%nat)) y2 x2|wave_ (q_th (q 1%nat)) (- x2) y2]; try apply L1; apply L2.
  - assert (T := rolls radius (q_x (q 1%nat) - q_x (q 0%nat)) (q_y (q 1%nat) - q_y (q 0%nat)) dx dy). cbv zeta in T. destruct T as (T1 & T2 & T3 & T4).
    small j; try (small r; small i; line_).
    small r; small i; try line_.
    + wave_ (q_th (q 0%nat)) (dx * radius) (- dy * radius). cbn [reach]. rewrite !Rabs_mult, Rabs_Ropp. lra.
    + wave_ (q_th (q 0%nat)) (dy * radius) (dx * radius). cbn [reach]. rewrite !Rabs_mult. lra.
    + wave2_ (q_th (q 0%nat)) (- radius * (- (q_x (q 1%nat) - q_x (q 0%nat)) * dy + (q_y (q 1%nat) - q_y (q 0%nat)) * dx))
        (radius * ((q_x (q 1%nat) - q_x (q 0%nat)) * dx + (q_y (q 1%nat) - q_y (q 0%nat)) * dy)).
      rewrite !Rabs_mult, Rabs_Ropp, <- Rmult_plus_distr_l, Rplus_comm. cbn [reach]. apply Rle_trans with (2 := T1). apply Rmult_le_compat_l; [apply A|]. apply mixed.
    + wave_ (q_th (q 0%nat)) (- dx * radius) (dy * radius). cbn [reach]. rewrite !Rabs_mult, Rabs_Ropp. lra.
    + wave_ (q_th (q 0%nat)) (- dy * radius) (- dx * radius). cbn [reach]. rewrite !Rabs_mult, !Rabs_Ropp. lra.
    + wave_ (q_th (q 0%nat)) (- dy) (- dx). cbn [reach]. rewrite !Rabs_Ropp. lra.
    + wave_ (q_th (q 0%nat)) dx (- dy). cbn [reach]. rewrite !Rabs_Ropp. lra.
    + wave2_ (q_th (q 0%nat)) ((q_x (q 1%nat) - q_x (q 0%nat)) * dx + (q_y (q 1%nat) - q_y (q 0%nat)) * dy) (- (q_x (q 1%nat) - q_x (q 0%nat)) * dy + (q_y (q 1%nat) - q_y (q 0%nat)) * dx).
      cbn [reach]. apply Rle_trans with (2 := T2). apply mixed.
    + wave_ (q_th (q 0%nat)) dy dx. cbn [reach]. lra.
    + wave_ (q_th (q 0%nat)) (- dx) dy. cbn [reach]. rewrite !Rabs_Ropp. lra.
  - small j; small r; small i; line_.
Qed.
End Waves.
