(** * What a motor does in the fourth-order scheme: no overshoot, the exponential law, the speed is reached. *)

From Coq Require Import Reals Lra.
From Verif Require Import Base Targets State Ode Forces Constraints System SpecState SpecSys SpecDyn SpecRk SpecMotor SwingStep MotorReal SpecRun SpecSpin SpinReal.
Local Open Scope nat_scope.

Section E.
Open Scope R_scope.
(** what a torque that answers the missing speed x does to it in the whole sub-step *)
Definition drop (ks mx c x : R) : R := cut mx (ks * x) * c.
Definition step4 (ks mx c e : R) : R :=
  let d1 := drop ks mx c e in let d2 := drop ks mx c (e - d1 / 2) in let d3 := drop ks mx c (e - d2 / 2) in let d4 := drop ks mx c (e - d3) in
  e - (d1 + 2 * d2 + 2 * d3 + d4) / 6.
Lemma undamped_four ks mx r h n : forall x, fst (Nat.iter n (spin_four ks 0 mx r h) x) = Nat.iter n (step4 ks mx (r * h)) (fst x).
Proof.
  assert (S1 : forall x, fst (spin_four ks 0 mx r h x) = step4 ks mx (r * h) (fst x)).
  { intros [e a]. cbn [spin_four fst]. unfold step4, drop, spun. cbv zeta.
    replace (ks * e - 0 * a) with (ks * e) by ring. set (a1 := cut mx (ks * e)).
    replace (e - a1 * (r * h) / 2) with (e - h * (a1 * r) / 2) by field. set (e2 := e - h * (a1 * r) / 2). replace (ks * e2 - 0 * (a1 * r)) with (ks * e2) by ring. set (a2 := cut mx (ks * e2)).
    replace (e - a2 * (r * h) / 2) with (e - h * (a2 * r) / 2) by field. set (e3 := e - h * (a2 * r) / 2). replace (ks * e3 - 0 * (a2 * r)) with (ks * e3) by ring. set (a3 := cut mx (ks * e3)).
    replace (e - a3 * (r * h)) with (e - h * (a3 * r)) by ring. set (e4 := e - h * (a3 * r)). replace (ks * e4 - 0 * (a3 * r)) with (ks * e4) by ring. field. }
  induction n as [|n IH]; intros x; [reflexivity|]. cbn [Nat.iter nat_rect]. unfold Nat.iter in IH. now rewrite S1, IH.
Qed.

Section C.
Variables ks mx c : R.
Hypothesis Hm : 0 <= mx.
Hypothesis Hk : 0 <= ks.
Hypothesis Hc : 0 <= c.
Hypothesis Hz : ks * c <= 2.
Notation D := (drop ks mx c).
Lemma drop_pos x : 0 <= x -> 0 <= D x <= 2 * x.
Proof.
  intros Hx. unfold drop. pose proof (Rmult_le_pos _ _ Hk Hx) as K.
  assert (B : 0 <= cut mx (ks * x) <= ks * x) by (destruct (cut_cases mx (ks * x) Hm) as [(_ & ->)|[(A & ->)|(A & ->)]]; lra).
  split; [apply Rmult_le_pos; lra|]. apply Rle_trans with (ks * x * c); [apply Rmult_le_compat_r; lra|].
  replace (ks * x * c) with (ks * c * x) by ring. now apply Rmult_le_compat_r.
Qed.
Lemma drop_opp x : D (- x) = - D x.
Proof. unfold drop. replace (ks * - x) with (- (ks * x)) by ring. rewrite cut_opp by exact Hm. ring. Qed.
Lemma drop_neg x : x <= 0 -> 2 * x <= D x <= 0.
Proof. intros Hx. pose proof (drop_pos (- x) ltac:(lra)) as H. rewrite drop_opp in H. lra. Qed.
Lemma drop_most x : - (mx * c) <= D x <= mx * c.
Proof.
  unfold drop. assert (B : - mx <= cut mx (ks * x) <= mx).
  { destruct (cut_cases mx (ks * x) Hm) as [(A & ->)|[(A & ->)|(A & ->)]]; try lra. split; [|apply (Rle_trans _ _ _ (Rle_abs _) A)]. pose proof (Rle_abs (- (ks * x))) as Q. rewrite Rabs_Ropp in Q. lra. }
  split; [replace (- (mx * c)) with (- mx * c) by ring|]; apply Rmult_le_compat_r; lra.
Qed.
Lemma step4_opp e : step4 ks mx c (- e) = - step4 ks mx c e.
Proof.
  unfold step4. cbv zeta. rewrite drop_opp. set (d1 := D e). replace (- e - - d1 / 2) with (- (e - d1 / 2)) by field. rewrite drop_opp. set (d2 := D (e - d1 / 2)).
  replace (- e - - d2 / 2) with (- (e - d2 / 2)) by field. rewrite drop_opp. set (d3 := D (e - d2 / 2)).
  replace (- e - - d3) with (- (e - d3)) by ring. rewrite drop_opp. field.
Qed.
(** no overshoot *)
Lemma step4_between e : 0 <= e -> 0 <= step4 ks mx c e <= e.
Proof.
  intros He. unfold step4. cbv zeta. pose proof (drop_pos e He) as D1. set (d1 := D e) in *.
  pose proof (drop_pos (e - d1 / 2) ltac:(lra)) as D2. set (d2 := D (e - d1 / 2)) in *.
  pose proof (drop_pos (e - d2 / 2) ltac:(lra)) as D3. set (d3 := D (e - d2 / 2)) in *.
  destruct (Rle_dec 0 (e - d3)) as [P|P].
  - pose proof (drop_pos (e - d3) P) as D4. set (d4 := D (e - d3)) in *. lra.
  - pose proof (drop_neg (e - d3) ltac:(lra)) as D4. set (d4 := D (e - d3)) in *. lra.
Qed.
Lemma iter4_between e n : (0 <= e -> 0 <= Nat.iter n (step4 ks mx c) e <= e) /\ (e <= 0 -> e <= Nat.iter n (step4 ks mx c) e <= 0).
Proof.
  induction n as [|n IH]; [cbn; lra|]. cbn [Nat.iter nat_rect]. unfold Nat.iter in IH. set (x := nat_rect _ _ _ n) in *. destruct IH as [I1 I2]. split; intros He.
  - specialize (I1 He). pose proof (step4_between x ltac:(lra)). lra.
  - specialize (I2 He). pose proof (step4_between (- x) ltac:(lra)) as Q. rewrite step4_opp in Q. lra.
Qed.
(** while the torque is cut off the missing speed falls by a sixth of what it could *)
Lemma step4_cut e : 0 < ks -> mx <= ks * e -> 0 <= e -> step4 ks mx c e <= e - mx * c / 6.
Proof.
  intros Hk' Hs He. unfold step4. cbv zeta. pose proof (drop_pos e He) as D1.
  assert (E1 : D e = mx * c). { unfold drop. f_equal. destruct (cut_cases mx (ks * e) Hm) as [(A & ->)|[(A & ->)|(A & ->)]]; try lra. rewrite Rabs_pos_eq in A by lra. lra. }
  rewrite E1 in *. set (d1 := mx * c) in *.
  pose proof (drop_pos (e - d1 / 2) ltac:(lra)) as D2. set (d2 := D (e - d1 / 2)) in *.
  pose proof (drop_pos (e - d2 / 2) ltac:(lra)) as D3. set (d3 := D (e - d2 / 2)) in *.
  destruct (Rle_dec 0 (e - d3)) as [P|P].
  - pose proof (drop_pos (e - d3) P) as D4. set (d4 := D (e - d3)) in *. lra.
  - pose proof (drop_most (e - d3)) as D4. set (d4 := D (e - d3)) in *. fold d1 in D4.
    assert (d1 <= 2 * e).
    { unfold d1. apply Rle_trans with (ks * e * c); [apply Rmult_le_compat_r; lra|]. replace (ks * e * c) with (ks * c * e) by ring. now apply Rmult_le_compat_r. }
    lra.
Qed.
(** within the largest torque the missing speed is multiplied by a number *)
Definition rho (z : R) : R := 1 - z + z ^ 2 / 2 - z ^ 3 / 6 + z ^ 4 / 24.
Lemma drop_in k e : Rabs (ks * e) <= mx -> -1 <= k <= 1 -> D (k * e) = ks * c * (k * e).
Proof.
  intros H1 H2. unfold drop. rewrite cut_in; [ring|]. replace (ks * (k * e)) with (k * (ks * e)) by ring. rewrite Rabs_mult.
  assert (Rabs k <= 1) by (apply Rabs_le; lra). pose proof (Rabs_pos (ks * e)). pose proof (Rabs_pos k). nra.
Qed.
Lemma step4_in e : Rabs (ks * e) <= mx -> step4 ks mx c e = rho (ks * c) * e.
Proof.
  intros H. pose proof (Rmult_le_pos _ _ Hk Hc) as P. unfold step4. cbv zeta. pose proof (fun k => drop_in k e H) as Q. set (z := ks * c) in *.
  pose proof (Q 1 ltac:(lra)) as Q1. rewrite Rmult_1_l in Q1. rewrite Q1.
  replace (e - z * e / 2) with ((1 - z / 2) * e) by field. rewrite (Q (1 - z / 2)) by lra.
  replace (e - z * ((1 - z / 2) * e) / 2) with ((1 - z / 2 + z * z / 4) * e) by field.
  assert (B : 0 <= z / 2 - z * z / 4 <= 1). { assert (0 <= z * (2 - z)) by (apply Rmult_le_pos; lra). split; [nra|nra]. }
  rewrite (Q (1 - z / 2 + z * z / 4)) by lra.
  replace (e - z * ((1 - z / 2 + z * z / 4) * e)) with ((1 - z * (1 - z / 2 + z * z / 4)) * e) by ring.
  assert (B2 : 0 <= z * (1 - z / 2 + z * z / 4) <= 2). { split; [apply Rmult_le_pos; lra|]. apply Rle_trans with (z * 1); [apply Rmult_le_compat_l; lra|lra]. }
  rewrite (Q (1 - z * (1 - z / 2 + z * z / 4))) by lra. unfold rho. field.
Qed.
Lemma rho_unit z : 0 <= z <= 2 -> 0 <= rho z <= 1 /\ (0 < z -> rho z < 1).
Proof.
  intros H. unfold rho.
  assert (E1 : 1 - z + z ^ 2 / 2 - z ^ 3 / 6 + z ^ 4 / 24 = 1 - z * (1 - z / 2 + z * z / 6 * (1 - z / 4))) by field.
  assert (E2 : 1 - z + z ^ 2 / 2 - z ^ 3 / 6 + z ^ 4 / 24 = (1 - z + z * z / 4) + z * z / 4 * (1 - 2 * z / 3 + z * z / 6)) by field.
  assert (A : 0 <= z * z * (1 - z / 4)) by (apply Rmult_le_pos; [apply Rle_0_sqr|lra]).
  assert (B : 0 < z -> 0 < 1 - z / 2 + z * z / 6 * (1 - z / 4)).
  { intros Hp. assert (0 < z * z * (1 - z / 4)) by (apply Rmult_lt_0_compat; [apply Rmult_lt_0_compat; lra|lra]). lra. }
  split; [split|].
  - rewrite E2. replace (1 - z + z * z / 4) with ((1 - z / 2) * (1 - z / 2)) by field. pose proof (Rle_0_sqr (1 - z / 2)) as Q1. unfold Rsqr in Q1.
    assert (0 <= z * z * (1 - 2 * z / 3 + z * z / 6)).
    { apply Rmult_le_pos; [apply Rle_0_sqr|]. pose proof (Rle_0_sqr (z - 2)) as Q2. unfold Rsqr in Q2. nra. }
    lra.
  - rewrite E1. assert (0 <= z * (1 - z / 2 + z * z / 6 * (1 - z / 4))); [|lra]. apply Rmult_le_pos; lra.
  - intros Hp. rewrite E1. specialize (B Hp). assert (0 < z * (1 - z / 2 + z * z / 6 * (1 - z / 4))) by now apply Rmult_lt_0_compat. lra.
Qed.
Lemma iter4_in e n : Rabs (ks * e) <= mx -> Nat.iter n (step4 ks mx c) e = rho (ks * c) ^ n * e.
Proof.
  intros H. pose proof (Rmult_le_pos _ _ Hk Hc) as P. destruct (rho_unit (ks * c) ltac:(lra)) as [[U1 U2] _].
  induction n as [|n IH]; [cbn; ring|]. cbn [Nat.iter nat_rect]. unfold Nat.iter in IH. rewrite IH, step4_in; [cbn [pow]; ring|].
  replace (ks * (rho (ks * c) ^ n * e)) with (rho (ks * c) ^ n * (ks * e)) by ring. rewrite Rabs_mult, <- RPow_abs, (Rabs_pos_eq _ U1).
  assert (rho (ks * c) ^ n <= 1). { rewrite <- (pow1 n). apply pow_incr. lra. }
  pose proof (Rabs_pos (ks * e)). pose proof (pow_le _ n U1). nra.
Qed.
End C.

(** ** the exponential law *)
Lemma mono_from0 (f f' : R -> R) : (forall x, derivable_pt_lim f x (f' x)) -> f 0 = 0 -> (forall x, 0 <= x -> 0 <= f' x) -> forall x, 0 <= x -> 0 <= f x.
Proof.
  intros Hd H0 Hp x [Hx|<-]; [|lra]. destruct (MVT_cor2 f f' 0 x Hx (fun c _ => Hd c)) as (c & E & Hc).
  rewrite H0 in E. assert (0 <= f' c * (x - 0)) by (apply Rmult_le_pos; [apply Hp; lra|lra]). lra.
Qed.
Lemma d_expm x : derivable_pt_lim (fun x => exp (- x)) x (- exp (- x)).
Proof.
  replace (- exp (- x)) with (exp (- x) * - 1) by ring. apply (derivable_pt_lim_comp (fun x => - x) exp); [|apply derivable_pt_lim_exp].
  apply (derivable_pt_lim_opp id). apply derivable_pt_lim_id.
Qed.
Lemma d_poly (a : R) n x : derivable_pt_lim (fun x => a * x ^ n) x (a * (INR n * x ^ pred n)).
Proof. apply (derivable_pt_lim_scal (fun x => x ^ n)). apply derivable_pt_lim_pow. Qed.
Lemma expm_bounds z : 0 <= z -> exp (- z) <= rho z <= exp (- z) + z ^ 5 / 120.
Proof.
  set (f0 := fun x => 1 - exp (- x)).
  set (f1 := fun x => exp (- x) - 1 + x).
  set (f2 := fun x => 1 - exp (- x) - x + / 2 * x ^ 2).
  set (f3 := fun x => exp (- x) - 1 + x - / 2 * x ^ 2 + / 6 * x ^ 3).
  set (f4 := fun x => 1 - exp (- x) - x + / 2 * x ^ 2 - / 6 * x ^ 3 + / 24 * x ^ 4).
  set (f5 := fun x => exp (- x) - 1 + x - / 2 * x ^ 2 + / 6 * x ^ 3 - / 24 * x ^ 4 + / 120 * x ^ 5).
  assert (E0 : exp (- 0) = 1) by (rewrite Ropp_0; apply exp_0).
  assert (X : forall x, derivable_pt_lim (fun x => x) x 1) by (intros; apply derivable_pt_lim_id).
  assert (K : forall x, derivable_pt_lim (fun _ => 1) x 0) by (intros; apply derivable_pt_lim_const).
  assert (P : forall a n x d, a * (INR n * x ^ pred n) = d -> derivable_pt_lim (fun x => a * x ^ n) x d) by (intros a n x d <-; apply d_poly).
  assert (D0 : forall x, derivable_pt_lim f0 x (exp (- x))).
  { intros x. replace (exp (- x)) with (0 - - exp (- x)) by ring. apply (derivable_pt_lim_minus (fun _ => 1) (fun x => exp (- x))); [apply K|apply d_expm]. }
  assert (D1 : forall x, derivable_pt_lim f1 x (f0 x)).
  { intros x. unfold f0. replace (1 - exp (- x)) with (- exp (- x) - 0 + 1) by ring.
    apply (derivable_pt_lim_plus (fun x => exp (- x) - 1) (fun x => x)); [|apply X]. apply (derivable_pt_lim_minus (fun x => exp (- x)) (fun _ => 1)); [apply d_expm|apply K]. }
  assert (D2 : forall x, derivable_pt_lim f2 x (f1 x)).
  { intros x. unfold f1. replace (exp (- x) - 1 + x) with (0 - - exp (- x) - 1 + x) by ring.
    apply (derivable_pt_lim_plus (fun x => 1 - exp (- x) - x) (fun x => / 2 * x ^ 2)); [|apply P; cbn; field].
    apply (derivable_pt_lim_minus (fun x => 1 - exp (- x)) (fun x => x)); [|apply X]. apply (derivable_pt_lim_minus (fun _ => 1) (fun x => exp (- x))); [apply K|apply d_expm]. }
  assert (D3 : forall x, derivable_pt_lim f3 x (f2 x)).
  { intros x. unfold f2. replace (1 - exp (- x) - x + / 2 * x ^ 2) with (f0 x - x + / 2 * x ^ 2) by (unfold f0; ring).
    apply (derivable_pt_lim_plus (fun x => f1 x - / 2 * x ^ 2) (fun x => / 6 * x ^ 3)); [|apply P; cbn; field].
    apply (derivable_pt_lim_minus f1 (fun x => / 2 * x ^ 2)); [apply D1|apply P; cbn; field]. }
  assert (D4 : forall x, derivable_pt_lim f4 x (f3 x)).
  { intros x. unfold f3. replace (exp (- x) - 1 + x - / 2 * x ^ 2 + / 6 * x ^ 3) with (f1 x - / 2 * x ^ 2 + / 6 * x ^ 3) by (unfold f1; ring).
    apply (derivable_pt_lim_plus (fun x => f2 x - / 6 * x ^ 3) (fun x => / 24 * x ^ 4)); [|apply P; cbn; field].
    apply (derivable_pt_lim_minus f2 (fun x => / 6 * x ^ 3)); [apply D2|apply P; cbn; field]. }
  assert (D5 : forall x, derivable_pt_lim f5 x (f4 x)).
  { intros x. unfold f4. replace (1 - exp (- x) - x + / 2 * x ^ 2 - / 6 * x ^ 3 + / 24 * x ^ 4) with (f2 x - / 6 * x ^ 3 + / 24 * x ^ 4) by (unfold f2; ring).
    apply (derivable_pt_lim_plus (fun x => f3 x - / 24 * x ^ 4) (fun x => / 120 * x ^ 5)); [|apply P; cbn; field].
    apply (derivable_pt_lim_minus f3 (fun x => / 24 * x ^ 4)); [apply D3|apply P; cbn; field]. }
  assert (Z0 : forall x, 0 <= x -> 0 <= f0 x) by (apply (mono_from0 f0 (fun x => exp (- x)) D0); [unfold f0; lra|intros; left; apply exp_pos]).
  assert (Z1 : forall x, 0 <= x -> 0 <= f1 x) by (apply (mono_from0 f1 f0 D1); [unfold f1; lra|exact Z0]).
  assert (Z2 : forall x, 0 <= x -> 0 <= f2 x) by (apply (mono_from0 f2 f1 D2); [unfold f2; cbn; lra|exact Z1]).
  assert (Z3 : forall x, 0 <= x -> 0 <= f3 x) by (apply (mono_from0 f3 f2 D3); [unfold f3; cbn; lra|exact Z2]).
  assert (Z4 : forall x, 0 <= x -> 0 <= f4 x) by (apply (mono_from0 f4 f3 D4); [unfold f4; cbn; lra|exact Z3]).
  assert (Z5 : forall x, 0 <= x -> 0 <= f5 x) by (apply (mono_from0 f5 f4 D5); [unfold f5; cbn; lra|exact Z4]).
  intros Hz. specialize (Z4 z Hz). specialize (Z5 z Hz). unfold f4, f5 in *. unfold rho. lra.
Qed.
Lemma pow_gap a b n : 0 <= a <= b -> b <= 1 -> 0 <= b ^ n - a ^ n <= INR n * (b - a).
Proof.
  intros Ha Hb. induction n as [|n IH]; [cbn; lra|]. rewrite S_INR. cbn [pow].
  assert (P1 : 0 <= a ^ n <= 1) by (split; [apply pow_le; lra|]; rewrite <- (pow1 n); apply pow_incr; lra).
  replace (b * b ^ n - a * a ^ n) with (b * (b ^ n - a ^ n) + (b - a) * a ^ n) by ring.
  assert (0 <= b * (b ^ n - a ^ n) <= 1 * (b ^ n - a ^ n)) by (split; [apply Rmult_le_pos; lra|apply Rmult_le_compat_r; lra]).
  assert (0 <= (b - a) * a ^ n <= (b - a) * 1) by (split; [apply Rmult_le_pos; lra|apply Rmult_le_compat_l; lra]). lra.
Qed.
Lemma exp_pow x n : exp x ^ n = exp (INR n * x).
Proof. induction n as [|n IH]; [cbn; rewrite Rmult_0_l, exp_0; reflexivity|]. cbn [pow]. rewrite IH, <- exp_plus. f_equal. rewrite S_INR. ring. Qed.
(** n sub-steps: the missing speed is multiplied by the exponential, up to n z^5 / 120 *)
Lemma rho_exp z n : 0 <= z <= 2 -> exp (- (INR n * z)) <= rho z ^ n <= exp (- (INR n * z)) + INR n * (z ^ 5 / 120).
Proof.
  intros Hz. pose proof (expm_bounds z ltac:(lra)) as B. destruct (rho_unit z Hz) as [[U1 U2] _]. pose proof (exp_pos (- z)) as P.
  pose proof (pow_gap (exp (- z)) (rho z) n ltac:(lra) ltac:(lra)) as G. rewrite exp_pow in G. replace (INR n * - z) with (- (INR n * z)) in G by ring.
  assert (INR n * (rho z - exp (- z)) <= INR n * (z ^ 5 / 120)) by (apply Rmult_le_compat_l; [apply pos_INR|lra]). lra.
Qed.

(** ** the speed is reached *)
Lemma reached4 ks mx c e eps : 0 < mx -> 0 < ks -> 0 < ks * c <= 2 -> 0 < eps -> exists N, forall n, (N <= n)%nat -> Rabs (Nat.iter n (step4 ks mx c) e) < eps.
Proof.
  intros Hm Hk Hc He. assert (Pc : 0 < c) by (apply (Rmult_lt_reg_l ks); lra).
  assert (POS : forall e, 0 <= e -> exists N, forall n, (N <= n)%nat -> Rabs (Nat.iter n (step4 ks mx c) e) < eps).
  { clear e. intros e Pe. set (g := mx * c / 6). assert (Pg : 0 < g) by (unfold g; assert (0 < mx * c) by (apply Rmult_lt_0_compat; lra); lra).
    assert (ST : forall k e, 0 <= e -> ks * e <= mx + ks * (INR k * g) -> exists i, 0 <= Nat.iter i (step4 ks mx c) e /\ ks * Nat.iter i (step4 ks mx c) e <= mx).
    { induction k as [|k IH]; intros x Hx Hb.
      - exists 0%nat. cbn [Nat.iter nat_rect INR] in *. lra.
      - destruct (Rle_dec (ks * x) mx) as [L|L]; [exists 0%nat; cbn [Nat.iter nat_rect]; lra|].
        pose proof (step4_between ks mx c ltac:(lra) ltac:(lra) ltac:(lra) ltac:(lra) x Hx) as B. pose proof (step4_cut ks mx c ltac:(lra) ltac:(lra) ltac:(lra) ltac:(lra) x Hk ltac:(lra) Hx) as Q.
        fold g in Q. rewrite S_INR in Hb. destruct (IH (step4 ks mx c x)) as (i & I1 & I2); [lra| |].
        + assert (ks * step4 ks mx c x <= ks * (x - g)) by (apply Rmult_le_compat_l; lra). lra.
        + exists (S i). now rewrite iter_succ_r. }
    destruct (archimed_nat (e / g)) as [k Hk'].
    destruct (ST k e Pe) as (i & I1 & I2).
    { assert (e <= INR k * g). { apply Rlt_le. apply (Rmult_lt_reg_r (/ g)); [now apply Rinv_0_lt_compat|]. replace (INR k * g * / g) with (INR k) by (field; lra). exact Hk'. }
      assert (ks * e <= ks * (INR k * g)) by (apply Rmult_le_compat_l; lra). lra. }
    set (e1 := Nat.iter i (step4 ks mx c) e) in *.
    assert (Hin : Rabs (ks * e1) <= mx) by (rewrite Rabs_pos_eq; [exact I2|apply Rmult_le_pos; lra]).
    destruct (rho_unit (ks * c) ltac:(lra)) as [[U1 U2] U3]. specialize (U3 ltac:(lra)).
    assert (Rabs (rho (ks * c)) < 1) as Q by (rewrite Rabs_pos_eq; lra).
    destruct (pow_lt_1_zero (rho (ks * c)) Q (eps / (e1 + 1))) as [N HN]; [apply Rdiv_lt_0_compat; lra|].
    exists (i + N)%nat. intros m Hm'. replace m with ((m - i) + i)%nat by lia. rewrite iter_plus. fold e1. rewrite (iter4_in ks mx c ltac:(lra) ltac:(lra) ltac:(lra)) by exact Hin.
    rewrite Rabs_mult. specialize (HN (m - i)%nat ltac:(lia)). rewrite (Rabs_pos_eq e1 I1). pose proof (Rabs_pos (rho (ks * c) ^ (m - i))).
    assert (eps = eps / (e1 + 1) * (e1 + 1)) as -> by (field; lra).
    apply Rle_lt_trans with (Rabs (rho (ks * c) ^ (m - i)) * (e1 + 1)); [apply Rmult_le_compat_l; lra|]. apply Rmult_lt_compat_r; lra. }
  destruct (Rle_dec 0 e) as [P|P]; [now apply POS|]. destruct (POS (- e) ltac:(lra)) as [N HN]. exists N. intros n Hn. specialize (HN n Hn).
  replace (Nat.iter n (step4 ks mx c) e) with (- Nat.iter n (step4 ks mx c) (- e)); [now rewrite Rabs_Ropp|].
  clear -Hm. induction n as [|n IH]; [cbn; ring|]. cbn [Nat.iter nat_rect]. unfold Nat.iter in IH. rewrite <- IH, step4_opp by lra. reflexivity.
Qed.
End E.

(** ** calls of equal length and number of sub-steps *)
Section S.
Context {dbg : bool}.
Notation T := (RT dbg).
Notation cl := (cell T).
Variable priv : nat -> bool.
Lemma undamped_spins ks mx r (dt : R) n ts : forall e, spins ks 0 mx r (map (fun t => (dt, n, t)) ts) e = Nat.iter (n * length ts) (step4 ks mx (r * (dt / INR n))) e.
Proof.
  induction ts as [|t ts IH]; intros e; [cbn [map spins length]; now rewrite Nat.mul_0_r|]. cbn [map spins length].
  rewrite IH, undamped_four. cbn [fst]. rewrite <- iter_plus. f_equal. lia.
Qed.
Lemma spin_equal (dt : R) n ts (w : world T) y w' y' g b0 b1 (sp ks mx v0 v1 r0 r1 : R) : driven_four priv w y g b0 b1 sp ks 0 mx -> (0 <= mx)%R -> 0 < n ->
  plays Generic (map (fun t => (dt, n, t)) ts) w y = Ok (w', y') -> turns w y b0 v0 r0 -> turns w y b1 v1 r1 ->
  exists v0' v1', turns w' y' b0 v0' r0 /\ turns w' y' b1 v1' r1 /\ (sp - (v1' - v0') = Nat.iter (n * length ts) (step4 ks mx ((r1 + r0) * (dt / INR n))) (sp - (v1 - v0)))%R.
Proof.
  intros HD Hm Hn E T0 T1.
  assert (Hl : forall dt' n' t, In (dt', n', t) (map (fun t => (dt, n, t)) ts) -> 0 < n').
  { intros dt' n' t' Hi. apply in_map_iff in Hi. destruct Hi as (t & Et & _). now injection Et as <- <- _. }
  destruct (spin_calls priv _ w y w' y' g b0 b1 sp ks 0%R mx v0 v1 r0 r1 HD Hm Hl E T0 T1) as (v0' & v1' & U0 & U1 & _ & X).
  exists v0', v1'. split; [exact U0|]. split; [exact U1|]. now rewrite X, undamped_spins.
Qed.
Lemma spin_steady (dt : R) n ts (w : world T) y w' y' g b0 b1 (sp ks mx v0 v1 r0 r1 : R) : driven_four priv w y g b0 b1 sp ks 0 mx ->
  turns w y b0 v0 r0 -> turns w y b1 v1 r1 -> plays Generic (map (fun t => (dt, n, t)) ts) w y = Ok (w', y') -> 0 < n -> (0 <= mx -> 0 <= ks -> 0 <= (r1 + r0) * (dt / INR n) -> ks * ((r1 + r0) * (dt / INR n)) <= 2 ->
  exists v0' v1', turns w' y' b0 v0' r0 /\ turns w' y' b1 v1' r1 /\
    (v1 - v0 <= sp -> v1 - v0 <= v1' - v0' <= sp) /\ (sp <= v1 - v0 -> sp <= v1' - v0' <= v1 - v0))%R.
Proof.
  intros HD T0 T1 E Hn Hm Hk Hc Hz. destruct (spin_equal dt n ts w y w' y' g b0 b1 sp ks mx v0 v1 r0 r1 HD Hm Hn E T0 T1) as (v0' & v1' & U0 & U1 & X).
  exists v0', v1'. split; [exact U0|]. split; [exact U1|]. destruct (iter4_between ks mx _ Hm Hk Hc Hz (sp - (v1 - v0)) (n * length ts))%R as [I1 I2]. rewrite <- X in I1, I2. split; intros H; [specialize (I1 ltac:(lra))|specialize (I2 ltac:(lra))]; lra.
Qed.
Lemma spin_exp (dt : R) n ts (w : world T) y w' y' g b0 b1 (sp ks mx v0 v1 r0 r1 : R) : driven_four priv w y g b0 b1 sp ks 0 mx ->
  turns w y b0 v0 r0 -> turns w y b1 v1 r1 -> plays Generic (map (fun t => (dt, n, t)) ts) w y = Ok (w', y') -> 0 < n -> let z := (ks * ((r1 + r0) * (dt / INR n)))%R in
  (0 <= mx -> 0 <= ks -> 0 <= (r1 + r0) * (dt / INR n) -> z <= 2 -> Rabs (ks * (sp - (v1 - v0))) <= mx ->
  exists v0' v1' rho, turns w' y' b0 v0' r0 /\ turns w' y' b1 v1' r1 /\ sp - (v1' - v0') = rho * (sp - (v1 - v0)) /\
    let e := exp (- (ks * ((r1 + r0) * (INR (length ts) * dt)))) in e <= rho <= e + INR (n * length ts) * (z ^ 5 / 120))%R.
Proof.
  intros HD T0 T1 E Hn z Hm Hk Hc Hz Hs. destruct (spin_equal dt n ts w y w' y' g b0 b1 sp ks mx v0 v1 r0 r1 HD Hm Hn E T0 T1) as (v0' & v1' & U0 & U1 & X).
  exists v0', v1', (rho z ^ (n * length ts))%R. split; [exact U0|]. split; [exact U1|]. split; [rewrite X; now apply iter4_in|].
  assert (Pz : (0 <= z)%R) by now apply Rmult_le_pos. pose proof (rho_exp z (n * length ts) (conj Pz Hz)) as B.
  replace (ks * ((r1 + r0) * (INR (length ts) * dt)))%R with (INR (n * length ts) * z)%R; [exact B|]. unfold z. rewrite mult_INR. field. apply not_0_INR. lia.
Qed.
Lemma spin_reached (dt : R) n (w : world T) y g b0 b1 (sp ks mx v0 v1 r0 r1 eps : R) : driven_four priv w y g b0 b1 sp ks 0 mx -> turns w y b0 v0 r0 -> turns w y b1 v1 r1 -> 0 < n ->
  (0 < mx -> 0 < ks -> 0 < ks * ((r1 + r0) * (dt / INR n)) <= 2 -> 0 < eps ->
  exists N, forall ts w' y', (N <= length ts)%nat -> plays Generic (map (fun t => (dt, n, t)) ts) w y = Ok (w', y') ->
    exists v0' v1', turns w' y' b0 v0' r0 /\ turns w' y' b1 v1' r1 /\ Rabs (sp - (v1' - v0')) < eps)%R.
Proof.
  intros HD T0 T1 Hn Hm Hk Hz He. destruct (reached4 ks mx _ (sp - (v1 - v0)) eps Hm Hk Hz He)%R as [N HN]. exists N. intros ts w' y' Hl E.
  destruct (spin_equal dt n ts w y w' y' g b0 b1 sp ks mx v0 v1 r0 r1 HD ltac:(lra) Hn E T0 T1) as (v0' & v1' & U0 & U1 & X). exists v0', v1'. split; [exact U0|]. split; [exact U1|].
  rewrite X. apply HN. destruct n as [|n]; [lia|]. cbn. lia.
Qed.
End S.
