(** * How far the schemes are from the exact motion of a spring with a damper. *)

From Coq Require Import Reals Lra Arith Lia.
From Verif Require Import SpecOsc SpecFade SpecDyn SpecFlight SpecSwing SpecDamp DampReal SpecBow BowRun OscReal MotorReal SpinEnd.
Local Open Scope R_scope.

(** ** the exact motion *)
Lemma d_fade (mu nu A B : R) t : derivable_pt_lim (fun t => exp (- (mu * t)) * (A * cos (nu * t) + B * sin (nu * t))) t (exp (- (mu * t)) * ((- mu * A + nu * B) * cos (nu * t) + (- mu * B - nu * A) * sin (nu * t))).
Proof.
  assert (Dl : forall c, derivable_pt_lim (fun t => c * t) t c) by (intros c; pose proof (derivable_pt_lim_scal id c t 1 (derivable_pt_lim_id t)) as H; rewrite Rmult_1_r in H; exact H).
  assert (De : derivable_pt_lim (fun t => exp (- (mu * t))) t (exp (- (mu * t)) * - mu)).
  { apply (derivable_pt_lim_comp (fun t => - (mu * t)) exp t (- mu) (exp (- (mu * t)))); [apply (derivable_pt_lim_opp (fun t => mu * t)), Dl|apply derivable_pt_lim_exp]. }
  assert (Dc : derivable_pt_lim (fun t => cos (nu * t)) t (- sin (nu * t) * nu)) by (apply (derivable_pt_lim_comp (fun t => nu * t) cos t nu (- sin (nu * t))); [apply Dl|apply derivable_pt_lim_cos]).
  assert (Ds : derivable_pt_lim (fun t => sin (nu * t)) t (cos (nu * t) * nu)) by (apply (derivable_pt_lim_comp (fun t => nu * t) sin t nu (cos (nu * t))); [apply Dl|apply derivable_pt_lim_sin]).
  pose proof (derivable_pt_lim_mult _ _ t _ _ De (derivable_pt_lim_plus _ _ t _ _ (derivable_pt_lim_scal _ A t _ Dc) (derivable_pt_lim_scal _ B t _ Ds))) as H.
  replace (exp (- (mu * t)) * ((- mu * A + nu * B) * cos (nu * t) + (- mu * B - nu * A) * sin (nu * t))) with
    (exp (- (mu * t)) * - mu * (A * cos (nu * t) + B * sin (nu * t)) + exp (- (mu * t)) * (A * (- sin (nu * t) * nu) + B * (cos (nu * t) * nu))) by ring. exact H.
Qed.
Lemma fade_exact mu nu x : nu <> 0 -> fades mu nu 0 x = x /\
  forall t, derivable_pt_lim (fun t => fst (fades mu nu t x)) t (snd (fades mu nu t x)) /\
    derivable_pt_lim (fun t => snd (fades mu nu t x)) t (- ((mu * mu + nu * nu) * fst (fades mu nu t x)) - 2 * mu * snd (fades mu nu t x)).
Proof.
  intros Hn. destruct x as [g u]. unfold fades. cbn [fst snd]. split.
  - rewrite !Rmult_0_r, Ropp_0, exp_0, cos_0, sin_0. f_equal; ring.
  - intros t. split.
    + pose proof (d_fade mu nu g ((u + mu * g) / nu) t) as H.
      replace (exp (- (mu * t)) * (u * cos (nu * t) - ((mu * mu + nu * nu) * g + mu * u) / nu * sin (nu * t))) with (exp (- (mu * t)) * ((- mu * g + nu * ((u + mu * g) / nu)) * cos (nu * t) + (- mu * ((u + mu * g) / nu) - nu * g) * sin (nu * t))) by (field; exact Hn).
      exact H.
    + pose proof (d_fade mu nu u (- (((mu * mu + nu * nu) * g + mu * u) / nu)) t) as H.
      match goal with |- derivable_pt_lim ?f t ?l => assert (E : forall s, f s = exp (- (mu * s)) * (u * cos (nu * s) + - (((mu * mu + nu * nu) * g + mu * u) / nu) * sin (nu * s))) by (intros s; cbv beta; ring) end.
      intros e He. destruct (H e He) as [d Hd]. exists d. intros h H0 H1. rewrite !E. replace (- _ - _) with (exp (- (mu * t)) * ((- mu * u + nu * - (((mu * mu + nu * nu) * g + mu * u) / nu)) * cos (nu * t) + (- mu * - (((mu * mu + nu * nu) * g + mu * u) / nu) - nu * u) * sin (nu * t))) by (field; exact Hn).
      now apply Hd.
Qed.

(** ** the schemes in the coordinates in which the exact motion is a turn that shrinks *)
Definition skew (mu nu : R) (x : R * R) : R * R := (nu * fst x, snd x + mu * fst x).
Definition times (e : R) (x : R * R) : R * R := (e * fst x, e * snd x).
Lemma skew_ampl mu nu x : ampl2 mu nu x = stir (skew mu nu x). Proof. reflexivity. Qed.
Lemma skew_apart mu nu x y : apart2 mu nu x y = stir (minus2 (skew mu nu x) (skew mu nu y)).
Proof. unfold apart2, ampl2, stir, minus2, skew. cbn [fst snd]. ring. Qed.
Lemma skew_fades mu nu t x : nu <> 0 -> skew mu nu (fades mu nu t x) = times (exp (- (mu * t))) (turn (nu * t) (skew mu nu x)).
Proof. intros H. unfold skew, times, fades, turn, lin. cbn [fst snd]. f_equal; field; exact H. Qed.
Definition mA z (a b : R) := 1 - a + match z with Symplectic => a * a - b * b | Explicit => 0 end.
Definition mB z (a b : R) := b - match z with Symplectic => 2 * (a * b) | Explicit => 0 end.
Definition mC z (r a b : R) := - b + match z with Symplectic => r * (a * a - b * b) | Explicit => 0 end.
Definition mD z (a b : R) := 1 - a - match z with Symplectic => 2 * (a * a) | Explicit => 0 end.
Lemma skew_swing z mu nu h x : nu <> 0 -> skew mu nu (swing z (mu * mu + nu * nu) (2 * mu) h x) = let a := mu * h in let b := nu * h in lin (mA z a b) (mB z a b) (mC z (mu / nu) a b) (mD z a b) (skew mu nu x).
Proof. intros H. destruct x as [g u]. unfold swing, skew, lin, mA, mB, mC, mD. cbn [fst snd]. destruct z; f_equal; field; exact H. Qed.
Lemma expm_small a : 0 <= a <= 1 -> 1 - a <= exp (- a) <= 1 - a + a * a / 2 /\ 0 <= exp (- a) <= 1 /\ exp a <= 3.
Proof.
  intros H. pose proof (exp_ineq1_le (- a)) as L. destruct (expm_bounds a ltac:(lra)) as [U _]. pose proof (exp_pos (- a)) as P. pose proof (powers a H) as Q. unfold rho in U.
  assert (E3 : exp a <= 3) by (eapply Rle_trans; [|apply exp_le_3]; destruct (proj2 H) as [X| ->]; [left; now apply exp_increasing|lra]).
  assert (a * a = a ^ 2) by ring. repeat split; lra.
Qed.
(** a brake *)
Lemma brake_exp x n : 0 <= x <= 1 -> 0 <= exp (- (INR n * x)) - (1 - x) ^ n <= INR n * (x * x / 2).
Proof.
  intros H. destruct (expm_small x H) as (B & U & _). pose proof (pow_gap (1 - x) (exp (- x)) n ltac:(lra) ltac:(lra)) as G. rewrite exp_pow in G. replace (INR n * - x) with (- (INR n * x)) in G by ring.
  assert (INR n * (exp (- x) - (1 - x)) <= INR n * (x * x / 2)) by (apply Rmult_le_compat_l; [apply pos_INR|lra]). lra.
Qed.
Lemma sqr_two x y : (x + y) * (x + y) <= 2 * (x * x) + 2 * (y * y).
Proof. pose proof (Rle_0_sqr (x - y)) as H. unfold Rsqr in H. lra. Qed.
(** W = om / nu *)
Lemma fade_near z r a b W : 0 <= a -> 0 <= b -> a * a + b * b <= 1 -> a = r * b -> 1 + r * r = W * W -> 1 <= W -> let e := exp (- a) in
  (mA z a b - e * cos b) * (mA z a b - e * cos b) + (mB z a b - e * sin b) * (mB z a b - e * sin b) + (mC z r a b + e * sin b) * (mC z r a b + e * sin b) + (mD z a b - e * cos b) * (mD z a b - e * cos b)
  <= (22 / 10 * (a * a + b * b) * W) * (22 / 10 * (a * a + b * b) * W).
Proof.
  intros Ha Hb Hs Er EW HW e. assert (A2 : 0 <= a * a) by now apply Rmult_le_pos. assert (B2 : 0 <= b * b) by now apply Rmult_le_pos.
  assert (a1 : a <= 1) by (apply sqr_le; lra). assert (b1 : b <= 1) by (apply sqr_le; lra).
  destruct (expm_small a (conj Ha a1)) as (E & E1 & _). fold e in E, E1. destruct (sin_cos_bounds b (conj Hb b1)) as [S C]. pose proof (powers b (conj Hb b1)) as P. pose proof (powers_pos b (conj Hb b1)) as P0.
  set (s := a * a + b * b) in *. assert (eb : b ^ 2 = b * b) by ring.
  assert (ab : 0 <= a * b <= s / 2) by (split; [now apply Rmult_le_pos|]; pose proof (Rle_0_sqr (a - b)) as X; unfold Rsqr in X; unfold s; lra).
  assert (X : - (1 / 2 * s) <= 1 - a - e * cos b <= 1 / 2 * s).
  { assert (0 <= 1 - a) by lra. assert (C1 : cos b <= 1) by (pose proof (COS_bound b); lra). assert (C0 : 0 <= cos b) by lra.
    assert (e * cos b <= (1 - a + a * a / 2) * 1) by (apply Rmult_le_compat; lra).
    assert ((1 - a) * (1 - b ^ 2 / 2) <= e * cos b) by (apply Rmult_le_compat; lra). assert (a * (b * b) >= 0) by (apply Rle_ge, Rmult_le_pos; lra).
    replace ((1 - a) * (1 - b ^ 2 / 2)) with (1 - a - b * b / 2 + a * (b * b) / 2) in * by field. unfold s. lra. }
  assert (Y : - (2 / 3 * s) <= b - e * sin b <= 2 / 3 * s).
  { assert (S0 : 0 <= b - b ^ 3 / 6) by (assert (b ^ 3 <= b) by lra; lra). assert (S1 : sin b <= b) by lra. assert (e * sin b <= 1 * b) by (apply Rmult_le_compat; lra).
    assert ((1 - a) * (b - b ^ 3 / 6) <= e * sin b) by (apply Rmult_le_compat; lra). assert (0 <= a * b ^ 3) by (apply Rmult_le_pos; lra).
    replace ((1 - a) * (b - b ^ 3 / 6)) with (b - a * b - b ^ 3 / 6 + a * b ^ 3 / 6) in * by field. unfold s in *. lra. }
  assert (X2 := sqr_small _ (1 / 2) s X). assert (Y2 := sqr_small _ (2 / 3) s Y). set (p := 1 - a - e * cos b) in *. set (q := b - e * sin b) in *.
  assert (SS : 0 <= s * s) by (apply Rle_0_sqr). assert (W1 : 1 <= W * W) by (rewrite <- (Rmult_1_l 1); apply Rmult_le_compat; lra).
  assert (SW : s * s <= s * s * (W * W)) by (rewrite <- (Rmult_1_r (s * s)) at 1; apply Rmult_le_compat_l; lra).
  replace (22 / 10 * s * W * (22 / 10 * s * W)) with (484 / 100 * (s * s * (W * W))) by field.
  destruct z; unfold mA, mB, mC, mD.
  - set (d1 := a * a - b * b). set (d2 := 2 * (a * b)). set (d3 := r * d1). set (d4 := 2 * (a * a)).
    replace (1 - a + d1 - e * cos b) with (p + d1) by (unfold p; ring). replace (b - d2 - e * sin b) with (q + - d2) by (unfold q; ring). replace (- b + d3 + e * sin b) with (- q + d3) by (unfold q; ring). replace (1 - a - d4 - e * cos b) with (p + - d4) by (unfold p; ring).
    pose proof (sqr_two p d1). pose proof (sqr_two q (- d2)). pose proof (sqr_two (- q) d3). pose proof (sqr_two p (- d4)).
    assert (D : d1 * d1 + d2 * d2 + d3 * d3 + d4 * d4 = s * s * (W * W)) by (rewrite <- EW; unfold d3, d1, d2, d4, s; rewrite Er; ring). lra.
  - replace (1 - a + 0 - e * cos b) with p by (unfold p; ring). replace (b - 0 - e * sin b) with q by (unfold q; ring). replace (- b + 0 + e * sin b) with (- q) by (unfold q; ring). replace (1 - a - 0 - e * cos b) with p by (unfold p; ring). lra.
Qed.
Lemma times_lin c a b d f x : times c (lin a b d f x) = lin (c * a) (c * b) (c * d) (c * f) x.
Proof. unfold times, lin. cbn [fst snd]. f_equal; ring. Qed.
Lemma iter_skew mu nu f g n x : (forall x, skew mu nu (f x) = g (skew mu nu x)) -> skew mu nu (Nat.iter n f x) = Nat.iter n g (skew mu nu x).
Proof. intros H. induction n as [|n IH]; [reflexivity|]. change (skew mu nu (f (Nat.iter n f x)) = g (Nat.iter n g (skew mu nu x))). now rewrite H, IH. Qed.
Lemma iter_times c a b d f n x : Nat.iter n (lin (c * a) (c * b) (c * d) (c * f)) x = times (c ^ n) (Nat.iter n (lin a b d f) x).
Proof.
  induction n as [|n IH]; [unfold times; cbn [Nat.iter nat_rect pow]; destruct x; cbn [fst snd]; f_equal; ring|].
  change (lin (c * a) (c * b) (c * d) (c * f) (Nat.iter n (lin (c * a) (c * b) (c * d) (c * f)) x) = times (c ^ S n) (lin a b d f (Nat.iter n (lin a b d f) x))). rewrite IH. unfold times, lin. cbn [fst snd pow]. f_equal; ring.
Qed.
Lemma fade_swing z mu nu om h n x : 0 <= mu -> 0 < nu -> 0 <= om -> mu * mu + nu * nu = om * om -> 0 <= h -> om * h <= 1 ->
  let X := Nat.iter n (swing z (om * om) (2 * mu) h) x in let d := exp (- (mu * (INR n * h))) * (exp (INR n * (7 * (om * h * (om * h)) * (om / nu))) - 1) in
  apart2 mu nu X (fades mu nu (INR n * h) x) <= d * d * ampl2 mu nu x.
Proof.
  intros Hm Hn Ho Eo Hh Hs X d. rewrite skew_apart, skew_ampl, skew_fades by lra. unfold X. rewrite <- Eo. rewrite (iter_skew mu nu _ _ n x (fun x => skew_swing z mu nu h x ltac:(lra))). cbv zeta.
  set (a := mu * h). set (b := nu * h). set (y := skew mu nu x). set (W := om / nu). set (s := om * h * (om * h)). set (e := exp (- a)).
  assert (Ee : exp a * e = 1) by (unfold e; rewrite <- exp_plus, Rplus_opp_r; apply exp_0).
  assert (a0 : 0 <= a) by (apply Rmult_le_pos; lra). assert (b0 : 0 <= b) by (apply Rmult_le_pos; lra). assert (Es : a * a + b * b = s) by (unfold a, b, s; replace (om * h * (om * h)) with (om * om * (h * h)) by ring; rewrite <- Eo; ring).
  assert (S0 : 0 <= om * h) by (apply Rmult_le_pos; lra). assert (S1 : s <= 1) by (unfold s; rewrite <- (Rmult_1_l 1); apply Rmult_le_compat; lra). assert (Sp : 0 <= s) by (unfold s; apply Rmult_le_pos; lra).
  assert (HW : 1 <= W). { unfold W. apply (Rmult_le_reg_r nu); [exact Hn|]. replace (om / nu * nu) with om by (field; lra). rewrite Rmult_1_l. apply sqr_le; [exact Ho|]. pose proof (Rle_0_sqr mu) as Q. unfold Rsqr in Q. lra. }
  assert (EW : 1 + mu / nu * (mu / nu) = W * W) by (unfold W; replace (om / nu * (om / nu)) with (om * om / (nu * nu)) by (field; lra); rewrite <- Eo; field; lra).
  pose proof (fade_near z (mu / nu) a b W a0 b0 ltac:(lra) ltac:(unfold a, b; field; lra) EW HW) as N. cbv zeta in N. fold e in N. rewrite Es in N.
  assert (a1 : a <= 1). { apply sqr_le; [lra|]. assert (0 <= b * b) by (apply Rmult_le_pos; lra). lra. } destruct (expm_small a (conj a0 a1)) as (_ & _ & E3). pose proof (exp_pos a) as Ep. set (E := exp a) in *.
  set (A := mA z a b) in *. set (B := mB z a b) in *. set (C := mC z (mu / nu) a b) in *. set (D := mD z a b) in *. set (k := 7 * s * W).
  assert (K0 : 0 <= k) by (unfold k; apply Rmult_le_pos; lra).
  assert (N' : (E * A - cos b) * (E * A - cos b) + (E * B - sin b) * (E * B - sin b) + (E * C + sin b) * (E * C + sin b) + (E * D - cos b) * (E * D - cos b) <= k * k).
  { replace (cos b) with (E * e * cos b) by (rewrite Ee; ring). replace (sin b) with (E * e * sin b) by (rewrite Ee; ring).
    apply Rle_trans with (E * E * (22 / 10 * s * W * (22 / 10 * s * W))).
    - match type of N with ?l <= _ => apply Rle_trans with (E * E * l) end; [right; ring|]. apply Rmult_le_compat_l; [apply Rle_0_sqr|exact N].
    - assert (0 <= s * W * (s * W)) by apply Rle_0_sqr. assert (E * E <= 3 * 3) by (apply Rmult_le_compat; lra). apply Rle_trans with (3 * 3 * (22 / 10 * s * W * (22 / 10 * s * W))).
      + apply Rmult_le_compat_r; [apply Rle_0_sqr|assumption].
      + unfold k. lra. }
  pose proof (close_stir (E * A) (E * B) (E * C) (E * D) b k K0 N' n y) as H.
  assert (EM : Nat.iter n (lin A B C D) y = times (e ^ n) (Nat.iter n (lin (E * A) (E * B) (E * C) (E * D)) y)).
  { rewrite <- iter_times. rewrite <- !Rmult_assoc, (Rmult_comm e E), Ee, !Rmult_1_l. reflexivity. }
  rewrite EM. assert (Ex : exp (- (mu * (INR n * h))) = e ^ n) by (unfold e; rewrite exp_pow; f_equal; unfold a; ring). unfold d. rewrite Ex.
  replace (nu * (INR n * h)) with (INR n * b) by (unfold b; ring).
  fold W. fold s. fold k. set (p := Nat.iter n _ y) in *. set (t := turn (INR n * b) y) in *. set (c := e ^ n).
  replace (stir (minus2 (times c p) (times c t))) with (c * c * stir (minus2 p t)) by (unfold stir, minus2, times; cbn [fst snd]; ring).
  apply Rle_trans with (c * c * ((exp (INR n * k) - 1) * (exp (INR n * k) - 1) * stir y)); [apply Rmult_le_compat_l; [apply Rle_0_sqr|exact H]|right; ring].
Qed.
