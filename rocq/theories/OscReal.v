(** * How far the schemes are from the exact motion of a spring. *)

From Coq Require Import Reals Lra Arith Lia.
From Verif Require Import SpecOsc SpecDyn SpecFlight SpecSwing SpecDamp DampReal SpecBow BowRun.
Local Open Scope R_scope.

(** ** vectors of the plane *)
Definition nrm (x : R * R) : R := sqrt (stir x).
Definition plus2 (x y : R * R) : R * R := (fst x + fst y, snd x + snd y).
Definition minus2 (x y : R * R) : R * R := (fst x - fst y, snd x - snd y).
Lemma stir0 x : 0 <= stir x.
Proof. unfold stir. pose proof (Rle_0_sqr (fst x)). pose proof (Rle_0_sqr (snd x)). unfold Rsqr in *. lra. Qed.
Lemma nrm0 x : 0 <= nrm x. Proof. apply sqrt_pos. Qed.
Lemma nrm_sqr x : nrm x * nrm x = stir x. Proof. apply sqrt_sqrt, stir0. Qed.
Lemma sqr_le a b : 0 <= b -> a * a <= b * b -> a <= b.
Proof. intros Hb H. destruct (Rle_lt_dec a b) as [|X]; [assumption|]. assert (b * b < a * a); [|lra]. apply Rle_lt_trans with (b * a); [apply Rmult_le_compat_l; lra|]. apply Rmult_lt_compat_r; lra. Qed.
Lemma nrm_plus x y : nrm (plus2 x y) <= nrm x + nrm y.
Proof.
  pose proof (nrm0 x). pose proof (nrm0 y). apply sqr_le; [lra|]. rewrite nrm_sqr. replace ((nrm x + nrm y) * (nrm x + nrm y)) with (nrm x * nrm x + nrm y * nrm y + 2 * (nrm x * nrm y)) by ring. rewrite !nrm_sqr.
  assert (C : fst x * fst y + snd x * snd y <= nrm x * nrm y).
  { apply sqr_le; [now apply Rmult_le_pos|]. replace (nrm x * nrm y * (nrm x * nrm y)) with ((nrm x * nrm x) * (nrm y * nrm y)) by ring. rewrite !nrm_sqr. unfold stir. apply sqr_dot. }
  unfold stir, plus2. cbn [fst snd]. lra.
Qed.
Lemma nrm_le x k y : 0 <= k -> stir x <= k * k * stir y -> nrm x <= k * nrm y.
Proof. intros Hk H. apply sqr_le; [apply Rmult_le_pos; [exact Hk|apply nrm0]|]. rewrite nrm_sqr. replace (k * nrm y * (k * nrm y)) with (k * k * (nrm y * nrm y)) by ring. now rewrite nrm_sqr. Qed.
Lemma lin_norm a b c d k x : 0 <= k -> a * a + b * b + c * c + d * d <= k * k -> nrm (lin a b c d x) <= k * nrm x.
Proof.
  intros Hk H. apply nrm_le; [exact Hk|]. unfold stir, lin. cbn [fst snd]. pose proof (sqr_dot a b (fst x) (snd x)). pose proof (sqr_dot c d (fst x) (snd x)).
  apply Rle_trans with ((a * a + b * b + c * c + d * d) * (fst x * fst x + snd x * snd x)); [lra|]. apply Rmult_le_compat_r; [apply stir0|exact H].
Qed.
Definition turn (t : R) : R * R -> R * R := lin (cos t) (sin t) (- sin t) (cos t).
Lemma turn_norm t x : nrm (turn t x) = nrm x.
Proof.
  unfold nrm. f_equal. unfold stir, turn, lin. cbn [fst snd]. pose proof (sin2_cos2 t) as H. unfold Rsqr in H.
  transitivity ((sin t * sin t + cos t * cos t) * (fst x * fst x + snd x * snd x)); [ring|]. rewrite H. ring.
Qed.
Lemma turn_plus s t x : turn s (turn t x) = turn (s + t) x.
Proof. unfold turn, lin. cbn [fst snd]. rewrite cos_plus, sin_plus. f_equal; ring. Qed.
Lemma turn_iter t n x : Nat.iter n (turn t) x = turn (INR n * t) x.
Proof.
  induction n as [|n IH].
  - cbn [Nat.iter nat_rect INR]. rewrite Rmult_0_l. unfold turn, lin. rewrite cos_0, sin_0. destruct x. cbn [fst snd]. f_equal; ring.
  - change (Nat.iter (S n) (turn t) x) with (turn t (Nat.iter n (turn t) x)). rewrite IH, turn_plus, S_INR. f_equal. ring.
Qed.
Lemma pow_exp k n : 0 <= k -> (1 + k) ^ n <= exp (INR n * k).
Proof.
  intros Hk. induction n as [|n IH]; [cbn [pow INR]; rewrite Rmult_0_l, exp_0; lra|]. rewrite S_INR. cbn [pow]. replace ((INR n + 1) * k) with (k + INR n * k) by ring. rewrite exp_plus.
  apply Rmult_le_compat; [lra|apply pow_le; lra| |exact IH]. pose proof (exp_ineq1_le k). lra.
Qed.
(** a linear map that is close to a turn stays close to it *)
Section Close.
Variables (a b c d th k : R).
Hypothesis Hk : 0 <= k.
Hypothesis near : (a - cos th) * (a - cos th) + (b - sin th) * (b - sin th) + (c + sin th) * (c + sin th) + (d - cos th) * (d - cos th) <= k * k.
Notation M := (lin a b c d).
Lemma off x : nrm (minus2 (M x) (turn th x)) <= k * nrm x.
Proof.
  replace (minus2 (M x) (turn th x)) with (lin (a - cos th) (b - sin th) (c + sin th) (d - cos th) x) by (unfold minus2, turn, lin; cbn [fst snd]; f_equal; ring). now apply lin_norm.
Qed.
Lemma grows_by n x : nrm (Nat.iter n M x) <= (1 + k) ^ n * nrm x.
Proof.
  induction n as [|n IH]; [cbn [Nat.iter nat_rect pow]; lra|]. change (Nat.iter (S n) M x) with (M (Nat.iter n M x)). set (y := Nat.iter n M x) in *.
  replace (M y) with (plus2 (minus2 (M y) (turn th y)) (turn th y)) by (unfold plus2, minus2; cbn [fst snd]; rewrite (surjective_pairing (M y)); cbn [fst snd]; f_equal; ring).
  eapply Rle_trans; [apply nrm_plus|]. rewrite turn_norm. pose proof (off y). cbn [pow]. apply Rle_trans with ((1 + k) * nrm y); [lra|]. rewrite Rmult_assoc. apply Rmult_le_compat_l; lra.
Qed.
Lemma stays_close n x : nrm (minus2 (Nat.iter n M x) (turn (INR n * th) x)) <= ((1 + k) ^ n - 1) * nrm x.
Proof.
  rewrite <- turn_iter. induction n as [|n IH].
  - cbn [Nat.iter nat_rect pow]. replace (minus2 x x) with (0, 0) by (unfold minus2; f_equal; ring). unfold nrm, stir. cbn [fst snd]. replace (0 * 0 + 0 * 0) with 0 by ring. rewrite sqrt_0. lra.
  - change (Nat.iter (S n) M x) with (M (Nat.iter n M x)). change (Nat.iter (S n) (turn th) x) with (turn th (Nat.iter n (turn th) x)).
    pose proof (grows_by n x) as G. set (y := Nat.iter n M x) in *. set (z := Nat.iter n (turn th) x) in *.
    replace (minus2 (M y) (turn th z)) with (plus2 (minus2 (M y) (turn th y)) (turn th (minus2 y z))) by (unfold plus2, minus2, turn, lin; cbn [fst snd]; f_equal; ring).
    eapply Rle_trans; [apply nrm_plus|]. rewrite turn_norm. pose proof (off y) as O. cbn [pow].
    assert (k * nrm y <= k * ((1 + k) ^ n * nrm x)) by (apply Rmult_le_compat_l; lra).
    replace (((1 + k) * (1 + k) ^ n - 1) * nrm x) with (k * ((1 + k) ^ n * nrm x) + ((1 + k) ^ n - 1) * nrm x) by ring. lra.
Qed.
Lemma close_stir n x : stir (minus2 (Nat.iter n M x) (turn (INR n * th) x)) <= (exp (INR n * k) - 1) * (exp (INR n * k) - 1) * stir x.
Proof.
  rewrite <- !nrm_sqr. pose proof (stays_close n x) as H. pose proof (pow_exp k n Hk) as P. pose proof (nrm0 x) as X0. set (e := exp (INR n * k)) in *. set (p := minus2 _ _) in *.
  assert (H' : nrm p <= (e - 1) * nrm x) by (eapply Rle_trans; [exact H|]; apply Rmult_le_compat_r; lra).
  replace ((e - 1) * (e - 1) * (nrm x * nrm x)) with (((e - 1) * nrm x) * ((e - 1) * nrm x)) by ring. pose proof (nrm0 p). apply Rmult_le_compat; lra.
Qed.
Lemma grow_stir n x : stir (Nat.iter n M x) <= exp (INR n * k) * exp (INR n * k) * stir x.
Proof.
  rewrite <- !nrm_sqr. pose proof (grows_by n x) as H. pose proof (pow_exp k n Hk) as P. pose proof (nrm0 x) as X0. set (e := exp (INR n * k)) in *. set (p := Nat.iter n M x) in *.
  assert (H' : nrm p <= e * nrm x) by (eapply Rle_trans; [exact H|]; apply Rmult_le_compat_r; lra).
  replace (e * e * (nrm x * nrm x)) with ((e * nrm x) * (e * nrm x)) by ring. pose proof (nrm0 p). apply Rmult_le_compat; lra.
Qed.
End Close.

(** ** sine and cosine up to 1 *)
Lemma sin_cos_bounds t : 0 <= t <= 1 -> t - t ^ 3 / 6 <= sin t <= t - t ^ 3 / 6 + t ^ 5 / 120 /\ 1 - t ^ 2 / 2 <= cos t <= 1 - t ^ 2 / 2 + t ^ 4 / 24.
Proof.
  intros H. assert (P : t <= PI) by (pose proof PI2_1; lra). assert (P2 : - PI / 2 <= t <= PI / 2) by (pose proof PI2_1; lra).
  destruct (sin_bound t 0 ltac:(lra) P) as [S1 S2]. destruct (cos_bound t 0 ltac:(lra) ltac:(lra)) as [C1 C2].
  unfold sin_approx, sin_term, cos_approx, cos_term in *. cbn [sum_f_R0 Nat.mul Nat.add fact INR pow] in *. repeat rewrite ?Rmult_1_r, ?Rmult_1_l in *.
  cbn [pow]. split; split; lra.
Qed.

(** ** the schemes in the coordinates in which the exact motion is a turn *)
Definition up (om : R) (x : R * R) : R * R := (om * fst x, snd x).
Lemma iter_up om f g n x : (forall x, up om (f x) = g (up om x)) -> up om (Nat.iter n f x) = Nat.iter n g (up om x).
Proof. intros H. induction n as [|n IH]; [reflexivity|]. change (up om (f (Nat.iter n f x)) = g (Nat.iter n g (up om x))). now rewrite H, IH. Qed.
Lemma up_energy om x : energy2 om x = stir (up om x). Proof. reflexivity. Qed.
Lemma up_gap om x y : gap2 om x y = stir (minus2 (up om x) (up om y)).
Proof. unfold gap2, energy2, stir, minus2, up. cbn [fst snd]. ring. Qed.
Lemma up_osc om t x : om <> 0 -> up om (oscillates om t x) = turn (om * t) (up om x).
Proof. intros H. unfold up, oscillates, turn, lin. cbn [fst snd]. f_equal; [field; exact H|ring]. Qed.
Lemma sqr_small x q m : - (q * m) <= x <= q * m -> x * x <= q * q * (m * m).
Proof. intros [A B]. assert (0 <= (q * m - x) * (q * m + x)) by (apply Rmult_le_pos; lra). lra. Qed.
Lemma powers t : 0 <= t <= 1 -> (0 <= t ^ 7 <= t ^ 6) /\ t ^ 6 <= t ^ 5 /\ t ^ 5 <= t ^ 4 /\ t ^ 4 <= t ^ 3 /\ t ^ 3 <= t ^ 2 /\ t ^ 2 <= t.
Proof.
  intros H. assert (P : forall n, 0 <= t ^ n) by (intros n; apply pow_le; lra). assert (Q : forall n, t ^ S n <= t ^ n) by (intros n; cbn [pow]; rewrite <- (Rmult_1_l (t ^ n)) at 2; apply Rmult_le_compat_r; [apply P|lra]).
  repeat split; try apply Q; try apply P. rewrite <- (pow_1 t) at 2. apply Q.
Qed.
Lemma powers_pos t : 0 <= t <= 1 -> 0 <= t ^ 2 /\ 0 <= t ^ 3 /\ 0 <= t ^ 4 /\ 0 <= t ^ 5 /\ 0 <= t ^ 6.
Proof. intros H. repeat split; apply pow_le; lra. Qed.
Lemma swing_up z om h x : up om (swing z (om * om) 0 h x) = lin (match z with Symplectic => 1 - (om * h) * (om * h) | Explicit => 1 end) (om * h) (- (om * h)) 1 (up om x).
Proof. destruct x as [s u]. unfold swing, up, lin. cbn [fst snd]. destruct z; f_equal; ring. Qed.
Lemma swing_near z t : 0 <= t <= 1 -> let a := match z with Symplectic => 1 - t * t | Explicit => 1 end in
  (a - cos t) * (a - cos t) + (t - sin t) * (t - sin t) + (- t + sin t) * (- t + sin t) + (1 - cos t) * (1 - cos t) <= t * t * (t * t).
Proof.
  intros H a. destruct (sin_cos_bounds t H) as [S C]. pose proof (powers t H) as P. pose proof (powers_pos t H) as P0. set (m := t * t). assert (Em : m = t ^ 2) by (unfold m; ring).
  assert (A : (a - cos t) * (a - cos t) <= (13 / 24) * (13 / 24) * (m * m)) by (apply sqr_small; unfold a; fold m; destruct z; lra).
  assert (B : (t - sin t) * (t - sin t) <= (1 / 6) * (1 / 6) * (m * m)) by (apply sqr_small; lra).
  assert (D : (1 - cos t) * (1 - cos t) <= (1 / 2) * (1 / 2) * (m * m)) by (apply sqr_small; lra).
  replace ((- t + sin t) * (- t + sin t)) with ((t - sin t) * (t - sin t)) by ring. pose proof (Rle_0_sqr m) as M. unfold Rsqr in M. lra.
Qed.
Definition fA (t : R) : R := 1 - t ^ 2 / 2 + t ^ 4 / 12 - t ^ 6 / 96.
Definition fB (t : R) : R := t - t ^ 3 / 6 + t ^ 5 / 48.
Definition fC (t : R) : R := - t + t ^ 3 / 3 - t ^ 5 / 16 + t ^ 7 / 96.
Definition fD (t : R) : R := 1 - t ^ 2 / 2 + t ^ 4 / 8 - t ^ 6 / 48.
Lemma sway_up om h x : up om (sway (om * om) 0 h x) = lin (fA (om * h)) (fB (om * h)) (fC (om * h)) (fD (om * h)) (up om x).
Proof. rewrite sway_lin. unfold up, lin, fA, fB, fC, fD, sA, sB, sC, sD. cbn [fst snd]. f_equal; field. Qed.
Lemma sway_near t : 0 <= t <= 1 ->
  (fA t - cos t) * (fA t - cos t) + (fB t - sin t) * (fB t - sin t) + (fC t + sin t) * (fC t + sin t) + (fD t - cos t) * (fD t - cos t) <= t ^ 3 / 4 * (t ^ 3 / 4).
Proof.
  intros H. destruct (sin_cos_bounds t H) as [S C]. pose proof (powers t H) as P. pose proof (powers_pos t H) as P0. unfold fA, fB, fC, fD. set (m := t ^ 3) in *.
  assert (A : (1 - t ^ 2 / 2 + t ^ 4 / 12 - t ^ 6 / 96 - cos t) * (1 - t ^ 2 / 2 + t ^ 4 / 12 - t ^ 6 / 96 - cos t) <= (1 / 12) * (1 / 12) * (m * m)) by (apply sqr_small; lra).
  assert (B : (t - m / 6 + t ^ 5 / 48 - sin t) * (t - m / 6 + t ^ 5 / 48 - sin t) <= (1 / 48) * (1 / 48) * (m * m)) by (apply sqr_small; lra).
  assert (D : (- t + m / 3 - t ^ 5 / 16 + t ^ 7 / 96 + sin t) * (- t + m / 3 - t ^ 5 / 16 + t ^ 7 / 96 + sin t) <= (1 / 6) * (1 / 6) * (m * m)) by (apply sqr_small; lra).
  assert (E : (1 - t ^ 2 / 2 + t ^ 4 / 8 - t ^ 6 / 48 - cos t) * (1 - t ^ 2 / 2 + t ^ 4 / 8 - t ^ 6 / 48 - cos t) <= (1 / 8) * (1 / 8) * (m * m)) by (apply sqr_small; lra).
  pose proof (Rle_0_sqr m) as M. unfold Rsqr in M. lra.
Qed.
(** the velocity is off by at least t^3 / 10 *)
Lemma sway_off t : 0 <= t <= 1 -> t ^ 3 / 10 <= fC t + sin t.
Proof. intros H. destruct (sin_cos_bounds t H) as [S C]. pose proof (powers t H) as P. pose proof (powers_pos t H) as P0. unfold fC. lra. Qed.

Lemma osc_swing z om h n x : om <> 0 -> 0 <= om * h <= 1 -> let k := om * h * (om * h) in let X := Nat.iter n (swing z (om * om) 0 h) x in
  gap2 om X (oscillates om (INR n * h) x) <= (exp (INR n * k) - 1) * (exp (INR n * k) - 1) * energy2 om x /\ energy2 om X <= exp (INR n * k) * exp (INR n * k) * energy2 om x.
Proof.
  intros Ho Ht k X. rewrite up_gap, !up_energy, up_osc by exact Ho. unfold X. rewrite (iter_up om _ _ n x (swing_up z om h)). replace (om * (INR n * h)) with (INR n * (om * h)) by ring.
  assert (K0 : 0 <= k) by (apply Rle_0_sqr). pose proof (swing_near z (om * h) Ht) as N. split; [apply close_stir|eapply grow_stir]; eauto.
Qed.
Lemma osc_sway om h n x : om <> 0 -> 0 <= om * h <= 1 -> let k := (om * h) ^ 3 / 4 in let X := Nat.iter n (sway (om * om) 0 h) x in
  gap2 om X (oscillates om (INR n * h) x) <= (exp (INR n * k) - 1) * (exp (INR n * k) - 1) * energy2 om x /\ energy2 om X <= exp (INR n * k) * exp (INR n * k) * energy2 om x.
Proof.
  intros Ho Ht k X. rewrite up_gap, !up_energy, up_osc by exact Ho. unfold X. rewrite (iter_up om _ _ n x (sway_up om h)). replace (om * (INR n * h)) with (INR n * (om * h)) by ring.
  assert (K0 : 0 <= k) by (unfold k; pose proof (powers_pos _ Ht); lra). pose proof (sway_near (om * h) Ht) as N. split; [apply close_stir|eapply grow_stir]; eauto.
Qed.
Lemma osc_second om h s : 0 <= om * h <= 1 -> om <> 0 -> (om * h) ^ 3 / 10 * Rabs (om * s) <= Rabs (snd (sway (om * om) 0 h (s, 0)) - snd (oscillates om h (s, 0))).
Proof.
  intros Ht Ho. replace (snd (sway (om * om) 0 h (s, 0))) with (snd (up om (sway (om * om) 0 h (s, 0)))) by reflexivity. replace (snd (oscillates om h (s, 0))) with (snd (up om (oscillates om h (s, 0)))) by reflexivity.
  rewrite sway_up, up_osc by exact Ho. unfold turn, lin, up. cbn [fst snd].
  replace (fC (om * h) * (om * s) + fD (om * h) * 0 - (- sin (om * h) * (om * s) + cos (om * h) * 0)) with ((fC (om * h) + sin (om * h)) * (om * s)) by ring.
  rewrite (Rabs_mult (fC (om * h) + sin (om * h))). pose proof (sway_off _ Ht) as O. apply Rmult_le_compat_r; [apply Rabs_pos|]. eapply Rle_trans; [exact O|apply Rle_abs].
Qed.
(** ** the ends do not come too close *)
Lemma roomy_part om L k n x i : 0 <= k -> (i <= n)%nat -> roomy om L k n x -> roomy om L k i x.
Proof.
  intros Hk Hi [A B]. split; [exact A|]. eapply Rle_trans; [|exact B]. apply Rmult_le_compat_r; [rewrite up_energy; apply stir0|]. apply Rmult_le_compat_l; [lra|].
  assert (E : exp (INR i * k) <= exp (INR n * k)). { destruct (Rle_lt_or_eq_dec _ _ (Rmult_le_compat_r k _ _ Hk (le_INR _ _ Hi))) as [X|X]; [left; now apply exp_increasing|rewrite X; lra]. }
  pose proof (exp_pos (INR i * k)). apply Rmult_le_compat; lra.
Qed.
Lemma long_from om L k n x X al be : 0 < om -> energy2 om X <= exp (INR n * k) * exp (INR n * k) * energy2 om x -> roomy om L k n x ->
  -1 <= al <= 1 -> -1 <= be <= 1 -> forall s, om * s = al * (om * fst X) + be * snd X -> 1 / 100 <= L + s.
Proof.
  intros Ho HE [HL HR] Ha Hb s Es.
  assert (Q : om * s * (om * s) <= om * (L - 1 / 100) * (om * (L - 1 / 100))).
  { rewrite Es. eapply Rle_trans; [apply sqr_dot|]. assert (al * al <= 1) by (assert (0 <= (1 - al) * (1 + al)) by (apply Rmult_le_pos; lra); lra). assert (be * be <= 1) by (assert (0 <= (1 - be) * (1 + be)) by (apply Rmult_le_pos; lra); lra).
    fold (energy2 om X). apply Rle_trans with (2 * energy2 om X); [apply Rmult_le_compat_r; [rewrite up_energy; apply stir0|lra]|]. rewrite Rmult_assoc in HR. lra. }
  assert (- (om * s) <= om * (L - 1 / 100)). { apply sqr_le; [apply Rmult_le_pos; lra|]. lra. }
  assert (- s <= L - 1 / 100); [|lra]. apply (Rmult_le_reg_l om); [exact Ho|lra].
Qed.
Lemma legs_from om L k n x X h : 0 < om -> 0 <= om * h <= 1 -> energy2 om X <= exp (INR n * k) * exp (INR n * k) * energy2 om x -> roomy om L k n x -> legs_long L (om * om) 0 h X.
Proof.
  intros Ho Ht HE HR. pose proof (powers _ Ht) as P. pose proof (powers_pos _ Ht) as P0. set (t := om * h) in *.
  split; [|split; [|split]].
  - apply (long_from om L k n x X 1 0 Ho HE HR); [lra|lra|ring].
  - apply (long_from om L k n x X (1 - t ^ 2 / 4) (t / 2) Ho HE HR); [lra|lra|]. unfold t, leg2, onward, ebb. cbn [fst snd]. field.
  - apply (long_from om L k n x X (1 - t ^ 2 / 4 + t ^ 4 / 16) (t / 2 - t ^ 3 / 8) Ho HE HR); [lra|lra|]. unfold t, leg3, leg2, onward, ebb. cbn [fst snd]. field.
  - apply (long_from om L k n x X (1 - t ^ 2 + t ^ 4 / 4 - t ^ 6 / 16) (t - t ^ 3 / 2 + t ^ 5 / 8) Ho HE HR); [lra|lra|]. unfold t, leg4, leg3, leg2, onward, ebb. cbn [fst snd]. field.
Qed.
(** ** small sub-steps *)
Lemma exp_small e : 0 <= e <= 1 / 2 -> 0 <= exp e - 1 <= 2 * e.
Proof.
  intros H. pose proof (exp_ineq1_le e). pose proof (exp_ineq1_le (- e)) as B. rewrite exp_Ropp in B. pose proof (exp_pos e) as P. split; [lra|].
  assert (exp e * (1 - e) <= 1). { replace 1 with (exp e * / exp e) at 2 by (field; lra). apply Rmult_le_compat_l; lra. }
  apply (Rmult_le_reg_r (1 - e)); [lra|]. assert (0 <= e * (1 - 2 * e)) by (apply Rmult_le_pos; lra). lra.
Qed.
(** ** the exact motion solves its equation *)
Lemma osc_exact om x : om <> 0 -> oscillates om 0 x = x /\
  forall t, derivable_pt_lim (fun t => fst (oscillates om t x)) t (snd (oscillates om t x)) /\ derivable_pt_lim (fun t => snd (oscillates om t x)) t (- (om * om * fst (oscillates om t x))).
Proof.
  intros Ho. destruct x as [s u]. unfold oscillates. cbn [fst snd]. split; [rewrite Rmult_0_r, cos_0, sin_0; f_equal; field; exact Ho|]. intros t.
  assert (DM : derivable_pt_lim (fun t => om * t) t om) by (pose proof (derivable_pt_lim_scal id om t 1 (derivable_pt_lim_id t)) as H; rewrite Rmult_1_r in H; exact H).
  assert (DC : derivable_pt_lim (fun t => cos (om * t)) t (- sin (om * t) * om)) by exact (derivable_pt_lim_comp (fun t => om * t) cos t om _ DM (derivable_pt_lim_cos (om * t))).
  assert (DS : derivable_pt_lim (fun t => sin (om * t)) t (cos (om * t) * om)) by exact (derivable_pt_lim_comp (fun t => om * t) sin t om _ DM (derivable_pt_lim_sin (om * t))).
  split.
  - pose proof (derivable_pt_lim_plus _ _ t _ _ (derivable_pt_lim_scal _ s t _ DC) (derivable_pt_lim_scal _ (u / om) t _ DS)) as H.
    replace (- (om * s * sin (om * t)) + u * cos (om * t)) with (s * (- sin (om * t) * om) + u / om * (cos (om * t) * om)) by (field; exact Ho). exact H.
  - pose proof (derivable_pt_lim_plus _ _ t _ _ (derivable_pt_lim_scal _ (- (om * s)) t _ DS) (derivable_pt_lim_scal _ u t _ DC)) as H.
    replace (- (om * om * (s * cos (om * t) + u / om * sin (om * t)))) with (- (om * s) * (cos (om * t) * om) + u * (- sin (om * t) * om)) by (field; exact Ho).
    assert (E : forall f f' l, (forall t, f t = f' t) -> derivable_pt_lim f t l -> derivable_pt_lim f' t l).
    { intros f f' l E1 E2 e He. destruct (E2 e He) as [dl Q]. exists dl. intros h H1 H2. rewrite <- !E1. now apply Q. }
    eapply E; [|exact H]. intros t'. unfold plus_fct, mult_real_fct. ring.
Qed.
