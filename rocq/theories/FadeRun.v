(** * Constraints of the generic class against the exact motion. *)

From Coq Require Import Reals Lra Arith Lia.
From Verif Require Import Base Targets Sle State Forces Constraints System SpecMatrix SpecState SpecForces SpecCon SpecSys SpecDyn SpecSolve SpecLaw SpecSub SpecLeast SpecDrift SpecSwing SwingReal SwingStep SwingEnd
  SpecDamp DampReal SpecOsc OscReal OscRun SpecFade FadeReal.
Local Open Scope R_scope.

Lemma fade_calls dbg priv z kc kg (dt beta : R) M ts (w : world (RT dbg)) y q v :
  side priv Generic z kc kg beta M w y q v -> unsingular Generic (Some dt : cell (RT dbg)) ts w y M kc -> 0 <= dt ->
  exists w' y' q' v', calls_of Generic (Some dt : cell (RT dbg)) ts w y = Ok (w', y') /\ ends w' y q' v' /\
    forall c mu nu om, In c (y_cons y) -> holds (kc c) = true -> arm (kc c) 0%nat = 0 -> arm (kc c) 1%nat = 0 -> ks_of (kc c) 0%nat = om * om -> kd_of (kc c) 0%nat = 2 * mu ->
      mu * mu + nu * nu = om * om -> 0 <= mu -> 0 < nu -> 0 <= om -> om * dt <= 1 -> forall e, e = @fst R R \/ e = @snd R R ->
      let n := INR (length ts) in let x := (e (gap (kc c) (pose_at w q c)), e (drate (kc c) (pose_at w v c))) in let x' := (e (gap (kc c) (pose_at w q' c)), e (drate (kc c) (pose_at w v' c))) in
      let d := exp (- (mu * (n * dt))) * (exp (n * (7 * (om * dt * (om * dt)) * (om / nu))) - 1) in
      apart2 mu nu x' (fades mu nu (n * dt) x) <= d * d * ampl2 mu nu x.
Proof.
  intros S U Hd. destruct (gap_calls dbg priv z kc kg dt beta M ts w y q v S U) as (w' & y' & q' & v' & C & E & G). exists w', y', q', v'. split; [exact C|]. split; [exact E|].
  intros c mu nu om Hc Hh A0 A1 Ek Ed Eo Hm Hn Ho Hs e He n x x' d. destruct (G c Hc Hh A0 A1) as [G1 G2]. rewrite Ek, Ed in G1, G2.
  assert (EX : x' = Nat.iter (length ts) (swing z (om * om) (2 * mu) dt) x) by (unfold x', x; destruct He as [-> | ->]; assumption).
  rewrite EX. now apply (fade_swing z mu nu om dt (length ts) x).
Qed.
Lemma undamped_near dbg priv z kc kg (dt beta : R) M ts (w : world (RT dbg)) y q v :
  side priv Generic z kc kg beta M w y q v -> unsingular Generic (Some dt : cell (RT dbg)) ts w y M kc -> 0 <= dt ->
  exists w' y' q' v', calls_of Generic (Some dt : cell (RT dbg)) ts w y = Ok (w', y') /\ ends w' y q' v' /\
    forall c om, In c (y_cons y) -> holds (kc c) = true -> arm (kc c) 0%nat = 0 -> arm (kc c) 1%nat = 0 -> ks_of (kc c) 0%nat = om * om -> kd_of (kc c) 0%nat = 0 ->
      0 < om -> om * dt <= 1 -> forall e, e = @fst R R \/ e = @snd R R ->
      let n := INR (length ts) in let x := (e (gap (kc c) (pose_at w q c)), e (drate (kc c) (pose_at w v c))) in let x' := (e (gap (kc c) (pose_at w q' c)), e (drate (kc c) (pose_at w v' c))) in
      let d := exp (n * (om * dt * (om * dt))) - 1 in
      gap2 om x' (oscillates om (n * dt) x) <= d * d * energy2 om x.
Proof.
  intros S U Hd. destruct (gap_calls dbg priv z kc kg dt beta M ts w y q v S U) as (w' & y' & q' & v' & C & E & G). exists w', y', q', v'. split; [exact C|]. split; [exact E|].
  intros c om Hc Hh A0 A1 Ek Ed Ho Hs e He n x x' d. destruct (G c Hc Hh A0 A1) as [G1 G2]. rewrite Ek, Ed in G1, G2.
  assert (EX : x' = Nat.iter (length ts) (swing z (om * om) 0 dt) x) by (unfold x', x; destruct He as [-> | ->]; assumption).
  rewrite EX. apply (osc_swing z om dt (length ts) x); [lra|]. split; [apply Rmult_le_pos; lra|exact Hs].
Qed.
Lemma fade_brakes dbg priv z kc kg (dt beta : R) M ts (w : world (RT dbg)) y q v :
  side priv Generic z kc kg beta M w y q v -> unsingular Generic (Some dt : cell (RT dbg)) ts w y M kc ->
  exists w' y' q' v', calls_of Generic (Some dt : cell (RT dbg)) ts w y = Ok (w', y') /\ ends w' y q' v' /\
    forall c s, In c (y_cons y) -> turning (kc c) (pose_at w v c) = Some s -> let kd := kd_of (kc c) 0%nat in let n := INR (length ts) in 0 <= kd * dt <= 1 ->
      exists rho, turning (kc c) (pose_at w v' c) = Some (s * rho) /\ 0 <= exp (- (kd * (n * dt))) - rho <= n * ((kd * dt) * (kd * dt) / 2).
Proof.
  intros S U. destruct (damper_calls dbg priv z kc kg dt beta M ts w y q v S U) as (w' & y' & q' & v' & C & E & G). exists w', y', q', v'. split; [exact C|]. split; [exact E|].
  intros c s Hc Es kd n Hk. eexists. split; [apply (G c s Hc Es)|]. fold kd. replace (kd * (n * dt)) with (INR (length ts) * (kd * dt)) by (unfold n; ring). now apply brake_exp.
Qed.

(** ** more and more calls *)
Lemma fade_enough z mu nu om t eps x : 0 <= mu -> 0 < nu -> 0 <= om -> mu * mu + nu * nu = om * om -> 0 <= t -> 0 < eps ->
  exists N, (0 < N)%nat /\ forall n, (N <= n)%nat -> apart2 mu nu (Nat.iter n (swing z (om * om) (2 * mu) (t / INR n)) x) (fades mu nu t x) < eps.
Proof.
  intros Hm Hn Ho Eo Ht He. set (W := om / nu).
  assert (HW : 1 <= W). { unfold W. apply (Rmult_le_reg_r nu); [exact Hn|]. replace (om / nu * nu) with om by (field; lra). rewrite Rmult_1_l. apply sqr_le; [exact Ho|]. pose proof (Rle_0_sqr mu) as Q. unfold Rsqr in Q. lra. }
  assert (T0 : 0 <= om * t) by now apply Rmult_le_pos. set (A := om * t * (7 * W)). assert (TA : om * t <= A) by (unfold A; rewrite <- (Rmult_1_r (om * t)) at 1; apply Rmult_le_compat_l; lra).
  assert (E0 : 0 <= ampl2 mu nu x) by (rewrite skew_ampl; apply stir0).
  destruct (many_subs A (ampl2 mu nu x) eps ltac:(lra) E0 He) as (N & PN & HN). exists N. split; [exact PN|]. intros n Hn'. destruct (HN n Hn') as (Pn & B1 & _ & B3).
  assert (I0 : 0 < / INR n) by now apply Rinv_0_lt_compat. assert (h0 : 0 <= t / INR n) by (apply Rmult_le_pos; lra).
  assert (h1 : om * (t / INR n) <= 1) by (apply Rle_trans with (A / INR n); [|exact B1]; unfold Rdiv; rewrite <- Rmult_assoc; apply Rmult_le_compat_r; lra).
  pose proof (fade_swing z mu nu om (t / INR n) n x Hm Hn Ho Eo h0 h1) as H. cbv zeta in H. fold W in H. replace (INR n * (t / INR n)) with t in H by (field; lra).
  set (k := INR n * (7 * (om * (t / INR n) * (om * (t / INR n))) * W)) in H.
  assert (Ek : k = om * t * (om * t) * (7 * W) / INR n) by (unfold k; field; lra).
  assert (TT : 0 <= om * t * (om * t)) by now apply Rmult_le_pos.
  assert (k0 : 0 <= k) by (rewrite Ek; apply Rmult_le_pos; [apply Rmult_le_pos; lra|lra]).
  assert (k1 : k <= A * A / INR n).
  { rewrite Ek. unfold Rdiv. apply Rmult_le_compat_r; [lra|]. unfold A. replace (om * t * (7 * W) * (om * t * (7 * W))) with (om * t * (om * t) * (7 * W) * (7 * W)) by ring. rewrite <- (Rmult_1_r (om * t * (om * t) * (7 * W))) at 1. apply Rmult_le_compat_l; [apply Rmult_le_pos; lra|lra]. }
  destruct (B3 k (conj k0 k1)) as [_ B]. eapply Rle_lt_trans; [exact H|]. eapply Rle_lt_trans; [|exact B]. apply Rmult_le_compat_r; [exact E0|].
  assert (X1 : 0 <= exp k - 1) by (pose proof (exp_ineq1_le k); lra). set (c := exp (- (mu * t))). assert (C1 : 0 <= c <= 1).
  { unfold c. split; [left; apply exp_pos|]. assert (0 <= mu * t) by now apply Rmult_le_pos. rewrite <- exp_0. destruct (Req_dec (mu * t) 0) as [-> |X]; [rewrite Ropp_0; lra|]. left. apply exp_increasing. lra. }
  assert (c * (exp k - 1) <= 1 * (exp k - 1)) by (apply Rmult_le_compat_r; lra). assert (0 <= c * (exp k - 1)) by (apply Rmult_le_pos; lra). apply Rmult_le_compat; lra.
Qed.
Lemma fade_converges dbg priv z kc kg (beta t eps mu nu om g u : R) M c : holds (kc c) = true -> arm (kc c) 0%nat = 0 -> arm (kc c) 1%nat = 0 -> ks_of (kc c) 0%nat = om * om -> kd_of (kc c) 0%nat = 2 * mu ->
  mu * mu + nu * nu = om * om -> 0 <= mu -> 0 < nu -> 0 <= om -> 0 <= t -> 0 < eps ->
  exists N, forall ts (w : world (RT dbg)) y q v e, (N <= length ts)%nat -> side priv Generic z kc kg beta M w y q v -> let dt := t / INR (length ts) in unsingular Generic (Some dt : cell (RT dbg)) ts w y M kc -> In c (y_cons y) ->
    e = @fst R R \/ e = @snd R R -> e (gap (kc c) (pose_at w q c)) = g -> e (drate (kc c) (pose_at w v c)) = u ->
    exists w' y' q' v', calls_of Generic (Some dt : cell (RT dbg)) ts w y = Ok (w', y') /\ ends w' y q' v' /\
      apart2 mu nu (e (gap (kc c) (pose_at w q' c)), e (drate (kc c) (pose_at w v' c))) (fades mu nu t (g, u)) < eps.
Proof.
  intros Hh A0 A1 Ek Ed Eo Hm Hn Ho Ht He. destruct (fade_enough z mu nu om t eps (g, u) Hm Hn Ho Eo Ht He) as (N & PN & HN). exists N.
  intros ts w y q v e Hl S dt U Hc Hee <- <-. destruct (gap_calls dbg priv z kc kg dt beta M ts w y q v S U) as (w' & y' & q' & v' & C & E & G). exists w', y', q', v'. split; [exact C|]. split; [exact E|].
  destruct (G c Hc Hh A0 A1) as [G1 G2]. rewrite Ek, Ed in G1, G2. specialize (HN (length ts) Hl). fold dt in HN. destruct Hee as [-> | ->]; [rewrite G1|rewrite G2]; exact HN.
Qed.
