(** * Springs of the library with dampers against the exact motion. *)

From Coq Require Import Reals Lra.
From Verif Require Import Base Targets State Ode Forces Constraints System SpecState SpecSys RegWit SpecDyn SpecRk SpecFlight SpecSwing SwingStep SpecDamp DampReal SpecMotor MotorReal SpecRun SpecSpring SpringReal SpringStep SpringRun
  SolveWit MomWit LeastWit TurnWit SpringWit SpecOsc OscReal OscRun SpecFade FadeReal FadeRun SpecLag.
Local Open Scope R_scope.

Lemma exp_up a b : a <= b -> exp a <= exp b.
Proof. intros [H| ->]; [left; now apply exp_increasing|lra]. Qed.
Lemma ample_part mu nu L k n i x : 0 <= k -> (i <= n)%nat -> ample mu nu L k n x -> ample mu nu L k i x.
Proof.
  intros Hk Hi [A B]. split; [exact A|]. eapply Rle_trans; [|exact B]. apply Rmult_le_compat_r; [rewrite skew_ampl; apply stir0|].
  assert (E : exp (INR i * k) <= exp (INR n * k)) by (apply exp_up, Rmult_le_compat_r; [exact Hk|now apply le_INR]). pose proof (exp_pos (INR i * k)). apply Rmult_le_compat; lra.
Qed.
(** the amplitude of the steps *)
Lemma fade_grows z mu nu om h n x : 0 <= mu -> 0 < nu -> 0 <= om -> mu * mu + nu * nu = om * om -> 0 <= h -> om * h <= 1 -> let k := 7 * (om * h * (om * h)) * (om / nu) in
  ampl2 mu nu (Nat.iter n (swing z (om * om) (2 * mu) h) x) <= exp (INR n * k) * exp (INR n * k) * ampl2 mu nu x.
Proof.
  intros Hm Hn Ho Eo Hh Hs k. pose proof (fade_swing z mu nu om h n x Hm Hn Ho Eo Hh Hs) as H. cbv zeta in H. fold k in H. rewrite skew_apart, skew_fades in H by lra. rewrite !skew_ampl in *.
  set (X := skew mu nu (Nat.iter _ _ _)) in *. set (y := skew mu nu x) in *. set (c := exp (- (mu * (INR n * h)))) in *. set (t := turn _ y) in *. set (E := exp (INR n * k)) in *.
  assert (k0 : 0 <= k). { unfold k. apply Rmult_le_pos; [|apply Rmult_le_pos; [exact Ho|left; now apply Rinv_0_lt_compat]]. apply Rmult_le_pos; [lra|]. apply Rle_0_sqr. }
  assert (E1 : 1 <= E) by (unfold E; rewrite <- exp_0; apply exp_up, Rmult_le_pos; [apply pos_INR|exact k0]).
  assert (c1 : 0 <= c <= 1). { unfold c. split; [left; apply exp_pos|]. rewrite <- exp_0. apply exp_up. assert (0 <= mu * (INR n * h)) by (apply Rmult_le_pos; [exact Hm|apply Rmult_le_pos; [apply pos_INR|exact Hh]]). lra. }
  assert (D0 : 0 <= c * (E - 1)) by (apply Rmult_le_pos; lra).
  assert (N1 : nrm (minus2 X (times c t)) <= c * (E - 1) * nrm y) by (apply nrm_le; assumption).
  assert (N2 : nrm (times c t) <= c * nrm y). { rewrite <- (turn_norm (nu * (INR n * h)) y). fold t. apply nrm_le; [lra|]. unfold stir, times. cbn [fst snd]. right. ring. }
  assert (N : nrm X <= E * nrm y).
  { replace X with (plus2 (minus2 X (times c t)) (times c t)) by (unfold plus2, minus2; cbn [fst snd]; rewrite (surjective_pairing X); cbn [fst snd]; f_equal; ring).
    eapply Rle_trans; [apply nrm_plus|]. apply Rle_trans with (c * (E * nrm y)); [replace (c * (E * nrm y)) with (c * (E - 1) * nrm y + c * nrm y) by ring; lra|].
    assert (0 <= E * nrm y) by (apply Rmult_le_pos; [lra|apply nrm0]). rewrite <- (Rmult_1_l (E * nrm y)) at 2. apply Rmult_le_compat_r; lra. }
  rewrite <- !nrm_sqr. replace (E * E * (nrm y * nrm y)) with (E * nrm y * (E * nrm y)) by ring. pose proof (nrm0 X). apply Rmult_le_compat; lra.
Qed.
Lemma ample_long mu nu L k n x X : 0 < nu -> ampl2 mu nu X <= exp (INR n * k) * exp (INR n * k) * ampl2 mu nu x -> ample mu nu L k n x -> 1 / 100 <= L + fst X.
Proof.
  intros Hn HE [HL HR]. assert (Q : nu * fst X * (nu * fst X) <= nu * (L - 1 / 100) * (nu * (L - 1 / 100))).
  { eapply Rle_trans; [|exact HR]. eapply Rle_trans; [|exact HE]. unfold ampl2. pose proof (Rle_0_sqr (snd X + mu * fst X)) as S. unfold Rsqr in S. lra. }
  assert (- (nu * fst X) <= nu * (L - 1 / 100)). { apply sqr_le; [apply Rmult_le_pos; lra|]. lra. }
  assert (- fst X <= L - 1 / 100); [|lra]. apply (Rmult_le_reg_l nu); [exact Hn|lra].
Qed.
(** enough sub-steps *)
Lemma lag_enough mu nu om t E eps : 0 < nu -> 0 <= om -> mu * mu + nu * nu = om * om -> 0 <= t -> 0 <= E -> 0 < eps ->
  exists N, (0 < N)%nat /\ forall n, (N <= n)%nat -> let h := t / INR n in let e := INR n * (7 * (om * h * (om * h)) * (om / nu)) in
    0 <= h /\ INR n * h = t /\ om * h <= 1 /\ 1 <= exp e /\ exp e * exp e <= 3 / 2 /\ (exp e - 1) * (exp e - 1) * E < eps.
Proof.
  intros Hn Ho Eo Ht E0 He. set (W := om / nu).
  assert (HW : 1 <= W). { unfold W. apply (Rmult_le_reg_r nu); [exact Hn|]. replace (om / nu * nu) with om by (field; lra). rewrite Rmult_1_l. apply sqr_le; [exact Ho|]. pose proof (Rle_0_sqr mu) as Q. unfold Rsqr in Q. lra. }
  assert (T0 : 0 <= om * t) by now apply Rmult_le_pos. set (A := om * t * (7 * W)). assert (TA : om * t <= A) by (unfold A; rewrite <- (Rmult_1_r (om * t)) at 1; apply Rmult_le_compat_l; lra).
  destruct (many_subs A E eps ltac:(lra) E0 He) as (N & PN & HN). exists N. split; [exact PN|]. intros n Hn' h e. destruct (HN n Hn') as (Pn & B1 & _ & B3).
  assert (I0 : 0 < / INR n) by now apply Rinv_0_lt_compat. assert (h0 : 0 <= h) by (apply Rmult_le_pos; lra). split; [exact h0|]. split; [unfold h; field; lra|].
  assert (h1 : om * h <= 1) by (apply Rle_trans with (A / INR n); [|exact B1]; unfold h, Rdiv; rewrite <- Rmult_assoc; apply Rmult_le_compat_r; lra). split; [exact h1|].
  assert (Ek : e = om * t * (om * t) * (7 * W) / INR n) by (unfold e, h; field; lra). assert (TT : 0 <= om * t * (om * t)) by now apply Rmult_le_pos.
  assert (k0 : 0 <= e) by (rewrite Ek; apply Rmult_le_pos; [apply Rmult_le_pos; lra|lra]).
  assert (k1 : e <= A * A / INR n).
  { rewrite Ek. unfold Rdiv. apply Rmult_le_compat_r; [lra|]. unfold A. replace (om * t * (7 * W) * (om * t * (7 * W))) with (om * t * (om * t) * (7 * W) * (7 * W)) by ring. rewrite <- (Rmult_1_r (om * t * (om * t) * (7 * W))) at 1. apply Rmult_le_compat_l; [apply Rmult_le_pos; lra|lra]. }
  split; [rewrite <- exp_0 at 1; now apply exp_up|]. exact (B3 e (conj k0 k1)).
Qed.

Section S.
Context {dbg : bool}.
Notation T := (RT dbg).
Implicit Types (w : world T) (y : sys T).
Variable priv : nat -> bool.
Lemma lag_tied k z (L ks kd h mu nu om : R) gr g b1 b2 M1 M2 l w y w' y' x1 v1 x2 v2 ex ey l0 u0 : tied priv k z w y g b1 b2 L ks kd gr x1 v1 M1 x2 v2 M2 -> plays k l w y = Ok (w', y') -> evenly h l ->
  ex * ex + ey * ey = 1 -> seen_from x1 x2 v1 v2 = in_line ex ey l0 u0 -> ks * (/ M1 0%nat + / M2 0%nat) = om * om -> kd * (/ M1 0%nat + / M2 0%nat) = 2 * mu -> mu * mu + nu * nu = om * om ->
  0 <= mu -> 0 < nu -> 0 <= om -> 0 <= h -> om * h <= 1 ->
  let q := 7 * (om * h * (om * h)) * (om / nu) in let x := (l0 - L, u0) in ample mu nu L q (subs l) x ->
  exists x1' v1' x2' v2' l' u', tied priv k z w' y' g b1 b2 L ks kd gr x1' v1' M1 x2' v2' M2 /\ seen_from x1' x2' v1' v2' = in_line ex ey l' u' /\
    let d := exp (- (mu * lasts l)) * (exp (INR (subs l) * q) - 1) in apart2 mu nu (l' - L, u') (fades mu nu (lasts l) x) <= d * d * ampl2 mu nu x.
Proof.
  intros HT EP HB Ue ES Ek Ed Eo Hm Hn Ho Hh Hs q x HR. set (X := fun i => Nat.iter i (swing z (om * om) (2 * mu) h) x).
  assert (q0 : 0 <= q). { unfold q. apply Rmult_le_pos; [|apply Rmult_le_pos; [exact Ho|left; now apply Rinv_0_lt_compat]]. apply Rmult_le_pos; [lra|]. apply Rle_0_sqr. }
  destruct (line_calls priv k z L ks kd h gr g b1 b2 M1 M2 l w y w' y' x1 v1 x2 v2 ex ey l0 u0 HT EP HB Ue ES) as (x1' & v1' & x2' & v2' & HT' & EX).
  { intros i Hi. rewrite Ek, Ed. fold x. fold (X i). apply (ample_long mu nu L q i x (X i) Hn); [apply (fade_grows z mu nu om h i x); auto|apply (ample_part mu nu L q (subs l)); auto; lia]. }
  rewrite Ek, Ed in EX. fold x in EX. fold (X (subs l)) in EX.
  exists x1', v1', x2', v2', (L + fst (X (subs l))), (snd (X (subs l))). split; [exact HT'|]. split; [exact EX|]. cbv zeta. replace (L + fst (X (subs l)) - L) with (fst (X (subs l))) by ring.
  rewrite <- surjective_pairing, (lasts_even h l HB). now apply (fade_swing z mu nu om h (subs l) x).
Qed.
Lemma lag_converges k z (L ks kd mu nu om t eps : R) gr g b1 b2 M1 M2 l0 u0 : ks * (/ M1 0%nat + / M2 0%nat) = om * om -> kd * (/ M1 0%nat + / M2 0%nat) = 2 * mu -> mu * mu + nu * nu = om * om ->
  0 <= mu -> 0 < nu -> 0 <= om -> 0 <= t -> 1 / 100 <= L -> 0 < eps -> let x := (l0 - L, u0) in 3 / 2 * ampl2 mu nu x <= nu * (L - 1 / 100) * (nu * (L - 1 / 100)) ->
  exists N, forall n tm w y w' y' x1 v1 x2 v2 ex ey, (N <= n)%nat -> tied priv k z w y g b1 b2 L ks kd gr x1 v1 M1 x2 v2 M2 -> plays k [(t, n, tm)] w y = Ok (w', y') ->
    ex * ex + ey * ey = 1 -> seen_from x1 x2 v1 v2 = in_line ex ey l0 u0 ->
    exists x1' v1' x2' v2' l' u', tied priv k z w' y' g b1 b2 L ks kd gr x1' v1' M1 x2' v2' M2 /\ seen_from x1' x2' v1' v2' = in_line ex ey l' u' /\ apart2 mu nu (l' - L, u') (fades mu nu t x) < eps.
Proof.
  intros Ek Ed Eo Hm Hn Ho Ht HL He x HE. assert (E0 : 0 <= ampl2 mu nu x) by (rewrite skew_ampl; apply stir0).
  destruct (lag_enough mu nu om t (ampl2 mu nu x) eps Hn Ho Eo Ht E0 He) as (N & PN & HN). exists N. intros n tm w y w' y' x1 v1 x2 v2 ex ey Hl HT EP Ue ES.
  destruct (HN n Hl) as (h0 & Eh & h1 & X1 & X2 & X3). set (h := t / INR n) in *. assert (Esub : subs [(t, n, tm)] = n) by (cbn [subs]; apply Nat.add_0_r). assert (Elas : lasts [(t, n, tm)] = t) by (cbn [lasts]; ring).
  destruct (lag_tied k z L ks kd h mu nu om gr g b1 b2 M1 M2 [(t, n, tm)] w y w' y' x1 v1 x2 v2 ex ey l0 u0 HT EP (one_even t n tm ltac:(lia)) Ue ES Ek Ed Eo Hm Hn Ho h0 h1) as (x1' & v1' & x2' & v2' & l' & u' & HT' & EX & HG).
  - split; [exact HL|]. rewrite Esub. eapply Rle_trans; [|exact HE]. apply Rmult_le_compat_r; [exact E0|exact X2].
  - rewrite Esub, Elas in HG. cbv zeta in HG. exists x1', v1', x2', v2', l', u'. split; [exact HT'|]. split; [exact EX|]. eapply Rle_lt_trans; [exact HG|]. eapply Rle_lt_trans; [|exact X3]. apply Rmult_le_compat_r; [exact E0|].
    set (e := exp (INR n * _)) in *. set (c := exp (- (mu * t))). assert (c1 : 0 <= c <= 1). { unfold c. split; [left; apply exp_pos|]. rewrite <- exp_0. apply exp_up. assert (0 <= mu * t) by now apply Rmult_le_pos. lra. }
    assert (c * (e - 1) <= 1 * (e - 1)) by (apply Rmult_le_compat_r; lra). assert (0 <= c * (e - 1)) by (apply Rmult_le_pos; lra). apply Rmult_le_compat; lra.
Qed.
End S.

(** ** a spring that meets what the theorem asks for *)
Lemma lag_scene dbg k z : let z' := match k with Optimized => Symplectic | Generic => z end in
  exists (w : world (RT dbg)) y x1 v1 x2 v2, tied nopriv k z' w y 0 6 7 1 1 (6 / 5) (fun _ => 10) x1 v1 (MD 6) x2 v2 (MD 7) /\ (3 / 5) * (3 / 5) + (4 / 5) * (4 / 5) = 1 /\
    seen_from x1 x2 v1 v2 = in_line (3 / 5) (4 / 5) (11 / 10) 0 /\ 1 * (/ MD 6 0%nat + / MD 7 0%nat) = 1 * 1 /\ 6 / 5 * (/ MD 6 0%nat + / MD 7 0%nat) = 2 * (3 / 5) /\
    ample (3 / 5) (4 / 5) 1 (7 * (1 * (1 / 100) * (1 * (1 / 100))) * (1 / (4 / 5))) 100 (11 / 10 - 1, 0) /\ 3 / 2 * ampl2 (3 / 5) (4 / 5) (11 / 10 - 1, 0) <= 4 / 5 * (1 - 1 / 100) * (4 / 5 * (1 - 1 / 100)) /\
    forall l, (forall dt n t, In (dt, n, t) l -> dt <> 0 /\ (0 < n)%nat) -> exists w' y', plays k l w y = Ok (w', y').
Proof.
  intros z'. destruct (spring_line_scene (dbg := dbg) k z 1 1 (6 / 5) (11 / 10) 0) as (w & y & x1 & v1 & x2 & v2 & HT & _ & Ue & ES & Er & HP).
  exists w, y, x1, v1, x2, v2. split; [exact HT|]. split; [exact Ue|]. split; [exact ES|]. split; [rewrite Er; ring|]. split; [rewrite Er; field|]. split; [|split; [unfold ampl2; cbn [fst snd]; lra|exact HP]].
  split; [lra|]. set (e := INR 100 * _). assert (Ee : e = 7 / 80) by (unfold e; rewrite INR_IZR_INZ; cbn -[IZR]; field). rewrite Ee. destruct (exp_small (7 / 80) ltac:(lra)) as [A B]. pose proof (exp_pos (7 / 80)).
  assert (exp (7 / 80) * exp (7 / 80) <= 12 / 10 * (12 / 10)) by (apply Rmult_le_compat; lra). unfold ampl2. cbn [fst snd]. lra.
Qed.
