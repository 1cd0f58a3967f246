(** * Springs of the library against the exact motion. *)

From Coq Require Import Reals Lra.
From Verif Require Import Base Targets State Ode Forces Constraints System SpecState SpecSys SpecDyn SpecFlight SpecSwing SwingStep SpecDamp DampReal SpecMotor MotorReal SpecRun SpecSpring SpringReal SpringStep SpringRun SpecBow BowReal BowRun SpecOsc OscReal.
Local Open Scope R_scope.

Lemma lasts_even h : forall l, evenly h l -> lasts l = INR (subs l) * h.
Proof.
  induction l as [|[[dt n] t] l IH]; intros H; cbn [lasts subs]; [cbn [INR]; ring|]. destruct (H dt n t (or_introl eq_refl)) as [Hn E].
  rewrite plus_INR, IH by (intros dt' n' t' Hi; apply (H dt' n' t'); now right). rewrite <- E. field. apply not_0_INR. lia.
Qed.

Section S.
Context {dbg : bool}.
Notation T := (RT dbg).
Notation cl := (cell T).
Implicit Types (w : world T) (y : sys T).
Variable priv : nat -> bool.

Lemma osc_tied k z (L ks h om : R) gr g b1 b2 M1 M2 l w y w' y' x1 v1 x2 v2 ex ey l0 u0 : tied priv k z w y g b1 b2 L ks 0 gr x1 v1 M1 x2 v2 M2 -> plays k l w y = Ok (w', y') -> evenly h l ->
  ex * ex + ey * ey = 1 -> seen_from x1 x2 v1 v2 = in_line ex ey l0 u0 -> 0 < om -> ks * (/ M1 0%nat + / M2 0%nat) = om * om -> 0 <= om * h <= 1 ->
  let q := om * h * (om * h) in let x := (l0 - L, u0) in roomy om L q (subs l) x ->
  exists x1' v1' x2' v2' l' u', tied priv k z w' y' g b1 b2 L ks 0 gr x1' v1' M1 x2' v2' M2 /\ seen_from x1' x2' v1' v2' = in_line ex ey l' u' /\
    gap2 om (l' - L, u') (oscillates om (lasts l) x) <= (exp (INR (subs l) * q) - 1) * (exp (INR (subs l) * q) - 1) * energy2 om x.
Proof.
  intros HT EP HB Ue ES Ho Eo Ht q x HR. set (X := fun i => Nat.iter i (swing z (om * om) 0 h) x).
  assert (No : om <> 0) by lra. assert (Q0 : 0 <= q) by apply Rle_0_sqr.
  destruct (line_calls priv k z L ks 0 h gr g b1 b2 M1 M2 l w y w' y' x1 v1 x2 v2 ex ey l0 u0 HT EP HB Ue ES) as (x1' & v1' & x2' & v2' & HT' & EX).
  { intros i Hi. rewrite Eo. replace (0 * (/ M1 0%nat + / M2 0%nat)) with 0 by ring. fold x. fold (X i).
    apply (long_from om L q i x (X i) 1 0 Ho); [apply osc_swing; auto|apply (roomy_part om L q (subs l)); auto; lia|lra|lra|ring]. }
  rewrite Eo in EX. replace (0 * (/ M1 0%nat + / M2 0%nat)) with 0 in EX by ring. fold x in EX. fold (X (subs l)) in EX.
  exists x1', v1', x2', v2', (L + fst (X (subs l))), (snd (X (subs l))). split; [exact HT'|]. split; [exact EX|]. replace (L + fst (X (subs l)) - L) with (fst (X (subs l))) by ring.
  rewrite <- surjective_pairing, (lasts_even h l HB). apply osc_swing; auto.
Qed.
Lemma osc_strung (L ks h om : R) gr g b1 b2 M1 M2 l w y w' y' x1 v1 x2 v2 ex ey l0 u0 : strung priv w y g b1 b2 L ks 0 gr x1 v1 M1 x2 v2 M2 -> plays Generic l w y = Ok (w', y') -> evenly h l ->
  ex * ex + ey * ey = 1 -> seen_from x1 x2 v1 v2 = in_line ex ey l0 u0 -> 0 < om -> ks * (/ M1 0%nat + / M2 0%nat) = om * om -> 0 <= om * h <= 1 ->
  let q := (om * h) ^ 3 / 4 in let x := (l0 - L, u0) in roomy om L q (subs l) x ->
  exists x1' v1' x2' v2' l' u', strung priv w' y' g b1 b2 L ks 0 gr x1' v1' M1 x2' v2' M2 /\ seen_from x1' x2' v1' v2' = in_line ex ey l' u' /\
    gap2 om (l' - L, u') (oscillates om (lasts l) x) <= (exp (INR (subs l) * q) - 1) * (exp (INR (subs l) * q) - 1) * energy2 om x.
Proof.
  intros HT EP HB Ue ES Ho Eo Ht q x HR. set (X := fun i => Nat.iter i (sway (om * om) 0 h) x).
  assert (No : om <> 0) by lra. assert (Q0 : 0 <= q) by (unfold q; pose proof (powers_pos _ Ht); lra).
  destruct (bow_inline priv L ks 0 h gr g b1 b2 M1 M2 l w y w' y' x1 v1 x2 v2 ex ey l0 u0 HT EP HB Ue ES) as (x1' & v1' & x2' & v2' & HT' & EX).
  { intros i Hi. rewrite Eo. replace (0 * (/ M1 0%nat + / M2 0%nat)) with 0 by ring. fold x. fold (X i).
    apply (legs_from om L q i x (X i) h Ho Ht); [apply osc_sway; auto|apply (roomy_part om L q (subs l)); auto; lia]. }
  rewrite Eo in EX. replace (0 * (/ M1 0%nat + / M2 0%nat)) with 0 in EX by ring. fold x in EX. fold (X (subs l)) in EX.
  exists x1', v1', x2', v2', (L + fst (X (subs l))), (snd (X (subs l))). split; [exact HT'|]. split; [exact EX|]. replace (L + fst (X (subs l)) - L) with (fst (X (subs l))) by ring.
  rewrite <- surjective_pairing, (lasts_even h l HB). apply osc_sway; auto.
Qed.
(** one sub-step from a standstill in the fourth-order scheme *)
Lemma osc_not_fourth (L ks h om : R) gr g b1 b2 M1 M2 t w y w' y' x1 v1 x2 v2 ex ey l0 : strung priv w y g b1 b2 L ks 0 gr x1 v1 M1 x2 v2 M2 -> plays Generic [(h, 1%nat, t)] w y = Ok (w', y') ->
  ex * ex + ey * ey = 1 -> seen_from x1 x2 v1 v2 = in_line ex ey l0 0 -> 0 < om -> ks * (/ M1 0%nat + / M2 0%nat) = om * om -> 0 <= om * h <= 1 -> roomy om L ((om * h) ^ 3 / 4) 1 (l0 - L, 0) ->
  exists x1' v1' x2' v2' l' u', strung priv w' y' g b1 b2 L ks 0 gr x1' v1' M1 x2' v2' M2 /\ seen_from x1' x2' v1' v2' = in_line ex ey l' u' /\
    (om * h) ^ 3 / 10 * Rabs (om * (l0 - L)) <= Rabs (u' - snd (oscillates om h (l0 - L, 0))).
Proof.
  intros HT EP Ue ES Ho Eo Ht HR.
  assert (HB : evenly h [(h, 1%nat, t)]) by (intros dt n t' [X|[]]; injection X as <- <- _; split; [lia|cbn [INR]; field]).
  assert (Q0 : 0 <= (om * h) ^ 3 / 4) by (pose proof (powers_pos _ Ht); lra).
  destruct (bow_inline priv L ks 0 h gr g b1 b2 M1 M2 _ w y w' y' x1 v1 x2 v2 ex ey l0 0 HT EP HB Ue ES) as (x1' & v1' & x2' & v2' & HT' & EX).
  { intros i Hi. cbn [subs Nat.add] in Hi. replace i with 0%nat by lia. rewrite Eo. replace (0 * (/ M1 0%nat + / M2 0%nat)) with 0 by ring. cbn [Nat.iter nat_rect].
    apply (legs_from om L ((om * h) ^ 3 / 4) 0 (l0 - L, 0) _ h Ho Ht); [cbn [INR]; rewrite Rmult_0_l, exp_0; lra|apply (roomy_part om L _ 1); auto]. }
  rewrite Eo in EX. replace (0 * (/ M1 0%nat + / M2 0%nat)) with 0 in EX by ring. cbn [subs Nat.add Nat.iter nat_rect] in EX.
  eexists _, _, _, _, _, _. split; [exact HT'|]. split; [exact EX|]. apply osc_second; [exact Ht|lra].
Qed.

(** ** more and more sub-steps *)
Lemma many_subs (A E eps : R) : 0 <= A -> 0 <= E -> 0 < eps -> exists N, (0 < N)%nat /\ forall n, (N <= n)%nat -> 0 < INR n /\ A / INR n <= 1 /\ A * A / INR n <= 1 / 10 /\ forall e, 0 <= e <= A * A / INR n ->
  exp e * exp e <= 3 / 2 /\ (exp e - 1) * (exp e - 1) * E < eps.
Proof.
  intros HA HE He. set (B := 1 + A + 10 * (A * A) + A * A * (4 * E + 1) / eps).
  assert (A2 : 0 <= A * A) by now apply Rmult_le_pos. assert (B3 : 0 <= A * A * (4 * E + 1) / eps) by (apply Rmult_le_pos; [apply Rmult_le_pos; lra|left; now apply Rinv_0_lt_compat]).
  destruct (archimed_nat B) as [N HN].
  assert (PN : 0 < INR N) by (unfold B in HN; lra). exists N. split; [apply INR_lt; exact PN|]. intros n Hn. apply le_INR in Hn.
  assert (Pn : 0 < INR n) by lra. split; [exact Pn|].
  assert (D : forall a c, 0 < c -> a / c <= INR n -> a / INR n <= c). { intros a c Hc H. apply (Rmult_le_reg_r (INR n)); [exact Pn|]. replace (a / INR n * INR n) with (a / c * c) by (field; lra). rewrite (Rmult_comm c). apply Rmult_le_compat_r; lra. }
  split; [apply D; unfold B in HN; lra|]. assert (D2 : A * A / INR n <= 1 / 10) by (apply D; unfold B in HN; lra). split; [exact D2|]. intros e [E0 E1].
  assert (D3 : A * A / INR n <= eps / (4 * E + 1)). { apply D; [apply Rdiv_lt_0_compat; lra|]. replace (A * A / (eps / (4 * E + 1))) with (A * A * (4 * E + 1) / eps) by (field; lra). unfold B in HN. lra. }
  destruct (exp_small e ltac:(lra)) as [X0 X1]. split.
  - assert (X2 : exp e <= 12 / 10) by lra. pose proof (exp_pos e). apply Rle_trans with (12 / 10 * (12 / 10)); [apply Rmult_le_compat; lra|lra].
  - apply Rle_lt_trans with (4 * E * e).
    + assert ((exp e - 1) * (exp e - 1) <= 2 * e * (2 * e)) by (apply Rmult_le_compat; lra). assert (2 * e * (2 * e) <= 4 * e) by (assert (e * e <= 1 * e) by (apply Rmult_le_compat_r; lra); lra).
      replace (4 * E * e) with (4 * e * E) by ring. apply Rmult_le_compat_r; lra.
    + apply Rle_lt_trans with (4 * E * (eps / (4 * E + 1))); [apply Rmult_le_compat_l; lra|]. replace eps with ((4 * E + 1) * (eps / (4 * E + 1))) at 2 by (field; lra).
      apply Rmult_lt_compat_r; [apply Rdiv_lt_0_compat; lra|lra].
Qed.
Lemma one_even (t : R) n tm : (0 < n)%nat -> evenly (t / INR n) [(t, n, tm)].
Proof. intros Hn dt n' t' [X|[]]. injection X as <- <- _. split; [exact Hn|reflexivity]. Qed.
Lemma osc_converges k z (L ks om t eps : R) gr g b1 b2 M1 M2 l0 u0 : 0 < om -> ks * (/ M1 0%nat + / M2 0%nat) = om * om -> 0 <= t -> 1 / 100 <= L -> 0 < eps ->
  let x := (l0 - L, u0) in 3 * energy2 om x <= om * (L - 1 / 100) * (om * (L - 1 / 100)) ->
  exists N, forall n tm w y w' y' x1 v1 x2 v2 ex ey, (N <= n)%nat -> tied priv k z w y g b1 b2 L ks 0 gr x1 v1 M1 x2 v2 M2 -> plays k [(t, n, tm)] w y = Ok (w', y') ->
    ex * ex + ey * ey = 1 -> seen_from x1 x2 v1 v2 = in_line ex ey l0 u0 ->
    exists x1' v1' x2' v2' l' u', tied priv k z w' y' g b1 b2 L ks 0 gr x1' v1' M1 x2' v2' M2 /\ seen_from x1' x2' v1' v2' = in_line ex ey l' u' /\ gap2 om (l' - L, u') (oscillates om t x) < eps.
Proof.
  intros Ho Eo Ht HL He x HE. assert (E0 : 0 <= energy2 om x) by (rewrite up_energy; apply stir0).
  destruct (many_subs (om * t) (energy2 om x) eps) as (N & PN & HN); [apply Rmult_le_pos; lra|exact E0|exact He|].
  exists N. intros n tm w y w' y' x1 v1 x2 v2 ex ey Hn HT EP Ue ES. destruct (HN n Hn) as (Pn & B1 & B2 & B3).
  assert (Eh : om * (t / INR n) = om * t / INR n) by (unfold Rdiv; ring).
  assert (A0 : 0 <= om * t / INR n) by (apply Rmult_le_pos; [apply Rmult_le_pos; lra|left; now apply Rinv_0_lt_compat]).
  assert (Eq : INR n * (om * (t / INR n) * (om * (t / INR n))) = om * t * (om * t) / INR n) by (field; lra).
  destruct (B3 (om * t * (om * t) / INR n)) as [B4 B5]. { split; [|lra]. apply Rmult_le_pos; [apply Rmult_le_pos; apply Rmult_le_pos; lra|left; now apply Rinv_0_lt_compat]. }
  destruct (osc_tied k z L ks (t / INR n) om gr g b1 b2 M1 M2 [(t, n, tm)] w y w' y' x1 v1 x2 v2 ex ey l0 u0 HT EP (one_even t n tm ltac:(lia)) Ue ES Ho Eo) as (x1' & v1' & x2' & v2' & l' & u' & HT' & EX & HG).
  - rewrite Eh. lra.
  - split; [exact HL|]. cbn [subs]. rewrite Nat.add_0_r, Eq. eapply Rle_trans; [|exact HE]. apply Rmult_le_compat_r; [exact E0|]. lra.
  - cbn [subs lasts] in HG. rewrite Nat.add_0_r, Rplus_0_r, Eq in HG. exists x1', v1', x2', v2', l', u'. split; [exact HT'|]. split; [exact EX|]. eapply Rle_lt_trans; [exact HG|exact B5].
Qed.
Lemma osc_converges_four (L ks om t eps : R) gr g b1 b2 M1 M2 l0 u0 : 0 < om -> ks * (/ M1 0%nat + / M2 0%nat) = om * om -> 0 <= t -> 1 / 100 <= L -> 0 < eps ->
  let x := (l0 - L, u0) in 3 * energy2 om x <= om * (L - 1 / 100) * (om * (L - 1 / 100)) ->
  exists N, forall n tm w y w' y' x1 v1 x2 v2 ex ey, (N <= n)%nat -> strung priv w y g b1 b2 L ks 0 gr x1 v1 M1 x2 v2 M2 -> plays Generic [(t, n, tm)] w y = Ok (w', y') ->
    ex * ex + ey * ey = 1 -> seen_from x1 x2 v1 v2 = in_line ex ey l0 u0 ->
    exists x1' v1' x2' v2' l' u', strung priv w' y' g b1 b2 L ks 0 gr x1' v1' M1 x2' v2' M2 /\ seen_from x1' x2' v1' v2' = in_line ex ey l' u' /\ gap2 om (l' - L, u') (oscillates om t x) < eps.
Proof.
  intros Ho Eo Ht HL He x HE. assert (E0 : 0 <= energy2 om x) by (rewrite up_energy; apply stir0).
  destruct (many_subs (om * t) (energy2 om x) eps) as (N & PN & HN); [apply Rmult_le_pos; lra|exact E0|exact He|].
  exists N. intros n tm w y w' y' x1 v1 x2 v2 ex ey Hn HT EP Ue ES. destruct (HN n Hn) as (Pn & B1 & B2 & B3).
  assert (Eh : om * (t / INR n) = om * t / INR n) by (unfold Rdiv; ring).
  assert (A0 : 0 <= om * t / INR n) by (apply Rmult_le_pos; [apply Rmult_le_pos; lra|left; now apply Rinv_0_lt_compat]).
  assert (Hh : 0 <= om * (t / INR n) <= 1) by (rewrite Eh; lra).
  assert (Eq : INR n * (om * (t / INR n) * (om * (t / INR n))) = om * t * (om * t) / INR n) by (field; lra).
  pose proof (powers _ Hh) as PW. pose proof (powers_pos _ Hh) as PP.
  destruct (B3 (INR n * ((om * (t / INR n)) ^ 3 / 4))) as [B4 B5]. { rewrite <- Eq. split; [apply Rmult_le_pos; lra|]. apply Rmult_le_compat_l; lra. }
  destruct (osc_strung L ks (t / INR n) om gr g b1 b2 M1 M2 [(t, n, tm)] w y w' y' x1 v1 x2 v2 ex ey l0 u0 HT EP (one_even t n tm ltac:(lia)) Ue ES Ho Eo Hh) as (x1' & v1' & x2' & v2' & l' & u' & HT' & EX & HG).
  - split; [exact HL|]. cbn [subs]. rewrite Nat.add_0_r. eapply Rle_trans; [|exact HE]. apply Rmult_le_compat_r; [exact E0|]. lra.
  - cbn [subs lasts] in HG. rewrite Nat.add_0_r, Rplus_0_r in HG. exists x1', v1', x2', v2', l', u'. split; [exact HT'|]. split; [exact EX|]. eapply Rle_lt_trans; [exact HG|exact B5].
Qed.
End S.
