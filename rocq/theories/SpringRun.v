(** * What the bodies at the ends of a spring do in the long run. *)

From Coq Require Import Reals Lra.
From Verif Require Import Base Targets State Ode Forces Constraints System SpecState SpecSys SpecDyn SpecFlight SpecSwing SwingStep SpecDamp DampReal SpecMotor MotorReal SpecRun SpecSpring SpringReal SpringStep.
Local Open Scope R_scope.

Lemma sweep_semi L ks kd r h x : sweep (bounce Symplectic L ks kd r h x) = (1 - kd * r * h) * sweep x.
Proof. destruct x as [[dx dy] [ux uy]]. unfold bounce, sweep. cbn [fst snd]. destruct (Rle_dec _ _); ring. Qed.
Lemma sweep_iter L ks kd r h n x : sweep (Nat.iter n (bounce Symplectic L ks kd r h) x) = (1 - kd * r * h) ^ n * sweep x.
Proof. induction n as [|n IH]; [cbn; ring|]. change (Nat.iter (S n) (bounce Symplectic L ks kd r h) x) with (bounce Symplectic L ks kd r h (Nat.iter n (bounce Symplectic L ks kd r h) x)). rewrite sweep_semi, IH. cbn [pow]. ring. Qed.
Lemma sweep_course L ks kd r : forall l x, sweep (course Symplectic L ks kd r l x) = brakes (kd * r) l * sweep x.
Proof. induction l as [|[[dt n] t] l IH]; intros x; cbn [course brakes]; [ring|]. rewrite IH, sweep_iter. ring. Qed.
Lemma brakes_none l : brakes 0 l = 1.
Proof. induction l as [|[[dt n] t] l IH]; cbn [brakes]; [reflexivity|]. rewrite IH. replace (1 - 0 * (dt / INR n)) with 1 by ring. rewrite pow1. ring. Qed.
Lemma sweep_kept L ks r l x : sweep (course Symplectic L ks 0 r l x) = sweep x.
Proof. rewrite sweep_course. replace (0 * r) with 0 by ring. rewrite brakes_none. ring. Qed.

Section Line.
Variables (ex ey : R).
Hypothesis unit_e : ex * ex + ey * ey = 1.
Lemma apart_line l u : 0 <= l -> apart (in_line ex ey l u) = l.
Proof.
  intros Hl. unfold apart, in_line. cbn [fst snd]. replace (l * ex * (l * ex) + l * ey * (l * ey)) with (l * l * (ex * ex + ey * ey)) by ring. rewrite unit_e, Rmult_1_r. now apply sqrt_square.
Qed.
Lemma speed_line l u : speed2 (in_line ex ey l u) = u * u.
Proof. unfold speed2, in_line. cbn [fst snd]. transitivity (u * u * (ex * ex + ey * ey)); [ring|]. rewrite unit_e. ring. Qed.
Lemma bounce_line z L ks kd r h l u : 1 / 100 <= l -> let x' := swing z (ks * r) (kd * r) h (l - L, u) in
  bounce z L ks kd r h (in_line ex ey l u) = in_line ex ey (L + fst x') (snd x').
Proof.
  intros Hl x'. rewrite bounce_tug. unfold tug. rewrite apart_line by lra. destruct (Rle_dec (1 / 100) l) as [_|X]; [|lra].
  unfold x', swing, in_line. cbn [fst snd]. destruct z; cbn [fst snd]; f_equal; f_equal; field; lra.
Qed.
Lemma iter_line z L ks kd r h n l u : let X := fun i => Nat.iter i (swing z (ks * r) (kd * r) h) (l - L, u) in
  (forall i, (i < n)%nat -> 1 / 100 <= L + fst (X i)) -> Nat.iter n (bounce z L ks kd r h) (in_line ex ey l u) = in_line ex ey (L + fst (X n)) (snd (X n)).
Proof.
  intros X. induction n as [|n IH]; intros H.
  - unfold X. cbn [Nat.iter nat_rect fst snd]. f_equal. ring.
  - change (Nat.iter (S n) (bounce z L ks kd r h) (in_line ex ey l u)) with (bounce z L ks kd r h (Nat.iter n (bounce z L ks kd r h) (in_line ex ey l u))). rewrite IH by (intros; apply H; lia).
    rewrite bounce_line by (apply H; lia). cbv zeta. replace (L + fst (X n) - L, snd (X n)) with (X n) by (rewrite (surjective_pairing (X n)) at 1; f_equal; ring). reflexivity.
Qed.
End Line.

Lemma course_even z L ks kd r h : forall l x, evenly h l -> course z L ks kd r l x = Nat.iter (subs l) (bounce z L ks kd r h) x.
Proof.
  induction l as [|[[dt n] t] l IH]; intros x H; cbn [course subs]; [reflexivity|]. destruct (H dt n t (or_introl eq_refl)) as [_ ->].
  rewrite IH by (intros dt' n' t' Hi; apply (H dt' n' t'); now right). rewrite Nat.add_comm. now rewrite iter_plus.
Qed.
Lemma even_busy h l : evenly h l -> busy l.
Proof. intros H dt n t Hi. now apply (H dt n t). Qed.

(** closer than 1/100 and at rest *)
Lemma bounce_dead z L ks kd r h dx dy : apart ((dx, dy), (0, 0)) < 1 / 100 -> bounce z L ks kd r h ((dx, dy), (0, 0)) = ((dx, dy), (0, 0)).
Proof. intros H. unfold bounce. destruct (Rle_dec _ _) as [X|_]; [lra|]. destruct z; f_equal; f_equal; ring. Qed.
Lemma course_dead z L ks kd r dx dy : apart ((dx, dy), (0, 0)) < 1 / 100 -> forall l, course z L ks kd r l ((dx, dy), (0, 0)) = ((dx, dy), (0, 0)).
Proof.
  intros H. induction l as [|[[dt n] t] l IH]; cbn [course]; [reflexivity|].
  assert (Q : forall m, Nat.iter m (bounce z L ks kd r (dt / INR n)) ((dx, dy), (0, 0)) = ((dx, dy), (0, 0))).
  { induction m as [|m IHm]; [reflexivity|]. change (bounce z L ks kd r (dt / INR n) (Nat.iter m (bounce z L ks kd r (dt / INR n)) ((dx, dy), (0, 0))) = ((dx, dy), (0, 0))). rewrite IHm. now apply bounce_dead. }
  now rewrite Q.
Qed.

Lemma sqr_le_abs (x A : R) : 0 <= A -> x * x <= A * A -> Rabs x <= A.
Proof. intros HA H. apply Rsqr_incr_0_var; [|exact HA]. unfold Rsqr. rewrite <- Rabs_mult, Rabs_pos_eq; [exact H|apply Rle_0_sqr]. Qed.

Section S.
Context {dbg : bool}.
Notation T := (RT dbg).
Notation cl := (cell T).
Implicit Types (w : world T) (y : sys T).
Variable priv : nat -> bool.

Lemma area_law k z (L ks kd : R) gr g b1 b2 M1 M2 l w y w' y' x1 v1 x2 v2 : tied priv k z w y g b1 b2 L ks kd gr x1 v1 M1 x2 v2 M2 -> z = Symplectic -> plays k l w y = Ok (w', y') -> busy l ->
  exists x1' v1' x2' v2', tied priv k z w' y' g b1 b2 L ks kd gr x1' v1' M1 x2' v2' M2 /\
    sweep (seen_from x1' x2' v1' v2') = brakes (kd * (/ M1 0%nat + / M2 0%nat)) l * sweep (seen_from x1 x2 v1 v2) /\ (kd = 0 -> sweep (seen_from x1' x2' v1' v2') = sweep (seen_from x1 x2 v1 v2)).
Proof.
  intros HT -> E HB. destruct (spring_calls priv k _ L ks kd gr g b1 b2 M1 M2 l w y w' y' x1 v1 x2 v2 HT E HB) as (x1' & v1' & x2' & v2' & HT' & _ & EX & _).
  exists x1', v1', x2', v2'. split; [exact HT'|]. rewrite EX. split; [apply sweep_course|]. intros ->. apply sweep_kept.
Qed.

Lemma line_calls k z (L ks kd h : R) gr g b1 b2 M1 M2 l w y w' y' x1 v1 x2 v2 ex ey l0 u0 : tied priv k z w y g b1 b2 L ks kd gr x1 v1 M1 x2 v2 M2 -> plays k l w y = Ok (w', y') -> evenly h l ->
  ex * ex + ey * ey = 1 -> seen_from x1 x2 v1 v2 = in_line ex ey l0 u0 ->
  let r := / M1 0%nat + / M2 0%nat in let X := fun i => Nat.iter i (swing z (ks * r) (kd * r) h) (l0 - L, u0) in
  (forall i, (i < subs l)%nat -> 1 / 100 <= L + fst (X i)) ->
  exists x1' v1' x2' v2', tied priv k z w' y' g b1 b2 L ks kd gr x1' v1' M1 x2' v2' M2 /\ seen_from x1' x2' v1' v2' = in_line ex ey (L + fst (X (subs l))) (snd (X (subs l))).
Proof.
  intros HT E HB Ue ES r X HX. destruct (spring_calls priv k z L ks kd gr g b1 b2 M1 M2 l w y w' y' x1 v1 x2 v2 HT E (even_busy h l HB)) as (x1' & v1' & x2' & v2' & HT' & _ & EX & _).
  exists x1', v1', x2', v2'. split; [exact HT'|]. rewrite EX, ES, (course_even z L ks kd _ h l _ HB). now apply iter_line.
Qed.

(** without damping, in the semi-implicit scheme *)
Lemma undamped_line k z (L ks h A : R) gr g b1 b2 M1 M2 l w y w' y' x1 v1 x2 v2 ex ey l0 u0 : tied priv k z w y g b1 b2 L ks 0 gr x1 v1 M1 x2 v2 M2 -> z = Symplectic -> plays k l w y = Ok (w', y') -> evenly h l ->
  ex * ex + ey * ey = 1 -> seen_from x1 x2 v1 v2 = in_line ex ey l0 u0 ->
  let K := ks * (/ M1 0%nat + / M2 0%nat) in let E := fun s u => u * u + K * (s * s) - h * K * (s * u) in
  0 < K -> K * (h * h) < 4 -> 0 <= A -> A <= L - 1 / 100 -> E (l0 - L) u0 <= K * (1 - K * (h * h) / 4) * (A * A) ->
  exists x1' v1' x2' v2' l' u', tied priv k z w' y' g b1 b2 L ks 0 gr x1' v1' M1 x2' v2' M2 /\ seen_from x1' x2' v1' v2' = in_line ex ey l' u' /\
    Rabs (l' - L) <= A /\ E (l' - L) u' = E (l0 - L) u0.
Proof.
  intros HT -> EP HB Ue ES K E HK HKh HA HAL HE.
  set (X := fun i => Nat.iter i (swing Symplectic K 0 h) (l0 - L, u0)).
  assert (BX : forall i, Rabs (fst (X i)) <= A).
  { intros i. apply sqr_le_abs; [exact HA|]. pose proof (swing_bounded K h i (l0 - L) u0 (fst (X i)) (snd (X i))) as B. rewrite <- surjective_pairing in B. specialize (B eq_refl).
    apply (Rmult_le_reg_l (K * (1 - K * (h * h) / 4))); [apply Rmult_lt_0_compat; lra|]. eapply Rle_trans; [exact B|]. exact HE. }
  assert (HX : forall i, 1 / 100 <= L + fst (X i)) by (intros i; specialize (BX i); apply Rabs_def2 in BX || (unfold Rabs in BX; destruct (Rcase_abs _); lra)).
  destruct (line_calls k Symplectic L ks 0 h gr g b1 b2 M1 M2 l w y w' y' x1 v1 x2 v2 ex ey l0 u0 HT EP HB Ue ES) as (x1' & v1' & x2' & v2' & HT' & EX).
  { intros i _. replace (0 * (/ M1 0%nat + / M2 0%nat)) with 0 by ring. apply HX. }
  replace (0 * (/ M1 0%nat + / M2 0%nat)) with 0 in EX by ring. fold K in EX. fold (X (subs l)) in EX.
  exists x1', v1', x2', v2', (L + fst (X (subs l))), (snd (X (subs l))). split; [exact HT'|]. split; [exact EX|]. replace (L + fst (X (subs l)) - L) with (fst (X (subs l))) by ring. split; [apply BX|].
  apply (swing_keeps K h (subs l)). rewrite <- surjective_pairing. reflexivity.
Qed.
(** in the explicit scheme *)
Lemma euler_line k z (L ks h : R) gr g b1 b2 M1 M2 l w y w' y' x1 v1 x2 v2 ex ey l0 u0 : tied priv k z w y g b1 b2 L ks 0 gr x1 v1 M1 x2 v2 M2 -> z = Explicit -> plays k l w y = Ok (w', y') -> evenly h l ->
  ex * ex + ey * ey = 1 -> seen_from x1 x2 v1 v2 = in_line ex ey l0 u0 ->
  let K := ks * (/ M1 0%nat + / M2 0%nat) in let E := fun s u => u * u + K * (s * s) in
  (forall i, (i < subs l)%nat -> 1 / 100 <= L + fst (Nat.iter i (swing Explicit K 0 h) (l0 - L, u0))) ->
  exists x1' v1' x2' v2' l' u', tied priv k z w' y' g b1 b2 L ks 0 gr x1' v1' M1 x2' v2' M2 /\ seen_from x1' x2' v1' v2' = in_line ex ey l' u' /\
    E (l' - L) u' = (1 + K * (h * h)) ^ subs l * E (l0 - L) u0.
Proof.
  intros HT -> EP HB Ue ES K E HX. set (X := fun i => Nat.iter i (swing Explicit K 0 h) (l0 - L, u0)).
  destruct (line_calls k Explicit L ks 0 h gr g b1 b2 M1 M2 l w y w' y' x1 v1 x2 v2 ex ey l0 u0 HT EP HB Ue ES) as (x1' & v1' & x2' & v2' & HT' & EX).
  { intros i Hi. replace (0 * (/ M1 0%nat + / M2 0%nat)) with 0 by ring. now apply HX. }
  replace (0 * (/ M1 0%nat + / M2 0%nat)) with 0 in EX by ring. fold K in EX. fold (X (subs l)) in EX.
  exists x1', v1', x2', v2', (L + fst (X (subs l))), (snd (X (subs l))). split; [exact HT'|]. split; [exact EX|]. replace (L + fst (X (subs l)) - L) with (fst (X (subs l))) by ring.
  apply (swing_grows K h (subs l)). rewrite <- surjective_pairing. reflexivity.
Qed.

(** with damping *)
Lemma damped_line k z (L ks kd h : R) gr g b1 b2 M1 M2 : let r := / M1 0%nat + / M2 0%nat in 1 / 100 < L -> calms z (ks * r) (kd * r) h ->
  exists a, 0 < a /\ forall eps, 0 < eps -> exists N, forall l w y w' y' x1 v1 x2 v2 ex ey l0 u0,
    tied priv k z w y g b1 b2 L ks kd gr x1 v1 M1 x2 v2 M2 -> plays k l w y = Ok (w', y') -> evenly h l -> (N <= subs l)%nat ->
    ex * ex + ey * ey = 1 -> seen_from x1 x2 v1 v2 = in_line ex ey l0 u0 -> stir (l0 - L, u0) <= a ->
    exists x1' v1' x2' v2' l' u', tied priv k z w' y' g b1 b2 L ks kd gr x1' v1' M1 x2' v2' M2 /\ seen_from x1' x2' v1' v2' = in_line ex ey l' u' /\ stir (l' - L, u') < eps.
Proof.
  intros r HL HC. destruct (swing_calms z (ks * r) (kd * r) h HC) as (C & rho & C0 & [R0 R1] & HS).
  assert (P : 0 < L - 1 / 100) by lra. set (a := (L - 1 / 100) * (L - 1 / 100) / (C + 1)). assert (Pa : 0 < a) by (apply Rdiv_lt_0_compat; [apply Rmult_lt_0_compat; lra|lra]).
  assert (Ca : C * a <= (L - 1 / 100) * (L - 1 / 100)).
  { unfold a. replace ((L - 1 / 100) * (L - 1 / 100)) with ((C + 1) * ((L - 1 / 100) * (L - 1 / 100) / (C + 1))) at 2 by (field; lra). apply Rmult_le_compat_r; [exact (Rlt_le _ _ Pa)|lra]. }
  exists a. split; [exact Pa|]. intros eps He.
  assert (R1' : Rabs rho < 1) by (rewrite Rabs_pos_eq; lra).
  destruct (pow_lt_1_zero rho R1' (eps / (C * a + 1))) as [N HN]. { apply Rdiv_lt_0_compat; [exact He|]. assert (0 <= C * a) by (apply Rmult_le_pos; lra). lra. }
  exists N. intros l w y w' y' x1 v1 x2 v2 ex ey l0 u0 HT EP HB HNl Ue ES Hst.
  set (X := fun i => Nat.iter i (swing z (ks * r) (kd * r) h) (l0 - L, u0)).
  assert (S0 : 0 <= stir (l0 - L, u0)) by (unfold stir; cbn [fst snd]; pose proof (Rle_0_sqr (l0 - L)); pose proof (Rle_0_sqr u0); unfold Rsqr in *; lra).
  assert (PW : forall i, 0 <= rho ^ i <= 1).
  { intros i. split; [now apply pow_le|]. rewrite <- (pow1 i). apply pow_incr. lra. }
  assert (BX : forall i, stir (X i) <= rho ^ i * (C * a)).
  { intros i. eapply Rle_trans; [apply HS|]. replace (C * rho ^ i * stir (l0 - L, u0)) with (rho ^ i * (C * stir (l0 - L, u0))) by ring. apply Rmult_le_compat_l; [apply PW|]. apply Rmult_le_compat_l; lra. }
  assert (CA0 : 0 <= C * a) by (apply Rmult_le_pos; lra).
  assert (HX : forall i, 1 / 100 <= L + fst (X i)).
  { intros i. assert (Q : Rabs (fst (X i)) <= L - 1 / 100).
    { apply sqr_le_abs; [lra|]. specialize (BX i). assert (rho ^ i * (C * a) <= 1 * (C * a)) by (apply Rmult_le_compat_r; [exact CA0|apply PW]).
      unfold stir in BX. pose proof (Rle_0_sqr (snd (X i))). unfold Rsqr in *. lra. }
    unfold Rabs in Q. destruct (Rcase_abs _); lra. }
  destruct (line_calls k z L ks kd h gr g b1 b2 M1 M2 l w y w' y' x1 v1 x2 v2 ex ey l0 u0 HT EP HB Ue ES (fun i _ => HX i)) as (x1' & v1' & x2' & v2' & HT' & EX).
  fold r in EX. fold (X (subs l)) in EX. exists x1', v1', x2', v2', (L + fst (X (subs l))), (snd (X (subs l))). split; [exact HT'|]. split; [exact EX|].
  replace (L + fst (X (subs l)) - L) with (fst (X (subs l))) by ring. rewrite <- surjective_pairing.
  eapply Rle_lt_trans; [apply BX|]. specialize (HN (subs l) HNl). rewrite Rabs_pos_eq in HN by apply PW.
  apply Rle_lt_trans with (rho ^ subs l * (C * a + 1)); [apply Rmult_le_compat_l; [apply PW|lra]|].
  replace eps with (eps / (C * a + 1) * (C * a + 1)) by (field; lra). apply Rmult_lt_compat_r; lra.
Qed.

(** too close *)
Lemma dead_calls k z (L ks kd : R) gr g b1 b2 M1 M2 l w y w' y' x1 v1 x2 v2 : tied priv k z w y g b1 b2 L ks kd gr x1 v1 M1 x2 v2 M2 -> plays k l w y = Ok (w', y') -> busy l ->
  apart (seen_from x1 x2 v1 v2) < 1 / 100 -> speed2 (seen_from x1 x2 v1 v2) = 0 ->
  exists x1' v1' x2' v2', tied priv k z w' y' g b1 b2 L ks kd gr x1' v1' M1 x2' v2' M2 /\ seen_from x1' x2' v1' v2' = seen_from x1 x2 v1 v2.
Proof.
  intros HT E HB HA HS. destruct (spring_calls priv k z L ks kd gr g b1 b2 M1 M2 l w y w' y' x1 v1 x2 v2 HT E HB) as (x1' & v1' & x2' & v2' & HT' & _ & EX & _).
  exists x1', v1', x2', v2'. split; [exact HT'|]. rewrite EX. set (x := seen_from x1 x2 v1 v2) in *. destruct x as [[dx dy] [ux uy]]. unfold speed2 in HS. cbn [fst snd] in HS.
  assert (ux = 0 /\ uy = 0) as [-> ->]. { pose proof (Rle_0_sqr ux). pose proof (Rle_0_sqr uy). unfold Rsqr in *. split; apply Rsqr_0_uniq; unfold Rsqr; lra. }
  now apply course_dead.
Qed.
End S.
