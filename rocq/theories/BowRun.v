(** * In the fourth-order scheme a spring comes to rest without any damping. *)

From Coq Require Import Reals Lra.
From Verif Require Import Base Targets State Ode Forces Constraints System SpecState SpecSys SpecDyn SpecFlight SpecSwing SwingStep SpecDamp DampReal SpecMotor MotorReal SpecRun SpecSpring SpringReal SpringStep SpringRun SpecBow BowReal.
Local Open Scope R_scope.

Section Line.
Variables (ex ey : R).
Hypothesis unit_e : ex * ex + ey * ey = 1.
Lemma drawn_line L ks kd r l u : 1 / 100 <= l -> drawn L ks kd r (in_line ex ey l u) = (ebb (ks * r) (kd * r) (l - L, u) * ex, ebb (ks * r) (kd * r) (l - L, u) * ey).
Proof.
  intros Hl. unfold drawn. unfold in_line at 1. rewrite (apart_line ex ey unit_e) by lra. destruct (Rle_dec (1 / 100) l) as [_|X]; [|lra]. unfold ebb. cbn [fst snd]. f_equal; field; lra.
Qed.
Lemma along_line L h x a : along h (in_line ex ey (L + fst x) (snd x)) (a * ex, a * ey) = in_line ex ey (L + fst (onward h x a)) (snd (onward h x a)).
Proof. unfold along, in_line, onward. cbn [fst snd]. f_equal; f_equal; ring. Qed.
(** the ends of the first three stages *)
Definition leg2 K D h x := onward (h / 2) x (ebb K D x).
Definition leg3 K D h x := onward (h / 2) x (ebb K D (leg2 K D h x)).
Definition leg4 K D h x := onward h x (ebb K D (leg3 K D h x)).
Definition legs_long (L K D h : R) (x : R * R) : Prop := 1 / 100 <= L + fst x /\ 1 / 100 <= L + fst (leg2 K D h x) /\ 1 / 100 <= L + fst (leg3 K D h x) /\ 1 / 100 <= L + fst (leg4 K D h x).
Lemma bow_line L ks kd r h x : legs_long L (ks * r) (kd * r) h x ->
  bow L ks kd r h (in_line ex ey (L + fst x) (snd x)) = in_line ex ey (L + fst (sway (ks * r) (kd * r) h x)) (snd (sway (ks * r) (kd * r) h x)).
Proof.
  intros (H1 & H2 & H3 & H4). unfold bow. cbv zeta.
  assert (E : forall p : R * R, (L + fst p - L, snd p) = p) by (intros [p1 p2]; cbn [fst snd]; f_equal; ring).
  rewrite (drawn_line L ks kd r (L + fst x) (snd x) H1), E, along_line. fold (leg2 (ks * r) (kd * r) h x).
  rewrite (drawn_line L ks kd r _ _ H2), E, along_line. fold (leg3 (ks * r) (kd * r) h x).
  rewrite (drawn_line L ks kd r _ _ H3), E, along_line. fold (leg4 (ks * r) (kd * r) h x).
  rewrite (drawn_line L ks kd r _ _ H4), E. unfold sway. cbv zeta. fold (leg2 (ks * r) (kd * r) h x). fold (leg3 (ks * r) (kd * r) h x). fold (leg4 (ks * r) (kd * r) h x).
  unfold in_line. cbn [fst snd]. f_equal; f_equal; field.
Qed.
Lemma iter_bow L ks kd r h n l u : let X := fun i => Nat.iter i (sway (ks * r) (kd * r) h) (l - L, u) in
  (forall i, (i < n)%nat -> legs_long L (ks * r) (kd * r) h (X i)) -> Nat.iter n (bow L ks kd r h) (in_line ex ey l u) = in_line ex ey (L + fst (X n)) (snd (X n)).
Proof.
  intros X. induction n as [|n IH]; intros H.
  - unfold X. cbn [Nat.iter nat_rect fst snd]. f_equal. ring.
  - change (Nat.iter (S n) (bow L ks kd r h) (in_line ex ey l u)) with (bow L ks kd r h (Nat.iter n (bow L ks kd r h) (in_line ex ey l u))). rewrite IH by (intros; apply H; lia).
    rewrite bow_line by (apply H; lia). reflexivity.
Qed.
End Line.
Lemma bows_even L ks kd r h : forall l x, evenly h l -> bows L ks kd r l x = Nat.iter (subs l) (bow L ks kd r h) x.
Proof.
  induction l as [|[[dt n] t] l IH]; intros x H; cbn [bows subs]; [reflexivity|]. destruct (H dt n t (or_introl eq_refl)) as [_ ->].
  rewrite IH by (intros dt' n' t' Hi; apply (H dt' n' t'); now right). rewrite Nat.add_comm. now rewrite iter_plus.
Qed.

(** ** the motion without damping is linear *)
Section Lin.
Variables (K h : R).
Notation z := (K * (h * h)).
Definition sA : R := 1 - z / 2 + z * z / 12 - z * z * z / 96.
Definition sB : R := h * (1 - z / 6 + z * z / 48).
Definition sC : R := - (K * h * (1 - z / 3 + z * z / 16 - z * z * z / 96)).
Definition sD : R := 1 - z / 2 + z * z / 8 - z * z * z / 48.
Lemma sway_lin x : sway K 0 h x = lin sA sB sC sD x.
Proof. unfold sway, lin, ebb, onward, sA, sB, sC, sD. cbn [fst snd]. f_equal; field. Qed.
Lemma sway_det : sA * sD - sB * sC = 1 - z * z * (24 - 2 * z + z * z) / 576.
Proof. unfold sA, sB, sC, sD. field. Qed.
Lemma sway_tr : sA + sD = 2 - z + 5 * (z * z) / 24 - z * z * z / 32.
Proof. unfold sA, sD. field. Qed.
Lemma sway_jury : 0 < z -> z <= 4 -> -1 < sA * sD - sB * sC < 1 /\ Rabs (sA + sD) < 1 + (sA * sD - sB * sC).
Proof.
  intros H0 H4. rewrite sway_det, sway_tr. set (y := K * (h * h)) in *. clearbody y.
  assert (P : 0 < y * y) by now apply Rmult_lt_0_compat. assert (Q : y * y <= 4 * y) by (apply Rmult_le_compat_r; lra).
  assert (P3 : 0 < y * y * (24 - 2 * y + y * y)) by (apply Rmult_lt_0_compat; lra).
  assert (Q3 : y * y * (24 - 2 * y + y * y) <= 16 * 32) by (apply Rmult_le_compat; lra).
  split; [split; lra|]. apply Rabs_def1.
  - assert (E : 1 + (1 - y * y * (24 - 2 * y + y * y) / 576) - (2 - y + 5 * (y * y) / 24 - y * y * y / 32) = y * (1 - y / 4) + y * (y * y) * (20 - y) / 576) by field.
    assert (0 <= y * (1 - y / 4)) by (apply Rmult_le_pos; lra). assert (0 < y * (y * y) * (20 - y)) by (apply Rmult_lt_0_compat; [now apply Rmult_lt_0_compat|lra]). lra.
  - assert (E : 1 + (1 - y * y * (24 - 2 * y + y * y) / 576) + (2 - y + 5 * (y * y) / 24 - y * y * y / 32) = (4 - y) + y * y * (96 - 16 * y - y * y) / 576) by field.
    assert (0 < y * y * (96 - 16 * y - y * y)) by (apply Rmult_lt_0_compat; lra). lra.
Qed.
Lemma sway_calms : 0 < z -> z <= 4 -> exists C rho, 0 <= C /\ 0 <= rho < 1 /\ forall n x, stir (Nat.iter n (sway K 0 h) x) <= C * rho ^ n * stir x.
Proof.
  intros H0 H4. destruct (sway_jury H0 H4) as [J1 J2]. destruct (lin_shrinks _ _ _ _ J1 J2) as (C & rho & HC & HR & H). exists C, rho. split; [exact HC|]. split; [exact HR|].
  intros n x. rewrite (iter_ext _ (lin sA sB sC sD) n x sway_lin). apply H.
Qed.
Definition legs_bound : R := 1 + ((1 - z / 4) * (1 - z / 4) + h / 2 * (h / 2)) + ((1 - z / 4 * (1 - z / 4)) * (1 - z / 4 * (1 - z / 4)) + (h / 2 - z * h / 8) * (h / 2 - z * h / 8))
  + ((1 - z * (1 - z / 4 * (1 - z / 4))) * (1 - z * (1 - z / 4 * (1 - z / 4))) + (h - z * (h / 2 - z * h / 8)) * (h - z * (h / 2 - z * h / 8))).
Lemma legs_bound_pos : 1 <= legs_bound.
Proof. unfold legs_bound. assert (Q : forall a, 0 <= a * a) by (intros a; apply Rle_0_sqr). pose proof (Q (1 - z / 4)). pose proof (Q (h / 2)). pose proof (Q (1 - z / 4 * (1 - z / 4))). pose proof (Q (h / 2 - z * h / 8)).
  pose proof (Q (1 - z * (1 - z / 4 * (1 - z / 4)))). pose proof (Q (h - z * (h / 2 - z * h / 8))). lra. Qed.
Lemma legs_small L x : 0 <= L - 1 / 100 -> legs_bound * stir x <= (L - 1 / 100) * (L - 1 / 100) -> legs_long L K 0 h x.
Proof.
  intros HL HB. assert (Q : forall a, 0 <= a * a) by (intros a; apply Rle_0_sqr).
  assert (S0 : 0 <= stir x) by (unfold stir; pose proof (Q (fst x)); pose proof (Q (snd x)); lra).
  assert (G : forall al be, al * al + be * be <= legs_bound -> 1 / 100 <= L + (al * fst x + be * snd x)).
  { intros al be Hab. assert (Rabs (al * fst x + be * snd x) <= L - 1 / 100).
    { apply sqr_le_abs; [exact HL|]. eapply Rle_trans; [apply sqr_dot|]. fold (stir x). eapply Rle_trans; [|exact HB]. now apply Rmult_le_compat_r. }
    unfold Rabs in H. destruct (Rcase_abs _); lra. }
  pose proof (Q (1 - z / 4)). pose proof (Q (h / 2)). pose proof (Q (1 - z / 4 * (1 - z / 4))). pose proof (Q (h / 2 - z * h / 8)).
  pose proof (Q (1 - z * (1 - z / 4 * (1 - z / 4)))). pose proof (Q (h - z * (h / 2 - z * h / 8))). pose proof legs_bound_pos.
  split; [|split; [|split]].
  - replace (fst x) with (1 * fst x + 0 * snd x) by ring. apply G. lra.
  - replace (fst (leg2 K 0 h x)) with ((1 - z / 4) * fst x + h / 2 * snd x) by (unfold leg2, onward, ebb; cbn [fst snd]; field). apply G. unfold legs_bound. lra.
  - replace (fst (leg3 K 0 h x)) with ((1 - z / 4 * (1 - z / 4)) * fst x + (h / 2 - z * h / 8) * snd x) by (unfold leg3, leg2, onward, ebb; cbn [fst snd]; field). apply G. unfold legs_bound. lra.
  - replace (fst (leg4 K 0 h x)) with ((1 - z * (1 - z / 4 * (1 - z / 4))) * fst x + (h - z * (h / 2 - z * h / 8)) * snd x) by (unfold leg4, leg3, leg2, onward, ebb; cbn [fst snd]; field). apply G. unfold legs_bound. lra.
Qed.
End Lin.

Section S.
Context {dbg : bool}.
Notation T := (RT dbg).
Notation cl := (cell T).
Implicit Types (w : world T) (y : sys T).
Variable priv : nat -> bool.

Lemma bow_rest (L ks h : R) gr g b1 b2 M1 M2 : let r := / M1 0%nat + / M2 0%nat in 1 / 100 < L -> 0 < ks * r * (h * h) -> ks * r * (h * h) <= 4 ->
  exists a, 0 < a /\ forall eps, 0 < eps -> exists N, forall l w y w' y' x1 v1 x2 v2 ex ey l0 u0,
    strung priv w y g b1 b2 L ks 0 gr x1 v1 M1 x2 v2 M2 -> plays Generic l w y = Ok (w', y') -> evenly h l -> (N <= subs l)%nat ->
    ex * ex + ey * ey = 1 -> seen_from x1 x2 v1 v2 = in_line ex ey l0 u0 -> stir (l0 - L, u0) <= a ->
    exists x1' v1' x2' v2' l' u', strung priv w' y' g b1 b2 L ks 0 gr x1' v1' M1 x2' v2' M2 /\ seen_from x1' x2' v1' v2' = in_line ex ey l' u' /\ stir (l' - L, u') < eps.
Proof.
  intros r HL H0 H4. destruct (sway_calms (ks * r) h H0 H4) as (C & rho & C0 & [R0 R1] & HS).
  pose proof (legs_bound_pos (ks * r) h) as B1. set (B := legs_bound (ks * r) h) in *.
  assert (P : 0 < L - 1 / 100) by lra. set (D2 := (L - 1 / 100) * (L - 1 / 100)). assert (PD : 0 < D2) by (apply Rmult_lt_0_compat; lra).
  assert (C1 : 0 < B * (C + 1)) by (apply Rmult_lt_0_compat; lra).
  set (a := D2 / (B * (C + 1))). assert (Pa : 0 < a) by (apply Rdiv_lt_0_compat; lra).
  assert (Ca : B * (C * a) <= D2).
  { replace D2 with (B * (C + 1) * a) by (unfold a; field; lra). rewrite Rmult_assoc. apply Rmult_le_compat_l; [lra|]. apply Rmult_le_compat_r; lra. }
  exists a. split; [exact Pa|]. intros eps He.
  assert (R1' : Rabs rho < 1) by (rewrite Rabs_pos_eq; lra).
  destruct (pow_lt_1_zero rho R1' (eps / (C * a + 1))) as [N HN]. { apply Rdiv_lt_0_compat; [exact He|]. assert (0 <= C * a) by (apply Rmult_le_pos; lra). lra. }
  exists N. intros l w y w' y' x1 v1 x2 v2 ex ey l0 u0 HT EP HB HNl Ue ES Hst.
  set (X := fun i => Nat.iter i (sway (ks * r) 0 h) (l0 - L, u0)).
  assert (S0 : 0 <= stir (l0 - L, u0)) by (unfold stir; cbn [fst snd]; pose proof (Rle_0_sqr (l0 - L)); pose proof (Rle_0_sqr u0); unfold Rsqr in *; lra).
  assert (PW : forall i, 0 <= rho ^ i <= 1).
  { intros i. split; [now apply pow_le|]. rewrite <- (pow1 i). apply pow_incr. lra. }
  assert (BX : forall i, stir (X i) <= rho ^ i * (C * a)).
  { intros i. eapply Rle_trans; [apply HS|]. replace (C * rho ^ i * stir (l0 - L, u0)) with (rho ^ i * (C * stir (l0 - L, u0))) by ring. apply Rmult_le_compat_l; [apply PW|]. apply Rmult_le_compat_l; lra. }
  assert (CA0 : 0 <= C * a) by (apply Rmult_le_pos; lra).
  assert (HX : forall i, legs_long L (ks * r) 0 h (X i)).
  { intros i. apply legs_small; [lra|]. fold B. eapply Rle_trans; [|exact Ca]. apply Rmult_le_compat_l; [lra|]. eapply Rle_trans; [apply BX|]. rewrite <- (Rmult_1_l (C * a)) at 2. apply Rmult_le_compat_r; [exact CA0|apply PW]. }
  destruct (bow_calls priv L ks 0 gr g b1 b2 M1 M2 l w y w' y' x1 v1 x2 v2 HT EP (even_busy h l HB)) as (x1' & v1' & x2' & v2' & HT' & _ & EX & _).
  rewrite ES, (bows_even _ _ _ _ h l _ HB), (iter_bow ex ey Ue) in EX. 2:{ intros i _. fold r. replace (0 * r) with 0 by ring. exact (HX i). }
  fold r in EX. replace (0 * r) with 0 in EX by ring. fold (X (subs l)) in EX.
  exists x1', v1', x2', v2', (L + fst (X (subs l))), (snd (X (subs l))). split; [exact HT'|]. split; [exact EX|].
  replace (L + fst (X (subs l)) - L) with (fst (X (subs l))) by ring. rewrite <- surjective_pairing.
  eapply Rle_lt_trans; [apply BX|]. specialize (HN (subs l) HNl). rewrite Rabs_pos_eq in HN by apply PW.
  apply Rle_lt_trans with (rho ^ subs l * (C * a + 1)); [apply Rmult_le_compat_l; [apply PW|lra]|].
  replace eps with (eps / (C * a + 1) * (C * a + 1)) by (field; lra). apply Rmult_lt_compat_r; lra.
Qed.
(** along the line, whatever the damping, as long as no stage brings the ends too close *)
Lemma bow_inline (L ks kd h : R) gr g b1 b2 M1 M2 l w y w' y' x1 v1 x2 v2 ex ey l0 u0 : strung priv w y g b1 b2 L ks kd gr x1 v1 M1 x2 v2 M2 -> plays Generic l w y = Ok (w', y') -> evenly h l ->
  ex * ex + ey * ey = 1 -> seen_from x1 x2 v1 v2 = in_line ex ey l0 u0 ->
  let r := / M1 0%nat + / M2 0%nat in let X := fun i => Nat.iter i (sway (ks * r) (kd * r) h) (l0 - L, u0) in
  (forall i, (i < subs l)%nat -> legs_long L (ks * r) (kd * r) h (X i)) ->
  exists x1' v1' x2' v2', strung priv w' y' g b1 b2 L ks kd gr x1' v1' M1 x2' v2' M2 /\ seen_from x1' x2' v1' v2' = in_line ex ey (L + fst (X (subs l))) (snd (X (subs l))).
Proof.
  intros HT EP HB Ue ES r X HX.
  destruct (bow_calls priv L ks kd gr g b1 b2 M1 M2 l w y w' y' x1 v1 x2 v2 HT EP (even_busy h l HB)) as (x1' & v1' & x2' & v2' & HT' & _ & EX & _).
  exists x1', v1', x2', v2'. split; [exact HT'|]. rewrite EX, ES, (bows_even _ _ _ _ h l _ HB). now apply iter_bow.
Qed.
End S.
