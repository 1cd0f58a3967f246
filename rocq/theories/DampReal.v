(** * Linear maps of the plane: when their powers shrink, and when not. *)

From Coq Require Import Reals Lra Psatz.
From Verif Require Import Base Targets SpecDyn SpecSwing SpecDamp.
Local Open Scope R_scope.

Lemma Rabs_xy (x y c : R) : 2 * c * x * y <= Rabs c * (x * x + y * y).
Proof.
  assert (A : 0 <= (x - y) * (x - y)) by apply Rle_0_sqr. assert (A' : 0 <= (x + y) * (x + y)) by apply Rle_0_sqr.
  unfold Rabs. destruct (Rcase_abs c) as [N|P].
  - replace (2 * c * x * y) with (- c * (x * x + y * y) - (- c) * ((x + y) * (x + y))) by ring. assert (0 <= - c * ((x + y) * (x + y))) by (apply Rmult_le_pos; lra). lra.
  - replace (2 * c * x * y) with (c * (x * x + y * y) - c * ((x - y) * (x - y))) by ring. assert (0 <= c * ((x - y) * (x - y))) by (apply Rmult_le_pos; lra). lra.
Qed.
Lemma sqr_sum (a b : R) : (a + b) * (a + b) <= 2 * (a * a) + 2 * (b * b).
Proof. assert (0 <= (a - b) * (a - b)) by apply Rle_0_sqr. lra. Qed.
Lemma sqr_dot (a b x y : R) : (a * x + b * y) * (a * x + b * y) <= (a * a + b * b) * (x * x + y * y).
Proof. assert (0 <= (a * y - b * x) * (a * y - b * x)) by apply Rle_0_sqr. lra. Qed.

Section Two.
Variables (T D : R).
Hypotheses (HD : -1 < D < 1) (HT : Rabs T < 1 + D).
Let V (x y : R) := (1 - D * D) * (x * x + y * y) - 2 * T * (1 - D) * x * y.
Let lo := (1 - D) * (1 + D - Rabs T).
Let hi := (1 - D) * (1 + D + Rabs T).
Lemma lo_pos : 0 < lo. Proof. apply Rmult_lt_0_compat; lra. Qed.
Lemma hi_pos : 0 < hi. Proof. pose proof (Rabs_pos T). apply Rmult_lt_0_compat; lra. Qed.
Lemma V_lo x y : lo * (x * x + y * y) <= V x y.
Proof.
  pose proof (Rabs_xy x y T) as A. assert (B : (1 - D) * (2 * T * x * y) <= (1 - D) * (Rabs T * (x * x + y * y))) by (apply Rmult_le_compat_l; lra). unfold V, lo. lra.
Qed.
Lemma V_hi x y : V x y <= hi * (x * x + y * y).
Proof.
  pose proof (Rabs_xy x y (- T)) as A. rewrite Rabs_Ropp in A.
  assert (B : (1 - D) * (2 * - T * x * y) <= (1 - D) * (Rabs T * (x * x + y * y))) by (apply Rmult_le_compat_l; lra). unfold V, hi. lra.
Qed.
Lemma V_step x y : V y (T * y - D * x) = V x y - (1 - D) * (1 - D) * ((T * y - D * x - x) * (T * y - D * x - x)).
Proof. unfold V. ring. Qed.
Let lose := (1 + D - Rabs T) * (1 + D - Rabs T) / (3 + 2 * (T * T)).
Lemma lose_pos : 0 < lose.
Proof. assert (0 <= T * T) by apply Rle_0_sqr. unfold lose. apply Rdiv_lt_0_compat; [apply Rmult_lt_0_compat; lra|lra]. Qed.
Lemma moved x y : let w := T * y - D * x in let w' := T * w - D * y in lose * (x * x + y * y) <= (w - x) * (w - x) + (w' - y) * (w' - y).
Proof.
  intros w w'. set (a := w - x). set (b := w' - y). assert (HT2 : 0 <= T * T) by apply Rle_0_sqr. assert (Ha : 0 <= a * a) by apply Rle_0_sqr. assert (Hb : 0 <= b * b) by apply Rle_0_sqr.
  assert (Ea : a = T * y - (1 + D) * x) by (unfold a, w; ring). assert (Ee : b + - T * a = T * x - (1 + D) * y) by (unfold b, w', a; ring).
  pose proof (sqr_sum b (- T * a)) as A. rewrite Ee in A. pose proof (Rabs_xy x y T) as X.
  assert (B : (1 + D - Rabs T) * (1 + D - Rabs T) * (x * x + y * y) <= a * a + (T * x - (1 + D) * y) * (T * x - (1 + D) * y)).
  { rewrite Ea.
    assert (Q : Rabs T * Rabs T = T * T) by (unfold Rabs; destruct (Rcase_abs T); ring).
    assert (P : 2 * (1 + D) * (2 * T * x * y) <= 2 * (1 + D) * (Rabs T * (x * x + y * y))) by (apply Rmult_le_compat_l; lra).
    replace ((1 + D - Rabs T) * (1 + D - Rabs T) * (x * x + y * y)) with (((1 + D) * (1 + D) + Rabs T * Rabs T) * (x * x + y * y) - 2 * (1 + D) * (Rabs T * (x * x + y * y))) by ring. rewrite Q. lra. }
  unfold lose. assert (C : (1 + D - Rabs T) * (1 + D - Rabs T) * (x * x + y * y) <= (3 + 2 * (T * T)) * (a * a + b * b)).
  { replace (- T * a * (- T * a)) with (T * T * (a * a)) in A by ring. assert (0 <= T * T * (b * b)) by (apply Rmult_le_pos; lra). lra. }
  replace ((1 + D - Rabs T) * (1 + D - Rabs T) / (3 + 2 * (T * T)) * (x * x + y * y)) with ((1 + D - Rabs T) * (1 + D - Rabs T) * (x * x + y * y) / (3 + 2 * (T * T))) by (field; lra).
  apply Rmult_le_reg_r with (3 + 2 * (T * T)); [lra|]. replace ((1 + D - Rabs T) * (1 + D - Rabs T) * (x * x + y * y) / (3 + 2 * (T * T)) * (3 + 2 * (T * T))) with ((1 + D - Rabs T) * (1 + D - Rabs T) * (x * x + y * y)) by (field; lra). lra.
Qed.
Let r := Rmax 0 (1 - (1 - D) * (1 - D) * lose / hi).
Let rho := (1 + r) / 2.
Lemma rho_ok : 1 / 2 <= rho /\ rho < 1 /\ r <= rho * rho.
Proof.
  assert (0 <= r) by apply Rmax_l.
  assert (r < 1). { unfold r. apply Rmax_lub_lt; [lra|]. pose proof lose_pos. pose proof hi_pos. assert (0 < (1 - D) * (1 - D) * lose / hi) by (apply Rdiv_lt_0_compat; [apply Rmult_lt_0_compat; [apply Rmult_lt_0_compat|]|]; lra). lra. }
  unfold rho. repeat split; try lra. assert (0 <= (1 - r) * (1 - r)) by apply Rle_0_sqr. lra.
Qed.
Lemma V_pos x y : 0 <= V x y.
Proof. eapply Rle_trans; [|apply V_lo]. apply Rmult_le_pos; [left; apply lo_pos|]. pose proof (Rle_0_sqr x). pose proof (Rle_0_sqr y). unfold Rsqr in *. lra. Qed.
Lemma V_two x y : let w := T * y - D * x in V w (T * w - D * y) <= rho * rho * V x y.
Proof.
  intros w. pose proof (V_step y w) as E2. fold w in E2. rewrite E2. unfold w at 1. rewrite V_step. fold w.
  pose proof (moved x y) as M. cbv zeta in M. fold w in M. pose proof (V_hi x y) as H. pose proof hi_pos as HP. pose proof lose_pos as LP. pose proof (V_pos x y) as VP.
  assert (K : (1 - D) * (1 - D) * lose / hi * V x y <= (1 - D) * (1 - D) * (lose * (x * x + y * y))).
  { replace ((1 - D) * (1 - D) * (lose * (x * x + y * y))) with ((1 - D) * (1 - D) * lose / hi * (hi * (x * x + y * y))) by (field; lra). apply Rmult_le_compat_l; [|exact H].
    left. apply Rdiv_lt_0_compat; [apply Rmult_lt_0_compat; [apply Rmult_lt_0_compat|]|]; lra. }
  assert (K2 : (1 - D) * (1 - D) * (lose * (x * x + y * y)) <= (1 - D) * (1 - D) * ((w - x) * (w - x) + (T * w - D * y - y) * (T * w - D * y - y))) by (apply Rmult_le_compat_l; [apply Rle_0_sqr|exact M]).
  destruct rho_ok as (_ & _ & R2).
  assert (K3 : (1 - (1 - D) * (1 - D) * lose / hi) * V x y <= rho * rho * V x y) by (apply Rmult_le_compat_r; [exact VP|]; eapply Rle_trans; [|exact R2]; apply Rmax_r).
  lra.
Qed.
Lemma shrinks : exists C rho, 0 <= C /\ 0 <= rho < 1 /\ forall x : nat -> R, (forall n, x (S (S n)) = T * x (S n) - D * x n) -> forall n, x n * x n <= C * rho ^ n * (x 0%nat * x 0%nat + x 1%nat * x 1%nat).
Proof.
  destruct rho_ok as (R1 & R2 & _). pose proof lo_pos as LP. pose proof hi_pos as HP.
  exists (2 * hi / lo), rho. split; [left; apply Rdiv_lt_0_compat; lra|]. split; [lra|]. intros x Hx.
  assert (G : forall n, V (x n) (x (S n)) <= 2 * rho ^ n * V (x 0%nat) (x 1%nat) /\ V (x (S n)) (x (S (S n))) <= 2 * rho ^ S n * V (x 0%nat) (x 1%nat)).
  { pose proof (V_pos (x 0%nat) (x 1%nat)) as VP. induction n as [|n [IH1 IH2]].
    - split; cbn [pow]; [lra|]. rewrite (Hx 0%nat), V_step. assert (0 <= (1 - D) * (1 - D) * ((T * x 1%nat - D * x 0%nat - x 0%nat) * (T * x 1%nat - D * x 0%nat - x 0%nat))) by (apply Rmult_le_pos; apply Rle_0_sqr).
      assert (1 * V (x 0%nat) (x 1%nat) <= 2 * rho * V (x 0%nat) (x 1%nat)) by (apply Rmult_le_compat_r; lra). lra.
    - split; [exact IH2|]. rewrite (Hx (S n)), (Hx n). eapply Rle_trans; [apply V_two|].
      assert (rho * rho * V (x n) (x (S n)) <= rho * rho * (2 * rho ^ n * V (x 0%nat) (x 1%nat))) by (apply Rmult_le_compat_l; [apply Rle_0_sqr|exact IH1]). cbn [pow]. lra. }
  intros n. destruct (G n) as [A _]. pose proof (V_lo (x n) (x (S n))) as B. pose proof (V_hi (x 0%nat) (x 1%nat)) as C.
  assert (P : 0 < rho ^ n) by (apply pow_lt; lra). assert (S2 : 0 <= x (S n) * x (S n)) by apply Rle_0_sqr.
  assert (E : lo * (x n * x n) <= 2 * rho ^ n * (hi * (x 0%nat * x 0%nat + x 1%nat * x 1%nat))).
  { assert (2 * rho ^ n * V (x 0%nat) (x 1%nat) <= 2 * rho ^ n * (hi * (x 0%nat * x 0%nat + x 1%nat * x 1%nat))) by (apply Rmult_le_compat_l; lra).
    assert (0 <= lo * (x (S n) * x (S n))) by (apply Rmult_le_pos; lra). lra. }
  apply Rmult_le_reg_l with lo; [exact LP|]. replace (lo * (2 * hi / lo * rho ^ n * (x 0%nat * x 0%nat + x 1%nat * x 1%nat))) with (2 * rho ^ n * (hi * (x 0%nat * x 0%nat + x 1%nat * x 1%nat))) by (field; lra). exact E.
Qed.
End Two.

(** ** maps of pairs *)
Section Map.
Variables (a b c d : R).
Definition lin (x : R * R) : R * R := (a * fst x + b * snd x, c * fst x + d * snd x).
Lemma lin_two x : let y := lin x in let z := lin y in fst z = (a + d) * fst y - (a * d - b * c) * fst x /\ snd z = (a + d) * snd y - (a * d - b * c) * snd x.
Proof. destruct x. cbn. split; ring. Qed.
Lemma lin_shrinks : -1 < a * d - b * c < 1 -> Rabs (a + d) < 1 + (a * d - b * c) -> exists C rho, 0 <= C /\ 0 <= rho < 1 /\ forall n x, stir (Nat.iter n lin x) <= C * rho ^ n * stir x.
Proof.
  intros HD HT. destruct (shrinks _ _ HD HT) as (C & rho & HC & HR & H).
  exists (C * (2 + (a * a + b * b) + (c * c + d * d))), rho. split.
  { apply Rmult_le_pos; [exact HC|]. pose proof (Rle_0_sqr a). pose proof (Rle_0_sqr b). pose proof (Rle_0_sqr c). pose proof (Rle_0_sqr d). unfold Rsqr in *. lra. }
  split; [exact HR|]. intros n x.
  pose proof (H (fun n => fst (Nat.iter n lin x)) (fun n => proj1 (lin_two (Nat.iter n lin x))) n) as H1. pose proof (H (fun n => snd (Nat.iter n lin x)) (fun n => proj2 (lin_two (Nat.iter n lin x))) n) as H2.
  cbn beta in H1, H2. change (Nat.iter 0 lin x) with x in H1, H2. change (Nat.iter 1 lin x) with (lin x) in H1, H2.
  pose proof (sqr_dot a b (fst x) (snd x)) as S1. pose proof (sqr_dot c d (fst x) (snd x)) as S2. unfold stir. cbn [lin fst snd] in H1, H2.
  assert (P : 0 <= C * rho ^ n) by (apply Rmult_le_pos; [exact HC|apply pow_le; lra]).
  set (g := fst x) in *. set (u := snd x) in *. set (k := C * rho ^ n) in *.
  replace (C * (2 + (a * a + b * b) + (c * c + d * d)) * rho ^ n * (g * g + u * u)) with (k * ((2 + (a * a + b * b) + (c * c + d * d)) * (g * g + u * u))) by (unfold k; ring).
  assert (Q1 : k * ((a * g + b * u) * (a * g + b * u)) <= k * ((a * a + b * b) * (g * g + u * u))) by (apply Rmult_le_compat_l; lra).
  assert (Q2 : k * ((c * g + d * u) * (c * g + d * u)) <= k * ((c * c + d * d) * (g * g + u * u))) by (apply Rmult_le_compat_l; lra).
  assert (Q3 : 0 <= k * (g * g + u * u)) by (apply Rmult_le_pos; [exact P|]; pose proof (Rle_0_sqr g); pose proof (Rle_0_sqr u); unfold Rsqr in *; lra).
  lra.
Qed.
(** ** maps that do not shrink *)
Lemma stir_pos x : x <> (0, 0) -> 0 < stir x.
Proof.
  destruct x as [g u]. intros N. unfold stir. cbn [fst snd]. destruct (Req_dec g 0) as [->|Hg]; [destruct (Req_dec u 0) as [->|Hu]; [now elim N|]|].
  - assert (0 < u * u) by (apply Rsqr_pos_lt in Hu; exact Hu). lra.
  - assert (0 < g * g) by (apply Rsqr_pos_lt in Hg; exact Hg). pose proof (Rle_0_sqr u). unfold Rsqr in *. lra.
Qed.
Lemma eigen l : l * l - (a + d) * l + (a * d - b * c) = 0 -> 1 <= l * l -> exists x, 0 < stir x /\ forall n, stir x <= stir (Nat.iter n lin x).
Proof.
  intros E HL.
  assert (X : exists x, x <> (0, 0) /\ lin x = (l * fst x, l * snd x)).
  { unfold lin. destruct (Req_dec b 0) as [Hb|Hb]; [destruct (Req_dec (l - a) 0) as [Ha|Ha]; [destruct (Req_dec (l - d) 0) as [Hd|Hd]|]|].
    - (* l = a = d, b = 0 *) exists (0, 1). split; [intros [=]; lra|]. cbn. rewrite Hb. f_equal; nra.
    - exists (l - d, c). split; [intros [=]; lra|]. cbn. rewrite Hb. f_equal; [replace a with l by lra|]; ring.
    - exists (0, 1). split; [intros [=]; lra|]. cbn. rewrite Hb in *. assert ((l - a) * (l - d) = 0) by lra. apply Rmult_integral in H. f_equal; [ring|]. destruct H; [lra|]. lra.
    - exists (b, l - a). split; [intros [=]; lra|]. cbn. f_equal; [ring|]. lra. }
  destruct X as (x & NX & HX). exists x. split; [now apply stir_pos|].
  assert (I : forall n, Nat.iter n lin x = (l ^ n * fst x, l ^ n * snd x)).
  { induction n as [|n IH]; [cbn; destruct x; cbn; f_equal; ring|]. change (Nat.iter (S n) lin x) with (lin (Nat.iter n lin x)). rewrite IH.
    unfold lin in *. injection HX as H1 H2. cbn [fst snd pow]. f_equal.
    - replace (a * (l ^ n * fst x) + b * (l ^ n * snd x)) with (l ^ n * (a * fst x + b * snd x)) by ring. rewrite H1. ring.
    - replace (c * (l ^ n * fst x) + d * (l ^ n * snd x)) with (l ^ n * (c * fst x + d * snd x)) by ring. rewrite H2. ring. }
  intros n. rewrite I. unfold stir. cbn [fst snd]. replace (l ^ n * fst x * (l ^ n * fst x) + l ^ n * snd x * (l ^ n * snd x)) with ((l * l) ^ n * (fst x * fst x + snd x * snd x)) by (rewrite Rpow_mult_distr; ring).
  assert (1 <= (l * l) ^ n) by (now apply pow_R1_Rle). pose proof (Rle_0_sqr (fst x)). pose proof (Rle_0_sqr (snd x)). unfold Rsqr in *.
  rewrite <- (Rmult_1_l (fst x * fst x + snd x * snd x)) at 1. apply Rmult_le_compat_r; lra.
Qed.
Lemma turns_on : (a + d) * (a + d) < 4 * (a * d - b * c) -> 1 <= a * d - b * c -> exists x k, 0 < k /\ 0 < stir x /\ forall n, k <= stir (Nat.iter n lin x).
Proof.
  intros HC HD. set (N := fun x : R * R => c * (fst x * fst x) + (d - a) * (fst x * snd x) - b * (snd x * snd x)).
  assert (NS : forall x, N (lin x) = (a * d - b * c) * N x) by (intros [g u]; unfold N, lin; cbn [fst snd]; ring).
  assert (NI : forall n x, N (Nat.iter n lin x) = (a * d - b * c) ^ n * N x).
  { induction n as [|n IH]; intros x; [cbn; ring|]. change (Nat.iter (S n) lin x) with (lin (Nat.iter n lin x)). rewrite NS, IH. cbn [pow]. ring. }
  set (K := Rabs c + Rabs (d - a) + Rabs b + 1).
  assert (NK : forall x, Rabs (N x) <= K * stir x).
  { intros [g u]. unfold N, stir, K. cbn [fst snd]. pose proof (Rle_0_sqr g) as Sg. pose proof (Rle_0_sqr u) as Su. unfold Rsqr in *.
    pose proof (Rabs_pos c) as Pc. pose proof (Rabs_pos (d - a)) as Pd. pose proof (Rabs_pos b) as Pb.
    assert (X : Rabs (g * u) <= g * g + u * u). { apply Rabs_le. assert (0 <= (g + u) * (g + u)) by apply Rle_0_sqr. assert (0 <= (g - u) * (g - u)) by apply Rle_0_sqr. split; lra. }
    eapply Rle_trans; [apply Rabs_triang|]. rewrite Rabs_Ropp, (Rabs_mult b), (Rabs_pos_eq (u * u) Su).
    eapply Rle_trans; [apply Rplus_le_compat_r, Rabs_triang|]. rewrite !(Rabs_mult c), (Rabs_mult (d - a)), (Rabs_pos_eq (g * g) Sg).
    assert (Rabs (d - a) * Rabs (g * u) <= Rabs (d - a) * (g * g + u * u)) by (apply Rmult_le_compat_l; lra).
    assert (0 <= Rabs c * (u * u)) by (apply Rmult_le_pos; lra). assert (0 <= Rabs b * (g * g)) by (apply Rmult_le_pos; lra). lra. }
  assert (KP : 0 < K) by (unfold K; pose proof (Rabs_pos c); pose proof (Rabs_pos (d - a)); pose proof (Rabs_pos b); lra).
  assert (C0 : c <> 0). { intros E. rewrite E in HC. assert (0 <= (a - d) * (a - d)) by apply Rle_0_sqr. lra. }
  exists (1, 0), (Rabs c / K). assert (Nc : Rabs (N (1, 0)) = Rabs c) by (unfold N; cbn [fst snd]; f_equal; ring).
  split; [apply Rdiv_lt_0_compat; [now apply Rabs_pos_lt|exact KP]|]. split; [unfold stir; cbn; lra|]. intros n.
  pose proof (NK (Nat.iter n lin (1, 0))) as H. rewrite NI, Rabs_mult, Nc in H.
  assert (P : 1 <= Rabs ((a * d - b * c) ^ n)) by (eapply Rle_trans; [|apply Rle_abs]; now apply pow_R1_Rle).
  assert (Q : Rabs c <= K * stir (Nat.iter n lin (1, 0))). { eapply Rle_trans; [|exact H]. rewrite <- (Rmult_1_l (Rabs c)) at 1. apply Rmult_le_compat_r; [apply Rabs_pos|exact P]. }
  apply Rmult_le_reg_l with K; [exact KP|]. replace (K * (Rabs c / K)) with (Rabs c) by (field; lra). exact Q.
Qed.
Lemma lin_lasts : ~ (-1 < a * d - b * c < 1 /\ Rabs (a + d) < 1 + (a * d - b * c)) -> exists x k, 0 < k /\ 0 < stir x /\ forall n, k <= stir (Nat.iter n lin x).
Proof.
  intros HN. set (T := a + d) in *. set (D := a * d - b * c) in *.
  destruct (Rlt_le_dec (T * T) (4 * D)) as [HC|HC].
  - destruct (Rlt_le_dec D 1) as [H1|H1]; [|now apply turns_on]. exfalso. apply HN.
    assert (0 <= T * T) by apply Rle_0_sqr. split; [lra|].
    rewrite <- (Rabs_pos_eq (1 + D)) by lra. apply Rsqr_lt_abs_0. unfold Rsqr. assert (0 <= (1 - D) * (1 - D)) by apply Rle_0_sqr. lra.
  - set (s := sqrt (T * T - 4 * D)). assert (S2 : s * s = T * T - 4 * D) by (apply sqrt_sqrt; lra).
    set (l1 := (T + s) / 2). set (l2 := (T - s) / 2).
    assert (R1 : l1 * l1 - T * l1 + D = 0) by (unfold l1; replace ((T + s) / 2 * ((T + s) / 2) - T * ((T + s) / 2) + D) with ((s * s - (T * T - 4 * D)) / 4) by field; rewrite S2; field).
    assert (R2 : l2 * l2 - T * l2 + D = 0) by (unfold l2; replace ((T - s) / 2 * ((T - s) / 2) - T * ((T - s) / 2) + D) with ((s * s - (T * T - 4 * D)) / 4) by field; rewrite S2; field).
    destruct (Rle_dec 1 (l1 * l1)) as [L1|L1]; [destruct (eigen l1 R1 L1) as (x & P & Q); exists x, (stir x); auto|].
    destruct (Rle_dec 1 (l2 * l2)) as [L2|L2]; [destruct (eigen l2 R2 L2) as (x & P & Q); exists x, (stir x); auto|].
    exfalso. apply HN. assert (B : forall l, ~ 1 <= l * l -> -1 < l < 1).
    { intros l Hl. split; apply Rnot_le_lt; intros Hx; apply Hl; [replace (l * l) with (- l * - l) by ring|]; rewrite <- (Rmult_1_l 1) at 1; apply Rmult_le_compat; lra. }
    destruct (B _ L1) as [A1 A2]. destruct (B _ L2) as [B1 B2]. assert (ES : T = l1 + l2) by (unfold l1, l2; field).
    assert (EP : D = l1 * l2). { unfold l1, l2. replace ((T + s) / 2 * ((T - s) / 2)) with ((T * T - s * s) / 4) by field. rewrite S2. field. }
    assert (P1 : 0 < (1 - l1) * (1 - l2)) by (apply Rmult_lt_0_compat; lra). assert (P2 : 0 < (1 + l1) * (1 + l2)) by (apply Rmult_lt_0_compat; lra).
    assert (P3 : 0 < (1 + l1) * (1 - l2)) by (apply Rmult_lt_0_compat; lra). assert (P4 : 0 < (1 - l1) * (1 + l2)) by (apply Rmult_lt_0_compat; lra).
    split; [lra|]. apply Rabs_def1; lra.
Qed.
End Map.

(** ** springs and dampers *)
Lemma iter_ext {A} (f g : A -> A) n x : (forall x, f x = g x) -> Nat.iter n f x = Nat.iter n g x.
Proof. intros H. induction n as [|n IH]; [reflexivity|]. change (f (Nat.iter n f x) = g (Nat.iter n g x)). now rewrite IH, H. Qed.
Lemma swing_lin z ks kd h : exists a b c d, (forall x, swing z ks kd h x = lin a b c d x) /\ (calms z ks kd h <-> -1 < a * d - b * c < 1 /\ Rabs (a + d) < 1 + (a * d - b * c)).
Proof.
  assert (AB : forall x y : R, Rabs x < y <-> - y < x < y).
  { intros x y. split; [intros H; apply Rabs_def2 in H; lra|]. intros [H1 H2]. apply Rabs_def1; lra. }
  destruct z.
  - exists (1 - ks * (h * h)), (h - kd * h * h), (- ks * h), (1 - kd * h). split.
    + intros [g u]. unfold swing, lin. cbn [fst snd]. f_equal; ring.
    + rewrite AB. unfold calms. replace ((1 - ks * (h * h)) * (1 - kd * h) - (h - kd * h * h) * (- ks * h)) with (1 - kd * h) by ring. split; intros; lra.
  - exists 1, h, (- ks * h), (1 - kd * h). split.
    + intros [g u]. unfold swing, lin. cbn [fst snd]. f_equal; ring.
    + rewrite AB. unfold calms. replace (1 * (1 - kd * h) - h * (- ks * h)) with (1 - kd * h + ks * (h * h)) by ring. split; intros; lra.
Qed.
Lemma swing_calms z ks kd h : calms z ks kd h -> exists C rho, 0 <= C /\ 0 <= rho < 1 /\ forall n x, stir (Nat.iter n (swing z ks kd h) x) <= C * rho ^ n * stir x.
Proof.
  intros H. destruct (swing_lin z ks kd h) as (a & b & c & d & E & I). apply I in H. destruct (lin_shrinks a b c d (proj1 H) (proj2 H)) as (C & rho & A & B & X).
  exists C, rho. split; [exact A|]. split; [exact B|]. intros n x. rewrite (iter_ext _ _ n x E). apply X.
Qed.
Lemma swing_lasts z ks kd h : ~ calms z ks kd h -> exists x k, 0 < k /\ 0 < stir x /\ forall n, k <= stir (Nat.iter n (swing z ks kd h) x).
Proof.
  intros H. destruct (swing_lin z ks kd h) as (a & b & c & d & E & I). destruct (lin_lasts a b c d) as (x & k & A & B & X); [intros G; now apply H, I|].
  exists x, k. split; [exact A|]. split; [exact B|]. intros n. rewrite (iter_ext _ _ n x E). apply X.
Qed.
