(** * Angular momentum of one step. *)

From Coq Require Import Reals Lra.
From Verif Require Import Base Targets Matrix Sparse Sle State Ode Forces Constraints System Logic
  SpecMatrix SpecSle SleHist SpecState StateFacts SpecOde OdeFacts SpecForces SpecCon ConFacts SpecSys RegFacts SysFrame SysInv SysColumn SpecDyn DynState DynReact DynRound DynStep
  SpecLimits DynLimits SpecSolve RealSum SolveReal SolveStep SpecLaw LawReal LawStep SpecMom MomForce MomStep.
Local Open Scope nat_scope.

Section R.
Context {dbg : bool}.
Notation T := (RT dbg).
Notation cl := (cell T).
Implicit Types (w : world T) (y : sys T) (K : kin T).

Ltac small r := first [exfalso; lia|destruct r as [|r]; [|small r]].
Lemma row_lever w kc (q : nat -> nat -> R) c x : inner (kc c) -> c_bodycount (w_con w c) = parties (kc c) ->
  Rsum (rows (kc c)) (fun j => x j * along w (fun c j i => J_of (kc c) (pose_at w q c) j i) (lever q) c j)%R = twist (kc c) (pose_at w q c) x.
Proof.
  intros HI Ep. unfold along. rewrite Ep.
  destruct (kc c); cbn [inner] in HI; try contradiction; cbn [rows parties twist Rsum J_of nth Nat.mul Nat.add lever]; unfold at_x, at_y, world_x, world_y;
    cbn [pose_at q_x q_y q_th]; ring.
Qed.
Lemma rows_lever w y kc (q : nat -> nat -> R) x : kinds_are w y kc -> (forall c, In c (y_cons y) -> inner (kc c)) ->
  Lsum (row_list w y) (fun '(c, j) => x c j * along w (fun c j i => J_of (kc c) (pose_at w q c) j i) (lever q) c j)%R =
  Lsum (y_cons y) (fun c => twist (kc c) (pose_at w q c) (x c)).
Proof.
  intros HK HI. unfold row_list. rewrite Lsum_flat. apply Lsum_ext. intros c Hc. destruct (HK c Hc) as (_ & Er & Ep).
  rewrite Lsum_map, Lsum_seq, Er. rewrite <- (row_lever w kc q c (x c) (HI c Hc) Ep). apply Rsum_ext. intros j _. reflexivity.
Qed.

Lemma kin_unique y K q v q' v' : kin_is y K q v -> kin_is y K q' v' -> forall b d, In b (y_bodies y) -> d < 3 -> q b d = q' b d /\ v b d = v' b d.
Proof.
  intros A B b d Hb Hd. destruct (A b d Hb Hd) as [A1 A2], (B b d Hb Hd) as [B1 B2]. rewrite A1 in B1. rewrite A2 in B2.
  injection B1 as <-. injection B2 as <-. auto.
Qed.
Lemma spin_ext y M q v q' v' : (forall b d, In b (y_bodies y) -> d < 3 -> q b d = q' b d /\ v b d = v' b d) -> spin_momentum y M q v = spin_momentum y M q' v'.
Proof.
  intros H. apply Lsum_ext. intros b Hb. destruct (H b 0 Hb ltac:(lia)) as [-> ->], (H b 1 Hb ltac:(lia)) as [-> ->], (H b 2 Hb ltac:(lia)) as [_ ->]. reflexivity.
Qed.
Lemma same_mass w y q v M b : bodies_are w y q v M -> In b (y_bodies y) -> M b 1 = M b 0.
Proof. intros HB Hb. destruct (HB b 0 Hb ltac:(lia)) as (_ & _ & A & _), (HB b 1 Hb ltac:(lia)) as (_ & _ & B & _). pose proof (eq_trans (eq_sym B) (A : b_mass (w_body w b) 1 = _)) as C. now injection C. Qed.

Lemma round_spin w y (h : R) q v M kc e fc F K' :
  listed w y -> attached w y -> kinds_are w y kc -> (forall c, In c (y_cons y) -> inner (kc c)) -> bodies_are w y q v M ->
  (forall g, In g (y_gens y) -> outer_torque y M q (g_kind (w_gen w g)) (e g)) ->
  kicks Symplectic w y (Some h : cl) fc F (kin_of w) K' -> realK y K' -> forces_at w y (kin_of w) (Some h : cl) fc ->
  with_rows w y (Some h : cl) (fun _ _ => True) (kin_of w) fc F ->
  forall q' v', kin_is y K' q' v' ->
  exists x, forces_J w y (fun c j i => J_of (kc c) (pose_at w q c) j i) x F /\
    spin_momentum y M q' v' = (spin_momentum y M q v + h * (Lsum (y_cons y) (fun c => twist (kc c) (pose_at w q c) (x c)) + Lsum (y_gens y) e))%R.
Proof.
  intros HL HA HK HI HB HG [HN HM] HR HF HW q' v' K1.
  assert (K0 : kin_is y (kin_of w) q v) by (intros b d Hb Hd; destruct (HB b d Hb Hd) as (A & B & _); now split).
  destruct (outer_torques_push w y (kin_of w) h q v M e HL K0 (masses w y q v M HB) HG) as (f & HP & Hf).
  destruct (moves_back _ _ _ _ _ HM HR) as [_ Ha].
  destruct (HW (law_R w kc q v) (kinds_answer w y kc _ _ q v HL HA HK K0)) as (xc & _ & HX).
  set (x := fun c j => rp (xc c j)). set (J := fun c j i => J_of (kc c) (pose_at w q c) j i).
  assert (HJ : forces_J w y J x F).
  { intros c j k d Hc Hj Hk Hd. pose proof (newton_real w y fc F _ HA HN Ha c j k d Hc Hj Hk Hd) as X. rewrite (HX c j k d Hc Hj Hk Hd) in *.
    apply cmul_real in X. destruct X as [X _]. rewrite (rp_some _ X). cbn [law_R l_J]. rewrite mulR. f_equal. unfold x, J. ring. }
  exists x. split; [exact HJ|].
  assert (HN' : newton w y (fun b d => (Some (f b d) : cl)) F (k_a K')).
  { intros b d Hb Hd. rewrite (HN b d Hb Hd). rewrite (HF _ HP b d Hb Hd). reflexivity. }
  pose proof (kicks_J w y q v M HB Symplectic h f J x F K' HJ (conj HN' HM)) as EK. cbv zeta in EK.
  set (v1 := fun b d => (v b d + accel w y M f J x b d * h)%R) in *.
  assert (K1' : kin_is y K' (fun b d => q b d + v1 b d * h)%R v1).
  { intros b d Hb Hd. destruct (EK b d Hb Hd). split; assumption. }
  rewrite (spin_ext y M q' v' _ _ (kin_unique y K' _ _ _ _ K1 K1')).
  rewrite <- Hf, <- (rows_lever w y kc q x HK HI). fold J. rewrite <- (acts_along w y J x (lever q)) by (auto; eapply listed_nodup; eauto).
  rewrite <- Lsum_plus, <- Lsum_scal. unfold spin_momentum. rewrite <- Lsum_plus. apply Lsum_ext. intros b Hb.
  pose proof (same_mass w y q v M b HB Hb) as EM. unfold v1, torque, accel. cbn [Rsum lever].
  pose proof (proj2 (proj2 (proj2 (HB b 0 Hb ltac:(lia))))) as N0. pose proof (proj2 (proj2 (proj2 (HB b 2 Hb ltac:(lia))))) as N2. rewrite EM.
  field. split; assumption.
Qed.

Variable priv : nat -> bool.
Lemma divide1 (dt : R) : cdiv (Some dt : cl) (cofZ (Z.of_nat 1)) = (Some dt : cl).
Proof. exact (dt1 dt). Qed.
Lemma ends_kin w' y K q' v' : arrives w' y K -> ends w' y q' v' -> kin_is y K q' v' /\ realK y K.
Proof.
  intros HAr HE. assert (KE : kin_is y K q' v').
  { intros b d' Hb Hd'. destruct (HAr b d' Hb Hd') as [A1 A2], (HE b d' Hb Hd') as [B1 B2]. split; congruence. }
  split; [exact KE|]. intros b d' Hb Hd'. destruct (KE b d' Hb Hd') as [-> ->]. split; congruence.
Qed.
Lemma spin_law m (dt : R) t w y w' y' l q v M kc e q' v' :
  yreach Optimized priv m w y -> y_sle y = Some l -> supplied l -> attached w y -> kinds_are w y kc -> (forall c, In c (y_cons y) -> inner (kc c)) ->
  (forall g, In g (y_gens y) -> outer_torque y M q (g_kind (w_gen w g)) (e g)) -> body_count y <= 255 -> bodies_are w y q v M ->
  process Optimized (Some dt : cl) 1 t w y = Ok (w', y') -> ends w' y q' v' ->
  exists x, reportsR w w' y (fun d c j k => J_of (kc c) (pose_at w q c) j (3 * k + d)%nat * x c j)%R /\
    spin_momentum y M q' v' = (spin_momentum y M q v + dt * (Lsum (y_cons y) (fun c => twist (kc c) (pose_at w q c) (x c)) + Lsum (y_gens y) e))%R.
Proof.
  intros H El Hs HA HK HI HG H255 HB E HE. pose proof (reg_listed _ _ _ (yreach_reg _ _ _ _ _ H)) as HL.
  destruct (opt_rows_motion priv m (Some dt : cl) 1 t w y w' y' l H HA (kinds_shaped w y kc HK) (outer_torque_gentle w y M q e HG) H255 El Hs E) as (K & F & HM & HAr & HRe).
  cbv zeta in HM. rewrite divide1 in HM. destruct HM as (Ks & fs & Fs & E0 & E1 & HS & HF). destruct (ends_kin w' y K q' v' HAr HE) as [KE KR].
  destruct (HS 0 ltac:(lia)) as (A1 & A2 & A3). rewrite E0, E1 in *. specialize (HF ltac:(lia)). change (1 - 1) with 0 in HF.
  destruct (round_spin w y dt q v M kc e _ _ K HL HA HK HI HB HG A2 KR A1 A3 q' v' KE) as (x & HJ & HX).
  exists x. split; [|exact HX]. intros c j k d Hc Hj Hk Hd. rewrite (HRe c j k d Hc Hj Hk Hd), <- HF. now apply HJ.
Qed.
Lemma spin_conserved k m (dt : R) t w y w' y' l q v M kc q' v' :
  yreach k priv m w y -> uses k Symplectic y -> y_sle y = Some l -> supplied l -> attached w y -> kinds_are w y kc ->
  (forall c, In c (y_cons y) -> joint (kc c) /\ closed (kc c) (pose_at w q c)) ->
  (forall g, In g (y_gens y) -> exists r, inner_spring y r (g_kind (w_gen w g)) /\ sr_kd r = 0%R) -> body_count y <= 255 -> bodies_are w y q v M ->
  process k (Some dt : cl) 1 t w y = Ok (w', y') -> ends w' y q' v' ->
  spin_momentum y M q' v' = spin_momentum y M q v.
Proof.
  intros H HU El Hs HA HK HJ HG H255 HB E HE. pose proof (reg_listed _ _ _ (yreach_reg _ _ _ _ _ H)) as HL.
  assert (HI : forall c, In c (y_cons y) -> inner (kc c)) by (intros c Hc; destruct (HJ c Hc) as [A _]; destruct (kc c); cbn in *; tauto).
  assert (HG' : forall g, In g (y_gens y) -> outer_torque y M q (g_kind (w_gen w g)) 0%R) by (intros g Hg; destruct (HG g Hg) as (r & A & B); left; eauto).
  destruct (rows_motion priv k Symplectic m (Some dt : cl) 1 t w y w' y' l H HU HA (kinds_shaped w y kc HK) (kinds_parties w y kc HK) (outer_torque_gentle w y M q (fun _ => 0%R) HG') H255 El Hs E) as (K & F & HM & HAr).
  cbv zeta in HM. rewrite divide1 in HM. destruct HM as (Ks & fs & Fs & E0 & E1 & HS & HF). destruct (ends_kin w' y K q' v' HAr HE) as [KE KR].
  destruct (HS 0 ltac:(lia)) as (A1 & A2 & A3). rewrite E0, E1 in *.
  destruct (round_spin w y dt q v M kc (fun _ => 0%R) _ _ K HL HA HK HI HB HG' A2 KR A1 A3 q' v' KE) as (x & _ & HX). rewrite HX.
  rewrite Lsum_zero. rewrite (Lsum_ext (y_cons y) _ (fun _ => 0%R)); [rewrite Lsum_zero; ring|]. intros c Hc. destruct (HJ c Hc) as [A B].
  destruct (kc c); cbn [joint closed twist] in *; try contradiction; [|reflexivity]. destruct B as [B1 B2]. rewrite B1, B2. ring.
Qed.
End R.
