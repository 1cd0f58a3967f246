(** * The library's force generators give determinate forces. *)

From Coq Require Import Reals.
From Verif Require Import Base Targets Matrix Sparse Sle State Ode Forces Constraints System Logic SpecSle SpecState StateFacts SpecSys RegFacts SpecDyn
  ForceFacts DynState DynReact DynRound DynStep DynForce SpecSafe SafeCalc.
From Verif Require GeHist GsHist SysFrame SysInv.
Local Open Scope nat_scope.

Section S.
Context {tg : target}.
Hypothesis TA : total_arithmetic tg.
Implicit Types (w : world tg) (y : sys tg) (K : kin tg) (s : sstate tg).

Definition forces_set w y s : Prop := forall b d, In b (y_bodies y) -> d < 3 -> defined (frc w s b d).
Definition masses_set w y : Prop := forall b d, In b (y_bodies y) -> d < 3 -> defined (b_mass (w_body w b) d).

Lemma forced_frc w y K h s : listed w y -> presents w y K h s -> forced w y (frc w s) s.
Proof. intros HL HP i b d Eb Hd. eapply frc_ld; eauto. Qed.
Lemma forced_set w y K h s f : listed w y -> presents w y K h s -> forced w y f s ->
  (forall b d, In b (y_bodies y) -> d < 3 -> defined (f b d)) -> forces_set w y s.
Proof.
  intros HL HP HF HD b d Hb Hd. destruct (In_nth_error _ _ Hb) as [i Ei].
  pose proof (frc_ld w y K h s i b d HL HP Ei Hd) as X. rewrite (HF i b d Ei Hd) in X. injection X as <-. auto.
Qed.
(** a generator that keeps the forces determinate *)
Definition careful w y K h (g : gkind tg) : Prop := forall s, presents w y K h s -> forces_set w y s ->
  wp (gen_apply g (w_body w) s) (fun s' => presents w y K h s' /\ forces_set w y s').
Lemma effect_careful w y K h g E : listed w y -> gentle g -> effect w y K h g E ->
  (forall f, (forall b d, In b (y_bodies y) -> d < 3 -> defined (f b d)) -> forall b d, In b (y_bodies y) -> d < 3 -> defined (E f b d)) ->
  careful w y K h g.
Proof.
  intros HL Hg HE HD s HP HF. pose proof (HE s _ HP (forced_frc w y K h s HL HP)) as G. apply wp_ok in G. destruct G as (s' & Es & Fs).
  eapply wp_eq; [exact Es|]. pose proof (pc_elim _ _ _ Es (gen_apply_alters g (w_body w) s Hg)) as A.
  pose proof (presents_forces _ _ _ _ _ _ A HP) as P'. split; [exact P'|]. eapply forced_set; eauto.
Qed.

Ltac dd := repeat first [apply GeHist.defined_cofZ|assumption|apply GeHist.defined_add|apply GeHist.defined_sub|
  apply GeHist.defined_mul|apply GeHist.defined_opp|apply (defined_sin TA)|apply (defined_cos TA)|apply (defined_sqrt TA)|apply (defined_over TA)|
  apply GeHist.defined_abs|apply GeHist.defined_fmax|apply GeHist.defined_fmin].
Ltac params H := repeat (apply all_set_cons in H; let X := fresh "X" in destruct H as [X H]).

Lemma gravity_careful w y K h g : listed w y -> masses_set w y -> defined g -> careful w y K h (GGravity g).
Proof.
  intros HL HM Hg. apply (effect_careful w y K h _ (add_weight w g)); auto; [exact I|apply gravity_effect|].
  intros f HF b d Hb Hd. unfold add_weight. destruct d as [|[|]]; auto. pose proof (HM b 0 Hb ltac:(lia)) as X. cbn in X.
  pose proof (HF b 1 Hb ltac:(lia)). dd.
Qed.
Lemma static_careful w y K h p b0 : listed w y -> kin_set y K -> all_set [sf_fx p; sf_fy p; sf_px p; sf_py p] ->
  sf_body p = Some b0 -> In b0 (y_bodies y) -> careful w y K h (GStatic p).
Proof.
  intros HL HK HS Eb Hb. params HS. apply (effect_careful w y K h _ (add_point K p b0)); auto; [exact I|now apply static_force_effect|].
  intros f HF b d Hb' Hd. unfold add_point. destruct (Nat.eqb_spec b b0); [|auto]. subst b0. cbv zeta.
  pose proof (HK b 0 Hb ltac:(lia)) as (? & _). pose proof (HK b 1 Hb ltac:(lia)) as (? & _). pose proof (HK b 2 Hb ltac:(lia)) as (? & _).
  pose proof (HF b 0 Hb ltac:(lia)). pose proof (HF b 1 Hb ltac:(lia)). pose proof (HF b 2 Hb ltac:(lia)).
  destruct d as [|[|]]; dd.
Qed.
Lemma push_set w y K h s b0 px py fx fy : listed w y -> kin_set y K -> defined px -> defined py -> defined fx -> defined fy -> In b0 (y_bodies y) ->
  presents w y K h s -> forces_set w y s ->
  wp (st_apply_force s px py fx fy (b_index (w_body w b0))) (fun s' => presents w y K h s' /\ forces_set w y s').
Proof.
  intros HL HK D1 D2 D3 D4 Hb HP HF. set (p := {| sf_fx := fx; sf_fy := fy; sf_px := px; sf_py := py; sf_body := Some b0 |} : static_force tg).
  apply (static_careful w y K h p b0 HL HK); auto. cbn. intros x Hx. cbn in Hx. intuition subst; assumption.
Qed.
Lemma end_set w y K h s b px py : listed w y -> kin_set y K -> defined px -> defined py -> In b (y_bodies y) -> presents w y K h s ->
  exists x1 x2 x3 x4, spring_end (w_body w b) px py s = Ok (x1, x2, x3, x4) /\ defined x1 /\ defined x2 /\ defined x3 /\ defined x4.
Proof.
  intros HL HK D1 D2 Hb HP. destruct (In_nth_error _ _ Hb) as [i Ei]. unfold spring_end. rewrite (proj1 HL i b Ei).
  destruct (Z.eqb_spec (Z.of_nat i) (-1)); [lia|]. cbn [negb].
  destruct HP as (_ & _ & _ & _ & P). destruct (P i b Ei) as [_ Q].
  pose proof (Q 0 ltac:(lia)) as (Q0 & V0 & _). pose proof (Q 1 ltac:(lia)) as (Q1 & V1 & _). pose proof (Q 2 ltac:(lia)) as (Q2 & V2 & _).
  pose proof (HK b 0 Hb ltac:(lia)) as (? & ? & _). pose proof (HK b 1 Hb ltac:(lia)) as (? & ? & _). pose proof (HK b 2 Hb ltac:(lia)) as (? & ? & _).
  cbn [posf velf] in *. unfold st_velocity_at_point, st_local_to_world. rewrite Q0, Q1, Q2. cbn [bind]. rewrite V2. cbn [bind]. rewrite V0, V1. cbn [bind].
  do 4 eexists. split; [reflexivity|]. repeat split; dd.
Qed.
Lemma cle_set (a b : cell tg) : defined a -> defined b -> exists r, cle a b = Ok r.
Proof. destruct a, b; unfold defined; intros; try congruence. cbn. eauto. Qed.
Lemma spring_careful w y K h p : listed w y -> kin_set y K -> gen_set w y (GSpring p) -> careful w y K h (GSpring p).
Proof.
  intros HL HK [HS HB] s HP HF. params HS. cbn [gen_apply]. unfold spring_apply.
  destruct (sp_b1 p) as [b1|]; [|cbn; auto]. destruct (sp_b2 p) as [b2|]; [|cbn; auto]. destruct HB as [B1 B2]. cbv zeta.
  destruct (end_set w y K h s b1 (sp_p1x p) (sp_p1y p)) as (x1 & y1 & u1 & v1 & -> & ? & ? & ? & ?); auto. cbn [bind].
  destruct (end_set w y K h s b2 (sp_p2x p) (sp_p2y p)) as (x2 & y2 & u2 & v2 & -> & ? & ? & ? & ?); auto. cbn [bind].
  match goal with |- context [csqrt ?e] => assert (DL : defined (csqrt e)) by dd; generalize dependent (csqrt e) end. intros l DL.
  destruct (cle_set (clit 1 100 : cell tg) (cabs l)) as [far ->]; [unfold clit; dd|dd|]. cbn [bind].
  assert (G : forall z, defined z -> defined (if far then cdiv z l else cofZ 0 : cell tg)) by (intros; destruct far; dd).
  eapply wp_seq; [apply (push_set w y K h s b1); auto; [dd; apply G; dd|dd; apply G; dd]|]. intros s1 [P1 F1].
  apply (push_set w y K h s1 b2); auto; dd; apply G; dd.
Qed.
Lemma torque_set w y K h s b v : listed w y -> In b (y_bodies y) -> defined v -> presents w y K h s -> forces_set w y s ->
  wp (sto s Ft (b_index (w_body w b)) v) (fun s' => presents w y K h s' /\ forces_set w y s').
Proof.
  intros HL Hb Hv HP HF. destruct (In_nth_error _ _ Hb) as [i Ei]. rewrite (proj1 HL i b Ei).
  pose proof (frc_ld w y K h s i b 2 HL HP Ei ltac:(lia)) as X. cbn [frcf] in X.
  destruct (sto_spec s Ft (Z.of_nat i) v _ X) as (s' & E & L & _).
  eapply wp_eq; [exact E|]. pose proof (pc_elim _ _ _ E (SysInv.sto_alters isF s s Ft (Z.of_nat i) v eq_refl (SysInv.alters_refl isF s))) as A.
  pose proof (presents_forces _ _ _ _ _ _ A HP) as P'. split; [exact P'|]. intros b' d Hb' Hd.
  destruct (In_nth_error _ _ Hb') as [j Ej]. pose proof (frc_ld w y K h s' j b' d HL P' Ej Hd) as Y. pose proof (frc_ld w y K h s j b' d HL HP Ej Hd) as Y0.
  rewrite L in Y. destruct (fld_eqb (frcf d) Ft && Z.eqb (Z.of_nat j) (Z.of_nat i))%bool; [injection Y as <-; exact Hv|].
  rewrite Y0 in Y. injection Y as <-. now apply HF.
Qed.
Lemma motor_careful w y K h p : listed w y -> kin_set y K -> gen_set w y (GMotor p) -> careful w y K h (GMotor p).
Proof.
  intros HL HK (HS & (b0 & E0 & H0) & b1 & E1 & H1) s HP HF. params HS. cbn [gen_apply]. unfold motor_apply. rewrite E0, E1. cbn [deref bind].
  assert (R : forall b, In b (y_bodies y) -> b_index (w_body w b) <> (-1)%Z /\ ld s Fvtheta (b_index (w_body w b)) = Ok (k_v K b 2) /\ ld s Fatheta (b_index (w_body w b)) = Ok (k_a K b 2)).
  { intros b Hb. destruct (In_nth_error _ _ Hb) as [i Ei]. rewrite (proj1 HL i b Ei). split; [lia|].
    destruct HP as (_ & _ & _ & _ & P). destruct (P i b Ei) as [_ Q]. destruct (Q 2 ltac:(lia)) as (_ & A & B). auto. }
  assert (TT : forall s b, In b (y_bodies y) -> presents w y K h s -> forces_set w y s -> ld s Ft (b_index (w_body w b)) = Ok (frc w s b 2)).
  { intros s' b Hb P' _. destruct (In_nth_error _ _ Hb) as [i Ei]. rewrite (proj1 HL i b Ei). exact (frc_ld w y K h s' i b 2 HL P' Ei ltac:(lia)). }
  assert (G : exists v1 a1, (if Z.eqb (b_index (w_body w b0)) (-1) then Ok (cofZ 0, cofZ 0) else
      let* v := ld s Fvtheta (b_index (w_body w b0)) in let* a := ld s Fatheta (b_index (w_body w b0)) in Ok (v, a)) = Ok (v1, a1) /\ defined v1 /\ defined a1).
  { destruct (Z.eqb_spec (b_index (w_body w b0)) (-1)) as [Z0|N0].
    - do 2 eexists. split; [reflexivity|]. split; dd.
    - destruct H0 as [H0|H0]; [|contradiction]. destruct (R b0 H0) as (_ & -> & ->). cbn [bind]. pose proof (HK b0 2 H0 ltac:(lia)) as (_ & ? & ?).
      do 2 eexists. split; [reflexivity|]. split; dd. }
  destruct G as (v1 & a1 & -> & DV & DA). cbn [bind]. destruct (R b1 H1) as (_ & -> & ->). cbn [bind].
  pose proof (HK b1 2 H1 ltac:(lia)) as (_ & ? & ?).
  match goal with |- context [cfmin ?a ?e] => assert (DL : defined (cfmin a e)) by dd; generalize dependent (cfmin a e) end. intros l DL.
  eapply (wp_seq _ _ (fun s' => presents w y K h s' /\ forces_set w y s')).
  - destruct (Z.eqb_spec (b_index (w_body w b0)) (-1)) as [Z0|N0]; cbn [negb]; [cbn; auto|]. destruct H0 as [H0|H0]; [|contradiction].
    rewrite (TT s b0 H0 HP HF). cbn [bind]. apply torque_set; auto. pose proof (HF b0 2 H0 ltac:(lia)). dd.
  - intros s1 [P1 F1]. unfold sto_add. rewrite (TT s1 b1 H1 P1 F1). cbn [bind]. apply torque_set; auto. pose proof (F1 b1 2 H1 ltac:(lia)). dd.
Qed.

Lemma gens_gentle w y : (forall g, In g (y_gens y) -> gen_set w y (g_kind (w_gen w g))) -> all_gentle w y.
Proof. intros H g Hg. specialize (H g Hg). destruct (g_kind (w_gen w g)); cbn in *; auto; contradiction. Qed.
(** processForces *)
Lemma process_forces_set w y K h s : listed w y -> kin_set y K -> masses_set w y ->
  (forall g, In g (y_gens y) -> gen_set w y (g_kind (w_gen w g))) -> presents w y K h s ->
  wp (process_forces w y s) (fun s' => presents w y K h s' /\ forces_set w y s').
Proof.
  intros HL HK HM HG HP. unfold process_forces.
  eapply wp_seq; [apply (reset_forced w y K h s HP)|]. intros s1 [A1 F1]. pose proof (presents_forces _ _ _ _ _ _ A1 HP) as P1.
  apply (for_inv _ (fun _ s' => presents w y K h s' /\ forces_set w y s')).
  - split; [exact P1|]. eapply forced_set; eauto. intros; dd.
  - intros i t Hi [Pt Ft]. destruct (nth_error_ex (y_gens y) i Hi) as [g Eg]. rewrite Eg. cbn [lift_opt bind].
    pose proof (HG g (nth_error_In _ _ Eg)) as GS. 
    assert (C : careful w y K h (g_kind (w_gen w g))).
    { destruct (g_kind (w_gen w g)) as [x|p|p|p|]; [apply gravity_careful|destruct GS as (GS & b & Eb & Hb); eapply static_careful; eauto|apply spring_careful|apply motor_careful|destruct GS]; auto. }
    apply C; auto.
  - auto.
Qed.
End S.
