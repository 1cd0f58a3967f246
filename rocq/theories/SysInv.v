(** * Invariants of reachable rigid body systems: well-formed matrices, arrays
      of the right sizes, the solver's objects apart from the system's. *)

From Coq Require Import Reals.
From Verif Require Import Base Targets Matrix Sparse Sle State Ode Forces Constraints System Logic
  MatrixFacts MatrixOps SpecMatrix MatrixHist SparseFacts SpecSparse SparseHist SpecSle SleHist SleGe
  SpecState StateFacts OdeFacts SpecSys SysFrame.
Local Open Scope nat_scope.

Lemma aset_len {A} (a : list A) z v : pc (aset a z v) (fun a' => length a' = length a).
Proof.
  apply pc_intro. intros a' E. destruct (aset_inv _ _ _ _ E) as [x Hx]. destruct (aset_spec a z v x Hx) as (a'' & E' & L & _). congruence.
Qed.

Section S.
Context {tg : target}.
Notation st := (sstate tg).
Implicit Types (ms : mats tg) (ss : sps tg) (hp : heap tg) (w : world tg) (y : sys tg).

(** ** states: sizes *)

(** s' has the sizes of s and equals it except in the arrays p marks *)
Definition alters (p : fld -> bool) (s s' : st) : Prop :=
  s_n s' = s_n s /\ s_nc s' = s_nc s /\ s_imap s' = s_imap s /\ s_dt s' = s_dt s /\
  same_len s s' /\ forall f, p f = false -> s_arr s' f = s_arr s f.
Lemma alters_refl p s : alters p s s.
Proof. now repeat split. Qed.
Lemma alters_trans p a b c : alters p a b -> alters p b c -> alters p a c.
Proof.
  intros (A1 & A2 & A3 & A4 & A5 & A6) (B1 & B2 & B3 & B4 & B5 & B6).
  do 4 (split; [congruence|]). split; [intros f; now rewrite B5|]. intros f Hf. now rewrite B6, A6.
Qed.
Lemma alters_sized p s s' : sized s -> alters p s s' -> sized s'.
Proof. intros H (A1 & A2 & A3 & A4 & A5 & A6). eapply sized_len; eauto. Qed.
Lemma alters_ld p s s' f z : alters p s s' -> p f = false -> ld s' f z = ld s f z.
Proof. intros (_ & _ & _ & _ & _ & H) Hf. unfold ld. now rewrite H. Qed.
Lemma sto_alters (p : fld -> bool) (s0 s : st) f z v : p f = true -> alters p s0 s -> pc (sto s f z v) (alters p s0).
Proof.
  intros Hf H. apply pc_intro. intros s' E. eapply alters_trans; [exact H|].
  pose proof (sto_len _ _ _ _ _ E) as L. unfold sto in E. destruct (aset _ _ _) as [a| | |]; try discriminate. cbn in E. injection E as <-.
  do 4 (split; [reflexivity|]). split; [exact L|]. intros g Hg. cbn. destruct (fld_eqb g f) eqn:Eg; [|reflexivity].
  apply fld_eqb_eq in Eg. congruence.
Qed.
Lemma sto_add_alters (p : fld -> bool) (s0 s : st) f z v : p f = true -> alters p s0 s -> pc (sto_add s f z v) (alters p s0).
Proof. intros Hf H. unfold sto_add. apply pc_any; intros x. now apply sto_alters. Qed.

(** the sizes only *)
Definition resized (s s' : st) : Prop := s_n s' = s_n s /\ s_nc s' = s_nc s /\ same_len s s' /\ length (s_imap s') = length (s_imap s).
Lemma resized_refl s : resized s s.
Proof. now repeat split. Qed.
Lemma resized_trans a b c : resized a b -> resized b c -> resized a c.
Proof.
  intros (A1 & A2 & A3 & A4) (B1 & B2 & B3 & B4). do 2 (split; [congruence|]). split; [intros f; now rewrite B3|congruence].
Qed.
Lemma alters_resized p s s' : alters p s s' -> resized s s'.
Proof. intros (A1 & A2 & A3 & A4 & A5 & A6). do 3 (split; [assumption|]). now rewrite A3. Qed.
Lemma resized_sized s s' : sized s -> resized s s' -> sized s'.
Proof. intros [H1 H2] (A1 & A2 & A3 & A4). split; [intros f; rewrite A3, A1, A2; apply H1|congruence]. Qed.
Lemma sto_resized (s0 s : st) f z v : resized s0 s -> pc (sto s f z v) (resized s0).
Proof.
  intros H. eapply pc_mono; [apply (sto_alters (fun _ => true) s); [reflexivity|apply alters_refl]|].
  intros s' A. eapply resized_trans; [exact H|]. eapply alters_resized; exact A.
Qed.
Lemma sto_add_resized (s0 s : st) f z v : resized s0 s -> pc (sto_add s f z v) (resized s0).
Proof. intros H. unfold sto_add. apply pc_any; intros x. now apply sto_resized. Qed.

Ltac als := repeat first
  [ assumption
  | match goal with |- pc (sto _ _ _ _) (alters ?p ?s0) => apply (sto_alters p s0); [reflexivity|assumption] end
  | match goal with |- pc (sto_add _ _ _ _) (alters ?p ?s0) => apply (sto_add_alters p s0); [reflexivity|assumption] end
  | match goal with |- pc (bind (sto _ _ _ _) _) (alters ?p ?s0) =>
      apply (pc_seq _ _ (alters p s0)); [apply sto_alters; [reflexivity|assumption]|]; intros ? ? end
  | match goal with |- pc (bind (sto_add _ _ _ _) _) (alters ?p ?s0) =>
      apply (pc_seq _ _ (alters p s0)); [apply sto_add_alters; [reflexivity|assumption]|]; intros ? ? end
  | apply pc_any; intros ? ].

(** ** force generators *)
Lemma gravity_resized g (s : st) : pc (gravity_apply g s) (resized s).
Proof.
  unfold gravity_apply. apply for_pc; [|apply resized_refl]. intros i t H. apply pc_any; intros m. now apply sto_add_resized.
Qed.
Lemma apply_force_resized (s0 s : st) px py fx fy z : resized s0 s -> pc (st_apply_force s px py fx fy z) (resized s0).
Proof.
  intros H. unfold st_apply_force. apply pc_any; intros [wx wy].
  eapply pc_seq; [apply sto_add_resized; exact H|]. intros s1 H1.
  eapply pc_seq; [apply sto_add_resized; exact H1|]. intros s2 H2. do 2 (apply pc_any; intros ?). now apply sto_add_resized.
Qed.
Lemma gen_apply_resized (g : gkind tg) bs (s : st) : orderly g -> pc (gen_apply g bs s) (resized s).
Proof.
  intros Ho. destruct g as [g|f|p|p|f]; cbn [gen_apply].
  - apply gravity_resized.
  - unfold static_apply. apply pc_any; intros b. apply apply_force_resized, resized_refl.
  - unfold spring_apply. destruct (sp_b1 p), (sp_b2 p); try apply resized_refl.
    apply pc_any; intros [[[x1 y1] vx1] vy1]. apply pc_any; intros [[[x2 y2] vx2] vy2]. apply pc_any; intros far.
    eapply pc_seq; [apply apply_force_resized, resized_refl|]. intros s1 H1. now apply apply_force_resized.
  - unfold motor_apply. apply pc_any; intros b0. apply pc_any; intros [v1 a1]. apply pc_any; intros b1.
    do 2 (apply pc_any; intros ?). eapply (pc_seq _ _ (resized s)).
    + destruct (negb _); [|apply resized_refl]. apply pc_any; intros t. apply sto_resized, resized_refl.
    + intros s1 H1. now apply sto_add_resized.
  - apply pc_intro. intros s' E. destruct (Ho bs s s' E) as (A1 & A2 & A3 & A4). now repeat split.
Qed.
Definition all_orderly w y : Prop := forall g, In g (y_gens y) -> orderly (g_kind (w_gen w g)).
Lemma process_forces_resized w y s : all_orderly w y -> pc (process_forces w y s) (resized s).
Proof.
  intros Ho. unfold process_forces. eapply (pc_seq _ _ (resized s)).
  - apply for_pc; [|apply resized_refl]. intros i t H.
    eapply pc_seq; [apply sto_resized; exact H|]. intros s1 H1.
    eapply pc_seq; [apply sto_resized; exact H1|]. intros s2 H2. now apply sto_resized.
  - intros s1 H1. apply for_pc; [|exact H1]. intros i t H.
    destruct (nth_error (y_gens y) i) as [g|] eqn:Eg; cbn [lift_opt bind]; [|exact I].
    eapply pc_mono; [apply gen_apply_resized, Ho; eapply nth_error_In; exact Eg|]. intros s2 H2. eapply resized_trans; eauto.
Qed.

(** ** populate_state *)
Definition populated w y (s : st) : Prop := sized s /\ body_count y <= s_n s /\ full_count w y <= s_nc s.
Lemma populate_state_sized w y : sized (y_state y) -> pc (populate_state w y) (populated w y).
Proof.
  intros H. unfold populate_state. set (s0 := st_resize (y_state y) (body_count y) (full_count w y)).
  assert (H0 : populated w y s0).
  { split; [now apply sized_resize|]. destruct (resize_cases (y_state y) (body_count y) (full_count w y) H) as [(A & B & E)|(A & B & C & D)];
      unfold s0; [rewrite E; lia|rewrite B, C; lia]. }
  assert (K : forall s, resized s0 s -> populated w y s).
  { intros s R. destruct H0 as (Z0 & N0 & C0). split; [eapply resized_sized; eauto|]. destruct R as (R1 & R2 & _). lia. }
  eapply (pc_seq _ _ (resized s0)).
  - apply for_pc; [|apply resized_refl]. intros i t R. apply pc_any; intros b.
    repeat (eapply pc_seq; [apply sto_resized; eassumption|]; intros). now apply sto_resized.
  - intros s1 R1. eapply (pc_seq _ _ (fun x => resized s0 (fst x))); [|intros [s2 jf] R2; cbn; apply K, R2].
    apply for_pc; [|exact R1]. intros i [t jf] R. cbn [fst] in R. apply pc_any; intros c.
    eapply pc_seq; [apply aset_len|]. intros im L. cbn [pc fst].
    destruct R as (A1 & A2 & A3 & A4). repeat split; auto. cbn. congruence.
Qed.
(** ** gathering: the heap stays well-formed *)
Variable priv : nat -> bool.
Lemma mset_wfs ms t c r v : wfs priv ms -> pc (mset ms t c r v) (wfs priv).
Proof. apply mset_pc. Qed.
Lemma populate_mass_wfs w y ms : wfs priv ms -> pc (populate_mass w y ms) (wfs priv).
Proof.
  intros H. unfold populate_mass. eapply pc_seq; [apply minit0_pc, H|]. intros ms1 H1.
  eapply pc_seq; [apply minit0_pc, H1|]. intros ms2 H2. apply for_pc; [|exact H2]. intros i t Ht. apply pc_any; intros b.
  repeat (eapply pc_seq; [apply mset_pc; eassumption|]; intros). now apply mset_pc.
Qed.
Lemma gather3_wfs n s fx fy ft id ms : wfs priv ms -> pc (gather3 n s fx fy ft id ms) (wfs priv).
Proof.
  intros H. unfold gather3. apply for_pc; [|exact H]. intros i t Ht.
  apply pc_any; intros x. eapply pc_seq; [apply mset_pc; eassumption|]; intros t1 H1.
  apply pc_any; intros x1. eapply pc_seq; [apply mset_pc; eassumption|]; intros t2 H2.
  apply pc_any; intros x2. now apply mset_pc.
Qed.
Lemma gather3_off l ms0 n s fx fy ft id ms : In id l -> off l ms0 ms -> pc (gather3 n s fx fy ft id ms) (off l ms0).
Proof.
  intros I H. unfold gather3. apply for_pc; [|exact H]. intros i t Ht.
  apply pc_any; intros x. eapply pc_seq; [apply mset_off; eassumption|]; intros t1 H1.
  apply pc_any; intros x1. eapply pc_seq; [apply mset_off; eassumption|]; intros t2 H2.
  apply pc_any; intros x2. now apply mset_off.
Qed.
Lemma set_blocks_swf w c jf (s : sparse tg) : swf 3 2 s -> pc (set_blocks w c jf s) (swf 3 2).
Proof.
  intros H. unfold set_blocks. apply for_pc; [|exact H]. intros i t Ht. apply pc_any; intros z.
  destruct (Z.eqb z (-1)); [exact Ht|now apply sp_set_block_pc].
Qed.

(** well-formed, and untouched outside the named objects *)
Definition keepsto (lm ls : list nat) hp0 hp : Prop := hinv priv hp /\ frame lm ls hp0 hp.
Lemma keepsto_refl lm ls hp : hinv priv hp -> keepsto lm ls hp hp.
Proof. intros H. split; [exact H|]. split; apply off_refl. Qed.
Lemma keepsto_trans lm ls a b c : keepsto lm ls a b -> keepsto lm ls b c -> keepsto lm ls a c.
Proof. intros [_ [A1 A2]] [H [B1 B2]]. split; [exact H|]. split; eapply off_trans; eauto. Qed.
Lemma keepsto_weaken lm ls lm' ls' a b : (forall i, In i lm -> In i lm') -> (forall i, In i ls -> In i ls') ->
  keepsto lm ls a b -> keepsto lm' ls' a b.
Proof. intros L1 L2 [H [A1 A2]]. split; [exact H|]. split; eapply off_weaken; eauto. Qed.

Definition optM := [ivbias; iC; ilimits].
Lemma opt_con_rows_keeps w c o dt jf hp0 hp : keepsto optM [sJ] hp0 hp ->
  pc (opt_con_rows w c o dt jf hp) (fun x => keepsto optM [sJ] hp0 (snd x)).
Proof.
  intros H. unfold opt_con_rows. apply (for_pc _ (fun x => keepsto optM [sJ] hp0 (snd x))); [|exact H].
  clear jf hp H. intros k [jf hp] [[Hm Hs] [F1 F2]]. cbn [snd hm hs] in *.
  eapply pc_seq; [apply set_blocks_swf, Hs|]. intros J HJ.
  eapply (pc_seq _ _ (swf 3 2)).
  { apply for_pc; [|exact HJ]. intros i t Ht. apply pc_any; intros z. destruct (Z.eqb z (-1)); [exact Ht|].
    apply pc_any; intros v. now apply sp_set_pc. }
  intros J' HJ'.
  assert (G : forall t c r v ms, In t optM -> wfs priv ms /\ off optM (hm hp0) ms -> pc (mset ms t c r v) (fun ms => wfs priv ms /\ off optM (hm hp0) ms)).
  { intros t c' r v ms I [A B]. apply pc_and; [now apply mset_pc|now apply mset_off]. }
  apply pc_any; intros v1. eapply pc_seq; [apply G; [cbn; auto|split; [exact Hm|exact F1]]|]. intros ms1 H1.
  apply pc_any; intros v2. eapply pc_seq; [apply G; [cbn; auto|exact H1]|]. intros ms2 H2.
  apply pc_any; intros v3. eapply pc_seq; [apply G; [cbn; auto|exact H2]|]. intros ms3 H3.
  apply pc_any; intros v4. eapply pc_seq; [apply G; [cbn; auto|exact H3]|]. intros ms4 [H4 H4'].
  cbn [pc snd]. split; [split; [exact H4|now apply allswf_upd]|]. split; [exact H4'|]. apply off_upd; [now left|exact F2].
Qed.
Lemma opt_gather_keeps w y dt hp s : hinv priv hp -> pc (opt_gather w y dt hp s) (keepsto optM [sJ] hp).
Proof.
  intros [Hm Hs]. unfold opt_gather. eapply pc_seq; [apply sp_init_pc, Hs|]. intros J HJ. cbv zeta. cbn [hupd_s hm hs].
  assert (G : forall t c r ms, In t optM -> wfs priv ms /\ off optM (hm hp) ms -> pc (minit0 ms t c r) (fun ms => wfs priv ms /\ off optM (hm hp) ms)).
  { intros t c r ms I [A B]. apply pc_and; [now apply minit0_pc|now apply minit0_off]. }
  eapply pc_seq; [apply G; [cbn; auto|split; [exact Hm|apply off_refl]]|]. intros ms1 H1.
  eapply pc_seq; [apply G; [cbn; auto|exact H1]|]. intros ms2 H2.
  eapply pc_seq; [apply G; [cbn; auto|exact H2]|]. intros ms3 [H3 H3'].
  eapply (pc_seq _ _ (fun x => keepsto optM [sJ] hp (snd (fst x)))); [|intros [[jf hp'] o'] H'; exact H'].
  apply for_pc.
  - intros j [[jf hp'] o] H'. cbn [fst snd] in H'. apply pc_any; intros c. apply pc_any; intros o'.
    eapply pc_seq; [apply opt_con_rows_keeps; exact H'|]. intros [jf' hp''] H''. exact H''.
  - cbn [fst snd with_hm hm hs]. split; [split; [exact H3|now apply allswf_upd]|]. split; [exact H3'|]. apply off_upd; [now left|apply off_refl].
Qed.
Definition optR := [iqdot; iFext; ireg0; ireg1; iqdotp; iberr; iright].
Lemma opt_right_keeps w y dt hp s : hinv priv hp -> pc (opt_right w y dt hp s) (keepsto optR [] hp).
Proof.
  intros [Hm Hs]. unfold opt_right. cbv zeta.
  set (P := fun ms => wfs priv ms /\ off optR (hm hp) ms).
  assert (P0 : P (hm hp)) by (split; [exact Hm|apply off_refl]).
  eapply pc_seq; [apply pc_and; [apply mresize_pc, P0|apply (mresize_off optR); [cbn; auto 10|apply P0]]|]. intros ms1 P1.
  eapply pc_seq; [apply pc_and; [apply gather3_wfs, P1|apply (gather3_off optR); [cbn; auto 10|apply P1]]|]. intros ms2 P2.
  eapply pc_seq; [apply pc_and; [apply (mstep_pc priv ms2 (MInitVal iFext 1 (3 * body_count y) (cofZ 0))); cbn; auto; [apply P2|discriminate]|apply (minit_val_off optR); [cbn; auto 10|apply P2]]|]. intros ms3 P3.
  eapply pc_seq; [apply pc_and; [apply gather3_wfs, P3|apply (gather3_off optR); [cbn; auto 10|apply P3]]|]. intros ms4 P4.
  eapply pc_seq; [apply pc_and; [apply (mstep_pc priv ms4 (MScale iFext dt ireg0)); cbn; auto; [apply P4|discriminate]|apply (mscale_off optR); [cbn; auto 10|apply P4]]|]. intros ms5 P5.
  eapply pc_seq; [apply pc_and; [apply (mstep_pc priv ms5 (MLScale ireg0 iMinv ireg1)); cbn; auto; [apply P5|discriminate]|apply (mleft_scale_off optR); [cbn; auto 10|apply P5]]|]. intros ms6 P6.
  eapply pc_seq; [apply pc_and; [apply (mstep_pc priv ms6 (MPlus ireg1 iqdot iqdotp)); cbn; auto; [apply P6|discriminate]|apply (madd2_off optR); [cbn; auto 10|apply P6]]|]. intros ms7 P7.
  eapply pc_seq; [apply pc_and; [apply (mstep_pc priv ms7 (MScale iC (cdiv (y_bias y) dt) iberr)); cbn; auto; [apply P7|discriminate]|apply (mscale_off optR); [cbn; auto 10|apply P7]]|]. intros ms8 P8.
  eapply pc_seq; [apply pc_and; [apply sp_multiply_pc, P8|apply (sp_multiply_off optR); [cbn; auto 10|apply P8]]|]. intros ms9 P9.
  eapply pc_seq; [apply pc_and; [apply (mstep_pc priv ms9 (MPlus ireg0 ivbias ireg1)); cbn; auto; [apply P9|discriminate]|apply (madd2_off optR); [cbn; auto 10|apply P9]]|]. intros ms10 P10.
  eapply pc_seq; [apply pc_and; [apply (mstep_pc priv ms10 (MPlus ireg1 iberr ireg0)); cbn; auto; [apply P10|discriminate]|apply (madd2_off optR); [cbn; auto 10|apply P10]]|]. intros ms11 P11.
  eapply pc_seq; [apply pc_and; [apply (mstep_pc priv ms11 (MNeg ireg0 iright)); cbn; auto; [apply P11|discriminate]|apply (mnegate_off optR); [cbn; auto 10|apply P11]]|]. intros ms12 P12.
  cbn [pc]. split; [split; [apply P12|exact Hs]|]. split; [apply P12|apply off_refl].
Qed.

Definition genM := [iks; ikd; iC].
Lemma gen_con_rows_keeps w c o jf hp0 hp l : (forall i, In i genM -> In i l) -> keepsto l [sJ; sJdot] hp0 hp ->
  pc (gen_con_rows w c o jf hp) (fun x => keepsto l [sJ; sJdot] hp0 (snd x)).
Proof.
  intros Hl H. unfold gen_con_rows. apply (for_pc _ (fun x => keepsto l [sJ; sJdot] hp0 (snd x))); [|exact H].
  clear jf hp H. intros k [jf hp] [[Hm Hs] [F1 F2]]. cbn [snd hm hs] in *.
  eapply pc_seq; [apply set_blocks_swf, Hs|]. intros J HJ.
  eapply pc_seq; [apply set_blocks_swf, Hs|]. intros Jd HJd.
  set (P := fun ms => wfs priv ms /\ off l (hm hp0) ms).
  assert (G : forall t c r v ms, In t genM -> P ms -> pc (mset ms t c r v) P).
  { intros t c' r v ms I [A B]. apply pc_and; [now apply mset_pc|apply mset_off; [now apply Hl|exact B]]. }
  eapply (pc_seq _ _ (fun x => swf 3 2 (fst (fst x)) /\ swf 3 2 (snd (fst x)) /\ P (snd x))).
  { apply for_pc; [|cbn; split; [exact HJ|]; split; [exact HJd|]; now split]. intros i [[J1 Jd1] ms] (A1 & A2 & A3). cbn [fst snd] in *.
    apply pc_any; intros z. destruct (Z.eqb z (-1)); [cbn; auto|].
    apply pc_any; intros v. eapply pc_seq; [apply sp_set_pc, A1|]. intros J2 B1.
    apply pc_any; intros v1. eapply pc_seq; [apply sp_set_pc, A2|]. intros Jd2 B2.
    apply pc_any; intros v2. eapply pc_seq; [apply G; [cbn; auto|exact A3]|]. intros ms1 H1.
    apply pc_any; intros v3. eapply pc_seq; [apply G; [cbn; auto|exact H1]|]. intros ms2 H2.
    apply pc_any; intros v4. eapply pc_seq; [apply G; [cbn; auto|exact H2]|]. intros ms3 H3. cbn; auto. }
  intros [[J1 Jd1] ms] (A1 & A2 & A3 & A4). cbn [fst snd] in *. cbn [pc snd].
  split; [split; [exact A3|apply allswf_upd; [now apply allswf_upd|exact A2]]|]. split; [exact A4|].
  apply off_upd; [cbn; auto|]. apply off_upd; [now left|exact F2].
Qed.
Definition genG := [iqdot; iks; ikd; iC].
Lemma gen_gather_keeps w y hp s : hinv priv hp -> pc (gen_gather w y hp s) (keepsto genG [sJ; sJdot] hp).
Proof.
  intros [Hm Hs]. unfold gen_gather.
  set (P := fun ms => wfs priv ms /\ off genG (hm hp) ms). assert (P0 : P (hm hp)) by (split; [exact Hm|apply off_refl]).
  eapply pc_seq; [apply pc_and; [apply mresize_pc, P0|apply (mresize_off genG); [cbn; auto 10|apply P0]]|]. intros ms1 P1.
  eapply pc_seq; [apply pc_and; [apply gather3_wfs, P1|apply (gather3_off genG); [cbn; auto 10|apply P1]]|]. intros ms2 P2.
  eapply pc_seq; [apply sp_init_pc, Hs|]. intros J HJ. eapply pc_seq; [apply sp_init_pc, Hs|]. intros Jd HJd.
  assert (G : forall t c r ms, In t genG -> P ms -> pc (minit0 ms t c r) P).
  { intros t c r ms I [A B]. apply pc_and; [now apply minit0_pc|now apply minit0_off]. }
  eapply pc_seq; [apply G; [cbn; auto 10|exact P2]|]. intros ms3 H3.
  eapply pc_seq; [apply G; [cbn; auto 10|exact H3]|]. intros ms4 H4.
  eapply pc_seq; [apply G; [cbn; auto 10|exact H4]|]. intros ms5 [H5 H5'].
  eapply (pc_seq _ _ (fun x => keepsto genG [sJ; sJdot] hp (snd (fst x)))); [|intros [[jf hp'] o'] H'; exact H'].
  apply for_pc.
  - intros j [[jf hp'] o] H'. cbn [fst snd] in H'. apply pc_any; intros c. apply pc_any; intros o'.
    eapply pc_seq; [apply (gen_con_rows_keeps _ _ _ _ hp _ genG); [intros ? [<-|[<-|[<-|[]]]]; unfold genG; simpl; auto 10|exact H']|]. intros [jf' hp''] H''. exact H''.
  - cbn [fst snd]. split; [split; [exact H5|apply allswf_upd; [now apply allswf_upd|exact HJd]]|]. split; [exact H5'|].
    apply off_upd; [cbn; auto|]. apply off_upd; [now left|apply off_refl].
Qed.
Definition genR := [ireg0; iks; ikd; iFext; ireg2; ireg1; iright].
Lemma gen_right_keeps w y hp s : hinv priv hp -> pc (gen_right w y hp s) (keepsto genR [] hp).
Proof.
  intros [Hm Hs]. unfold gen_right. cbv zeta.
  set (P := fun ms => wfs priv ms /\ off genR (hm hp) ms).
  assert (P0 : P (hm hp)) by (split; [exact Hm|apply off_refl]).
  eapply pc_seq; [apply pc_and; [apply sp_multiply_pc, P0|apply (sp_multiply_off genR); [cbn; auto 10|apply P0]]|]. intros ms1 P1.
  assert (G : forall t c r v ms, In t genR -> P ms -> pc (mset ms t c r v) P).
  { intros t c' r v ms I [A B]. apply pc_and; [now apply mset_pc|now apply mset_off]. }
  eapply (pc_seq _ _ P).
  { apply for_pc; [|exact P1]. intros i t Ht. do 2 (apply pc_any; intros ?).
    eapply pc_seq; [apply G; [cbn; auto 10|exact Ht]|]. intros t1 H1. do 2 (apply pc_any; intros ?). apply G; [cbn; auto 10|exact H1]. }
  intros ms2 P2.
  eapply pc_seq; [apply pc_and; [apply (mstep_pc priv ms2 (MInitVal iFext 1 (3 * body_count y) (cofZ 0))); cbn; auto; [apply P2|discriminate]|apply (minit_val_off genR); [cbn; auto 10|apply P2]]|]. intros ms3 P3.
  eapply pc_seq; [apply pc_and; [apply gather3_wfs, P3|apply (gather3_off genR); [cbn; auto 10|apply P3]]|]. intros ms4 P4.
  eapply pc_seq; [apply pc_and; [apply (mstep_pc priv ms4 (MLScale iFext iMinv ireg2)); cbn; auto; [apply P4|discriminate]|apply (mleft_scale_off genR); [cbn; auto 10|apply P4]]|]. intros ms5 P5.
  eapply pc_seq; [apply pc_and; [apply sp_multiply_pc, P5|apply (sp_multiply_off genR); [cbn; auto 10|apply P5]]|]. intros ms6 P6.
  eapply pc_seq; [apply pc_and; [apply sp_multiply_pc, P6|apply (sp_multiply_off genR); [cbn; auto 10|apply P6]]|]. intros ms7 P7.
  eapply pc_seq; [apply pc_and; [apply (mstep_pc priv ms7 (MNeg ireg2 ireg1)); cbn; auto; [apply P7|discriminate]|apply (mnegate_off genR); [cbn; auto 10|apply P7]]|]. intros ms8 P8.
  eapply pc_seq; [apply pc_and; [apply (mstep_pc priv ms8 (MSub ireg1 ireg0 ireg2)); cbn; auto; [apply P8|discriminate]|apply (msubtract_off genR); [cbn; auto 10|apply P8]]|]. intros ms9 P9.
  eapply pc_seq; [apply pc_and; [apply (mstep_pc priv ms9 (MSub ireg2 iks ireg0)); cbn; auto; [apply P9|discriminate]|apply (msubtract_off genR); [cbn; auto 10|apply P9]]|]. intros ms10 P10.
  eapply pc_seq; [apply pc_and; [apply (mstep_pc priv ms10 (MSub ireg0 ikd iright)); cbn; auto; [apply P10|discriminate]|apply (msubtract_off genR); [cbn; auto 10|apply P10]]|]. intros ms11 P11.
  cbn [pc]. split; [split; [apply P11|exact Hs]|]. split; [apply P11|apply off_refl].
Qed.

(** ** the solver *)
Definition sle_mats (l : sle tg) : list nat :=
  match l with
  | SleBase _ => []
  | SleGe g => [ge_a g; ge_M g]
  | SleGs g => [gs_M g]
  | SleCg g => [cg_mreg0 g; cg_mreg1 g; cg_Ap g; cg_x g; cg_r g; cg_p g]
  end.
Definition sle_sps (l : sle tg) : list nat :=
  match l with SleGe g => [ge_reg g] | SleGs g => [gs_reg g] | _ => [] end.
Lemma solver_mats l i : solver_apart priv l -> In i (sle_mats l) -> ifree <= i.
Proof.
  destruct l as [?|g|g|g]; cbn [solver_apart sle_mats In]; intros H HI; [contradiction|..].
  - destruct H as (H1 & H2 & _). destruct HI as [<-|[<-|[]]]; assumption.
  - destruct HI as [<-|[]]. apply H.
  - apply (proj1 (proj2 H)). exact HI.
Qed.
Lemma solver_sps l i : solver_apart priv l -> In i (sle_sps l) -> sfree <= i.
Proof.
  destruct l as [?|g|g|g]; cbn [solver_apart sle_sps In]; intros H HI; try contradiction.
  - destruct H as (_ & _ & _ & H & _). destruct HI as [<-|[]]. exact H.
  - destruct H as (_ & H). destruct HI as [<-|[]]. exact H.
Qed.
Lemma sle_solve_keeps l J W right a4 a5 hp : solver_apart priv l -> hinv priv hp ->
  pc (sle_solve l J W right a4 a5 hp) (fun x => keepsto (a5 :: sle_mats l) (sle_sps l) hp (fst x)).
Proof.
  intros Hl H. destruct l as [?|g|g|g]; cbn [sle_solve sle_mats sle_sps].
  - now apply keepsto_refl.
  - apply pc_and; [apply ge_solve_pc; [apply Hl|exact H]|apply ge_solve_off].
  - apply pc_and; [apply gs_solve_pc; exact H|apply gs_solve_off].
  - apply pc_and; [apply cg_solve_pc; exact H|apply cg_solve_off].
Qed.
Lemma sle_solve_limits_keeps l J W right lim r p hp : solver_apart priv l -> hinv priv hp ->
  pc (sle_solve_limits l J W right lim r p hp) (fun x => keepsto (r :: sle_mats l) (sle_sps l) hp (fst x)).
Proof.
  intros Hl H. destruct l as [?|g|g|g]; cbn [sle_solve_limits sle_mats sle_sps]; try now apply keepsto_refl.
  apply pc_and; [apply gs_solve_limits_pc; exact H|apply gs_solve_limits_off].
Qed.

(** ** reactions *)
Definition reacts (f : fld) : bool := match f with Fax | Fay | Fatheta | Frx | Fry | Frt => true | _ => false end.
Lemma apply_reactions_alters w y hp s : pc (apply_reactions w y hp s) (alters reacts s).
Proof.
  unfold apply_reactions. cbv zeta.
  eapply (pc_seq _ _ (alters reacts s)).
  { apply for2_pc; [|apply alters_refl]. intros i j t H. als. }
  intros s1 H1. eapply (pc_seq _ _ (alters reacts s)).
  { apply for_pc; [|exact H1]. intros i t H. als. }
  intros s2 H2. eapply (pc_seq _ _ (fun x => alters reacts s (fst x))).
  { apply for_pc; [|exact H2]. intros i [t jf] H. cbn [fst] in H. apply pc_any; intros c.
    apply (for_pc _ (fun x => alters reacts s (fst x))); [|exact H]. clear t jf H. intros j [t jf] H. cbn [fst] in H.
    eapply (pc_seq _ _ (alters reacts s)); [|intros t' H'; exact H'].
    apply for_pc; [|exact H]. intros k t' H'. als. }
  intros [s3 jf] H3. cbn [fst] in H3. apply for_pc; [|exact H3]. intros i t H. als.
Qed.

(** ** processConstraints *)
Definition the_solver l y : Prop := y_sle y = Some l /\ solver_apart priv l.
Lemma opt_constraints_inv w y dt hp s : hinv priv hp -> (forall l, y_sle y = Some l -> solver_apart priv l) ->
  pc (opt_process_constraints w y dt hp s) (fun x => hinv priv (fst x) /\ alters reacts s (snd x) /\ hm (fst x) iMinv = hm hp iMinv).
Proof.
  intros H Hl. unfold opt_process_constraints.
  eapply pc_seq; [apply opt_gather_keeps, H|]. intros hp1 [K1 [F1 _]].
  eapply pc_seq; [apply opt_right_keeps, K1|]. intros hp2 [K2 [F2 _]].
  unfold the_sle. destruct (y_sle y) as [l|]; [|exact I]. specialize (Hl l eq_refl). cbn [bind].
  eapply (pc_seq _ _ (fun x => keepsto (ilambda :: sle_mats l) (sle_sps l) hp2 (fst x))).
  { destruct (negb _); [now apply sle_solve_keeps|now apply sle_solve_limits_keeps]. }
  intros [hp3 ok] [K3 [F3 _]]. cbn [fst] in *. apply pc_any; intros _.
  eapply (pc_seq _ _ (fun ms => wfs priv ms /\ off [ireg0] (hm hp3) ms)).
  { apply pc_and; [apply (mstep_pc priv (hm hp3) (MScale ilambda (cdiv (cofZ 1) dt) ireg0)); cbn; auto; [apply K3|discriminate]|].
    apply mscale_off; [now left|apply off_refl]. }
  intros ms4 [K4 F4].
  eapply (pc_seq _ _ (allswf 3 2)); [apply (sstep_pc 3 2 (hs hp3) (SLScale ms4 sJ ireg0 ssreg0)); [apply K3|reflexivity]|].
  intros ss4 K4'. eapply pc_seq; [apply apply_reactions_alters|]. intros s5 H5. cbn [pc fst snd hm].
  split; [now split|]. split; [exact H5|].
  assert (N : forall i, In i (sle_mats l) -> i <> iMinv). { intros i Hi E. apply (solver_mats l i Hl) in Hi. rewrite E in Hi. unfold ifree, iMinv in Hi. lia. }
  rewrite F4 by (cbn; intuition discriminate).
  rewrite F3. 2:{ intros [E|E]; [discriminate|]. exact (N _ E eq_refl). }
  rewrite F2 by (cbn; intuition discriminate). now rewrite F1 by (cbn; intuition discriminate).
Qed.
Lemma gen_constraints_inv w y hp s : hinv priv hp -> (forall l, y_sle y = Some l -> solver_apart priv l) ->
  pc (gen_process_constraints w y hp s) (fun x => hinv priv (fst x) /\ alters reacts s (snd x) /\ hm (fst x) iMinv = hm hp iMinv).
Proof.
  intros H Hl. unfold gen_process_constraints.
  eapply pc_seq; [apply gen_gather_keeps, H|]. intros hp1 [K1 [F1 _]].
  eapply pc_seq; [apply gen_right_keeps, K1|]. intros hp2 [K2 [F2 _]].
  unfold the_sle. destruct (y_sle y) as [l|]; [|exact I]. specialize (Hl l eq_refl). cbn [bind].
  eapply pc_seq; [now apply sle_solve_keeps|].
  intros [hp3 ok] [K3 [F3 _]]. cbn [fst] in *. apply pc_any; intros _.
  eapply (pc_seq _ _ (allswf 3 2)); [apply (sstep_pc 3 2 (hs hp3) (SLScale (hm hp3) sJ ilambda ssreg0)); [apply K3|reflexivity]|].
  intros ss4 K4'. eapply pc_seq; [apply apply_reactions_alters|]. intros s5 H5. cbn [pc fst snd hm].
  split; [split; [apply K3|exact K4']|]. split; [exact H5|].
  assert (N : forall i, In i (sle_mats l) -> i <> iMinv). { intros i Hi E. apply (solver_mats l i Hl) in Hi. rewrite E in Hi. unfold ifree, iMinv in Hi. lia. }
  rewrite F3. 2:{ intros [E|E]; [discriminate|]. exact (N _ E eq_refl). }
  rewrite F2 by (cbn; intuition discriminate). now rewrite F1 by (cbn; intuition discriminate).
Qed.

(** ** integrators *)
Lemma integrate_resized (s0 s : st) f g i dt : resized s0 s -> pc (integrate s f g i dt) (resized s0).
Proof. intros H. unfold integrate. apply pc_any; intros v. now apply sto_add_resized. Qed.
Lemma with_dt_resized (s0 s : st) dt : resized s0 s -> resized s0 (st_with_dt s dt).
Proof. exact (fun H => H). Qed.
Lemma euler_resized dt (s : st) : pc (euler_solve dt s) (resized s).
Proof.
  unfold euler_solve. cbv zeta. apply for_pc; [|apply with_dt_resized, resized_refl]. intros i t H.
  repeat (eapply pc_seq; [apply integrate_resized; eassumption|]; intros). now apply integrate_resized.
Qed.
Lemma nsv_resized dt (s : st) : pc (nsv_solve dt s) (resized s).
Proof.
  unfold nsv_solve. cbv zeta. apply for_pc; [|apply with_dt_resized, resized_refl]. intros i t H.
  repeat (eapply pc_seq; [apply integrate_resized; eassumption|]; intros). now apply integrate_resized.
Qed.
Lemma half_resized r (s0 s : st) f g i : resized s0 s -> pc (rk_half r s f g i) (resized s0).
Proof. intros H. unfold rk_half. do 2 (apply pc_any; intros ?). now apply sto_resized. Qed.
Lemma full_resized r (s0 s : st) f g i : resized s0 s -> pc (rk_full r s f g i) (resized s0).
Proof. intros H. unfold rk_full. do 2 (apply pc_any; intros ?). now apply sto_resized. Qed.
Lemma emit_resized acc (s0 s : st) f i : resized s0 s -> pc (rk_emit acc f i s) (resized s0).
Proof. intros H. unfold rk_emit. apply pc_any; intros ?. now apply sto_resized. Qed.
Lemma ode_step_resized o (s : st) : pc (ode_step o s) (fun x => resized s (snd (fst x))).
Proof.
  destruct o; cbn [ode_step]; [now repeat split..|]. eapply (pc_seq _ _ (fun x => resized s (snd (fst x)))).
  - unfold rk4_step. eapply (pc_seq _ _ (resized s)); [|intros s1 H1; exact H1].
    destruct (rk_st r); try (now repeat split).
    + eapply (pc_seq _ _ (resized s)); [|intros s1 H1; exact H1]. apply for_pc; [|apply resized_refl]. intros i t H.
      repeat (eapply pc_seq; [apply half_resized; eassumption|]; intros). now apply half_resized.
    + eapply (pc_seq _ _ (resized s)); [|intros s1 H1; exact H1]. apply for_pc; [|apply resized_refl]. intros i t H.
      repeat (eapply pc_seq; [apply half_resized; eassumption|]; intros). now apply half_resized.
    + eapply (pc_seq _ _ (resized s)); [|intros s1 H1; exact H1]. apply for_pc; [|apply resized_refl]. intros i t H.
      repeat (eapply pc_seq; [apply full_resized; eassumption|]; intros). now apply full_resized.
  - intros [[r' s'] d] H. exact H.
Qed.
Lemma ode_solve_resized o (s : st) : pc (ode_solve o s) (fun x => resized s (snd x)).
Proof.
  destruct o; cbn [ode_solve]; [apply resized_refl|..].
  - eapply pc_seq; [apply euler_resized|]. intros s1 H1; exact H1.
  - eapply pc_seq; [apply nsv_resized|]. intros s1 H1; exact H1.
  - eapply (pc_seq _ _ (fun x => resized s (snd x))); [|intros [r' s'] H; exact H].
    unfold rk4_solve. do 2 (apply pc_any; intros ?). eapply (pc_seq _ _ (resized s)); [|intros s1 H1; exact H1].
    destruct (rk_st r); try apply resized_refl. eapply (pc_seq _ _ (resized s)).
    + apply for_pc; [|apply resized_refl]. intros i t H. repeat (eapply pc_seq; [apply emit_resized; eassumption|]; intros). now apply emit_resized.
    + intros s1 H1. apply for_pc; [|exact H1]. intros i t H. repeat (eapply pc_seq; [apply emit_resized; eassumption|]; intros). now apply emit_resized.
Qed.
(** the symplectic integrator stays one *)
Definition is_nsv (o : ode tg) : Prop := match o with OdeNsv _ => True | _ => False end.
Lemma ode_step_nsv o (s : st) : is_nsv o -> pc (ode_step o s) (fun x => is_nsv (fst (fst x))).
Proof. intros H. destruct o; try contradiction. exact I. Qed.
Lemma ode_solve_nsv o (s : st) : is_nsv o -> pc (ode_solve o s) (fun x => is_nsv (fst x)).
Proof. intros H. destruct o; try contradiction. cbn [ode_solve]. apply pc_any; intros s1. exact I. Qed.
Lemma ode_start_nsv o (s : st) dt : is_nsv o -> pc (ode_start o s dt) is_nsv.
Proof. intros H. destruct o; try contradiction. exact I. Qed.
Lemma ode_end_nsv o : is_nsv o -> is_nsv (ode_end o).
Proof. destruct o; cbn; auto. Qed.

(** ** the loops of process *)
Definition pc_ok (hp0 : heap tg) (pcf : heap tg -> st -> res (heap tg * st)) : Prop :=
  forall hp s, hinv priv hp -> hm hp iMinv = hm hp0 iMinv ->
    pc (pcf hp s) (fun x => hinv priv (fst x) /\ alters reacts s (snd x) /\ hm (fst x) iMinv = hm hp0 iMinv).
Definition run_inv hp0 (s0 : st) (nsv : Prop) (x : ode tg * heap tg * st) : Prop :=
  (nsv -> is_nsv (fst (fst x))) /\ hinv priv (snd (fst x)) /\ hm (snd (fst x)) iMinv = hm hp0 iMinv /\ resized s0 (snd x).
Lemma ode_rounds_inv w y hp0 s0 nsv pcf : all_orderly w y -> pc_ok hp0 pcf ->
  forall fuel o hp s, run_inv hp0 s0 nsv (o, hp, s) -> pc (ode_rounds fuel w y pcf o hp s) (run_inv hp0 s0 nsv).
Proof.
  intros Ho Hp. induction fuel as [|fuel IH]; intros o hp s (N & H & M & R); cbn [ode_rounds]; [exact I|]. cbn [fst snd] in *.
  eapply (pc_seq _ _ (fun x => (nsv -> is_nsv (fst (fst x))) /\ resized s0 (snd (fst x)))).
  { apply pc_intro. intros [[o1 s1] d] E. split.
    - intros v. exact (pc_elim _ _ _ E (ode_step_nsv o s (N v))).
    - cbn [fst snd]. eapply resized_trans; [exact R|]. exact (pc_elim _ _ _ E (ode_step_resized o s)). }
  intros [[o1 s1] done] [N1 R1]. cbn [fst snd] in *.
  eapply pc_seq; [apply process_forces_resized, Ho|]. intros s2 R2.
  eapply pc_seq; [apply Hp; [exact H|exact M]|]. intros [hp3 s3] (H3 & A3 & M3). cbn [fst snd] in *.
  assert (R3 : resized s0 s3). { eapply resized_trans; [exact R1|]. eapply resized_trans; [exact R2|]. eapply alters_resized; exact A3. }
  eapply (pc_seq _ _ (fun x => (nsv -> is_nsv (fst x)) /\ resized s0 (snd x))).
  { apply pc_intro. intros [o4 s4] E. split.
    - intros v. exact (pc_elim _ _ _ E (ode_solve_nsv o1 s3 (N1 v))).
    - cbn [fst snd]. eapply resized_trans; [exact R3|]. exact (pc_elim _ _ _ E (ode_solve_resized o1 s3)). }
  intros [o4 s4] [N4 R4]. cbn [fst snd] in *.
  destruct done; [|apply IH]; (split; [exact N4|]; split; [exact H3|]; split; [exact M3|exact R4]).
Qed.
Lemma ode_steps_inv steps dt w y hp0 s0 nsv pcf : all_orderly w y -> (forall h, pc_ok hp0 (pcf h)) ->
  forall o hp s, run_inv hp0 s0 nsv (o, hp, s) -> pc (ode_steps steps dt w y pcf o hp s) (run_inv hp0 s0 nsv).
Proof.
  intros Ho Hp o hp s H. unfold ode_steps. cbv zeta. apply for_pc; [|exact H]. clear o hp s H.
  intros i [[o hp] s] (N & H & M & R). cbn [fst snd] in *.
  eapply (pc_seq _ _ (fun o => nsv -> is_nsv o)).
  { apply pc_intro. intros o1 E v. exact (pc_elim _ _ _ E (ode_start_nsv o s _ (N v))). }
  intros o1 N1. eapply pc_seq; [apply ode_rounds_inv; [exact Ho|apply Hp|]; split; [exact N1|]; split; [exact H|]; split; [exact M|exact R]|].
  intros [[o2 hp2] s2] (N2 & H2 & M2 & R2). cbn [fst snd pc] in *. split; [intros v; now apply ode_end_nsv, N2|]. now split.
Qed.

(** ** histories *)
Definition yinv (k : flavour) y : Prop :=
  hinv priv (y_heap y) /\ sized (y_state y) /\ (forall l, y_sle y = Some l -> solver_apart priv l) /\
  (k = Optimized -> exists o, y_ode y = Some o /\ is_nsv o).
Definition same_core y y' : Prop := y_heap y' = y_heap y /\ y_state y' = y_state y /\ y_sle y' = y_sle y /\ y_ode y' = y_ode y.
Lemma same_core_inv k y y' : same_core y y' -> yinv k y -> yinv k y'.
Proof. intros (A & B & C & D) H. unfold yinv. now rewrite A, B, C, D. Qed.
Lemma record_profile_core y t : pc (record_profile y t) (same_core y).
Proof. unfold record_profile. apply pc_any. intros p. now repeat split. Qed.
Lemma opt_constraints_ok w y dt hp0 : (forall l, y_sle y = Some l -> solver_apart priv l) -> pc_ok hp0 (opt_process_constraints w y dt).
Proof.
  intros Hl hp s H M. eapply pc_mono; [apply opt_constraints_inv; [exact H|exact Hl]|]. intros x (A & B & C). rewrite C. auto.
Qed.
Lemma gen_constraints_ok w y hp0 : (forall l, y_sle y = Some l -> solver_apart priv l) -> pc_ok hp0 (gen_process_constraints w y).
Proof.
  intros Hl hp s H M. eapply pc_mono; [apply gen_constraints_inv; [exact H|exact Hl]|]. intros x (A & B & C). rewrite C. auto.
Qed.
Lemma process_inv k dt steps t w y : all_orderly w y -> yinv k y -> pc (process k dt steps t w y) (fun x => yinv k (snd x)).
Proof.
  intros Ho (Hh & Hs & Hl & Hk). destruct k; cbn [process].
  - unfold opt_process. eapply pc_seq; [apply populate_state_sized, Hs|]. intros s0 (P & _).
    eapply pc_seq; [apply populate_mass_wfs, Hh|]. intros ms Hms.
    destruct (Hk eq_refl) as (o & Eo & No). unfold the_ode. cbn [with_state y_ode]. rewrite Eo. cbn [bind].
    set (hp0 := with_hm (y_heap y) ms).
    eapply pc_seq. { apply (ode_steps_inv _ _ _ _ hp0 s0 True); [exact Ho|intros h; now apply opt_constraints_ok|].
      split; [auto|]. split; [split; [exact Hms|apply Hh]|]. split; [reflexivity|apply resized_refl]. }
    intros [[o1 hp1] s1] (N & H & M & R). cbn [fst snd] in *.
    apply pc_any; intros w1. eapply pc_seq; [apply record_profile_core|]. intros y1 (A & B & C & D). cbn [pc snd].
    cbn in A, B, C, D. split; [cbn; now rewrite A|]. split; [cbn; rewrite B; eapply resized_sized; eauto|].
    split; [cbn; now rewrite C|]. intros _. cbn. rewrite D. exists o1. auto.
  - unfold gen_process. eapply pc_seq; [apply populate_state_sized, Hs|]. intros s0 (P & _).
    eapply pc_seq; [apply populate_mass_wfs, Hh|]. intros ms Hms.
    eapply (pc_seq _ _ (fun x => yinv Generic (fst x))).
    { destruct steps.
      - cbn [pc fst]. split; [cbn; split; [exact Hms|apply Hh]|]. split; [exact P|]. split; [exact Hl|discriminate].
      - apply pc_any; intros o. set (hp0 := with_hm (y_heap (with_state y s0)) ms).
        eapply pc_seq. { apply (ode_steps_inv _ _ _ _ hp0 s0 False); [exact Ho|intros h; now apply gen_constraints_ok|].
          split; [contradiction|]. split; [split; [exact Hms|apply Hh]|]. split; [reflexivity|apply resized_refl]. }
        intros [[o1 hp1] s1] (N & H & M & R). cbn [fst snd pc] in *. split; [exact H|]. split; [eapply resized_sized; eauto|].
        split; [exact Hl|discriminate]. }
    intros [y1 s1] Y1. cbn [fst] in Y1. apply pc_any; intros w1.
    eapply pc_seq; [apply record_profile_core|]. intros y2 C2. cbn [pc snd]. eapply same_core_inv; eauto.
Qed.
Lemma lent_inv hp hp' : hinv priv hp -> hinv priv hp' -> hinv priv (lent hp hp').
Proof.
  intros [A B] [A' B']. split; intros i; cbn [lent hm hs].
  - destruct (Nat.ltb i ifree); [apply A|apply A'].
  - destruct (Nat.ltb i sfree); [apply B|apply B'].
Qed.
Lemma yreach_inv k m w y : yreach k priv m w y -> yinv k y.
Proof.
  induction 1 as [k w|k m w y l o y' H IH Hl E|k m w y b w' y' H IH Hb E|k m w y b w' y' H IH Hb E|k m w y b w' y' H IH Hb E
    |k m w y b w' y' H IH Hb E|k m w y b w' y' H IH Hb E|k m w y b w' y' H IH Hb E|k m w y H IH|k m w y dt steps t w' y' H IH Hg E
    |k m w y b x H IH Hx|k m w y b x H IH Hx|k m w y b x H IH Hx|k m w y v H IH
    |k m w y o hp2 H IH Ha E|k m w y k2 m2 w2 y2 H IH H2 IH2]; try exact IH.
  - assert (Q : hinv priv (y_heap (sys_new None : sys tg))) by (split; [intros id; apply wf_new|intros id; apply swf_new]).
    destruct k; (split; [exact Q|]; split; [apply sized_new|]; split; [discriminate|]); [|discriminate].
    intros _. now exists (OdeNsv (cofZ 0)).
  - destruct IH as (I1 & I2 & I3 & I4). destruct k; cbn in E.
    + injection E as <-. split; [exact I1|]. split; [exact I2|]. split; [|exact I4]. cbn. now intros l' [= <-].
    + unfold gen_initialize in E. match type of E with bind ?x _ = _ => assert (W : pc x (wfs priv)) by (apply minit0_pc, I1); destruct x; try discriminate end.
      cbn in E. injection E as <-. split; [split; [exact W|apply I1]|]. split; [exact I2|]. split; [|discriminate]. cbn. now intros l' [= <-].
  - unfold add_body in E. injection E as <- <-. exact IH.
  - unfold remove_body in E. destruct (vec_back _); try discriminate. cbn [bind] in E. destruct (aset _ _ _); try discriminate.
    cbn [bind] in E. destruct (vec_get _ _); try discriminate. cbn [bind] in E. destruct (vec_drop_last _); try discriminate.
    cbn in E. injection E as <- <-. exact IH.
  - unfold add_con in E. injection E as <- <-. exact IH.
  - unfold remove_con in E. destruct (vec_back _); try discriminate. cbn [bind] in E. destruct (aset _ _ _); try discriminate.
    cbn [bind] in E. destruct (vec_get _ _); try discriminate. cbn [bind] in E. destruct (vec_drop_last _); try discriminate.
    cbn in E. injection E as <- <-. exact IH.
  - unfold add_gen in E. injection E as <- <-. exact IH.
  - unfold remove_gen in E. destruct (vec_back _); try discriminate. cbn [bind] in E. destruct (lift_opt (g_index _)); try discriminate.
    cbn [bind] in E. destruct (aset _ _ _); try discriminate.
    cbn [bind] in E. destruct (vec_get _ _); try discriminate. cbn [bind] in E. destruct (vec_drop_last _); try discriminate.
    cbn in E. injection E as <- <-. exact IH.
  - exact (pc_elim _ _ _ E (process_inv k dt steps t w y Hg IH)).
  - destruct IH as (I1 & I). split; [|exact I]. apply lent_inv; [exact I1|]. exact (pc_elim _ _ _ E (hstep_pc priv _ o I1 Ha)).
  - destruct IH as (I1 & I), IH2 as (I2 & _). split; [|exact I]. now apply lent_inv.
Qed.
End S.
