(** * Destruction. *)

From Coq Require Import Reals.
From Verif Require Import Base Targets Matrix Sparse Sle State Ode Forces Constraints System Destroy Logic
  MatrixFacts MatrixOps SpecMatrix MatrixHist SparseFacts SpecSparse SparseHist SpecSle SleHist
  SpecState StateFacts SpecOde OdeFacts SpecSys RegFacts SysFrame SysInv SysColumn SpecDyn DynState DynReact DynRound.
Local Open Scope nat_scope.

Section S.
Context {tg : target}.
Implicit Types (ms : mats tg) (ss : sps tg) (hp : heap tg) (w : world tg) (y : sys tg).

Lemma destroy_ptr (m : matrix tg) : m_ptr (mat_destroy m) = false.
Proof. unfold mat_destroy. destruct (m_ptr m) eqn:E; [reflexivity|exact E]. Qed.
Lemma sp_destroy_ptr (s : sparse tg) : s_ptr (sp_destroy s) = false.
Proof. unfold sp_destroy. destruct (s_ptr s) eqn:E; [reflexivity|exact E]. Qed.
Lemma destroy_all l : forall ms i, In i l \/ m_ptr (ms i) = false -> m_ptr (fold_left mdestroy l ms i) = false.
Proof.
  induction l as [|x l IH]; intros ms i H; cbn [fold_left]; [now destruct H|]. apply IH.
  unfold mdestroy, upd. destruct (Nat.eqb_spec i x) as [->|N]; [right; apply destroy_ptr|].
  destruct H as [[E|H]|H]; [congruence|now left|now right].
Qed.
Lemma sp_destroy_all l : forall ss i, In i l \/ s_ptr (ss i) = false -> s_ptr (fold_left (fun ss i => upd ss i (sp_destroy (ss i))) l ss i) = false.
Proof.
  induction l as [|x l IH]; intros ss i H; cbn [fold_left]; [now destruct H|]. apply IH.
  unfold upd. destruct (Nat.eqb_spec i x) as [->|N]; [right; apply sp_destroy_ptr|].
  destruct H as [[E|H]|H]; [congruence|now left|now right].
Qed.
Lemma dtor_mats_ok ms l : (forall i, In i l -> m_ptr (ms i) = false) -> dtor_mats ms l = Ok tt.
Proof.
  unfold dtor_mats. induction l as [|x l IH]; intros H; cbn [fold_left]; [reflexivity|]. cbn [bind].
  unfold mat_dtor at 2. rewrite (H x (or_introl eq_refl)). cbn [massert negb]. apply IH. intros; apply H; now right.
Qed.
Lemma dtor_sps_ok ss l : (forall i, In i l -> s_ptr (ss i) = false) -> dtor_sps ss l = Ok tt.
Proof.
  unfold dtor_sps. induction l as [|x l IH]; intros H; cbn [fold_left]; [reflexivity|]. cbn [bind].
  unfold sp_dtor at 2. rewrite (H x (or_introl eq_refl)). cbn [massert negb]. apply IH. intros; apply H; now right.
Qed.
Lemma fold_fail ms l : fold_left (fun r i => let* _ := r in mat_dtor (ms i)) l AssertFail = AssertFail.
Proof. induction l; cbn [fold_left bind]; auto. Qed.
Lemma dtor_mats_fail ms l i : asserts_on tg = true -> In i l -> m_ptr (ms i) = true -> dtor_mats ms l = AssertFail.
Proof.
  intros D Hi Hp. unfold dtor_mats. assert (X : mat_dtor (ms i) = AssertFail) by (unfold mat_dtor, massert; now rewrite Hp, D).
  induction l as [|x l IH]; [destruct Hi|]. cbn [fold_left bind]. destruct (Nat.eq_dec x i) as [->|N].
  - rewrite X. apply fold_fail.
  - destruct Hi as [E|Hi]; [congruence|]. unfold mat_dtor at 2, massert. destruct (negb (m_ptr (ms x))); [now apply IH|]. rewrite D. apply fold_fail.
Qed.
Lemma dtor_mats_off ms l : asserts_on tg = false -> dtor_mats ms l = Ok tt.
Proof.
  intros D. unfold dtor_mats. induction l as [|x l IH]; cbn [fold_left bind]; [reflexivity|].
  assert (X : mat_dtor (ms x) = Ok tt) by (unfold mat_dtor, massert; rewrite D; now destruct (negb _)). now rewrite X.
Qed.
Lemma dtor_sps_off ss l : asserts_on tg = false -> dtor_sps ss l = Ok tt.
Proof.
  intros D. unfold dtor_sps. induction l as [|x l IH]; cbn [fold_left bind]; [reflexivity|].
  assert (X : sp_dtor (ss x) = Ok tt) by (unfold sp_dtor, massert; rewrite D; now destruct (negb _)). now rewrite X.
Qed.
Lemma base_dtor_ok y : base_dtor y = Ok tt.
Proof. reflexivity. Qed.

Lemma opt_dtor_ok y : opt_dtor y = Ok tt.
Proof.
  unfold opt_dtor. rewrite dtor_mats_ok by (intros i Hi; apply destroy_all; now left). cbn [bind].
  rewrite dtor_sps_ok by (intros i Hi; apply sp_destroy_all; now left). reflexivity.
Qed.
Lemma sle_dtor_ok l hp : sle_dtor l hp = Ok tt.
Proof.
  unfold sle_dtor. destruct (sle_members l) as [lm ls]. rewrite dtor_mats_ok by (intros i Hi; apply destroy_all; now left). cbn [bind].
  apply dtor_sps_ok. intros i Hi; apply sp_destroy_all; now left.
Qed.
Lemma ode_dtor_ok (o : ode tg) : ode_dtor o = Ok tt.
Proof. destruct o; reflexivity. Qed.

(** ** the generic system *)
Variable priv : nat -> bool.
Lemma wide_ptr k (m : matrix tg) : wf k m -> m_w m = 1 -> m_ptr m = true.
Proof. intros H E. destruct (m_ptr m) eqn:P; [reflexivity|]. destruct (wf_ptr _ _ H P) as [A _]. pose proof (wf_w _ _ H). lia. Qed.

Lemma populate_mass_wide w y ms : wfs priv ms -> pc (populate_mass w y ms) (fun ms' => m_w (ms' iMinv) = 1).
Proof.
  intros H. apply pc_intro. intros ms' E.
  pose proof (populate_mass_spec false w y ms (wf_weaken _ _ (H iM)) (wf_weaken _ _ (H iMinv))) as X. apply wp_ok in X.
  destruct X as (ms1 & Em & _ & _ & Mm). rewrite E in Em. injection Em as <-. eapply is_mat_w; exact Mm.
Qed.
Lemma gen_process_wide dt steps t w y : all_orderly w y -> yinv priv Generic y -> pc (gen_process dt steps t w y) (fun x => m_w (hm (y_heap (snd x)) iMinv) = 1).
Proof.
  intros Ho (Hh & Hs & Hl & _). unfold gen_process. eapply pc_seq; [apply populate_state_sized, Hs|]. intros s0 (P & _).
  eapply pc_seq; [apply pc_and; [apply (populate_mass_wfs priv), Hh|apply populate_mass_wide, Hh]|]. intros ms [Hms Wm].
  eapply (pc_seq _ _ (fun x => m_w (hm (y_heap (fst x)) iMinv) = 1)).
  { destruct steps; [exact Wm|]. apply pc_any; intros o. set (hp0 := with_hm (y_heap (with_state y s0)) ms).
    eapply pc_seq. { apply (ode_steps_inv priv _ _ _ _ hp0 s0 False); [exact Ho|intros h; now apply gen_constraints_ok|].
      split; [contradiction|]. split; [split; [exact Hms|apply Hh]|]. split; [reflexivity|apply resized_refl]. }
    intros [[o1 hp1] s1] (N & H & M & R). cbn [fst snd pc] in *. cbn [with_ode with_heap y_heap]. rewrite M. exact Wm. }
  intros [y1 s1] Y1. cbn [fst] in Y1. apply pc_any; intros w1.
  eapply pc_seq; [apply record_profile_core|]. intros y2 (C2 & _). cbn [pc snd]. now rewrite C2.
Qed.
Definition untouched y : Prop := (forall i, i < ifree -> m_ptr (hm (y_heap y) i) = false) /\ (forall i, i < sfree -> s_ptr (hs (y_heap y) i) = false) /\
  m_w (hm (y_heap y) ilambda) = 0 /\ m_h (hm (y_heap y) ilambda) = 0.
Lemma lent_touched (C : Prop) hp' y : (C -> untouched y) /\ (~ C -> m_w (hm (y_heap y) iMinv) = 1) ->
  (C -> untouched (with_heap y (lent (y_heap y) hp'))) /\ (~ C -> m_w (hm (y_heap (with_heap y (lent (y_heap y) hp'))) iMinv) = 1).
Proof.
  intros [I1 I2]. split; [|exact I2]. intros HC. destruct (I1 HC) as (A1 & A2 & A3). split; [|split; [|exact A3]].
  - intros i Hi. cbn. rewrite (proj2 (Nat.ltb_lt i ifree) Hi). now apply A1.
  - intros i Hi. cbn. rewrite (proj2 (Nat.ltb_lt i sfree) Hi). now apply A2.
Qed.
Lemma yreach_touched m w y : yreach Generic priv m w y ->
  (calls m = [] -> untouched y) /\ (calls m <> [] -> m_w (hm (y_heap y) iMinv) = 1).
Proof.
  assert (G : forall k, yreach k priv m w y -> k = Generic -> (calls m = [] -> untouched y) /\ (calls m <> [] -> m_w (hm (y_heap y) iMinv) = 1)).
  { clear. intros k. induction 1 as [k w|k m w y l o y' H IH Hl E|k m w y b w' y' H IH Hb E|k m w y b w' y' H IH Hb E|k m w y b w' y' H IH Hb E
    |k m w y b w' y' H IH Hb E|k m w y b w' y' H IH Hb E|k m w y b w' y' H IH Hb E|k m w y H IH|k m w y dt steps t w' y' H IH Hg E
    |k m w y b x H IH Hx|k m w y b x H IH Hx|k m w y b x H IH Hx|k m w y v H IH
    |k m w y o hp2 H IH Ha E|k m w y k2 m2 w2 y2 H IH H2 IH2]; intros ->; try specialize (IH eq_refl); try exact IH.
  - split; [|now intros []]. intros _. repeat split; reflexivity.
  - cbn [initialize] in E. unfold gen_initialize in E. cbv zeta in E.
    destruct (minit0 _ ilambda 0 0) as [ms| | |] eqn:Em; try discriminate. cbn [bind] in E. injection E as <-.
    unfold minit0 in Em. destruct (mat_init0 _ 0 0) as [m'| | |] eqn:E0; try discriminate. cbn [bind] in Em. injection Em as <-.
    cbn [with_heap with_hm y_heap hm hs with_ode with_sle] in *. destruct IH as [I1 I2]. split.
    + intros C. destruct (I1 C) as (A1 & A2 & A3 & A4). unfold mat_init0, mat_resize in E0. rewrite A3, A4 in E0. change (Nat.eqb 0 0) with true in E0. cbn [andb bind] in E0.
      assert (X : m_ptr m' = false /\ m_w m' = 0 /\ m_h m' = 0).
      { cbn [Nat.mul repeat] in E0. destruct (m_data (hm (y_heap y) ilambda)) in E0; cbn [overwrite lift_opt bind] in E0; injection E0 as <-; cbn [with_data m_ptr m_w m_h];
        (split; [apply A1; unfold ilambda, ifree; lia|auto]). }
      split; [|split; [exact A2|]].
      * intros i Hi. change (m_ptr (upd (hm (y_heap y)) ilambda m' i) = false). unfold upd. destruct (Nat.eqb i ilambda); [apply X|now apply A1].
      * change (m_w (upd (hm (y_heap y)) ilambda m' ilambda) = 0 /\ m_h (upd (hm (y_heap y)) ilambda m' ilambda) = 0). rewrite upd_same. tauto.
    + intros C. change (m_w (upd (hm (y_heap y)) ilambda m' iMinv) = 1). rewrite upd_other by discriminate. auto.
  - unfold add_body in E. injection E as <- <-. exact IH.
  - unfold remove_body in E. destruct (vec_back _); try discriminate. cbn [bind] in E. destruct (aset _ _ _); try discriminate.
    cbn [bind] in E. destruct (vec_get _ _); try discriminate. cbn [bind] in E. destruct (vec_drop_last _); try discriminate.
    cbn in E. injection E as <- <-. exact IH.
  - unfold add_con in E. injection E as <- <-. exact IH.
  - unfold remove_con in E. destruct (vec_back _); try discriminate. cbn [bind] in E. destruct (aset _ _ _); try discriminate.
    cbn [bind] in E. destruct (vec_get _ _); try discriminate. cbn [bind] in E. destruct (vec_drop_last _); try discriminate.
    cbn in E. injection E as <- <-. exact IH.
  - unfold add_gen in E. injection E as <- <-. exact IH.
  - unfold remove_gen in E. destruct (vec_back _); try discriminate. cbn [bind] in E. destruct (lift_opt (g_index _)); try discriminate.
    cbn [bind] in E. destruct (aset _ _ _); try discriminate.
    cbn [bind] in E. destruct (vec_get _ _); try discriminate. cbn [bind] in E. destruct (vec_drop_last _); try discriminate.
    cbn in E. injection E as <- <-. exact IH.
  - split; [discriminate|]. intros _. cbn [process] in E. exact (pc_elim _ _ _ E (gen_process_wide dt steps t w y Hg (yreach_inv priv Generic m w y H))).
  - now apply lent_touched.
  - now apply lent_touched. }
  intros H. exact (G Generic H eq_refl).
Qed.
Lemma gen_dtor_used m w y : yreach Generic priv m w y ->
  (calls m = [] -> gen_dtor y = Ok tt) /\
  (calls m <> [] -> gen_dtor y = if asserts_on tg then AssertFail else Ok tt).
Proof.
  intros H. destruct (yreach_touched m w y H) as [A B]. unfold gen_dtor. split; intros C.
  - destruct (A C) as (A1 & A2 & _). rewrite dtor_mats_ok by (intros i Hi; apply A1; unfold ifree; cbn in Hi; unfold gen_mats, iJT, iM, iMinv, iC, iks, ikd, iqdot, ireg0, ireg1, ireg2, iright, iFext, iFC, iR, ilambda in Hi; lia).
    cbn [bind]. now rewrite dtor_sps_ok by (intros i Hi; apply A2; unfold sfree; cbn in Hi; unfold sJ, sJdot, ssreg0 in Hi; lia).
  - destruct (asserts_on tg) eqn:D.
    + rewrite (dtor_mats_fail _ _ iMinv); [reflexivity|exact D|cbn; auto|]. eapply wide_ptr; [|apply (B C)]. apply (yreach_inv priv Generic m w y H).
    + rewrite dtor_mats_off by exact D. cbn [bind]. now rewrite dtor_sps_off by exact D.
Qed.
End S.
