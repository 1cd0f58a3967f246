(** * The invariant of heaps reachable by matrix and solver calls. *)

From Coq Require Import Reals.
From Verif Require Import Base Targets Matrix Sparse Sle Logic MatrixFacts MatrixOps SpecMatrix MatrixHist
  SparseFacts SpecSparse SparseHist SpecSle.

Section Inv.
Context {tg : target}.
Variable priv : nat -> bool.
Implicit Types (ms : mats tg) (hp : heap tg).

Definition hinv hp : Prop := wfs priv (hm hp) /\ allswf 3 2 (hs hp).

(** ** matrix calls, one by one *)
Lemma mset_ref_pc ms a b : wfs priv ms -> pc (mset_ref ms a b) (wfs priv).
Proof. intros H. apply (mstep_pc priv ms (MCopy a b)); cbn; auto; discriminate. Qed.
Lemma minit0_pc ms t w h : wfs priv ms -> pc (minit0 ms t w h) (wfs priv).
Proof. intros H. apply (mstep_pc priv ms (MInit0 t w h)); cbn; auto; discriminate. Qed.
Lemma mcomponent_pc ms a b t : wfs priv ms -> pc (mcomponent ms a b t) (wfs priv).
Proof. intros H. apply (mstep_pc priv ms (MComp a b t)); cbn; auto; discriminate. Qed.
Lemma mmadd_pc ms a b s : wfs priv ms -> pc (mmadd ms a b s) (wfs priv).
Proof. intros H. apply (mstep_pc priv ms (MMadd a b s)); cbn; auto; discriminate. Qed.
Lemma mpmadd_pc ms a b s : wfs priv ms -> pc (mpmadd ms a b s) (wfs priv).
Proof. intros H. apply (mstep_pc priv ms (MPmadd a b s)); cbn; auto; discriminate. Qed.
Lemma warm_start_pc ms p t n : wfs priv ms -> pc (warm_start ms p t n) (wfs priv).
Proof.
  intros H. unfold warm_start. destruct p as [p|]; [|exact H].
  destruct (Nat.eqb _ _); [now apply mset_ref_pc|exact H].
Qed.
Lemma right_scale_pc (ss : sps tg) ms a b t : allswf 3 2 ss -> pc (sp_right_scale 3 2 ss ms a b t) (allswf 3 2).
Proof. intros H. apply (sstep_pc 3 2 ss (SRScale ms a b t)); [exact H|reflexivity]. Qed.
Lemma multiply_transpose_pc (s s' : sparse tg) ms t : wfs priv ms -> pc (sp_multiply_transpose 3 2 s s' ms t) (wfs priv).
Proof.
  intros H. unfold sp_multiply_transpose. apply pc_any; intros _.
  eapply pc_seq; [apply minit0_pc, H|]. intros ms1 H1. apply for2_pc; [|exact H1].
  intros i j ms2 H2. apply pc_any; intros x. now apply mset_pc.
Qed.
Lemma transpose_multiply_vector_pc (s : sparse tg) ms b t : wfs priv ms ->
  pc (sp_transpose_multiply_vector 3 2 s ms b t) (wfs priv).
Proof.
  intros H. unfold sp_transpose_multiply_vector. do 2 (apply pc_any; intros _).
  eapply pc_seq; [apply minit0_pc, H|]. intros ms1 H1. apply for2_pc; [|exact H1].
  intros i k ms2 H2. apply pc_any; intros z. destruct (Z.eqb z 255); [exact H2|].
  apply for_pc; [|exact H2]. intros l ms3 H3. do 2 (apply pc_any; intros ?). now apply maddto_pc.
Qed.
Lemma sp_multiply_pc (s : sparse tg) ms b t : wfs priv ms -> pc (sp_multiply 3 2 s ms b t) (wfs priv).
Proof.
  intros H. unfold sp_multiply. apply pc_any; intros _.
  eapply pc_seq; [apply minit0_pc, H|]. intros ms1 H1. apply for2_pc; [|exact H1].
  intros i j ms2 H2. apply pc_any; intros x. now apply mset_pc.
Qed.

(** ** Gaussian elimination *)
Definition ginv A m ms : Prop := wfs priv ms /\ m_h (ms A) = m.

Lemma raw_set_h (mt : matrix tg) r c v : pc (raw_set mt r c v) (fun m' => m_h m' = m_h mt).
Proof.
  unfold raw_set. destruct (nth_error (m_rows mt) r) as [[off|]|]; cbn; auto.
  destruct (list_set (m_data mt) (off + c) v); cbn; auto.
Qed.
Lemma mset_g A m ms t c r v : ginv A m ms -> pc (mset ms t c r v) (ginv A m).
Proof.
  intros [H E]. apply pc_and; [now apply mset_pc|].
  unfold mset, mat_set. eapply (pc_seq _ _ (fun m' => m_h m' = m_h (ms t))).
  - do 2 (apply pc_any; intros _). apply raw_set_h.
  - intros m' Em. cbn. unfold upd. destruct (Nat.eqb_spec A t) as [<-|]; congruence.
Qed.
Lemma find_pivot_pc ms A m h k : h < m -> pc (ge_find_pivot ms A m h k) (fun x => fst x < m).
Proof.
  intros L. unfold ge_find_pivot. do 2 (apply pc_any; intros ?). unfold for_range.
  eapply pc_mono; [apply (for_from_pci _ (fun _ x => fst x < m)); [|exact L]|auto].
  intros j [i v] Hj Hi. do 3 (apply pc_any; intros ?).
  match goal with |- pc (if ?b then _ else _) _ => destruct b end; cbn; auto. lia.
Qed.
Lemma eliminate_pc ms A m n h k : ginv A m ms -> pc (ge_eliminate ms A m n h k) (ginv A m).
Proof.
  intros H. unfold ge_eliminate, for_range. apply for_from_pc; [|exact H].
  intros i ms1 H1. do 2 (apply pc_any; intros ?). eapply pc_seq; [apply mset_g, H1|].
  intros ms2 H2. apply for_from_pc; [|exact H2]. intros j ms3 H3.
  do 2 (apply pc_any; intros ?). now apply mset_g.
Qed.
Lemma ge_loop_pc A m n : priv A = false ->
  forall fuel ms h k, ginv A m ms -> pc (ge_loop fuel ms A m n h k) (ginv A m).
Proof.
  intros HA. induction fuel as [|fuel IH]; intros ms h k H; cbn [ge_loop].
  - destruct (_ && _); cbn; auto.
  - destruct (Nat.ltb_spec h m) as [L|L]; cbn [andb]; [|exact H].
    destruct (Nat.ltb k n); [|exact H].
    eapply pc_seq; [apply find_pivot_pc, L|]. intros [i v] Hi. cbn [fst] in Hi.
    apply pc_any; intros z. destruct z; [now apply IH|].
    eapply (pc_seq _ _ (fun a => wf false a /\ m_h a = m)).
    { destruct H as [H E]. destruct (wf_contents _ _ (H A)) as [f Hf]. rewrite HA in Hf.
      apply wp_pc. eapply wp_mono; [eapply mat_row_swap_spec; [exact Hf|lia|lia]|].
      intros a Ha. split; [apply Ha|]. rewrite (is_mat_h _ _ _ _ _ Ha). exact E. }
    intros a [Ha Eh]. eapply (pc_seq _ _ (ginv A m)); [|intros ms' H'; now apply IH].
    apply eliminate_pc. split; [|now rewrite upd_same].
    apply wfs_upd; [apply H|]. now rewrite HA.
Qed.
Lemma ge_back_pc ms A result m n : wfs priv ms -> pc (ge_back_substitute ms A result m n) (wfs priv).
Proof.
  intros H. unfold ge_back_substitute. do 2 (apply pc_any; intros ?).
  eapply pc_seq; [apply mset_pc, H|]. intros ms1 H1. apply for_pc; [|exact H1].
  intros t ms2 H2. do 4 (apply pc_any; intros ?). destruct (negb _); now apply mset_pc.
Qed.
Lemma ge_solve_pc g J W right a4 a5 hp :
  priv (ge_a g) = false -> hinv hp -> pc (ge_solve g J W right a4 a5 hp) (fun x => hinv (fst x)).
Proof.
  intros HA [Hm Hs]. unfold ge_solve.
  eapply pc_seq; [apply right_scale_pc, Hs|]. intros ss Hss.
  eapply pc_seq; [apply multiply_transpose_pc, Hm|]. intros ms1 H1. cbv zeta.
  apply pc_any; intros _. destruct (_ || _); [now split|].
  eapply pc_seq; [apply mresize_pc, H1|]. intros ms2 H2.
  set (m := m_h (ms1 (ge_M g))). set (n := (m_w (ms1 (ge_M g)) + 1)%nat).
  eapply (pc_seq _ _ (ginv (ge_a g) m)).
  { apply wp_pc. eapply wp_mono; [apply mresize_spec, H2|].
    intros ms3 (Ho & (f & Hf) & _). split; [eapply only_wfs; eauto; apply Hf|]. apply (is_mat_h _ _ _ _ _ Hf). }
  intros ms3 H3.
  eapply (pc_seq _ _ (ginv (ge_a g) m)).
  { apply for_pc; [|exact H3]. intros i ms4 H4. eapply (pc_seq _ _ (ginv (ge_a g) m)).
    - apply for_pc; [|exact H4]. intros j ms5 H5. apply pc_any; intros ?. now apply mset_g.
    - intros ms5 H5. apply pc_any; intros ?. now apply mset_g. }
  intros ms4 H4. eapply pc_seq; [apply ge_loop_pc; [exact HA|exact H4]|].
  intros ms5 [H5 _]. do 3 (apply pc_any; intros ?).
  eapply pc_seq; [apply ge_back_pc, H5|]. intros ms6 H6. apply pc_any; intros _. now split.
Qed.

(** ** Gauss-Seidel *)
Lemma gs_iteration_pc ms l r kn k : wfs priv ms -> pc (gs_iteration ms l r kn k) (fun x => wfs priv (fst x)).
Proof.
  intros H. unfold gs_iteration. apply for_pc; [|exact H]. intros i [ms1 md] H1.
  do 3 (apply pc_any; intros ?). eapply pc_seq; [apply mset_pc, H1|]. intros ms2 H2. exact H2.
Qed.
Lemma gs_iteration_limits_pc ms l r lim kn k : wfs priv ms ->
  pc (gs_iteration_limits ms l r lim kn k) (fun x => wfs priv (fst x)).
Proof.
  intros H. unfold gs_iteration_limits. apply for_pc; [|exact H]. intros i [ms1 md] H1.
  do 5 (apply pc_any; intros ?). eapply pc_seq; [apply mset_pc, H1|]. intros ms2 H2. exact H2.
Qed.
Lemma gs_iterate_pc step mind iters :
  (forall ms, wfs priv ms -> pc (step ms) (fun x => wfs priv (fst x))) ->
  forall ms, wfs priv ms -> pc (@gs_iterate tg step mind iters ms) (fun x => wfs priv (fst x)).
Proof.
  intros Hs. induction iters as [|n IH]; intros ms H; cbn [gs_iterate]; [exact H|].
  eapply pc_seq; [apply Hs, H|]. intros [ms1 md] H1. apply pc_any; intros c.
  destruct c; [exact H1|now apply IH].
Qed.
Lemma gs_solve_pc g J W right p r hp : hinv hp -> pc (gs_solve g J W right p r hp) (fun x => hinv (fst x)).
Proof.
  intros [Hm Hs]. unfold gs_solve. cbv zeta.
  eapply pc_seq; [apply mresize_pc, Hm|]. intros ms1 H1.
  eapply pc_seq; [apply warm_start_pc, H1|]. intros ms2 H2.
  eapply pc_seq; [apply right_scale_pc, Hs|]. intros ss Hss.
  eapply pc_seq; [apply multiply_transpose_pc, H2|]. intros ms3 H3.
  eapply pc_seq; [apply gs_iterate_pc; [intros; now apply gs_iteration_pc|exact H3]|].
  intros [ms4 ok] H4. now split.
Qed.
Lemma gs_solve_limits_pc g J W right lim r p hp : hinv hp ->
  pc (gs_solve_limits g J W right lim r p hp) (fun x => hinv (fst x)).
Proof.
  intros [Hm Hs]. unfold gs_solve_limits. cbv zeta.
  eapply (pc_seq _ _ (wfs priv)); [destruct (negb _); [apply minit0_pc, Hm|exact Hm]|]. intros ms1 H1.
  eapply pc_seq; [apply warm_start_pc, H1|]. intros ms2 H2.
  eapply pc_seq; [apply right_scale_pc, Hs|]. intros ss Hss.
  eapply pc_seq; [apply multiply_transpose_pc, H2|]. intros ms3 H3.
  eapply pc_seq; [apply gs_iterate_pc; [intros; now apply gs_iteration_limits_pc|exact H3]|].
  intros [ms4 ok] H4. now split.
Qed.

(** ** Conjugate gradient *)
Lemma cg_multiply_pc g (J : sparse tg) ms W x t : wfs priv ms -> pc (cg_multiply g J ms W x t) (wfs priv).
Proof.
  intros H. unfold cg_multiply. eapply pc_seq; [apply mresize_pc, H|]. intros ms1 H1.
  eapply pc_seq; [apply transpose_multiply_vector_pc, H1|]. intros ms2 H2.
  eapply pc_seq; [apply mcomponent_pc, H2|]. intros ms3 H3. now apply sp_multiply_pc.
Qed.
Lemma cg_loop_pc g (J : sparse tg) W right iters : forall ms, wfs priv ms ->
  pc (cg_loop g J W right iters ms) (fun x => wfs priv (fst x)).
Proof.
  induction iters as [|n IH]; intros ms H; cbn [cg_loop]; [exact H|].
  eapply pc_seq; [apply cg_multiply_pc, H|]. intros ms1 H1. do 2 (apply pc_any; intros ?).
  eapply pc_seq; [apply mmadd_pc, H1|]. intros ms2 H2.
  eapply pc_seq; [apply mmadd_pc, H2|]. intros ms3 H3. apply pc_any; intros s.
  destruct s; [exact H3|]. apply pc_any; intros ?.
  eapply pc_seq; [apply mpmadd_pc, H3|]. intros ms4 H4. now apply IH.
Qed.
Lemma cg_solve_pc g J W right p r hp : hinv hp -> pc (cg_solve g J W right p r hp) (fun x => hinv (fst x)).
Proof.
  intros [Hm Hs]. unfold cg_solve. cbv zeta.
  eapply pc_seq; [apply mresize_pc, Hm|]. intros msa Ha.
  eapply pc_seq; [apply mresize_pc, Ha|]. intros msb Hb.
  eapply pc_seq; [apply mresize_pc, Hb|]. intros msc Hc.
  eapply pc_seq; [apply minit0_pc, Hc|]. intros ms1 H1.
  eapply pc_seq; [apply warm_start_pc, H1|]. intros ms2 H2.
  eapply pc_seq; [apply mresize_pc, H2|]. intros ms3 H3.
  eapply pc_seq; [apply mset_ref_pc, H3|]. intros ms4 H4.
  eapply pc_seq; [apply cg_multiply_pc, H4|]. intros ms5 H5.
  eapply pc_seq; [apply mmadd_pc, H5|]. intros ms6 H6. apply pc_any; intros s.
  eapply (pc_seq _ _ (fun x => wfs priv (fst x))).
  { destruct s; [exact H6|]. eapply pc_seq; [apply mset_ref_pc, H6|]. intros ms7 H7. now apply cg_loop_pc. }
  intros [ms7 ok] H7. cbn [fst] in H7. destruct ok; [|now split].
  eapply pc_seq; [apply mset_ref_pc, H7|]. intros ms8 H8. now split.
Qed.

(** ** everything *)
Lemma hstep_pc hp o : hinv hp -> hallowed priv hp o -> pc (hstep hp o) hinv.
Proof.
  intros H Ha. destruct o as [o|o|s J W rhs a4 a5|s J W rhs l r p]; cbn [hstep hallowed] in *.
  - eapply pc_seq; [apply mstep_pc; [apply H|apply Ha|apply Ha]|]. intros ms Hm. split; [exact Hm|apply H].
  - eapply pc_seq; [apply sstep_pc; [apply H|exact Ha]|]. intros ss Hs. split; [apply H|exact Hs].
  - eapply (pc_seq _ _ (fun x => hinv (fst x))); [|intros [hp' ok] H'; exact H'].
    destruct s; cbn [sle_solve]; [exact H|now apply ge_solve_pc|now apply gs_solve_pc|now apply cg_solve_pc].
  - eapply (pc_seq _ _ (fun x => hinv (fst x))); [|intros [hp' ok] H'; exact H'].
    destruct s; cbn [sle_solve_limits]; try exact H. now apply gs_solve_limits_pc.
Qed.
Lemma hreach_inv hp : hreach priv hp -> hinv hp.
Proof.
  induction 1 as [|hp o hp' Hr IH Ha E].
  - split; [intros id; apply wf_new|intros id; apply swf_new].
  - eapply pc_elim; [exact E|]. now apply hstep_pc.
Qed.
End Inv.
