(** * A solve on two stores that agree on the system's own matrices. *)

From Coq Require Import Reals.
From Verif Require Import Base Targets Matrix Sparse Sle State Ode Forces Constraints System Logic
  MatrixFacts MatrixOps SpecMatrix MatrixHist SparseFacts SpecSparse SparseHist SpecSle SleHist SleGe SleGs SleCg
  SpecSys SysFrame SysInv SysColumn DynReady DynSolver DynLimits EdgeNone EdgeHalt SubSim SpecShare ShareSolve ShareLow.
Local Open Scope nat_scope.

Section S.
Context {tg : target}.
Implicit Types (ms : mats tg) (ss : sps tg) (hp : heap tg).
Variable priv : nat -> bool.
Notation vecm mt m x := (is_mat false mt 1 m (fun r _ => x r)).

Lemma rel_pc {A B} (r : res A) (r' : res B) (Q : A -> B -> Prop) P P' : rel r r' Q -> pc r P -> pc r' P' -> rel r r' (fun x x' => Q x x' /\ P x /\ P' x').
Proof. destruct r, r'; cbn; auto. Qed.

Lemma rel_meet {A B C} (r : res A) (r' : res B) (p : res C) (R1 : A -> C -> Prop) (R2 : B -> C -> Prop) :
  rel r p R1 -> rel r' p R2 -> rel r r' (fun x x' => exists z, R1 x z /\ R2 x' z).
Proof. destruct r, r', p; cbn; try contradiction; eauto. Qed.

Lemma system_alike hp hp' n m blk v wt b : alike hp hp' -> system hp sJ iMinv iright n m blk v wt b -> system hp' sJ iMinv iright n m blk v wt b.
Proof.
  intros [Hm Hs] (A & B & C & D). unfold system, shows, mget in *. rewrite (Hs sJ) by (unfold sJ, sfree; lia).
  rewrite (Hm iMinv), (Hm iright) by (unfold iMinv, iright, ifree; lia). auto.
Qed.
Lemma keeps_alike (l : sle tg) hp hp' hp1 hp1' : solver_apart priv l -> alike hp hp' ->
  keepsto priv (ilambda :: sle_mats l) (sle_sps l) hp hp1 -> keepsto priv (ilambda :: sle_mats l) (sle_sps l) hp' hp1' ->
  hm hp1' ilambda = hm hp1 ilambda -> alike hp1 hp1'.
Proof.
  intros Hl [A B] [_ [F1 F2]] [_ [G1 G2]] E. split; intros i Hi.
  - destruct (Nat.eq_dec i ilambda) as [->|N]; [exact E|].
    assert (X : ~ In i (ilambda :: sle_mats l)) by (intros [Q|Q]; [congruence|apply (solver_mats priv l i Hl) in Q; lia]).
    rewrite (F1 i X), (G1 i X). now apply A.
  - assert (X : ~ In i (sle_sps l)) by (intros Q; apply (solver_sps priv l i Hl) in Q; lia).
    rewrite (F2 i X), (G2 i X). now apply B.
Qed.

Definition step_alike (x x' : heap tg * bool) : Prop := snd x' = snd x /\ alike (fst x) (fst x').
Definition core_alike (x x' : heap tg * bool) : Prop := snd x' = snd x /\ hm (fst x') ilambda = hm (fst x) ilambda.

(** both results: same elements, same matrix before *)
Lemma shows_raw ms id m (x : nat -> cell tg) r : shows ms id 1 m (fun r _ => x r) -> r < m -> raw_get (ms id) r 0 = Ok (x r).
Proof.
  intros (Ew & Eh & G) Hr. specialize (G r 0 Hr ltac:(lia)). unfold mget, mat_get in G. rewrite Ew, Eh in G.
  rewrite !bind_massert in G by (apply Nat.ltb_lt; lia). exact G.
Qed.
Lemma same_touched hp1 hp1' m0 (x : nat -> cell tg) m :
  wf (priv ilambda) m0 -> m_w m0 = 1 -> m_h m0 = m -> touched m0 (hm hp1 ilambda) -> touched m0 (hm hp1' ilambda) ->
  shows (hm hp1) ilambda 1 m (fun r _ => x r) -> shows (hm hp1') ilambda 1 m (fun r _ => x r) ->
  hm hp1' ilambda = hm hp1 ilambda.
Proof.
  intros W Ew Eh T T' S S'.
  apply (touched_eq _ m0 _ _ m x W Eh Ew T T'); intros r Hr; [exact (shows_raw _ _ _ _ _ S Hr)|exact (shows_raw _ _ _ _ _ S' Hr)].
Qed.
Lemma resized_wf hp m m0 : hinv priv hp -> mat_resize (hm hp ilambda) 1 m = Ok m0 -> wf (priv ilambda) m0 /\ m_w m0 = 1 /\ m_h m0 = m.
Proof.
  intros H E. pose proof (mat_resize_spec _ _ 1 m (proj1 H ilambda)) as W. rewrite E in W. cbn [wp] in W. destruct W as [(f & W) _].
  split; [eapply is_mat_wf; exact W|]. split; [eapply is_mat_w; exact W|eapply is_mat_h; exact W].
Qed.
Lemma alike_lambda hp hp' : alike hp hp' -> hm hp' ilambda = hm hp ilambda.
Proof. intros [A _]. apply A. unfold ilambda, ifree. lia. Qed.

(** ** elimination *)
Lemma ge_core g hp hp' n m blk v wt b : solver_apart priv (SleGe (tg := tg) g) -> hinv priv hp -> hinv priv hp' -> alike hp hp' ->
  system hp sJ iMinv iright n m blk v wt b ->
  rel (ge_solve g sJ iMinv iright ilambda ilambda hp) (ge_solve g sJ iMinv iright ilambda ilambda hp') core_alike.
Proof.
  intros Ha H H' Al Sy. pose proof (system_alike _ _ _ _ _ _ _ _ Al Sy) as Sy'. pose proof (alike_lambda _ _ Al) as El.
  destruct (Nat.eq_dec m 0) as [->|N].
  - pose proof (ge_none priv g hp n blk v wt b H Ha Sy) as G. pose proof (ge_none priv g hp' n blk v wt b H' Ha Sy') as G'.
    eapply rel_mono; [eapply rel_wp; [exact G|exact G']|].
    intros x x' [[A B] [A' B']]. split; congruence.
  - pose proof (ge_system_names priv g Ha) as Nm.
    pose proof (ge_solve_sim priv hp g sJ iMinv iright ilambda ilambda n m blk v wt b H Nm Sy) as R.
    pose proof (ge_solve_sim priv hp' g sJ iMinv iright ilambda ilambda n m blk v wt b H' Nm Sy') as R'.
    pose proof (ge_solve_touched priv hp g sJ iMinv iright ilambda ilambda n m blk v wt b H Nm Sy ltac:(lia)) as T.
    pose proof (ge_solve_touched priv hp' g sJ iMinv iright ilambda ilambda n m blk v wt b H' Nm Sy' ltac:(lia)) as T'.
    eapply rel_mono; [apply (rel_pc _ _ _ _ _ (rel_meet _ _ _ _ _ R R') T T')|].
    intros x x' ((z & (A1 & _ & A3) & (B1 & _ & B3)) & (m0 & E0 & T0) & (m0' & E0' & T0')). split; [congruence|].
    rewrite El, E0 in E0'. injection E0' as <-. destruct (resized_wf hp m m0 H E0) as (W & Ew & Eh).
    apply (same_touched _ _ m0 z m W Ew Eh T0 T0'); [apply A3|apply B3]; lia.
Qed.

(** ** Gauss-Seidel *)
Lemma gs_iterate_none (step : mats tg -> res (mats tg * cell tg)) md iters ms ms' : step ms = Ok (ms, cofZ 0) -> step ms' = Ok (ms', cofZ 0) ->
  rel (gs_iterate step md iters ms) (gs_iterate step md iters ms') (fun x x' => fst x = ms /\ fst x' = ms' /\ snd x' = snd x).
Proof.
  intros E E'. induction iters as [|k IH]; cbn [gs_iterate]; [cbn; auto|]. rewrite E, E'. cbn [bind].
  apply rel_same. intros c. destruct c; [cbn; auto|exact IH].
Qed.
Lemma gs_tail_core g hp hp' ms ms' n m blk v wt b pstep (step : mats tg -> res (mats tg * cell tg)) :
  solver_apart priv (SleGs g) -> hinv priv hp -> hinv priv hp' -> alike hp hp' -> system hp sJ iMinv iright n m blk v wt b ->
  only ilambda (hm hp) ms -> only ilambda (hm hp') ms' -> ms' ilambda = ms ilambda -> wf (priv ilambda) (ms ilambda) ->
  m_h (ms ilambda) = m -> (0 < m -> m_w (ms ilambda) = 1) ->
  (forall hp0 ms1 x, alike hp hp0 -> hinv priv hp0 -> only ilambda (hm hp0) (upd ms1 (gs_M g) (hm hp0 (gs_M g))) ->
     is_mat false (ms1 (gs_M g)) m m (msys blk v wt) -> vecm (ms1 ilambda) m x ->
     rel (step ms1) (psweep pstep m x) (sweep_rel ms1 ilambda m)) ->
  (forall m0 ms1, m_w m0 = 1 -> touched m0 (ms1 ilambda) -> pc (step ms1) (fun x => touched m0 (fst x ilambda))) ->
  (forall ms1, m_h (ms1 ilambda) = 0 -> step ms1 = Ok (ms1, cofZ 0)) ->
  rel (let* ss := sp_right_scale 3 2 (hs hp) ms sJ iMinv (gs_reg g) in
       let* ms := sp_multiply_transpose 3 2 (ss (gs_reg g)) (ss sJ) ms (gs_M g) in
       let* (ms, ok) := gs_iterate step (gs_min_delta g) (gs_max_iterations g) ms in
       Ok ({| hm := ms; hs := ss |}, ok))
      (let* ss := sp_right_scale 3 2 (hs hp') ms' sJ iMinv (gs_reg g) in
       let* ms := sp_multiply_transpose 3 2 (ss (gs_reg g)) (ss sJ) ms' (gs_M g) in
       let* (ms, ok) := gs_iterate step (gs_min_delta g) (gs_max_iterations g) ms in
       Ok ({| hm := ms; hs := ss |}, ok)) core_alike.
Proof.
  intros Ha H H' Al Sy Ho Ho' El Wl Eh Ew Hsim Htch Hnone. pose proof (system_alike _ _ _ _ _ _ _ _ Al Sy) as Sy'.
  destruct (gs_system_names priv g Ha) as [Nd NJ].
  assert (Nm : NoDup [iMinv; iright; ilambda; gs_M g] /\ ilambda <> gs_M g /\ iMinv <> ilambda /\ iMinv <> gs_M g).
  { clear -Nd. repeat match goal with H : NoDup (_ :: _) |- _ => inversion_clear H end. cbn in *.
    repeat (refine (conj _ _)); try (intuition congruence). repeat constructor; cbn; intuition congruence. }
  destruct Nm as (Nd' & N1 & N2 & N3).
  destruct (Nat.eq_dec m 0) as [->|Nz].
  - assert (B : forall hp0 ms0, hinv priv hp0 -> system hp0 sJ iMinv iright n 0 blk v wt b -> only ilambda (hm hp0) ms0 -> m_h (ms0 ilambda) = 0 ->
      wp (let* ss := sp_right_scale 3 2 (hs hp0) ms0 sJ iMinv (gs_reg g) in
          let* ms := sp_multiply_transpose 3 2 (ss (gs_reg g)) (ss sJ) ms0 (gs_M g) in Ok (ss, ms)) (fun x => snd x ilambda = ms0 ilambda)).
    { intros hp0 ms0 [Hwf Hswf] (HsJ & Hin & HW & _) Ho0 E0.
      assert (HW' : is_mat false (ms0 iMinv) 1 n (fun r _ => wt r)) by (rewrite Ho0 by auto; eapply is_mat_weaken, shows_is_mat; [apply Hwf|exact HW]).
      assert (HwM : wf (priv (gs_M g)) (ms0 (gs_M g))) by (rewrite Ho0 by auto; apply Hwf).
      pose proof (build_matrix_spec _ (hs hp0) ms0 sJ iMinv (gs_reg g) (gs_M g) n 0 blk v wt Hswf HwM NJ HsJ Hin HW') as HB.
      destruct (sp_right_scale 3 2 (hs hp0) ms0 sJ iMinv (gs_reg g)) as [ss| | |]; cbn [wp bind] in *; try contradiction.
      destruct HB as (_ & _ & HB).
      destruct (sp_multiply_transpose 3 2 (ss (gs_reg g)) (ss sJ) ms0 (gs_M g)) as [ms1| | |]; cbn [wp bind] in *; try contradiction.
      apply HB. exact N1. }
    pose proof (B hp ms H Sy Ho Eh) as B1. assert (Eh' : m_h (ms' ilambda) = 0) by congruence. pose proof (B hp' ms' H' Sy' Ho' Eh') as B2. clear B.
    destruct (sp_right_scale 3 2 (hs hp) ms sJ iMinv (gs_reg g)) as [ss| | |]; cbn [wp bind] in B1; try contradiction.
    destruct (sp_right_scale 3 2 (hs hp') ms' sJ iMinv (gs_reg g)) as [ss'| | |]; cbn [wp bind] in B2; try contradiction. cbn [bind].
    destruct (sp_multiply_transpose 3 2 (ss (gs_reg g)) (ss sJ) ms (gs_M g)) as [ms1| | |]; cbn [wp bind] in B1; try contradiction.
    destruct (sp_multiply_transpose 3 2 (ss' (gs_reg g)) (ss' sJ) ms' (gs_M g)) as [ms1'| | |]; cbn [wp bind] in B2; try contradiction. cbn [bind snd] in *.
    eapply rel_bind; [apply gs_iterate_none; apply Hnone; congruence|]. intros [m2 ok] [m2' ok'] (E1 & E2 & E3). cbn [fst snd] in *. subst.
    apply rel_ret. split; [reflexivity|]. cbn [fst hm]. congruence.
  - destruct (wf_contents _ _ Wl) as [f Hf]. rewrite Eh, (Ew ltac:(lia)) in Hf.
    assert (Hx : vecm (ms ilambda) m (fun r => f r 0)).
    { apply is_mat_weaken in Hf. eapply is_mat_ext; [exact Hf|]. intros r c _ Hc. now replace c with 0 by lia. }
    assert (Hx' : vecm (ms' ilambda) m (fun r => f r 0)) by (rewrite El; exact Hx).
    pose proof (gs_tail_sim priv hp g sJ iMinv iright ilambda n m blk v wt b _ ms pstep step H Nd' NJ Sy Ho Hx
      (fun m1 x1 A B C => Hsim hp m1 x1 (alike_refl hp) H A B C)) as R.
    pose proof (gs_tail_sim priv hp' g sJ iMinv iright ilambda n m blk v wt b _ ms' pstep step H' Nd' NJ Sy' Ho' Hx'
      (fun m1 x1 A B C => Hsim hp' m1 x1 Al H' A B C)) as R'.
    pose proof (gs_tail_touched hp ms g sJ iMinv ilambda (ms ilambda) step N1 (touched_refl _) (fun m1 => Htch _ m1 (Ew ltac:(lia)))) as T.
    assert (T' : pc (let* ss := sp_right_scale 3 2 (hs hp') ms' sJ iMinv (gs_reg g) in
       let* ms := sp_multiply_transpose 3 2 (ss (gs_reg g)) (ss sJ) ms' (gs_M g) in
       let* (ms, ok) := gs_iterate step (gs_min_delta g) (gs_max_iterations g) ms in
       Ok ({| hm := ms; hs := ss |}, ok)) (fun x => touched (ms ilambda) (hm (fst x) ilambda))).
    { apply gs_tail_touched; [exact N1|rewrite El; apply touched_refl|]. intros m1. apply Htch. apply Ew. lia. }
    eapply rel_mono; [apply (rel_pc _ _ _ _ _ (rel_meet _ _ _ _ _ R R') T T')|].
    intros x x' ((z & (A1 & _ & A3) & (B1 & _ & B3)) & T0 & T0'). split; [congruence|].
    apply (same_touched _ _ (ms ilambda) (fst z) m Wl (Ew ltac:(lia)) Eh T0 T0' A3 B3).
Qed.

(** the starting vector *)
Definition started hp hp' m ms ms' : Prop := only ilambda (hm hp) ms /\ only ilambda (hm hp') ms' /\ ms' ilambda = ms ilambda /\
  wfs priv ms /\ wfs priv ms' /\ m_h (ms ilambda) = m /\ (0 < m -> m_w (ms ilambda) = 1).
Lemma warm_core hp hp' m ms ms' : started hp hp' m ms ms' ->
  rel (warm_start ms (Some ilambda) ilambda m) (warm_start ms' (Some ilambda) ilambda m) (started hp hp' m).
Proof.
  intros (O & O' & El & W & W' & Eh & Ew). unfold warm_start. rewrite El, Eh, Nat.eqb_refl.
  assert (L : ilambda < ifree) by (unfold ilambda, ifree; lia).
  assert (E0 : rel (mset_ref ms ilambda ilambda) (mset_ref ms' ilambda ilambda) (fun a a' => a' ilambda = a ilambda)).
  { unfold mset_ref. rewrite El. unfold mresize. rewrite El.
    destruct (mat_resize (ms ilambda) (m_w (ms ilambda)) (m_h (ms ilambda))) as [q| | |]; try exact I. cbn [bind].
    rewrite !upd_same. apply for2_rel; [|now rewrite !upd_same]. intros i j a a' E. unfold rget, rset. rewrite E.
    do 2 (apply rel_any; intros ?). apply rel_ret. now rewrite !upd_same. }
  assert (D : forall m1 : mats tg, wfs priv m1 -> wp (mset_ref m1 ilambda ilambda) (fun a => only ilambda m1 a /\ wf (priv ilambda) (a ilambda) /\ m_w (a ilambda) = m_w (m1 ilambda) /\ m_h (a ilambda) = m_h (m1 ilambda))).
  { intros m1 Wm. destruct (wf_contents _ _ (Wm ilambda)) as [f Hf]. apply is_mat_weaken in Hf.
    eapply wp_mono; [eapply (mset_ref_spec (priv ilambda) m1 ilambda ilambda); [exact Hf|apply Wm]|].
    intros a [Oa Ma]. split; [exact Oa|]. split; [eapply is_mat_wf; exact Ma|]. split; [eapply is_mat_w; exact Ma|eapply is_mat_h; exact Ma]. }
  eapply rel_mono; [apply (rel_pc _ _ _ _ _ E0 (wp_pc _ _ (D ms W)) (wp_pc _ _ (D ms' W')))|].
  intros a a' (E & (O1 & W1 & A1 & B1) & (O2 & W2 & A2 & B2)).
  assert (WW : forall m1 a1 : mats tg, wfs priv m1 -> only ilambda m1 a1 -> wf (priv ilambda) (a1 ilambda) -> wfs priv a1).
  { intros m1 a1 Hm Ho Hw id. destruct (Nat.eq_dec id ilambda) as [->|N]; [exact Hw|rewrite Ho by exact N; apply Hm]. }
  split; [eapply only_trans; eassumption|]. split; [eapply only_trans; eassumption|]. split; [exact E|].
  split; [exact (WW _ _ W O1 W1)|]. split; [exact (WW _ _ W' O2 W2)|]. split; [congruence|]. rewrite A1. exact Ew.
Qed.
Lemma put_started hp hp' m q : hinv priv hp -> hinv priv hp' -> wf (priv ilambda) q -> m_h q = m -> m_w q = 1 ->
  started hp hp' m (upd (hm hp) ilambda q) (upd (hm hp') ilambda q).
Proof.
  intros H H' W Eh Ew. assert (X : forall hp0, hinv priv hp0 -> only ilambda (hm hp0) (upd (hm hp0) ilambda q) /\ wfs priv (upd (hm hp0) ilambda q)).
  { intros hp0 H0. split; [intros i Hi; now apply upd_other|]. intros i. unfold upd. destruct (Nat.eqb_spec i ilambda) as [->|]; [exact W|apply H0]. }
  destruct (X hp H) as [A B], (X hp' H') as [A' B']. split; [exact A|]. split; [exact A'|]. rewrite !upd_same. auto.
Qed.

Lemma gs_core g hp hp' n m blk v wt b : solver_apart priv (SleGs g) -> hinv priv hp -> hinv priv hp' -> alike hp hp' ->
  system hp sJ iMinv iright n m blk v wt b ->
  rel (gs_solve g sJ iMinv iright (Some ilambda) ilambda hp) (gs_solve g sJ iMinv iright (Some ilambda) ilambda hp') core_alike.
Proof.
  intros Ha H H' Al Sy. pose proof (system_alike _ _ _ _ _ _ _ _ Al Sy) as Sy'. unfold gs_solve.
  replace (m_h (hm hp iright)) with m by (symmetry; apply Sy). replace (m_h (hm hp' iright)) with m by (symmetry; apply Sy').
  unfold mresize at 1 2. rewrite (alike_lambda _ _ Al). pose proof (mat_resize_spec _ _ 1 m (proj1 H ilambda)) as R.
  destruct (mat_resize (hm hp ilambda) 1 m) as [q| | |]; cbn [wp] in R; try contradiction. destruct R as [(f & Mq) _]. cbn [bind].
  eapply rel_bind; [apply (warm_core hp hp' m), put_started; auto; [eapply is_mat_wf; exact Mq|eapply is_mat_h; exact Mq|eapply is_mat_w; exact Mq]|].
  intros ms ms' (O & O' & El & W & W' & Eh & Ew). cbv beta.
  apply (gs_tail_core g hp hp' ms ms' n m blk v wt b (pstep1 (msys blk v wt) b m)); auto.
  - intros hp0 ms1 x Al0 H0 Ho HM Hx.
    assert (Ng : iright <> gs_M g /\ gs_M g <> ilambda) by (destruct Ha as [A _]; unfold ifree, iright, ilambda in *; lia). destruct Ng as [Ng Ng2].
    assert (Hb : vecm (ms1 iright) m b).
    { destruct (system_alike _ _ _ _ _ _ _ _ Al0 Sy) as (_ & _ & _ & Hr).
      pose proof (Ho iright ltac:(discriminate)) as E. rewrite upd_other in E by exact Ng. rewrite E.
      eapply shows_vec; [apply H0|exact Hr]. }
    apply gs_iteration_sim; auto. discriminate.
  - intros m0 ms1 Hw. now apply gs_iteration_touched.
  - intros ms1. now apply gs_iteration_none.
Qed.
Lemma gs_limits_core g hp hp' n m blk v wt b lo hi : solver_apart priv (SleGs g) -> hinv priv hp -> hinv priv hp' -> alike hp hp' ->
  column (hm hp ilambda) -> limits_are (hm hp) ilimits m lo hi ->
  system hp sJ iMinv iright n m blk v wt b ->
  rel (gs_solve_limits g sJ iMinv iright ilimits ilambda (Some ilambda) hp) (gs_solve_limits g sJ iMinv iright ilimits ilambda (Some ilambda) hp') core_alike.
Proof.
  intros Ha H H' Al Co Li Sy. pose proof (system_alike _ _ _ _ _ _ _ _ Al Sy) as Sy'. unfold gs_solve_limits.
  replace (m_h (hm hp iright)) with m by (symmetry; apply Sy). replace (m_h (hm hp' iright)) with m by (symmetry; apply Sy').
  pose proof (alike_lambda _ _ Al) as L.
  eapply (rel_bind _ _ _ _ (started hp hp' m)).
  { rewrite L. destruct (Nat.eqb_spec (m_h (hm hp ilambda)) m) as [E|N]; cbn [negb].
    - apply rel_ret. split; [apply only_refl|]. split; [apply only_refl|]. split; [exact L|]. split; [apply H|]. split; [apply H'|].
      split; [exact E|]. intros Hm. destruct Co as [C|C]; [lia|exact C].
    - unfold minit0. rewrite L. pose proof (mat_init0_spec _ _ 1 m (proj1 H ilambda)) as R.
      destruct (mat_init0 (hm hp ilambda) 1 m) as [q| | |]; cbn [wp] in R; try contradiction. cbn [bind]. apply rel_ret.
      apply put_started; auto; [eapply is_mat_wf; exact R|eapply is_mat_h; exact R|eapply is_mat_w; exact R]. }
  intros ms0 ms0' St. cbv beta. eapply rel_bind; [apply (warm_core hp hp' m), St|].
  intros ms ms' (O & O' & El & W & W' & Eh & Ew). cbv beta.
  apply (gs_tail_core g hp hp' ms ms' n m blk v wt b (pstepL (msys blk v wt) b lo hi m)); auto.
  - intros hp0 ms1 x Al0 H0 Ho HM Hx.
    assert (Ng : iright <> gs_M g /\ ilimits <> gs_M g /\ ilambda <> gs_M g) by (destruct Ha as [A _]; unfold ifree, iright, ilimits, ilambda in *; lia).
    destruct Ng as (Ng & Ng' & Ng2).
    assert (Hb : vecm (ms1 iright) m b).
    { destruct (system_alike _ _ _ _ _ _ _ _ Al0 Sy) as (_ & _ & _ & Hr).
      pose proof (Ho iright ltac:(discriminate)) as E. rewrite upd_other in E by exact Ng. rewrite E.
      eapply shows_vec; [apply H0|exact Hr]. }
    assert (Hl : is_mat false (ms1 ilimits) 2 m (fun r c => if Nat.eqb c 0 then lo r else hi r)).
    { pose proof (Ho ilimits ltac:(discriminate)) as E. rewrite upd_other in E by exact Ng'. rewrite E.
      eapply is_mat_weaken. eapply shows_is_mat; [apply H0|].
      unfold limits_are, shows, mget in *. rewrite (proj1 Al0 ilimits) by (unfold ilimits, ifree; lia). exact Li. }
    apply gs_iteration_limits_sim; auto; discriminate.
  - intros m0 ms1 Hw. now apply gs_iteration_limits_touched.
  - intros ms1. now apply gs_iteration_limits_none.
Qed.

(** ** conjugate gradient *)
Lemma cg_idle g hp n blk v wt b : asserts_on tg = false -> hinv priv hp -> solver_apart priv (SleCg g) -> system hp sJ iMinv iright n 0 blk v wt b ->
  m_h (hm hp ilambda) = 0 ->
  wp (cg_solve g sJ iMinv iright (Some ilambda) ilambda hp) (fun x => snd x = true /\
    exists q, mat_resize (hm hp ilambda) 1 0 = Ok q /\ mat_resize q (m_w (hm hp ilambda)) 0 = Ok (hm (fst x) ilambda)).
Proof.
  intros D [Hwf Hswf] Ha (HsJ & Hin & HWs & Hrs) Eh. destruct (cg_system_names priv g Ha) as [[Hnd Hpn] Hpriv].
  pose proof (names g iMinv iright ilambda Hnd) as Nm. decompose [and] Nm. clear Nm.
  destruct (sp_shows_is_sp _ _ _ _ _ _ _ (Hswf sJ) HsJ) as (v0 & Hs & Ev).
  unfold cg_solve. cbv zeta. replace (m_h (hm hp iright)) with 0 by (symmetry; apply Hrs).
  assert (Res : forall (ms : mats tg) t (w0 h0 : nat), wfs priv ms -> wp (mresize ms t w0 h0) (fun ms' => only t ms ms' /\ wfs priv ms' /\ mat_resize (ms t) w0 h0 = Ok (ms' t))).
  { intros ms t w0 h0 Hq. pose proof (mresize_spec (priv t) ms t w0 h0 (Hq t)) as R. unfold mresize in *.
    destruct (mat_resize (ms t) w0 h0) as [q| | |]; cbn [bind wp] in *; try contradiction. destruct R as (O & (f & M) & _).
    split; [exact O|]. rewrite upd_same. split; [|reflexivity]. eapply wfs_only; [exact Hq|exact O|eapply is_mat_wf; exact M]. }
  eapply wp_seq; [apply Res, Hwf|]. intros ms1 (O1 & W1 & _). cbv beta.
  eapply wp_seq; [apply Res, W1|]. intros ms2 (O2 & W2 & _). cbv beta.
  eapply wp_seq; [apply Res, W2|]. intros ms3 (O3 & W3 & _). cbv beta.
  eapply wp_seq; [apply (minit0_spec (priv (cg_x g))); apply W3|]. intros ms4 [O4 M4]. cbv beta.
  assert (W4 : wfs priv ms4) by (eapply wfs_only; [exact W3|exact O4|eapply is_mat_wf; exact M4]).
  assert (EL : ms4 ilambda = hm hp ilambda) by (rewrite O4, O3, O2, O1 by auto; reflexivity).
  unfold warm_start. rewrite EL, Eh, Nat.eqb_refl.
  destruct (wf_contents _ _ (W4 ilambda)) as [fl Hfl]. apply is_mat_weaken in Hfl. rewrite EL, Eh in Hfl.
  rewrite <- EL in Hfl at 1.
  eapply wp_seq; [apply (mset_ref_spec (priv (cg_x g)) ms4 (cg_x g) ilambda); [exact Hfl|apply W4]|]. intros ms5 [O5 M5]. cbv beta.
  assert (W5 : wfs priv ms5) by (eapply wfs_only; [exact W4|exact O5|eapply is_mat_wf; exact M5]).
  eapply wp_seq; [apply Res, W5|]. intros ms6 (O6 & W6 & Q6). cbv beta. rewrite O5, EL in Q6 by auto.
  assert (R6 : is_mat false (ms6 iright) 1 0 (fun r _ => b r)) by (rewrite O6, O5, O4, O3, O2, O1 by auto; eapply is_mat_weaken, shows_is_mat; [apply Hwf|exact Hrs]).
  eapply wp_seq; [apply (mset_ref_spec (priv (cg_r g)) ms6 (cg_r g) iright); [exact R6|apply W6]|]. intros ms7 [O7 M7]. cbv beta.
  assert (W7 : wfs priv ms7) by (eapply wfs_only; [exact W6|exact O7|eapply is_mat_wf; exact M7]).
  assert (E7 : ms7 ilambda = ms6 ilambda) by (rewrite O7 by auto; reflexivity).
  assert (X7 : is_mat false (ms7 (cg_x g)) (m_w (hm hp ilambda)) 0 fl) by (rewrite O7, O6 by auto; eapply is_mat_weaken; exact M5).
  assert (N7 : is_mat false (ms7 iMinv) 1 n (fun r _ => wt r)) by (rewrite O7, O6, O5, O4, O3, O2, O1 by auto; eapply is_mat_weaken, shows_is_mat; [apply Hwf|exact HWs]).
  assert (Mu : wp (cg_multiply g (hs hp sJ) ms7 iMinv (cg_x g) (cg_Ap g)) (fun ms => ms (cg_x g) = ms7 (cg_x g) /\ ms ilambda = ms7 ilambda /\ m_h (ms (cg_r g)) = 0 /\ m_h (ms (cg_Ap g)) = 0)).
  { unfold cg_multiply. eapply wp_seq; [apply Res, W7|]. intros ms8 (O8 & W8 & _). cbv beta.
    unfold sp_transpose_multiply_vector. cbv zeta. unfold massert at 1 2. rewrite D. replace (s_h (hs hp sJ)) with 0 by (symmetry; apply HsJ). replace (s_w (hs hp sJ)) with n by (symmetry; apply HsJ).
    eapply wp_seq; [|intros ms9 P; cbv beta].
    { instantiate (1 := fun ms9 => only (cg_mreg0 g) ms8 ms9 /\ is_mat (priv (cg_mreg0 g)) (ms9 (cg_mreg0 g)) 1 n (fun _ _ => cofZ 0)).
      cbn [bind]. destruct (Nat.eqb _ _), (Nat.eqb _ _); cbn [bind]; (eapply wp_seq; [apply (minit0_spec (priv (cg_mreg0 g))); apply W8|]);
      intros ms9 P; unfold for2, for_; cbn [for_from wp]; exact P. }
    destruct P as [O9 M9]. apply is_mat_weaken in M9.
    assert (W9 : wf (priv (cg_mreg1 g)) (ms9 (cg_mreg1 g))) by (rewrite O9 by auto; apply W8).
    assert (N9 : is_mat false (ms9 iMinv) 1 n (fun r _ => wt r)) by (rewrite O9, O8 by auto; exact N7).
    eapply wp_seq; [apply (mcomponent_spec (priv (cg_mreg1 g)) ms9 iMinv (cg_mreg0 g) (cg_mreg1 g) 1 n _ _ N9 M9 W9)|]. intros ms10 [O10 M10]. cbv beta.
    assert (W10 : wf (priv (cg_Ap g)) (ms10 (cg_Ap g))) by (rewrite O10, O9 by auto; apply W8).
    assert (NA : cg_mreg1 g <> cg_Ap g) by auto.
    eapply wp_mono; [apply (sp_multiply_spec 3 2 (priv (cg_Ap g)) (hs hp sJ) ms10 (cg_mreg1 g) (cg_Ap g) 1 0 n blk v0 _ Hs (is_mat_weaken _ _ _ _ _ M10) W10 NA); intros r0 e0 Hr0; destruct (Nat.nlt_0_r _ Hr0)|].
    intros ms11 [O11 M11]. split; [rewrite O11, O10, O9, O8 by auto; reflexivity|]. split; [rewrite O11, O10, O9, O8 by auto; reflexivity|].
    split; [rewrite O11, O10, O9, O8 by auto; eapply is_mat_h; exact M7|eapply is_mat_h; exact M11]. }
  eapply wp_seq; [exact Mu|]. intros ms8 (X8 & L8 & R8 & A8). cbv beta.
  eapply wp_seq; [instantiate (1 := fun ms9 => ms9 = ms8)|intros ms9 ->; cbv beta].
  { unfold mmadd, massert. rewrite D, R8. destruct (Nat.eqb _ _), (Nat.eqb _ _); cbn; reflexivity. }
  unfold cg_small. rewrite R8. unfold for_. cbn [for_from bind].
  rewrite <- X8 in X7.
  unfold mset_ref. rewrite (is_mat_w _ _ _ _ _ X7), (is_mat_h _ _ _ _ _ X7). unfold mresize. rewrite L8, E7.
  assert (W6' : wf (priv ilambda) (ms6 ilambda)) by apply W6. pose proof (mat_resize_spec _ _ (m_w (hm hp ilambda)) 0 W6') as Z.
  destruct (mat_resize (ms6 ilambda) (m_w (hm hp ilambda)) 0) as [q| | |] eqn:Eq; cbn [wp bind] in *; try contradiction.
  rewrite upd_other by auto. rewrite (is_mat_h _ _ _ _ _ X7). unfold for2, for_. cbn [for_from bind wp]. split; [reflexivity|]. exists (ms6 ilambda). split; [exact Q6|]. cbn [fst with_hm hm]. now rewrite upd_same.
Qed.

Lemma cg_core g hp hp' n m blk v wt b : solver_apart priv (SleCg g) -> hinv priv hp -> hinv priv hp' -> alike hp hp' ->
  column (hm hp ilambda) -> system hp sJ iMinv iright n m blk v wt b ->
  rel (cg_solve g sJ iMinv iright (Some ilambda) ilambda hp) (cg_solve g sJ iMinv iright (Some ilambda) ilambda hp') core_alike.
Proof.
  intros Ha H H' Al Co Sy. pose proof (system_alike _ _ _ _ _ _ _ _ Al Sy) as Sy'. pose proof (alike_lambda _ _ Al) as El.
  assert (X : (m_h (hm hp ilambda) = m -> m_w (hm hp ilambda) = 1) \/ (m = 0 /\ m_h (hm hp ilambda) = 0 /\ m_w (hm hp ilambda) <> 1)).
  { destruct (Nat.eq_dec (m_w (hm hp ilambda)) 1); [now left|]. destruct Co as [C|C]; [|contradiction].
    destruct (Nat.eq_dec m 0); [right; auto|left; lia]. }
  destruct X as [X|(-> & Eh & Ew)].
  - destruct (cg_system_names priv g Ha) as [Hn Hp].
    assert (St : exists x, start_cg hp (Some ilambda) m x /\ start_cg hp' (Some ilambda) m x).
    { destruct (Nat.eq_dec (m_h (hm hp ilambda)) m) as [E|N].
      - pose proof (X E) as Ew. destruct (wf_contents _ _ (proj1 H ilambda)) as [f Hf]. rewrite E, Ew in Hf.
        assert (S1 : shows (hm hp) ilambda 1 m (fun r _ => f r 0)).
        { split; [exact Ew|]. split; [exact E|]. intros r c Hr Hc. replace c with 0 by lia. apply is_mat_weaken in Hf.
          rewrite (mget_spec _ _ _ _ _ _ _ _ Hf) by lia. reflexivity. }
        exists (fun r => f r 0). split; left; exists ilambda; (split; [reflexivity|]); [exact S1|].
        unfold shows, mget in *. rewrite El. exact S1.
      - exists (fun _ => cofZ 0). split; right; (split; [intros p [= <-]|reflexivity]); [exact N|rewrite El; exact N]. }
    destruct St as (x & St & St').
    pose proof (cg_solve_sim priv hp g sJ iMinv iright (Some ilambda) ilambda n m blk v wt b x H Hn Hp Sy St) as R.
    pose proof (cg_solve_sim priv hp' g sJ iMinv iright (Some ilambda) ilambda n m blk v wt b x H' Hn Hp Sy' St') as R'.
    assert (T : forall hp0, m_h (hm hp0 iright) = m -> hm hp0 ilambda = hm hp ilambda ->
      pc (cg_solve g sJ iMinv iright (Some ilambda) ilambda hp0) (fun x => exists m0, mat_resize (hm hp ilambda) 1 m = Ok m0 /\ touched m0 (hm (fst x) ilambda) /\
      (snd x = false -> hm (fst x) ilambda = m0))).
    { intros hp0 Er E0. pose proof Ha as (A1 & A2 & _). rewrite <- E0. apply cg_solve_touched; [exact A1| | |exact Er|rewrite E0; exact X];
      intros Q; apply A2 in Q; unfold ifree, ilambda, iright in Q; lia. }
    assert (Er : m_h (hm hp iright) = m) by apply Sy. assert (Er' : m_h (hm hp' iright) = m) by apply Sy'.
    eapply rel_mono; [apply (rel_pc _ _ _ _ _ (rel_meet _ _ _ _ _ R R') (T hp Er eq_refl) (T hp' Er' El))|].
    intros z z' ((y & (A1 & _ & A3) & (B1 & _ & B3)) & (m0 & E0 & T0 & F0) & (m0' & E0' & T0' & F0')).
    assert (Es : snd z' = snd z) by congruence. split; [exact Es|].
    rewrite E0 in E0'. injection E0' as <-. destruct (resized_wf hp m m0 H E0) as (W & Ew & Eh).
    destruct (snd z) eqn:Ez.
    + apply (same_touched _ _ m0 (fst y) m W Ew Eh T0 T0'); [apply A3|apply B3]; congruence.
    + rewrite F0, F0' by congruence. reflexivity.
  - destruct (asserts_on tg) eqn:D.
    + rewrite (cg_balks priv g hp n blk v wt b D H Ha Sy Eh Ew), (cg_balks priv g hp' n blk v wt b D H' Ha Sy'); [exact I|congruence|congruence].
    + assert (Eh' : m_h (hm hp' ilambda) = 0) by congruence.
      eapply rel_mono; [eapply rel_wp; [exact (cg_idle g hp n blk v wt b D H Ha Sy Eh)|exact (cg_idle g hp' n blk v wt b D H' Ha Sy' Eh')]|].
      intros x x' [(A & q & Q1 & Q2) (A' & q' & Q1' & Q2')]. rewrite El in Q1', Q2'. split; [congruence|]. congruence.
Qed.

(** ** either call *)
Lemma sle_solve_low l hp hp' n m blk v wt b : solver_apart priv l -> hinv priv hp -> hinv priv hp' -> alike hp hp' ->
  column (hm hp ilambda) -> system hp sJ iMinv iright n m blk v wt b ->
  rel (sle_solve l sJ iMinv iright ilambda ilambda hp) (sle_solve l sJ iMinv iright ilambda ilambda hp') step_alike.
Proof.
  intros Ha H H' Al Co Sy.
  assert (C : rel (sle_solve l sJ iMinv iright ilambda ilambda hp) (sle_solve l sJ iMinv iright ilambda ilambda hp') core_alike).
  { destruct l as [lb|g|g|g]; cbn [sle_solve].
    - split; [reflexivity|]. now apply alike_lambda.
    - eapply ge_core; eassumption.
    - eapply gs_core; eassumption.
    - eapply cg_core; eassumption. }
  pose proof (rel_pc _ _ _ _ _ C (sle_solve_keeps priv l sJ iMinv iright ilambda ilambda hp Ha H) (sle_solve_keeps priv l sJ iMinv iright ilambda ilambda hp' Ha H')) as R.
  eapply rel_mono; [exact R|]. intros x x' ([A B] & K & K'). split; [exact A|]. eapply keeps_alike; eassumption.
Qed.
Lemma sle_solve_limits_low l hp hp' n m blk v wt b lo hi : solver_apart priv l -> hinv priv hp -> hinv priv hp' -> alike hp hp' ->
  column (hm hp ilambda) -> limits_are (hm hp) ilimits m lo hi -> system hp sJ iMinv iright n m blk v wt b ->
  rel (sle_solve_limits l sJ iMinv iright ilimits ilambda ilambda hp) (sle_solve_limits l sJ iMinv iright ilimits ilambda ilambda hp') step_alike.
Proof.
  intros Ha H H' Al Co Li Sy.
  assert (C : rel (sle_solve_limits l sJ iMinv iright ilimits ilambda ilambda hp) (sle_solve_limits l sJ iMinv iright ilimits ilambda ilambda hp') core_alike).
  { destruct l as [lb|g|g|g]; cbn [sle_solve_limits].
    - split; [reflexivity|]. now apply alike_lambda.
    - split; [reflexivity|]. now apply alike_lambda.
    - eapply gs_limits_core; eassumption.
    - split; [reflexivity|]. now apply alike_lambda. }
  pose proof (rel_pc _ _ _ _ _ C (sle_solve_limits_keeps priv l sJ iMinv iright ilimits ilambda ilambda hp Ha H) (sle_solve_limits_keeps priv l sJ iMinv iright ilimits ilambda ilambda hp' Ha H')) as R.
  eapply rel_mono; [exact R|]. intros x x' ([A B] & K & K'). split; [exact A|]. eapply keeps_alike; eassumption.
Qed.
End S.
