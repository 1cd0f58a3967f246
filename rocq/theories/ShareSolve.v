(** * A solve leaves the result matrix in a state that depends on its earlier
    state and the solution only. *)

From Coq Require Import Reals.
From Verif Require Import Base Targets Matrix Sparse Sle State Ode Forces Constraints System Logic
  MatrixFacts MatrixOps SpecMatrix MatrixHist SparseFacts SpecSparse SparseHist SpecSle SleHist SleGe SleGs SleCg
  SpecSys SysFrame SysInv SysColumn SpecShare.
Local Open Scope nat_scope.

Section S.
Context {tg : target}.
Implicit Types (ms : mats tg) (ss : sps tg) (hp : heap tg).

(** m differs from m0 only in the contents of its elements *)
Definition touched (m0 m : matrix tg) : Prop := exists d, m = with_data m0 d /\ length d = length (m_data m0) /\
  forall p, (forall r c off, r < m_h m0 -> c < m_w m0 -> nth_error (m_rows m0) r = Some (Some off) -> p <> off + c) ->
    nth_error d p = nth_error (m_data m0) p.
Lemma touched_refl m0 : touched m0 m0.
Proof. exists (m_data m0). split; [now destruct m0|auto]. Qed.
Lemma touched_dims m0 m : touched m0 m -> m_w m = m_w m0 /\ m_h m = m_h m0.
Proof. intros (d & -> & _). auto. Qed.
Lemma raw_set_touched m0 m r c v : r < m_h m0 -> c < m_w m0 -> touched m0 m -> pc (raw_set m r c v) (touched m0).
Proof.
  intros Hr Hc (d & -> & Ld & Hd). unfold raw_set. cbn [with_data m_rows m_data].
  destruct (nth_error (m_rows m0) r) as [[off|]|] eqn:Er; [|exact I|exact I].
  destruct (list_set d (off + c) v) as [d'|] eqn:Es; [|exact I]. cbn [lift_opt bind pc].
  assert (Hl : off + c < length d). { destruct (Nat.lt_ge_cases (off + c) (length d)) as [H|H]; [exact H|]. rewrite list_set_none in Es by exact H. discriminate. }
  destruct (list_set_some d (off + c) v Hl) as (d1 & E1 & L1 & N1). rewrite E1 in Es. injection Es as <-.
  exists d1. split; [reflexivity|]. split; [congruence|]. intros p Hp. rewrite N1.
  destruct (Nat.eqb_spec p (off + c)) as [->|_]; [exfalso; exact (Hp r c off Hr Hc Er eq_refl)|]. now apply Hd.
Qed.
Lemma mset_touched m0 ms t c r v : r < m_h m0 -> c < m_w m0 -> touched m0 (ms t) -> pc (mset ms t c r v) (fun ms' => touched m0 (ms' t)).
Proof.
  intros Hr Hc H. unfold mset. eapply (pc_seq _ _ (touched m0)).
  - unfold mat_set. do 2 (apply pc_any; intros _). now apply raw_set_touched.
  - intros m Hm. cbn [pc]. now rewrite upd_same.
Qed.
Lemma rset_touched m0 ms t c r v : r < m_h m0 -> c < m_w m0 -> touched m0 (ms t) -> pc (rset ms t r c v) (fun ms' => touched m0 (ms' t)).
Proof.
  intros Hr Hc H. unfold rset. eapply (pc_seq _ _ (touched m0)); [now apply raw_set_touched|].
  intros m Hm. cbn [pc]. now rewrite upd_same.
Qed.

(** the same elements: the same matrix *)
Lemma list_ext {A} : forall l l' : list A, (forall p, nth_error l p = nth_error l' p) -> l = l'.
Proof.
  induction l as [|a l IH]; intros [|b l'] H; [reflexivity|discriminate (H 0)|discriminate (H 0)|].
  pose proof (H 0) as E. injection E as ->. f_equal. apply IH. intros p. exact (H (S p)).
Qed.
Lemma touched_eq k m0 m m' h (x : nat -> cell tg) : wf k m0 -> m_h m0 = h -> m_w m0 = 1 -> touched m0 m -> touched m0 m' ->
  (forall r, r < h -> raw_get m r 0 = Ok (x r)) -> (forall r, r < h -> raw_get m' r 0 = Ok (x r)) -> m' = m.
Proof.
  intros Hwf Hh Hw (d & -> & Ld & Hd) (d' & -> & Ld' & Hd') G G'. f_equal.
  apply list_ext. intros p.
  destruct (wf_map _ _ Hwf) as (q & Hq & _).
  assert (Dec : (exists r, r < h /\ p = q r * m_w m0) \/ forall r, r < h -> p <> q r * m_w m0).
  { clear -h. induction h as [|h IH]; [right; lia|]. destruct IH as [(r & Hr & E)|N]; [left; exists r; split; [lia|exact E]|].
    destruct (Nat.eq_dec p (q h * m_w m0)) as [E|E]; [left; exists h; split; [lia|exact E]|right].
    intros r Hr. destruct (Nat.eq_dec r h) as [->|]; [exact E|apply N; lia]. }
  destruct Dec as [(r & Hr & E)|N].
  - specialize (G r Hr). specialize (G' r Hr). unfold raw_get in G, G'. cbn [with_data m_rows m_data] in G, G'.
    destruct (Hq r ltac:(lia)) as [Er _]. rewrite Er in G, G'. rewrite Nat.add_0_r in G, G'. rewrite E.
    destruct (nth_error d (q r * m_w m0)); [|discriminate]. destruct (nth_error d' (q r * m_w m0)); [|discriminate].
    cbn [lift_opt] in G, G'. congruence.
  - rewrite Hd, Hd'; [reflexivity| |].
    + intros r c off Hr Hc Er. destruct (Hq r Hr) as [Er' _]. rewrite Er in Er'. injection Er' as ->. specialize (N r ltac:(lia)). lia.
    + intros r c off Hr Hc Er. destruct (Hq r Hr) as [Er' _]. rewrite Er in Er'. injection Er' as ->. specialize (N r ltac:(lia)). lia.
Qed.

(** ** what the solvers do to the result *)
Lemma ge_back_touched m0 ms A u m n : m_h m0 = m -> m_w m0 = 1 -> 0 < m -> touched m0 (ms u) ->
  pc (ge_back_substitute ms A u m n) (fun ms' => touched m0 (ms' u)).
Proof.
  intros Hh Hw Hm H. unfold ge_back_substitute. do 2 (apply pc_any; intros ?).
  eapply pc_seq; [apply (mset_touched m0); [lia|lia|exact H]|].
  intros ms1 H1. assert (R : forall t, m - 2 - t < m) by lia.
  apply for_pc; [|exact H1]. intros t ms2 H2. do 4 (apply pc_any; intros ?). specialize (R t).
  destruct (negb _); (apply (mset_touched m0); [lia|lia|exact H2]).
Qed.
Lemma gs_iteration_touched m0 ms a r u : m_w m0 = 1 -> touched m0 (ms u) -> pc (gs_iteration ms a r u u) (fun x => touched m0 (fst x u)).
Proof.
  intros Hw H. unfold gs_iteration. cbv zeta. destruct (touched_dims _ _ H) as [_ Eh].
  eapply pc_mono; [apply (for_from_pci _ (fun _ x => touched m0 (fst x u)) _ 0); [|exact H]|auto].
  intros i [ms1 md] Hi H1. cbn [fst] in *. do 3 (apply pc_any; intros ?).
  eapply pc_seq; [apply (mset_touched m0); [lia|lia|exact H1]|]. intros ms2 H2. exact H2.
Qed.
Lemma gs_iteration_limits_touched m0 ms a r lim u : m_w m0 = 1 -> touched m0 (ms u) -> pc (gs_iteration_limits ms a r lim u u) (fun x => touched m0 (fst x u)).
Proof.
  intros Hw H. unfold gs_iteration_limits. cbv zeta. destruct (touched_dims _ _ H) as [_ Eh].
  eapply pc_mono; [apply (for_from_pci _ (fun _ x => touched m0 (fst x u)) _ 0); [|exact H]|auto].
  intros i [ms1 md] Hi H1. cbn [fst] in *. do 5 (apply pc_any; intros ?).
  eapply pc_seq; [apply (mset_touched m0); [lia|lia|exact H1]|]. intros ms2 H2. exact H2.
Qed.
Lemma gs_iterate_touched m0 u step mind iters :
  (forall ms, touched m0 (ms u) -> pc (step ms) (fun x => touched m0 (fst x u))) ->
  forall ms, touched m0 (ms u) -> pc (@gs_iterate tg step mind iters ms) (fun x => touched m0 (fst x u)).
Proof.
  intros Hs. induction iters as [|n IH]; intros ms H; cbn [gs_iterate]; [exact H|].
  eapply pc_seq; [apply Hs, H|]. intros [ms1 md] H1. apply pc_any; intros c. destruct c; [exact H1|]. now apply IH.
Qed.
Lemma resize_same (m : matrix tg) w h : m_w m = w -> m_h m = h -> mat_resize m w h = Ok m.
Proof. intros <- <-. unfold mat_resize. now rewrite !Nat.eqb_refl. Qed.
Lemma mset_ref_touched m0 ms u x : touched m0 (ms u) -> m_w (ms x) = m_w m0 -> m_h (ms x) = m_h m0 ->
  pc (mset_ref ms u x) (fun ms' => touched m0 (ms' u)).
Proof.
  intros H Ew Eh. destruct (touched_dims _ _ H) as [Dw Dh]. unfold mset_ref. unfold mresize at 1.
  rewrite (resize_same (ms u)) by congruence. cbn [bind].
  set (ms1 := upd ms u (ms u)). assert (H1 : touched m0 (ms1 u)) by (unfold ms1; now rewrite upd_same).
  assert (D1 : forall i, ms1 i = ms i). { intros i. unfold ms1, upd. destruct (Nat.eqb_spec i u) as [->|]; reflexivity. }
  rewrite (D1 x), Ew, Eh. clearbody ms1.
  eapply pc_mono; [apply (for_from_pci _ (fun _ ms => touched m0 (ms u)) _ 0); [|exact H1]|auto].
  intros i ms2 Hi H2. eapply pc_mono; [apply (for_from_pci _ (fun _ ms => touched m0 (ms u)) _ 0); [|exact H2]|auto].
  intros j ms3 Hj H3. apply pc_any; intros v. apply (rset_touched m0); [lia|lia|exact H3].
Qed.

(** ** the elimination solver *)
Lemma ge_solve_touched priv hp g J W right prev u n m blk v w b :
  hinv priv hp -> ge_names g J W right u -> system hp J W right n m blk v w b -> 0 < m ->
  pc (ge_solve g J W right prev u hp) (fun x => exists m0, mat_resize (hm hp u) 1 m = Ok m0 /\ touched m0 (hm (fst x) u)).
Proof.
  intros [Hwf Hswf] [Hnd HJ] (HsJ & Hin & HW & Hr) Hm.
  assert (Nd : u <> ge_a g /\ u <> ge_M g).
  { repeat match goal with H : NoDup (_ :: _) |- _ => inversion_clear H end. cbn in *. intuition congruence. }
  destruct Nd as (N1 & N2). clear Hnd.
  pose proof (shows_vec _ _ _ _ _ (Hwf W) HW) as HW'. unfold ge_solve.
  pose proof (build_matrix_spec _ (hs hp) (hm hp) J W (ge_reg g) (ge_M g) n m blk v w Hswf (Hwf (ge_M g)) HJ HsJ Hin HW') as HB.
  destruct (sp_right_scale 3 2 (hs hp) (hm hp) J W (ge_reg g)) as [ss| | |]; cbn [wp bind] in *; try contradiction.
  destruct HB as (_ & _ & HB).
  destruct (sp_multiply_transpose 3 2 (ss (ge_reg g)) (ss J) (hm hp) (ge_M g)) as [ms1| | |]; cbn [wp bind] in *; try contradiction.
  destruct HB as [Ho1 Hm1]. rewrite (is_mat_w _ _ _ _ _ Hm1), (is_mat_h _ _ _ _ _ Hm1). apply pc_any; intros _.
  destruct (Nat.eqb_spec (m + 1) 0); [lia|]. destruct (Nat.eqb_spec m 0); [lia|]. cbn [orb]. cbv zeta.
  unfold mresize at 1. rewrite (Ho1 u N2). pose proof (mat_resize_dims (hm hp u) 1 m) as D.
  destruct (mat_resize (hm hp u) 1 m) as [m0| | |]; try exact I. cbn [bind pc] in *. destruct D as [Dw Dh].
  set (l := [ge_a g]). set (ms2 := upd ms1 u m0).
  eapply pc_seq; [apply (mresize_off l ms2); [now left|apply off_refl]|]. intros ms3 H3.
  eapply (pc_seq _ _ (off l ms2)).
  { apply for_pc; [|exact H3]. intros i ms4 H4. eapply (pc_seq _ _ (off l ms2)).
    - apply for_pc; [|exact H4]. intros j ms5 H5. apply pc_any; intros ?. apply mset_off; [now left|exact H5].
    - intros ms5 H5. apply pc_any; intros ?. apply mset_off; [now left|exact H5]. }
  intros ms4 H4. eapply pc_seq; [apply (ge_loop_off l ms2); [now left|exact H4]|].
  intros ms5 H5. do 3 (apply pc_any; intros ?).
  eapply pc_seq; [apply (ge_back_touched m0 _ _ u); [exact Dh|exact Dw|exact Hm|]|].
  { rewrite (H5 u) by (cbn; intuition congruence). unfold ms2. rewrite upd_same. apply touched_refl. }
  intros ms6 H6. apply pc_any; intros _. cbn [pc fst hm]. exists m0. auto.
Qed.

(** ** Gauss-Seidel, after the starting vector is in place *)
Lemma gs_tail_touched hp ms g J W u m0 (step : mats tg -> res (mats tg * cell tg)) : u <> gs_M g -> touched m0 (ms u) ->
  (forall ms, touched m0 (ms u) -> pc (step ms) (fun x => touched m0 (fst x u))) ->
  pc (let* ss := sp_right_scale 3 2 (hs hp) ms J W (gs_reg g) in
       let* ms := sp_multiply_transpose 3 2 (ss (gs_reg g)) (ss J) ms (gs_M g) in
       let* (ms, ok) := gs_iterate step (gs_min_delta g) (gs_max_iterations g) ms in
       Ok ({| hm := ms; hs := ss |}, ok)) (fun x => touched m0 (hm (fst x) u)).
Proof.
  intros N H Hs. apply pc_any; intros ss.
  eapply pc_seq; [apply (sp_multiply_transpose_off [gs_M g] ms); [now left|apply off_refl]|]. intros ms3 F3.
  eapply pc_seq; [apply (gs_iterate_touched m0 u); [exact Hs|rewrite (F3 u) by (cbn; intuition congruence); exact H]|].
  intros [ms4 ok] H4. exact H4.
Qed.

(** ** conjugate gradient *)
Lemma cg_solve_touched g J W right u hp m : NoDup [cg_mreg0 g; cg_mreg1 g; cg_Ap g; cg_x g; cg_r g; cg_p g] ->
  ~ In u [cg_mreg0 g; cg_mreg1 g; cg_Ap g; cg_x g; cg_r g; cg_p g] -> ~ In right [cg_mreg0 g; cg_mreg1 g; cg_Ap g; cg_x g; cg_r g; cg_p g] ->
  m_h (hm hp right) = m -> (m_h (hm hp u) = m -> m_w (hm hp u) = 1) ->
  pc (cg_solve g J W right (Some u) u hp) (fun x => exists m0, mat_resize (hm hp u) 1 m = Ok m0 /\ touched m0 (hm (fst x) u) /\
    (snd x = false -> hm (fst x) u = m0)).
Proof.
  intros ND Hu Hr Em Hc. assert (Nx : ~ In (cg_x g) [cg_r g; cg_p g; cg_mreg0 g; cg_mreg1 g; cg_Ap g]).
  { repeat (apply NoDup_cons_iff in ND; destruct ND as [? ND]). cbn in *. intuition congruence. }
  unfold cg_solve. cbv zeta. set (l := [cg_r g; cg_p g; cg_mreg0 g; cg_mreg1 g; cg_Ap g]). rewrite Em.
  assert (Nu : ~ In u l) by (cbn in *; intuition congruence).
  assert (Nux : u <> cg_x g) by (cbn in *; intuition congruence).
  eapply pc_seq; [apply (mresize_off l (hm hp)); [cbn; auto 10|apply off_refl]|]. intros msa Ha.
  eapply pc_seq; [apply (mresize_off l (hm hp)); [cbn; auto 10|exact Ha]|]. intros msb Hb.
  eapply pc_seq; [apply (mresize_off l (hm hp)); [cbn; auto 10|exact Hb]|]. intros msc Hcc.
  assert (Cc : msc u = hm hp u) by (exact (Hcc u Nu)).
  assert (XX : forall ms, ms u = hm hp u -> pc (minit0 ms (cg_x g) 1 m) (fun ms1 => (m_w (ms1 (cg_x g)) = 1 /\ m_h (ms1 (cg_x g)) = m) /\ ms1 u = hm hp u)).
  { intros ms E. apply pc_and; [apply minit0_dims|].
    eapply pc_mono; [apply (minit0_off [cg_x g] ms); [now left|apply off_refl]|]. intros ms1 F1. rewrite (F1 u); [exact E|]. cbn in *. intuition congruence. }
  eapply pc_seq; [apply XX, Cc|]. intros ms1 [[X1 X1'] U1].
  eapply (pc_seq _ _ (fun ms => (m_w (ms (cg_x g)) = 1 /\ m_h (ms (cg_x g)) = m) /\ ms u = hm hp u)).
  { unfold warm_start. rewrite U1. destruct (Nat.eqb_spec (m_h (hm hp u)) m) as [Eq|]; [|now repeat split].
    apply pc_and.
    - eapply pc_mono; [apply mset_ref_dims|]. intros ms' [A B]. rewrite A, B, U1. split; [now apply Hc|exact Eq].
    - eapply pc_mono; [apply (mset_ref_off [cg_x g] ms1); [now left|apply off_refl]|]. intros ms2 F2. rewrite (F2 u); [exact U1|]. cbn in *. intuition congruence. }
  intros ms2 [X2 U2].
  unfold mresize at 1. rewrite U2. pose proof (mat_resize_dims (hm hp u) 1 m) as D.
  destruct (mat_resize (hm hp u) 1 m) as [m0| | |]; try exact I. cbn [bind pc] in *. destruct D as [Dw Dh].
  set (ms3 := upd ms2 u m0).
  assert (X3 : m_w (ms3 (cg_x g)) = 1 /\ m_h (ms3 (cg_x g)) = m) by (unfold ms3; rewrite upd_other by auto; exact X2).
  assert (U3 : ms3 u = m0) by (unfold ms3; now rewrite upd_same). clearbody ms3.
  eapply pc_seq; [apply (mset_ref_off l ms3); [cbn; auto 10|apply off_refl]|]. intros ms4 H4.
  eapply pc_seq; [apply (cg_multiply_off l ms3); try (cbn; auto 10; fail); exact H4|]. intros ms5 H5.
  eapply pc_seq; [apply (mmadd_off l ms3); [cbn; auto 10|exact H5]|]. intros ms6 H6. apply pc_any; intros s.
  eapply (pc_seq _ _ (fun x => (m_w (fst x (cg_x g)) = 1 /\ m_h (fst x (cg_x g)) = m) /\ fst x u = m0)).
  { assert (X6 : m_w (ms6 (cg_x g)) = 1 /\ m_h (ms6 (cg_x g)) = m) by (rewrite (H6 _ Nx); exact X3).
    assert (U6 : ms6 u = m0) by (rewrite (H6 _ Nu); exact U3).
    destruct s; [now split|]. eapply pc_seq; [apply (mset_ref_off l ms6); [cbn; auto 10|apply off_refl]|]. intros ms7 H7.
    assert (X7 : m_w (ms7 (cg_x g)) = 1 /\ m_h (ms7 (cg_x g)) = m) by (rewrite (H7 _ Nx); exact X6).
    assert (U7 : ms7 u = m0) by (rewrite (H7 _ Nu); exact U6).
    apply pc_and; [eapply pc_mono; [apply (cg_loop_size (cg_x g))|]|eapply pc_mono; [apply (cg_loop_off (cg_x g :: l) ms7)|]].
    - subst l; cbn in *; intuition congruence.
    - intros x [A B]. rewrite <- A, <- B in X7. exact X7.
    - intros i Hi. unfold l. cbn in Hi |- *. clear -Hi. tauto.
    - apply off_refl.
    - intros x Hx. cbv beta. rewrite <- U7. apply (Hx u). intros [E|E]; [now apply Nux|now apply Nu]. }
  intros [ms7 ok] [[X7 X7'] U7]. cbn [fst] in *. destruct ok.
  - eapply pc_seq; [apply (mset_ref_touched m0 ms7 u (cg_x g)); [rewrite U7; apply touched_refl|congruence|congruence]|].
    intros ms8 H8. cbn [pc fst snd with_hm hm]. exists m0. split; [reflexivity|]. split; [exact H8|discriminate].
  - cbn [pc fst snd with_hm hm]. exists m0. split; [reflexivity|]. split; [rewrite U7; apply touched_refl|auto].
Qed.
End S.
