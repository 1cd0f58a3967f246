(** * The multipliers stay a column: lambda has width 1 unless it is empty. *)

From Coq Require Import Reals.
From Verif Require Import Base Targets Matrix Sparse Sle State Ode Forces Constraints System Logic
  MatrixFacts MatrixOps SpecMatrix MatrixHist SparseFacts SpecSparse SparseHist SpecSle SleHist SleGe
  SpecState StateFacts OdeFacts SpecSys SysFrame SysInv.
Local Open Scope nat_scope.

Section S.
Context {tg : target}.
Notation st := (sstate tg).
Implicit Types (ms : mats tg) (ss : sps tg) (hp : heap tg) (w : world tg) (y : sys tg).

Definition column (m : matrix tg) : Prop := m_h m = 0 \/ m_w m = 1.
Definition same_dims (m m' : matrix tg) : Prop := m_w m' = m_w m /\ m_h m' = m_h m.

(** ** sizes *)
Lemma raw_set_dims (m : matrix tg) r c v : pc (raw_set m r c v) (same_dims m).
Proof.
  unfold raw_set. destruct (nth_error (m_rows m) r) as [[o|]|]; try exact I. destruct (list_set _ _ _); try exact I. split; reflexivity.
Qed.
Lemma mat_set_dims (m : matrix tg) c r v : pc (mat_set m c r v) (same_dims m).
Proof. unfold mat_set. do 2 (apply pc_any; intros _). apply raw_set_dims. Qed.
Lemma mat_resize_dims (m : matrix tg) (w h : nat) : pc (mat_resize m w h) (fun m' => m_w m' = w /\ m_h m' = h).
Proof.
  unfold mat_resize. destruct (Nat.eqb_spec w (m_w m)), (Nat.eqb_spec h (m_h m)); cbn [andb]; try (cbn [pc]; now split).
  all: cbv zeta; apply for_pc; [|cbn [m_w m_h]; now split];
    intros i m1 [E1 E2]; unfold set_row_ptr; destruct (list_set _ _ _); try exact I; cbn; now split.
Qed.
Lemma mat_init0_dims (m : matrix tg) (w h : nat) : pc (mat_init0 m w h) (fun m' => m_w m' = w /\ m_h m' = h).
Proof.
  unfold mat_init0. eapply pc_seq; [apply mat_resize_dims|]. intros m1 D. destruct (overwrite _ _); try exact I. exact D.
Qed.
(** every store after the operation has at [u] the size it had *)
Definition keeps_size u ms ms' : Prop := same_dims (ms u) (ms' u).
Lemma upd_size u ms0 ms t m : keeps_size u ms0 ms -> same_dims (ms t) m -> keeps_size u ms0 (upd ms t m).
Proof.
  intros H D. unfold keeps_size. destruct (Nat.eq_dec u t) as [->|N]; [|now rewrite upd_other].
  rewrite upd_same. unfold keeps_size in H. unfold same_dims in *. intuition congruence.
Qed.
Lemma keeps_size_refl u ms : keeps_size u ms ms.
Proof. now split. Qed.
Lemma rset_size u ms0 ms t r c v : keeps_size u ms0 ms -> pc (rset ms t r c v) (keeps_size u ms0).
Proof. intros H. unfold rset. eapply pc_seq; [apply raw_set_dims|]. intros m D. now apply upd_size. Qed.
Lemma mset_size u ms0 ms t c r v : keeps_size u ms0 ms -> pc (mset ms t c r v) (keeps_size u ms0).
Proof. intros H. unfold mset. eapply pc_seq; [apply mat_set_dims|]. intros m D. now apply upd_size. Qed.
Lemma mresize_dims ms t (w h : nat) : pc (mresize ms t w h) (fun ms' => m_w (ms' t) = w /\ m_h (ms' t) = h).
Proof. unfold mresize. eapply pc_seq; [apply mat_resize_dims|]. intros m D. cbn [pc]. now rewrite upd_same. Qed.
Lemma minit0_dims ms t (w h : nat) : pc (minit0 ms t w h) (fun ms' => m_w (ms' t) = w /\ m_h (ms' t) = h).
Proof. unfold minit0. eapply pc_seq; [apply mat_init0_dims|]. intros m D. cbn [pc]. now rewrite upd_same. Qed.
Lemma mset_ref_dims ms t b : pc (mset_ref ms t b) (fun ms' => same_dims (ms b) (ms' t)).
Proof.
  unfold mset_ref. eapply pc_seq; [apply mresize_dims|]. intros ms1 D. eapply pc_mono.
  - apply (for2_pc _ _ _ (keeps_size t ms1)); [|apply keeps_size_refl]. intros i j ms2 H2. apply pc_any; intros v. now apply rset_size.
  - intros ms2 H. unfold keeps_size, same_dims in *. intuition congruence.
Qed.
Lemma mmadd_size u ms t b s : pc (mmadd ms t b s) (keeps_size u ms).
Proof.
  unfold mmadd. do 2 (apply pc_any; intros _). apply (for2_pc _ _ _ (keeps_size u ms)); [|apply keeps_size_refl].
  intros i j ms2 H2. do 2 (apply pc_any; intros ?). now apply rset_size.
Qed.
Lemma size_column u ms ms' : keeps_size u ms ms' -> column (ms u) -> column (ms' u).
Proof. intros [A B] [H|H]; [left|right]; congruence. Qed.
Lemma off_size l u ms ms' : off l ms ms' -> ~ In u l -> keeps_size u ms ms'.
Proof. intros H N. unfold keeps_size, same_dims. now rewrite (H u N). Qed.

(** ** the solvers *)
Lemma ge_back_size u ms A result m n : pc (ge_back_substitute ms A result m n) (keeps_size u ms).
Proof.
  unfold ge_back_substitute. do 2 (apply pc_any; intros ?). eapply pc_seq; [apply mset_size, keeps_size_refl|].
  intros ms1 H1. apply for_pc; [|exact H1]. intros t ms2 H2. do 4 (apply pc_any; intros ?). destruct (negb _); now apply mset_size.
Qed.
Lemma ge_solve_column g J W right p u hp : u <> ge_a g -> u <> ge_M g -> column (hm hp u) ->
  pc (ge_solve g J W right p u hp) (fun x => column (hm (fst x) u)).
Proof.
  intros N1 N2 H. unfold ge_solve. apply pc_any; intros ss.
  eapply pc_seq; [apply (sp_multiply_transpose_off [ge_M g] (hm hp)); [now left|apply off_refl]|]. intros ms1 F1. cbv zeta.
  assert (H1 : column (ms1 u)) by (eapply size_column; [eapply off_size; [exact F1|cbn; intuition congruence]|exact H]).
  apply pc_any; intros _. destruct (_ || _); [exact H1|].
  eapply pc_seq; [apply mresize_dims|]. intros ms2 [D2 _].
  set (l := [ge_a g]).
  eapply pc_seq; [apply (mresize_off l ms2); [now left|apply off_refl]|]. intros ms3 H3.
  eapply (pc_seq _ _ (off l ms2)).
  { apply for_pc; [|exact H3]. intros i ms4 H4. eapply (pc_seq _ _ (off l ms2)).
    - apply for_pc; [|exact H4]. intros j ms5 H5. apply pc_any; intros ?. apply mset_off; [now left|exact H5].
    - intros ms5 H5. apply pc_any; intros ?. apply mset_off; [now left|exact H5]. }
  intros ms4 H4. eapply pc_seq; [apply (ge_loop_off l ms2); [now left|exact H4]|].
  intros ms5 H5. do 3 (apply pc_any; intros ?).
  eapply pc_seq; [apply (ge_back_size u)|]. intros ms6 H6. apply pc_any; intros _. cbn [pc fst hm].
  right. destruct H6 as [E6 _]. rewrite E6. rewrite (H5 u) by (cbn; intuition congruence). exact D2.
Qed.
Lemma gs_iterate_size u step mind iters :
  (forall ms, pc (step ms) (fun x => keeps_size u ms (fst x))) ->
  forall ms, pc (@gs_iterate tg step mind iters ms) (fun x => keeps_size u ms (fst x)).
Proof.
  intros Hs. induction iters as [|n IH]; intros ms; cbn [gs_iterate]; [apply keeps_size_refl|].
  eapply pc_seq; [apply Hs|]. intros [ms1 md] H1. apply pc_any; intros c. destruct c; [exact H1|].
  eapply pc_mono; [apply IH|]. cbn [fst] in *. intros x Hx. unfold keeps_size, same_dims in *. intuition congruence.
Qed.
Lemma gs_iteration_size u ms a r kn k : pc (gs_iteration ms a r kn k) (fun x => keeps_size u ms (fst x)).
Proof.
  unfold gs_iteration. apply (for_pc _ (fun x => keeps_size u ms (fst x))); [|apply keeps_size_refl]. intros i [ms1 md] H1. do 3 (apply pc_any; intros ?).
  eapply pc_seq; [apply (mset_size u ms); exact H1|]. intros ms2 H2. exact H2.
Qed.
Lemma gs_iteration_limits_size u ms a r lim kn k : pc (gs_iteration_limits ms a r lim kn k) (fun x => keeps_size u ms (fst x)).
Proof.
  unfold gs_iteration_limits. apply (for_pc _ (fun x => keeps_size u ms (fst x))); [|apply keeps_size_refl]. intros i [ms1 md] H1. do 5 (apply pc_any; intros ?).
  eapply pc_seq; [apply (mset_size u ms); exact H1|]. intros ms2 H2. exact H2.
Qed.
Lemma warm_start_column ms p t n : column (ms p) -> column (ms t) -> pc (warm_start ms (Some p) t n) (fun ms' => column (ms' t)).
Proof.
  intros Hp Ht. unfold warm_start. destruct (Nat.eqb _ _); [|exact Ht]. eapply pc_mono; [apply mset_ref_dims|].
  intros ms' [A B]. destruct Hp as [H|H]; [left|right]; congruence.
Qed.
Lemma gs_solve_column g J W right u hp : u <> gs_M g -> pc (gs_solve g J W right (Some u) u hp) (fun x => column (hm (fst x) u)).
Proof.
  intros N. unfold gs_solve. cbv zeta. eapply pc_seq; [apply mresize_dims|]. intros ms1 [D1 _].
  eapply pc_seq; [apply warm_start_column; now right|]. intros ms2 C2. apply pc_any; intros ss.
  eapply pc_seq; [apply (sp_multiply_transpose_off [gs_M g] ms2); [now left|apply off_refl]|]. intros ms3 F3.
  eapply pc_seq; [apply (gs_iterate_size u); intros; apply gs_iteration_size|]. intros [ms4 ok] H4. cbn [pc fst hm] in *.
  eapply size_column; [exact H4|]. rewrite (F3 u) by (cbn; intuition congruence). exact C2.
Qed.
Lemma gs_solve_limits_column g J W right lim u hp : u <> gs_M g -> column (hm hp u) ->
  pc (gs_solve_limits g J W right lim u (Some u) hp) (fun x => column (hm (fst x) u)).
Proof.
  intros N H. unfold gs_solve_limits. cbv zeta.
  eapply (pc_seq _ _ (fun ms => column (ms u))).
  { destruct (negb _); [|exact H]. eapply pc_mono; [apply minit0_dims|]. intros ms1 [D1 _]. now right. }
  intros ms1 C1. eapply pc_seq; [apply warm_start_column; exact C1|]. intros ms2 C2. apply pc_any; intros ss.
  eapply pc_seq; [apply (sp_multiply_transpose_off [gs_M g] ms2); [now left|apply off_refl]|]. intros ms3 F3.
  eapply pc_seq; [apply (gs_iterate_size u); intros; apply gs_iteration_limits_size|]. intros [ms4 ok] H4. cbn [pc fst hm] in *.
  eapply size_column; [exact H4|]. rewrite (F3 u) by (cbn; intuition congruence). exact C2.
Qed.
Lemma cg_loop_size u g (J : sparse tg) W right iters : ~ In u [cg_mreg0 g; cg_mreg1 g; cg_Ap g] -> forall ms,
  pc (cg_loop g J W right iters ms) (fun x => keeps_size u ms (fst x)).
Proof.
  intros Hu. assert (TR : forall a b c, keeps_size u a b -> keeps_size u b c -> keeps_size u a c)
    by (unfold keeps_size, same_dims; intuition congruence).
  induction iters as [|n IH]; intros ms; cbn [cg_loop]; [apply keeps_size_refl|].
  eapply pc_seq; [apply (cg_multiply_off [cg_mreg0 g; cg_mreg1 g; cg_Ap g] ms); try (cbn; auto 10; fail); apply off_refl|]. intros ms1 F1.
  pose proof (off_size _ u _ _ F1 Hu) as H1. do 2 (apply pc_any; intros ?).
  eapply pc_seq; [apply (mmadd_size u)|]. intros ms2 H2.
  eapply pc_seq; [apply (mmadd_size u)|]. intros ms3 H3. apply pc_any; intros s.
  pose proof (TR _ _ _ H1 (TR _ _ _ H2 H3)) as H03.
  destruct s; [exact H03|]. apply pc_any; intros ?.
  eapply (pc_seq _ _ (keeps_size u ms3)).
  { unfold mpmadd. do 2 (apply pc_any; intros _). apply (for2_pc _ _ _ (keeps_size u ms3)); [|apply keeps_size_refl].
    intros i j m2 G2. do 2 (apply pc_any; intros ?). now apply rset_size. }
  intros ms4 H4. eapply pc_mono; [apply IH|]. intros x Hx. exact (TR _ _ _ H03 (TR _ _ _ H4 Hx)).
Qed.
Lemma cg_solve_column g J W right u hp : NoDup [cg_mreg0 g; cg_mreg1 g; cg_Ap g; cg_x g; cg_r g; cg_p g] ->
  ~ In u [cg_mreg0 g; cg_mreg1 g; cg_Ap g; cg_x g; cg_r g; cg_p g] -> column (hm hp u) ->
  pc (cg_solve g J W right (Some u) u hp) (fun x => column (hm (fst x) u)).
Proof.
  intros ND Hu H. assert (Nx : ~ In (cg_x g) [cg_r g; cg_p g; cg_mreg0 g; cg_mreg1 g; cg_Ap g]).
  { repeat (apply NoDup_cons_iff in ND; destruct ND as [? ND]). cbn in *. intuition congruence. }
  unfold cg_solve. cbv zeta. set (l := [cg_r g; cg_p g; cg_mreg0 g; cg_mreg1 g; cg_Ap g]).
  assert (Nu : ~ In u l) by (cbn in *; intuition congruence).
  eapply pc_seq; [apply (mresize_off l (hm hp)); [cbn; auto 10|apply off_refl]|]. intros msa Ha.
  eapply pc_seq; [apply (mresize_off l (hm hp)); [cbn; auto 10|exact Ha]|]. intros msb Hb.
  eapply pc_seq; [apply (mresize_off l (hm hp)); [cbn; auto 10|exact Hb]|]. intros msc Hc.
  assert (Cc : column (msc u)) by (rewrite (Hc u Nu); exact H).
  eapply (pc_seq _ _ (fun ms => column (ms (cg_x g)) /\ column (ms u))).
  { apply pc_and; [eapply pc_mono; [apply minit0_dims|]; intros ms1 [D1 _]; now right|].
    eapply pc_mono; [apply (minit0_off [cg_x g] msc); [now left|apply off_refl]|]. intros ms1 F1. rewrite (F1 u); [exact Cc|]. cbn in *. intuition congruence. }
  intros ms1 [X1 U1].
  eapply (pc_seq _ _ (fun ms => column (ms (cg_x g)) /\ column (ms u))).
  { apply pc_and; [now apply warm_start_column|].
    eapply pc_mono; [apply (warm_start_off [cg_x g] ms1); [now left|apply off_refl]|]. intros ms2 F2. rewrite (F2 u); [exact U1|]. cbn in *. intuition congruence. }
  intros ms2 [X2 U2].
  eapply (pc_seq _ _ (fun ms => column (ms (cg_x g)) /\ column (ms u))).
  { apply pc_and; [|eapply pc_mono; [apply mresize_dims|]; intros ms3 [D3 _]; now right].
    eapply pc_mono; [apply (mresize_off [u] ms2); [now left|apply off_refl]|]. intros ms3 F3. rewrite (F3 (cg_x g)); [exact X2|]. cbn in *. intuition congruence. }
  intros ms3 [X3 U3].
  eapply pc_seq; [apply (mset_ref_off l ms3); [cbn; auto 10|apply off_refl]|]. intros ms4 H4.
  eapply pc_seq; [apply (cg_multiply_off l ms3); try (cbn; auto 10; fail); exact H4|]. intros ms5 H5.
  eapply pc_seq; [apply (mmadd_off l ms3); [cbn; auto 10|exact H5]|]. intros ms6 H6. apply pc_any; intros s.
  assert (X6 : column (ms6 (cg_x g))) by (rewrite (H6 _ Nx); exact X3). assert (U6 : column (ms6 u)) by (rewrite (H6 _ Nu); exact U3).
  eapply (pc_seq _ _ (fun x => column (fst x (cg_x g)) /\ column (fst x u))).
  { destruct s; [now split|]. eapply pc_seq; [apply (mset_ref_off l ms6); [cbn; auto 10|apply off_refl]|]. intros ms7 H7.
    assert (X7 : column (ms7 (cg_x g))) by (rewrite (H7 _ Nx); exact X6). assert (U7 : column (ms7 u)) by (rewrite (H7 _ Nu); exact U6).
    apply pc_and; [eapply pc_mono; [apply (cg_loop_size (cg_x g))|intros x Hx; eapply size_column; [exact Hx|exact X7]]
      |eapply pc_mono; [apply (cg_loop_size u)|intros x Hx; eapply size_column; [exact Hx|exact U7]]].
    all: subst l; cbn in *; intuition congruence. }
  intros [ms7 ok] [X7 U7]. cbn [fst] in *. destruct ok; [|exact U7].
  eapply pc_seq; [apply mset_ref_dims|]. intros ms8 [A B]. cbn [pc fst with_hm hm]. destruct X7 as [E|E]; [left|right]; congruence.
Qed.

Variable priv : nat -> bool.
Lemma lambda_own (l : sle tg) i : solver_apart priv l -> In i (sle_mats l) -> ilambda <> i.
Proof. intros Hl Hi. apply (solver_mats priv l i Hl) in Hi. unfold ifree, ilambda in *. lia. Qed.
Lemma sle_solve_column l J W right hp : solver_apart priv l -> column (hm hp ilambda) ->
  pc (sle_solve l J W right ilambda ilambda hp) (fun x => column (hm (fst x) ilambda)).
Proof.
  intros Hl H. pose proof (fun i => lambda_own l i Hl) as N. destruct l as [?|g|g|g]; cbn [sle_solve sle_mats] in *.
  - exact H.
  - apply ge_solve_column; [apply N; cbn; auto..|exact H].
  - apply gs_solve_column. apply N. now left.
  - apply cg_solve_column; [apply Hl| |exact H]. intros X. exact (N _ X eq_refl).
Qed.
Lemma sle_solve_limits_column l J W right lim hp : solver_apart priv l -> column (hm hp ilambda) ->
  pc (sle_solve_limits l J W right lim ilambda ilambda hp) (fun x => column (hm (fst x) ilambda)).
Proof.
  intros Hl H. pose proof (fun i => lambda_own l i Hl) as N. destruct l as [?|g|g|g]; cbn [sle_solve_limits sle_mats] in *; try exact H.
  apply gs_solve_limits_column; [apply N; now left|exact H].
Qed.

(** ** processConstraints *)
Definition keeps_column (pcf : heap tg -> st -> res (heap tg * st)) : Prop :=
  forall hp s, hinv priv hp -> column (hm hp ilambda) -> pc (pcf hp s) (fun x => column (hm (fst x) ilambda)).
Lemma opt_constraints_column w y dt : (forall l, y_sle y = Some l -> solver_apart priv l) -> keeps_column (opt_process_constraints w y dt).
Proof.
  intros Hl hp s H C. unfold opt_process_constraints.
  eapply pc_seq; [apply opt_gather_keeps, H|]. intros hp1 [K1 [F1 _]].
  eapply pc_seq; [apply opt_right_keeps, K1|]. intros hp2 [K2 [F2 _]].
  unfold the_sle. destruct (y_sle y) as [l|]; [|exact I]. specialize (Hl l eq_refl). cbn [bind].
  assert (C2 : column (hm hp2 ilambda)) by (rewrite F2, F1 by (cbn; intuition discriminate); exact C).
  eapply (pc_seq _ _ (fun x => column (hm (fst x) ilambda))).
  { destruct (negb _); [now apply sle_solve_column|now apply sle_solve_limits_column]. }
  intros [hp3 ok] C3. cbn [fst] in *. apply pc_any; intros _.
  eapply pc_seq; [apply (mscale_off [ireg0] (hm hp3)); [now left|apply off_refl]|]. intros ms4 F4.
  apply pc_any; intros ss4. apply pc_any; intros s5. cbn [pc fst hm]. rewrite F4 by (cbn; intuition discriminate). exact C3.
Qed.
Lemma gen_constraints_column w y : (forall l, y_sle y = Some l -> solver_apart priv l) -> keeps_column (gen_process_constraints w y).
Proof.
  intros Hl hp s H C. unfold gen_process_constraints.
  eapply pc_seq; [apply gen_gather_keeps, H|]. intros hp1 [K1 [F1 _]].
  eapply pc_seq; [apply gen_right_keeps, K1|]. intros hp2 [K2 [F2 _]].
  unfold the_sle. destruct (y_sle y) as [l|]; [|exact I]. specialize (Hl l eq_refl). cbn [bind].
  assert (C2 : column (hm hp2 ilambda)) by (rewrite F2, F1 by (cbn; intuition discriminate); exact C).
  eapply pc_seq; [now apply sle_solve_column|]. intros [hp3 ok] C3. cbn [fst] in *. apply pc_any; intros _.
  apply pc_any; intros ss4. apply pc_any; intros s5. exact C3.
Qed.

(** ** reachable systems *)
Definition hpc (pcf : heap tg -> st -> res (heap tg * st)) : Prop :=
  forall hp s, hinv priv hp -> pc (pcf hp s) (fun x => hinv priv (fst x)).
Lemma rounds_column w y pcf : keeps_column pcf -> hpc pcf -> forall fuel o hp s, hinv priv hp -> column (hm hp ilambda) ->
  pc (ode_rounds fuel w y pcf o hp s) (fun x => hinv priv (snd (fst x)) /\ column (hm (snd (fst x)) ilambda)).
Proof.
  intros Hc Hp. induction fuel as [|fuel IH]; intros o hp s H C; cbn [ode_rounds]; [exact I|].
  apply pc_any; intros [[o1 s1] d]. apply pc_any; intros s2.
  eapply pc_seq; [apply pc_and; [apply (Hp hp s2 H)|apply (Hc hp s2 H C)]|]. intros [hp3 s3] [H3 C3]. cbn [fst] in *.
  apply pc_any; intros [o4 s4]. destruct d; [|now apply IH]. now split.
Qed.
Lemma steps_column steps dt w y pcf : (forall h, keeps_column (pcf h)) -> (forall h, hpc (pcf h)) -> forall o hp s, hinv priv hp -> column (hm hp ilambda) ->
  pc (ode_steps steps dt w y pcf o hp s) (fun x => hinv priv (snd (fst x)) /\ column (hm (snd (fst x)) ilambda)).
Proof.
  intros Hc Hp o hp s H C. unfold ode_steps. cbv zeta. apply for_pc; [|now split]. clear o hp s H C.
  intros i [[o hp] s] [H C]. cbn [fst snd] in *. apply pc_any; intros o1.
  eapply pc_seq; [now apply rounds_column|]. intros [[o2 hp2] s2] X. exact X.
Qed.
Lemma populate_mass_off w y ms : pc (populate_mass w y ms) (off [iM; iMinv] ms).
Proof.
  unfold populate_mass. eapply pc_seq; [apply (minit0_off [iM; iMinv] ms); [cbn; auto|apply off_refl]|]. intros ms1 H1.
  eapply pc_seq; [apply (minit0_off [iM; iMinv] ms); [cbn; auto|exact H1]|]. intros ms2 H2.
  apply for_pc; [|exact H2]. intros i ms3 H3. repeat first [apply mset_off; [cbn; auto|]; assumption
    | eapply pc_seq; [apply (mset_off [iM; iMinv] ms); [cbn; auto|assumption]|]; intros | apply pc_any; intros].
Qed.
Lemma populate_mass_column w y ms : column (ms ilambda) -> pc (populate_mass w y ms) (fun ms' => column (ms' ilambda)).
Proof.
  intros H. eapply pc_mono; [apply populate_mass_off|]. intros ms' F. rewrite F by (cbn; intuition discriminate). exact H.
Qed.
Lemma process_column k dt steps t w y : hinv priv (y_heap y) -> (forall l, y_sle y = Some l -> solver_apart priv l) ->
  column (hm (y_heap y) ilambda) -> pc (process k dt steps t w y) (fun x => column (hm (y_heap (snd x)) ilambda)).
Proof.
  intros Hh Hl C. destruct k; cbn [process].
  - unfold opt_process. apply pc_any; intros s0.
    eapply pc_seq; [apply pc_and; [apply (populate_mass_wfs priv), Hh|now apply populate_mass_column]|]. intros ms [Hms Cms].
    apply pc_any; intros o.
    eapply pc_seq. { apply (steps_column _ _ _ _ (opt_process_constraints w (with_state y s0)));
      [intros h; now apply opt_constraints_column|intros h hp s H; eapply pc_mono; [now apply (opt_constraints_inv priv)|now intros x (A & _)]|split; [exact Hms|apply Hh]|exact Cms]. }
    intros [[o1 hp1] s1] [H1 C1]. cbn [fst snd] in *. apply pc_any; intros w1.
    eapply pc_seq; [apply record_profile_core|]. intros y1 (A & _). cbn [pc snd]. cbn in A |- *. now rewrite A.
  - unfold gen_process. apply pc_any; intros s0.
    eapply pc_seq; [apply pc_and; [apply (populate_mass_wfs priv), Hh|now apply populate_mass_column]|]. intros ms [Hms Cms].
    eapply (pc_seq _ _ (fun x => column (hm (y_heap (fst x)) ilambda))).
    { destruct steps; [exact Cms|]. apply pc_any; intros o.
      eapply pc_seq. { apply (steps_column _ _ _ _ (fun _ => gen_process_constraints w (with_state y s0)));
        [intros h; now apply gen_constraints_column|intros h hp s H; eapply pc_mono; [now apply (gen_constraints_inv priv)|now intros x (A & _)]|split; [exact Hms|apply Hh]|exact Cms]. }
      intros [[o1 hp1] s1] [H1 C1]. exact C1. }
    intros [y1 s1] C1. cbn [fst] in C1. apply pc_any; intros w1.
    eapply pc_seq; [apply record_profile_core|]. intros y2 (A & _). cbn [pc snd]. now rewrite A.
Qed.
Lemma yreach_column k m w y : yreach k priv m w y -> column (hm (y_heap y) ilambda).
Proof.
  induction 1 as [k w|k m w y l o y' H IH Hl E|k m w y b w' y' H IH Hb E|k m w y b w' y' H IH Hb E|k m w y b w' y' H IH Hb E
    |k m w y b w' y' H IH Hb E|k m w y b w' y' H IH Hb E|k m w y b w' y' H IH Hb E|k m w y H IH|k m w y dt steps t w' y' H IH Hg E
    |k m w y b x H IH Hx|k m w y b x H IH Hx|k m w y b x H IH Hx|k m w y v H IH
    |k m w y o hp2 H IH Ha E|k m w y k2 m2 w2 y2 H IH H2 IH2]; try exact IH.
  - destruct k; left; reflexivity.
  - destruct k; cbn in E.
    + injection E as <-. exact IH.
    + pose proof (minit0_dims (hm (y_heap y)) ilambda 0 0) as W. unfold gen_initialize in E. cbn [with_ode with_sle y_heap] in E.
      destruct (minit0 (hm (y_heap y)) ilambda 0 0) as [ms| | |]; try discriminate. cbn [bind] in E. injection E as <-. left. apply W.
  - unfold add_body in E. injection E as <- <-. exact IH.
  - unfold remove_body in E. destruct (vec_back _); try discriminate. cbn [bind] in E. destruct (aset _ _ _); try discriminate.
    cbn [bind] in E. destruct (vec_get _ _); try discriminate. cbn [bind] in E. destruct (vec_drop_last _); try discriminate.
    cbn in E. injection E as <- <-. exact IH.
  - unfold add_con in E. injection E as <- <-. exact IH.
  - unfold remove_con in E. destruct (vec_back _); try discriminate. cbn [bind] in E. destruct (aset _ _ _); try discriminate.
    cbn [bind] in E. destruct (vec_get _ _); try discriminate. cbn [bind] in E. destruct (vec_drop_last _); try discriminate.
    cbn in E. injection E as <- <-. exact IH.
  - unfold add_gen in E. injection E as <- <-. exact IH.
  - unfold remove_gen in E. destruct (vec_back _); try discriminate. cbn [bind] in E. destruct (lift_opt (g_index _)); try discriminate.
    cbn [bind] in E. destruct (aset _ _ _); try discriminate.
    cbn [bind] in E. destruct (vec_get _ _); try discriminate. cbn [bind] in E. destruct (vec_drop_last _); try discriminate.
    cbn in E. injection E as <- <-. exact IH.
  - destruct (yreach_inv priv _ _ _ _ H) as (Hh & _ & Hl & _).
    exact (pc_elim _ _ _ E (process_column k dt steps t w y Hh Hl IH)).
Qed.
End S.
