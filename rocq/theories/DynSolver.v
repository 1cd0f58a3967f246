(** * processConstraints with the supplied solvers, in every number format:
      every constraint row pushes along its own row of J. *)

From Coq Require Import Reals.
From Verif Require Import Base Targets Matrix Sparse Sle State Ode Forces Constraints System Logic
  MatrixFacts MatrixOps SpecMatrix MatrixHist SparseFacts SpecSparse SparseHist SpecSle SleHist SleGe SleGs
  SpecState StateFacts SpecOde OdeFacts SpecSys RegFacts SysFrame SysInv SysColumn SpecDyn DynState DynReact DynRound DynStep DynGather DynRight DynReady.
From Verif Require GsHist.
Local Open Scope nat_scope.

Section S.
Context {tg : target}.
Notation st := (sstate tg).
Implicit Types (ms : mats tg) (ss : sps tg) (hp : heap tg) (w : world tg) (y : sys tg) (L : law tg).
Variable priv : nat -> bool.

(** ** the solvers leave a column of the right height *)
Definition tall n (m : matrix tg) : Prop := m_w m = 1 /\ m_h m = n.
Lemma size_tall u n ms ms' : keeps_size u ms ms' -> tall n (ms u) -> tall n (ms' u).
Proof. intros [A B] [C D]. split; congruence. Qed.
Lemma column_tall (m : matrix tg) n : column m -> m_h m = n -> 0 < n -> tall n m.
Proof. intros [H|H] E Hn; [lia|now split]. Qed.
Lemma tall_is_mat k ms u n : wf k (ms u) -> tall n (ms u) -> exists x, is_mat false (ms u) 1 n (fun r _ => x r).
Proof.
  intros H [A B]. destruct (wf_contents k _ H) as [f Hf]. rewrite A, B in Hf. exists (fun r => f r 0).
  eapply is_mat_ext; [eapply is_mat_weaken; exact Hf|]. intros r c Hr Hc. now replace c with 0 by lia.
Qed.
Lemma warm_start_tall ms p t n : column (ms p) -> tall n (ms t) -> 0 < n -> pc (warm_start ms (Some p) t n) (fun ms' => tall n (ms' t)).
Proof.
  intros Hp Ht Hn. unfold warm_start. destruct (Nat.eqb_spec (m_h (ms p)) n) as [E|]; [|exact Ht]. eapply pc_mono; [apply mset_ref_dims|].
  intros ms' [A B]. destruct (column_tall _ n Hp E Hn). split; congruence.
Qed.
Lemma gs_solve_tall g J W right u hp n : u <> gs_M g -> m_h (hm hp right) = n -> 0 < n ->
  pc (gs_solve g J W right (Some u) u hp) (fun x => tall n (hm (fst x) u)).
Proof.
  intros N E Hn. unfold gs_solve. cbv zeta. rewrite E. eapply pc_seq; [apply mresize_dims|]. intros ms1 D1.
  eapply pc_seq; [apply warm_start_tall; [right; apply D1|exact D1|exact Hn]|]. intros ms2 C2. apply pc_any; intros ss.
  eapply pc_seq; [apply (sp_multiply_transpose_off [gs_M g] ms2); [now left|apply off_refl]|]. intros ms3 F3.
  eapply pc_seq; [apply (gs_iterate_size u); intros; apply gs_iteration_size|]. intros [ms4 ok] H4. cbn [pc fst hm] in *.
  eapply size_tall; [exact H4|]. rewrite (F3 u) by (cbn; intuition congruence). exact C2.
Qed.
Lemma gs_solve_limits_tall g J W right lim u hp n : u <> gs_M g -> m_h (hm hp right) = n -> 0 < n -> column (hm hp u) ->
  pc (gs_solve_limits g J W right lim u (Some u) hp) (fun x => tall n (hm (fst x) u)).
Proof.
  intros N E Hn H. unfold gs_solve_limits. cbv zeta. rewrite E.
  eapply (pc_seq _ _ (fun ms => tall n (ms u))).
  { destruct (Nat.eqb_spec (m_h (hm hp u)) n) as [Eu|Nu]; cbn [negb]; [now apply column_tall|]. apply minit0_dims. }
  intros ms1 C1. eapply pc_seq; [apply warm_start_tall; [right; apply C1|exact C1|exact Hn]|]. intros ms2 C2. apply pc_any; intros ss.
  eapply pc_seq; [apply (sp_multiply_transpose_off [gs_M g] ms2); [now left|apply off_refl]|]. intros ms3 F3.
  eapply pc_seq; [apply (gs_iterate_size u); intros; apply gs_iteration_limits_size|]. intros [ms4 ok] H4. cbn [pc fst hm] in *.
  eapply size_tall; [exact H4|]. rewrite (F3 u) by (cbn; intuition congruence). exact C2.
Qed.
Lemma cg_solve_tall g J W right u hp n : NoDup [cg_mreg0 g; cg_mreg1 g; cg_Ap g; cg_x g; cg_r g; cg_p g] ->
  ~ In u [cg_mreg0 g; cg_mreg1 g; cg_Ap g; cg_x g; cg_r g; cg_p g] -> m_h (hm hp right) = n -> 0 < n -> column (hm hp u) ->
  pc (cg_solve g J W right (Some u) u hp) (fun x => tall n (hm (fst x) u)).
Proof.
  intros ND Hu E Hn H. assert (Nx : ~ In (cg_x g) [cg_r g; cg_p g; cg_mreg0 g; cg_mreg1 g; cg_Ap g]).
  { repeat (apply NoDup_cons_iff in ND; destruct ND as [? ND]). cbn in *. intuition congruence. }
  unfold cg_solve. cbv zeta. rewrite E. set (l := [cg_r g; cg_p g; cg_mreg0 g; cg_mreg1 g; cg_Ap g]).
  assert (Nu : ~ In u l) by (cbn in *; intuition congruence).
  eapply pc_seq; [apply (mresize_off l (hm hp)); [cbn; auto 10|apply off_refl]|]. intros msa Ha.
  eapply pc_seq; [apply (mresize_off l (hm hp)); [cbn; auto 10|exact Ha]|]. intros msb Hb.
  eapply pc_seq; [apply (mresize_off l (hm hp)); [cbn; auto 10|exact Hb]|]. intros msc Hc.
  assert (Cc : column (msc u)) by (rewrite (Hc u Nu); exact H).
  eapply (pc_seq _ _ (fun ms => tall n (ms (cg_x g)) /\ column (ms u))).
  { apply pc_and; [apply minit0_dims|].
    eapply pc_mono; [apply (minit0_off [cg_x g] msc); [now left|apply off_refl]|]. intros ms1 F1. rewrite (F1 u); [exact Cc|]. cbn in *. intuition congruence. }
  intros ms1 [X1 U1].
  eapply (pc_seq _ _ (fun ms => tall n (ms (cg_x g)))); [now apply warm_start_tall|]. intros ms2 X2.
  eapply (pc_seq _ _ (fun ms => tall n (ms (cg_x g)) /\ tall n (ms u))).
  { apply pc_and; [|apply mresize_dims].
    eapply pc_mono; [apply (mresize_off [u] ms2); [now left|apply off_refl]|]. intros ms3 F3. rewrite (F3 (cg_x g)); [exact X2|]. cbn in *. intuition congruence. }
  intros ms3 [X3 U3].
  eapply pc_seq; [apply (mset_ref_off l ms3); [cbn; auto 10|apply off_refl]|]. intros ms4 H4.
  eapply pc_seq; [apply (cg_multiply_off l ms3); try (cbn; auto 10; fail); exact H4|]. intros ms5 H5.
  eapply pc_seq; [apply (mmadd_off l ms3); [cbn; auto 10|exact H5]|]. intros ms6 H6. apply pc_any; intros s.
  assert (X6 : tall n (ms6 (cg_x g))) by (rewrite (H6 _ Nx); exact X3). assert (U6 : tall n (ms6 u)) by (rewrite (H6 _ Nu); exact U3).
  eapply (pc_seq _ _ (fun x => tall n (fst x (cg_x g)) /\ tall n (fst x u))).
  { destruct s; [now split|]. eapply pc_seq; [apply (mset_ref_off l ms6); [cbn; auto 10|apply off_refl]|]. intros ms7 H7.
    assert (X7 : tall n (ms7 (cg_x g))) by (rewrite (H7 _ Nx); exact X6). assert (U7 : tall n (ms7 u)) by (rewrite (H7 _ Nu); exact U6).
    apply pc_and; [eapply pc_mono; [apply (cg_loop_size (cg_x g))|intros x Hx; eapply size_tall; [exact Hx|exact X7]]
      |eapply pc_mono; [apply (cg_loop_size u)|intros x Hx; eapply size_tall; [exact Hx|exact U7]]].
    all: subst l; cbn in *; intuition congruence. }
  intros [ms7 ok] [X7 U7]. cbn [fst] in *. destruct ok; [|exact U7].
  eapply pc_seq; [apply mset_ref_dims|]. intros ms8 [A B]. cbn [pc fst with_hm hm]. destruct X7. split; congruence.
Qed.

(** ** the system of equations *)
Lemma prepared_system w y val f hp b : listed w y -> attached w y -> shaped w y ->
  prepared priv w y val f hp -> is_mat false (hm hp iright) 1 (full_count w y) (fun r _ => b r) ->
  exists v, system hp sJ iMinv iright (3 * body_count y) (full_count w y) (blkR w y) v (fun r => inv_mass w y (r / 3) (r mod 3)) b.
Proof.
  intros HL HA HS (H & HM & _ & v & HJ & HV) Hb. exists v. split; [now apply (is_sp_shows 3 2)|]. split; [now apply blkR_inside|].
  split; eapply is_mat_shows; [exact HM|exact Hb].
Qed.
Definition real_solver (l : sle tg) : Prop := match l with SleBase _ => False | _ => True end.
Lemma ge_system_names g : solver_apart priv (SleGe (tg := tg) g) -> ge_names g sJ iMinv iright ilambda.
Proof.
  intros (A1 & A2 & A3 & A4 & _). unfold ifree, sfree in *. split; [|unfold sJ; lia].
  repeat constructor; cbn; unfold iMinv, iright, ilambda; intuition (try lia; try congruence).
Qed.
Lemma sle_solve_tall (l : sle tg) w y val f hp b : real_solver l -> solver_apart priv l -> listed w y -> attached w y -> shaped w y ->
  prepared priv w y val f hp -> is_mat false (hm hp iright) 1 (full_count w y) (fun r _ => b r) -> 0 < full_count w y -> column (hm hp ilambda) ->
  pc (sle_solve l sJ iMinv iright ilambda ilambda hp) (fun z => tall (full_count w y) (hm (fst z) ilambda)).
Proof.
  intros Hr Hl HL HA HS HP Hb Hm HC. pose proof (is_mat_h _ _ _ _ _ Hb) as Eh. pose proof (fun i => lambda_own priv l i Hl) as N.
  destruct l as [?|g|g|g]; cbn [sle_solve sle_mats real_solver] in *; [contradiction|..].
  - destruct (prepared_system w y val f hp b HL HA HS HP Hb) as [v Sy].
    pose proof (ge_solve_sim priv hp g sJ iMinv iright ilambda ilambda _ _ _ _ _ _ (proj1 HP) (ge_system_names g Hl) Sy) as R.
    apply pc_intro. intros z E. rewrite E in R. destruct (pge _ _ _) as [x| | |]; cbn in R; try contradiction.
    destruct R as (_ & _ & X). destruct (X Hm) as (X1 & X2 & _). now split.
  - apply gs_solve_tall; [apply N; now left|exact Eh|exact Hm].
  - apply cg_solve_tall; [apply Hl|intros X; exact (N _ X eq_refl)|exact Eh|exact Hm|exact HC].
Qed.
Lemma opt_solve_tall (l : sle tg) w y val f hp b : real_solver l -> solver_apart priv l -> listed w y -> attached w y -> shaped w y ->
  prepared priv w y val f hp -> is_mat false (hm hp iright) 1 (full_count w y) (fun r _ => b r) -> 0 < full_count w y -> column (hm hp ilambda) ->
  pc (opt_solve l hp) (fun z => tall (full_count w y) (hm (fst z) ilambda)).
Proof.
  intros Hr Hl HL HA HS HP Hb Hm HC. unfold opt_solve. destruct (negb (supports_limits l)) eqn:EL; [eapply sle_solve_tall; eauto|].
  pose proof (is_mat_h _ _ _ _ _ Hb) as Eh. pose proof (fun i => lambda_own priv l i Hl) as N.
  destruct l as [?|g|g|g]; cbn [sle_solve_limits sle_mats real_solver supports_limits negb] in *; try contradiction; try discriminate.
  apply gs_solve_limits_tall; [apply N; now left|exact Eh|exact Hm|exact HC].
Qed.

(** ** processConstraints, whatever the solver returns *)
Lemma opt_constraints_pc w y K h dt f L hp (s : st) l (Q : (nat -> cell tg) -> Prop) :
  listed w y -> attached w y -> shaped w y -> body_count y <= 255 -> presents w y K h s -> forced w y f s ->
  answers w y K h L -> hinv priv hp -> minv_ok w y (hm hp) -> y_sle y = Some l -> solver_apart priv l ->
  (forall hp', opt_ready priv w y K dt f L hp' -> hm hp' ilambda = hm hp ilambda ->
     pc (opt_solve l hp') (fun z => exists x, is_mat false (hm (fst z) ilambda) 1 (full_count w y) (fun r _ => x r) /\ Q x)) ->
  pc (opt_process_constraints w y dt hp s) (fun z => exists x, Q x /\ solved priv w y K h f (l_J L) (fun r => cmul (cdiv (cofZ 1) dt) (x r)) (fst z) (snd z)).
Proof.
  intros HL HA HS HB HP HF HW H HM El Hl HQ. unfold opt_process_constraints.
  pose proof (opt_readies priv w y K h dt f L hp s HL HA HS HP HF HW H HM) as G. apply wp_ok in G. destruct G as (hp2 & E2 & R2 & L2).
  destruct (opt_gather w y dt hp s) as [hp1| | |]; try discriminate. cbn [bind] in *. rewrite E2. cbn [bind].
  unfold the_sle. rewrite El. cbn [bind]. fold (opt_solve l hp2).
  eapply pc_seq; [apply pc_and; [apply (HQ hp2 R2 L2)|apply (opt_solve_keeps priv l hp2 Hl (proj1 (proj1 R2)))]|].
  intros [hp3 ok] ((x & X3 & Qx) & K3). cbn [fst snd] in *. apply pc_any; intros _.
  pose proof (prepared_solve _ _ _ _ _ _ _ _ Hl (proj1 R2) K3) as P3.
  assert (W : wfs priv (hm hp3)) by apply K3.
  pose proof (mscale_spec (priv ireg0) (hm hp3) ilambda (cdiv (cofZ 1) dt) ireg0 _ _ _ X3 (W ireg0)) as G. apply wp_ok in G. destruct G as (ms4 & E4 & O4 & M4).
  rewrite E4. cbn [bind].
  eapply pc_mono; [apply wp_pc, (finish priv w y K h f (l_J L) (fun r => cmul (cdiv (cofZ 1) dt) (x r)) {| hm := ms4; hs := hs hp3 |} s ireg0 HL HA HS HB HP)|].
  - eapply prepared_same; [exact P3|..]; cbn [hm hs]; try reflexivity; try (apply O4; discriminate).
    split; [|apply K3]. cbn [hm]. intros i. destruct (Nat.eq_dec i ireg0) as [->|N]; [eapply is_mat_wf; exact M4|]. rewrite O4 by exact N. apply W.
  - cbn [hm]. eapply is_mat_weaken; exact M4.
  - intros z [Z _]. eauto.
Qed.
Lemma gen_constraints_pc w y K h f L hp (s : st) l (Q : (nat -> cell tg) -> Prop) :
  listed w y -> attached w y -> shaped w y -> (forall c, In c (y_cons y) -> 1 <= c_bodycount (w_con w c)) ->
  body_count y <= 255 -> presents w y K h s -> forced w y f s ->
  answers w y K h L -> hinv priv hp -> minv_ok w y (hm hp) -> y_sle y = Some l -> solver_apart priv l ->
  (forall hp', gen_ready priv w y K f L hp' -> hm hp' ilambda = hm hp ilambda ->
     pc (sle_solve l sJ iMinv iright ilambda ilambda hp')
       (fun z => exists x, is_mat false (hm (fst z) ilambda) 1 (full_count w y) (fun r _ => x r) /\ Q x)) ->
  pc (gen_process_constraints w y hp s) (fun z => exists x, Q x /\ solved priv w y K h f (l_J L) x (fst z) (snd z)).
Proof.
  intros HL HA HS H1 HB HP HF HW H HM El Hl HQ. unfold gen_process_constraints.
  pose proof (gen_readies priv w y K h f L hp s HL HA HS H1 HP HF HW H HM) as G. apply wp_ok in G. destruct G as (hp2 & E2 & R2 & L2).
  destruct (gen_gather w y hp s) as [hp1| | |]; try discriminate. cbn [bind] in *. rewrite E2. cbn [bind].
  unfold the_sle. rewrite El. cbn [bind].
  eapply pc_seq; [apply pc_and; [apply (HQ hp2 R2 L2)|apply (sle_solve_keeps priv l _ _ _ _ _ hp2 Hl (proj1 (proj1 R2)))]|].
  intros [hp3 ok] ((x & X3 & Qx) & K3). cbn [fst snd] in *. apply pc_any; intros _.
  pose proof (prepared_solve _ _ _ _ _ _ _ _ Hl (proj1 R2) K3) as P3.
  eapply pc_mono; [apply wp_pc, (finish priv w y K h f (l_J L) x hp3 s ilambda HL HA HS HB HP P3 X3)|]. intros z [Z _]. eauto.
Qed.
End S.
