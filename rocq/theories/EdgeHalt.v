(** * Calls of process that stop at an assertion because there are no constraints. *)

From Coq Require Import Reals.
From Verif Require Import Base Targets Matrix Sparse Sle State Ode Forces Constraints System Logic
  MatrixFacts MatrixOps SpecMatrix MatrixHist SparseFacts SpecSparse SparseHist SpecSle SleHist SleGe SleGs SleCg
  SpecState StateFacts SpecOde OdeFacts SpecSys RegFacts SysFrame SysInv SysColumn SpecDyn DynState DynReact DynRound DynStep DynGather DynRight DynReady DynSolver DynLimits SpecEdge EdgeNone.
Local Open Scope nat_scope.

Lemma bind_assert_fail {A} tg b (k : unit -> res A) : asserts_on tg = true -> b = false -> bind (massert tg b) k = AssertFail.
Proof. intros D ->. unfold massert. now rewrite D. Qed.

Section S.
Context {tg : target}.
Notation st := (sstate tg).
Implicit Types (ms : mats tg) (ss : sps tg) (hp : heap tg) (w : world tg) (y : sys tg) (L : law tg).
Variable priv : nat -> bool.

(** the constraint evaluation fails in the first round *)
Lemma round_halts z w y pcf h K h0 hp s f fuel : nice priv w y -> pushes w y K h f ->
  (forall s, presents w y K h s -> forced w y f s -> pcf hp s = AssertFail) -> presents w y K h0 s ->
  ode_rounds (S fuel) w y pcf (ode_of z h) hp s = AssertFail.
Proof.
  intros (Hl & HL & HA & HS & HG) HU HE HP. cbn [ode_rounds].
  assert (E1 : ode_step (ode_of z h) s = Ok (ode_of z h, st_with_dt s h, true)) by (destruct z; reflexivity). rewrite E1. cbn [bind].
  pose proof (presents_dt w y K h0 h s HP) as P1. destruct (HU _ P1) as (s2 & E2 & F2). rewrite E2. cbn [bind].
  pose proof (pc_elim _ _ _ E2 (process_forces_alters w y _ HG)) as A2.
  pose proof (presents_forces _ _ _ _ _ _ A2 P1) as P2. now rewrite (HE s2 P2 F2).
Qed.
Lemma steps_halt z w y pcf dt n K h0 h1 hp s f : nice priv w y ->
  let h := cdiv dt (cofZ (Z.of_nat (S n))) in pushes w y K h f ->
  (forall s, presents w y K h s -> forced w y f s -> pcf h hp s = AssertFail) -> presents w y K h0 s ->
  ode_steps (S n) dt w y pcf (ode_of z h1) hp s = AssertFail.
Proof.
  intros HN h HU HE HP. unfold ode_steps, for_. cbn [for_from]. fold h.
  assert (E : ode_start (ode_of z h1) s h = Ok (ode_of z h)) by (destruct z; reflexivity). rewrite E. cbn [bind].
  now rewrite (round_halts z w y (pcf h) h K h0 hp s f 7 HN HU HE HP).
Qed.
Lemma process_halts k z m dt n t w y f : yreach k priv m w y -> attached w y -> shaped w y -> all_gentle w y -> uses k z y ->
  let h := cdiv dt (cofZ (Z.of_nat (S n))) in
  pushes w y (kin_of w) h f ->
  (forall hp s, hinv priv hp -> minv_ok w y (hm hp) -> hm hp ilambda = hm (y_heap y) ilambda -> presents w y (kin_of w) h s -> forced w y f s ->
     match k with Optimized => opt_process_constraints w y h hp s | Generic => gen_process_constraints w y hp s end = AssertFail) ->
  process k dt (S n) t w y = AssertFail.
Proof.
  intros Hy HA HS HG HU h HF HE. pose proof (yreach_inv priv _ m w y Hy) as (H & Hs & _ & Hk).
  pose proof (reach_nice priv _ _ _ _ Hy HA HS HG) as HN. pose proof HN as (_ & HL & _).
  assert (Eo : exists h1, y_ode y = Some (ode_of z h1)).
  { destruct k; cbn [uses] in HU; [|exact HU]. subst z. destruct (Hk eq_refl) as (o & Eo & No).
    destruct o as [| |h1|]; try contradiction. exists h1. exact Eo. }
  destruct Eo as [h1 Eo].
  pose proof (populate_state_presents w y Hs HS) as X. apply wp_ok in X. destruct X as (s0 & E0 & h0 & P0).
  set (y0 := with_state y s0).
  pose proof (populate_mass_spec false w y0 (hm (y_heap y0)) ltac:(eapply wf_weaken; apply H) ltac:(eapply wf_weaken; apply H)) as X. apply wp_ok in X.
  destruct X as (ms & Em & _ & _ & Mm).
  pose proof (pc_elim _ _ _ Em (populate_mass_wfs priv w y0 _ (proj1 H))) as Wm.
  assert (Hm : hinv priv (with_hm (y_heap y0) ms)) by (split; [exact Wm|apply H]).
  assert (Lm : hm (with_hm (y_heap y0) ms) ilambda = hm (y_heap y) ilambda) by (apply (pc_elim _ _ _ Em (populate_mass_off w y0 _)); cbn; intuition discriminate).
  destruct k; cbn [process].
  - unfold opt_process. rewrite E0. cbn [bind]. fold y0. rewrite Em. cbn [bind]. change (the_ode y0) with (the_ode y).
    unfold the_ode. rewrite Eo. cbn [bind].
    now rewrite (steps_halt z w y0 (opt_process_constraints w y0) dt n (kin_of w) h0 h1 _ s0 f HN HF (fun s => HE _ s Hm Mm Lm) P0).
  - unfold gen_process. rewrite E0. cbn [bind]. fold y0. rewrite Em. cbn [bind]. change (the_ode y0) with (the_ode y).
    unfold the_ode. rewrite Eo. cbn [bind].
    now rewrite (steps_halt z w y0 (fun _ => gen_process_constraints w y0) dt n (kin_of w) h0 h1 _ s0 f HN HF (fun s => HE _ s Hm Mm Lm) P0).
Qed.

(** ** conjugate gradient fails, elimination leaves multipliers that do not fit *)
Lemma cg_balks g hp n blk v wt b : asserts_on tg = true -> hinv priv hp -> solver_apart priv (SleCg g) -> system hp sJ iMinv iright n 0 blk v wt b ->
  m_h (hm hp ilambda) = 0 -> m_w (hm hp ilambda) <> 1 -> cg_solve g sJ iMinv iright (Some ilambda) ilambda hp = AssertFail.
Proof.
  intros D [Hwf Hswf] Ha (HsJ & Hin & HWs & Hrs) Eh Ew. destruct (cg_system_names priv g Ha) as [[Hnd Hpn] Hpriv].
  pose proof (names g iMinv iright ilambda Hnd) as Nm. decompose [and] Nm. clear Nm.
  unfold cg_solve. cbv zeta. replace (m_h (hm hp iright)) with 0 by (symmetry; apply Hrs).
  assert (Res : forall (ms : mats tg) t (w0 h0 : nat), wfs priv ms -> wp (mresize ms t w0 h0) (fun ms' => only t ms ms' /\ wfs priv ms')).
  { intros ms t w0 h0 Hq. eapply wp_mono; [apply (mresize_spec (priv t)); apply Hq|]. intros ms' (O & (f & M) & _).
    split; [exact O|]. eapply wfs_only; [exact Hq|exact O|eapply is_mat_wf; exact M]. }
  assert (Bd : forall (r : res (mats tg)) P (k : mats tg -> res (heap tg * bool)), wp r P -> (forall ms, P ms -> k ms = AssertFail) -> bind r k = AssertFail).
  { intros r P k Hr Hk. destruct r; cbn [wp] in Hr; try contradiction. cbn [bind]. auto. }
  eapply Bd; [apply Res, Hwf|]. intros ms1 [O1 W1]. cbv beta.
  eapply Bd; [apply Res, W1|]. intros ms2 [O2 W2]. cbv beta.
  eapply Bd; [apply Res, W2|]. intros ms3 [O3 W3]. cbv beta.
  eapply Bd; [apply (minit0_spec (priv (cg_x g))); apply W3|]. intros ms4 [O4 M4]. cbv beta.
  assert (W4 : wfs priv ms4) by (eapply wfs_only; [exact W3|exact O4|eapply is_mat_wf; exact M4]).
  assert (EL : ms4 ilambda = hm hp ilambda) by (rewrite O4, O3, O2, O1 by auto; reflexivity).
  unfold warm_start. rewrite EL, Eh, Nat.eqb_refl.
  destruct (wf_contents _ _ (W4 ilambda)) as [fl Hfl]. apply is_mat_weaken in Hfl. rewrite EL, Eh in Hfl.
  rewrite <- EL in Hfl at 1.
  eapply Bd; [apply (mset_ref_spec (priv (cg_x g)) ms4 (cg_x g) ilambda); [exact Hfl|apply W4]|]. intros ms5 [O5 M5]. cbv beta.
  assert (W5 : wfs priv ms5) by (eapply wfs_only; [exact W4|exact O5|eapply is_mat_wf; exact M5]).
  eapply Bd; [apply Res, W5|]. intros ms6 [O6 W6]. cbv beta.
  assert (R6 : is_mat false (ms6 iright) 1 0 (fun r _ => b r)) by (rewrite O6, O5, O4, O3, O2, O1 by auto; eapply is_mat_weaken, shows_is_mat; [apply Hwf|exact Hrs]).
  eapply Bd; [apply (mset_ref_spec (priv (cg_r g)) ms6 (cg_r g) iright); [exact R6|apply W6]|]. intros ms7 [O7 M7]. cbv beta.
  assert (W7 : wfs priv ms7) by (eapply wfs_only; [exact W6|exact O7|eapply is_mat_wf; exact M7]).
  unfold cg_multiply.
  assert (X : forall r1 (r2 : mats tg -> res (mats tg)) P (k : mats tg -> res (heap tg * bool)), wp r1 P -> (forall ms, P ms -> r2 ms = AssertFail) -> bind (bind r1 r2) k = AssertFail).
  { intros r1 r2 P k Hr Hk. destruct r1; cbn [wp] in Hr; try contradiction. cbn [bind]. now rewrite Hk. }
  eapply X; [apply Res, W7|]. intros ms8 [O8 W8]. cbv beta.
  assert (E8 : m_w (ms8 (cg_x g)) <> 1) by (rewrite O8, O7, O6 by auto; rewrite (is_mat_w _ _ _ _ _ M5); exact Ew).
  unfold sp_transpose_multiply_vector. rewrite bind_assert_fail; [reflexivity|exact D|]. now apply Nat.eqb_neq.
Qed.
Lemma left_scale_halts ss ms J t reg : asserts_on tg = true -> s_h (ss J) = 0 -> m_h (ms t) <> 0 -> sp_left_scale 3 2 ss ms J t reg = AssertFail.
Proof.
  intros D Eh Ht. unfold sp_left_scale. rewrite Eh. rewrite massert_off by (intros _; now rewrite orb_true_r).
  apply bind_assert_fail; [exact D|]. now apply Nat.eqb_neq.
Qed.
Lemma opt_balks w y K h dt f hp (s : st) l : asserts_on tg = true -> y_cons y = [] ->
  listed w y -> attached w y -> shaped w y -> presents w y K h s -> forced w y f s ->
  hinv priv hp -> minv_ok w y (hm hp) -> y_sle y = Some l -> solver_apart priv l -> balks l (hm hp ilambda) ->
  opt_process_constraints w y dt hp s = AssertFail.
Proof.
  intros D E0 HL HA HS HP HF H HM El Hl HB. unfold opt_process_constraints.
  pose proof (opt_readies priv w y K h dt f no_law hp s HL HA HS HP HF (no_answers w y K h E0) H HM) as G. apply wp_ok in G. destruct G as (hp2 & E2 & R2 & L2).
  destruct (opt_gather w y dt hp s) as [hp1| | |]; try discriminate. cbn [bind] in *. rewrite E2. cbn [bind].
  unfold the_sle. rewrite El. cbn [bind]. pose proof R2 as (P2 & (b & _ & Hb) & _). rewrite <- L2 in HB.
  destruct (prepared_none priv w y _ f hp2 b E0 HL HA HS P2 Hb) as (n & blk & v & wt & Sy).
  destruct l as [lim|g|g|g]; cbn [balks] in HB; try contradiction; cbn [supports_limits negb].
  - change (sle_solve (SleGe g) sJ iMinv iright ilambda ilambda hp2) with (ge_solve g sJ iMinv iright ilambda ilambda hp2).
    pose proof (ge_none priv g hp2 n blk v wt b (proj1 P2) Hl Sy) as G. apply wp_ok in G. destruct G as ([hp3 ok] & E3 & T3 & L3). cbn [fst snd] in *.
    rewrite E3. cbn [bind]. rewrite massert_off by auto.
    pose proof (pc_elim _ _ _ E3 (opt_solve_keeps priv (SleGe g) hp2 Hl (proj1 P2))) as K3. cbn [fst] in K3.
    assert (W : wfs priv (hm hp3)) by apply K3. rewrite <- L3 in HB.
    destruct (wf_contents _ _ (W ilambda)) as [fl Hfl]. apply is_mat_weaken in Hfl.
    pose proof (mscale_spec (priv ireg0) (hm hp3) ilambda (cdiv (cofZ 1) dt) ireg0 _ _ _ Hfl (W ireg0)) as G. apply wp_ok in G. destruct G as (ms4 & E4 & O4 & M4).
    rewrite E4. cbn [bind].
    pose proof (prepared_solve _ _ _ _ _ _ _ _ Hl P2 K3) as (_ & _ & _ & v3 & HJ & _). rewrite (full_none w y E0) in HJ.
    rewrite left_scale_halts; [reflexivity|exact D|apply (is_sp_h _ _ _ _ _ HJ)|rewrite (is_mat_h _ _ _ _ _ M4); exact HB].
  - cbn [sle_solve]. rewrite (cg_balks g hp2 n blk v wt b D (proj1 P2) Hl Sy); [reflexivity|apply HB..].
Qed.
Lemma gen_balks w y K h f hp (s : st) l : asserts_on tg = true -> y_cons y = [] ->
  listed w y -> attached w y -> shaped w y -> presents w y K h s -> forced w y f s ->
  hinv priv hp -> minv_ok w y (hm hp) -> y_sle y = Some l -> solver_apart priv l -> balks l (hm hp ilambda) ->
  gen_process_constraints w y hp s = AssertFail.
Proof.
  intros D E0 HL HA HS HP HF H HM El Hl HB. unfold gen_process_constraints.
  assert (H1 : forall c, In c (y_cons y) -> 1 <= c_bodycount (w_con w c)) by (rewrite E0; intros c []).
  pose proof (gen_readies priv w y K h f no_law hp s HL HA HS H1 HP HF (no_answers w y K h E0) H HM) as G. apply wp_ok in G. destruct G as (hp2 & E2 & R2 & L2).
  destruct (gen_gather w y hp s) as [hp1| | |]; try discriminate. cbn [bind] in *. rewrite E2. cbn [bind].
  unfold the_sle. rewrite El. cbn [bind]. pose proof R2 as (P2 & (b & _ & Hb)). rewrite <- L2 in HB.
  destruct (prepared_none priv w y _ f hp2 b E0 HL HA HS P2 Hb) as (n & blk & v & wt & Sy).
  destruct l as [lim|g|g|g]; cbn [balks] in HB; try contradiction; cbn [sle_solve].
  - pose proof (ge_none priv g hp2 n blk v wt b (proj1 P2) Hl Sy) as G. apply wp_ok in G. destruct G as ([hp3 ok] & E3 & T3 & L3). cbn [fst snd] in *.
    rewrite E3. cbn [bind]. rewrite massert_off by auto.
    pose proof (pc_elim _ _ _ E3 (opt_solve_keeps priv (SleGe g) hp2 Hl (proj1 P2))) as K3. cbn [fst] in K3.
    rewrite <- L3 in HB.
    pose proof (prepared_solve _ _ _ _ _ _ _ _ Hl P2 K3) as (_ & _ & _ & v3 & HJ & _). rewrite (full_none w y E0) in HJ.
    rewrite left_scale_halts; [reflexivity|exact D|apply (is_sp_h _ _ _ _ _ HJ)|exact HB].
  - rewrite (cg_balks g hp2 n blk v wt b D (proj1 P2) Hl Sy); [reflexivity|apply HB..].
Qed.
Lemma process_balks k z m dt n t w y l f : asserts_on tg = true -> yreach k priv m w y -> y_cons y = [] -> uses k z y -> y_sle y = Some l ->
  balks l (hm (y_heap y) ilambda) -> all_gentle w y -> pushes w y (kin_of w) (cdiv dt (cofZ (Z.of_nat (S n)))) f ->
  process k dt (S n) t w y = AssertFail.
Proof.
  intros D H E0 HU El HB HG HF. pose proof (yreach_inv priv _ m w y H) as (_ & _ & Hl & _).
  pose proof (reach_nice priv _ _ _ _ H (attached_none w y E0) (shaped_none w y E0) HG) as (_ & HL & HA & HS & _).
  eapply (process_halts k z m dt n t w y f); eauto. intros hp s H1 M1 L1 P1 F1. rewrite <- L1 in HB. destruct k.
  - eapply opt_balks; eauto.
  - eapply gen_balks; eauto.
Qed.

(** ** before the first call of process the multipliers are an empty 0 x 0 matrix *)
Definition blank (y : sys tg) : Prop := m_h (hm (y_heap y) ilambda) = 0 /\ m_w (hm (y_heap y) ilambda) = 0.
Lemma yreach_blank k m w y : yreach k priv m w y -> calls m = [] -> blank y.
Proof.
  induction 1 as [k w|k m w y l o y' H IH Hl E|k m w y b w' y' H IH Hb E|k m w y b w' y' H IH Hb E|k m w y b w' y' H IH Hb E
    |k m w y b w' y' H IH Hb E|k m w y b w' y' H IH Hb E|k m w y b w' y' H IH Hb E|k m w y H IH|k m w y dt steps t w' y' H IH Hg E
    |k m w y b x H IH Hx|k m w y b x H IH Hx|k m w y b x H IH Hx|k m w y v H IH
    |k m w y o hp2 H IH Ha E|k m w y k2 m2 w2 y2 H IH H2 IH2]; intros C.
  - destruct k; split; reflexivity.
  - specialize (IH C). destruct k; cbn [initialize] in E.
    + injection E as <-. exact IH.
    + unfold gen_initialize in E. cbv zeta in E.
      destruct (minit0 _ ilambda 0 0) as [ms| | |] eqn:Em; try discriminate. cbn [bind] in E. injection E as <-.
      unfold minit0 in Em. destruct (mat_init0 _ 0 0) as [m'| | |] eqn:E0; try discriminate. cbn [bind] in Em. injection Em as <-.
      destruct (pc_elim _ _ _ E0 (mat_init0_dims _ 0 0)) as [A B]. unfold blank, with_heap, with_hm. cbn [y_heap hm]. rewrite upd_same. auto.
  - specialize (IH C). unfold add_body in E. injection E as <- <-. exact IH.
  - specialize (IH C). unfold remove_body in E. cbv zeta in E.
    destruct (vec_back _); try discriminate. cbn [bind] in E. destruct (aset _ _ _); try discriminate. cbn [bind] in E.
    destruct (vec_get _ _); try discriminate. cbn [bind] in E. destruct (vec_drop_last _); try discriminate. cbn [bind] in E. injection E as <- <-. exact IH.
  - specialize (IH C). unfold add_con in E. injection E as <- <-. exact IH.
  - specialize (IH C). unfold remove_con in E. cbv zeta in E.
    destruct (vec_back _); try discriminate. cbn [bind] in E. destruct (aset _ _ _); try discriminate. cbn [bind] in E.
    destruct (vec_get _ _); try discriminate. cbn [bind] in E. destruct (vec_drop_last _); try discriminate. cbn [bind] in E. injection E as <- <-. exact IH.
  - specialize (IH C). unfold add_gen in E. injection E as <- <-. exact IH.
  - specialize (IH C). unfold remove_gen in E. cbv zeta in E.
    destruct (vec_back _); try discriminate. cbn [bind] in E. destruct (lift_opt _); try discriminate. cbn [bind] in E. destruct (aset _ _ _); try discriminate. cbn [bind] in E.
    destruct (vec_get _ _); try discriminate. cbn [bind] in E. destruct (vec_drop_last _); try discriminate. cbn [bind] in E. injection E as <- <-. exact IH.
  - exact (IH C).
  - discriminate C.
  - exact (IH C).
  - exact (IH C).
  - exact (IH C).
  - exact (IH C).
  - exact (IH C).
  - exact (IH C).
Qed.
Lemma first_cg k z m dt n t w y g f : asserts_on tg = true -> yreach k priv m w y -> calls m = [] -> y_cons y = [] -> uses k z y -> y_sle y = Some (SleCg g) ->
  all_gentle w y -> pushes w y (kin_of w) (cdiv dt (cofZ (Z.of_nat (S n)))) f -> process k dt (S n) t w y = AssertFail.
Proof.
  intros D H C E0 HU El HG HF. destruct (yreach_blank k m w y H C) as [A B]. eapply process_balks; eauto. cbn [balks]. split; [exact A|]. rewrite B. discriminate.
Qed.
Lemma first_others k z m dt t w y l f : yreach k priv m w y -> calls m = [] -> y_cons y = [] -> uses k z y -> y_sle y = Some l ->
  match l with SleBase _ | SleCg _ => False | SleGe _ => True | SleGs g => 0 < gs_max_iterations g /\ clt (cofZ 0) (gs_min_delta g) = Ok true end ->
  all_gentle w y -> pushes w y (kin_of w) (cdiv dt (cofZ 1)) f ->
  exists w' y' K', process k dt 1 t w y = Ok (w', y') /\ free_motion z w y (cdiv dt (cofZ 1)) f (kin_of w) K' /\ arrives w' y K'.
Proof.
  intros H C E0 HU El HI HG HF. destruct (yreach_blank k m w y H C) as [A B]. eapply process_none; eauto.
  destruct l; cbn [idles]; try contradiction; auto.
Qed.
End S.
