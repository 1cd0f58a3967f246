(** * Systems without constraints. *)

From Coq Require Import Reals.
From Verif Require Import Base Targets Matrix Sparse Sle State Ode Forces Constraints System Logic
  MatrixFacts MatrixOps SpecMatrix MatrixHist SparseFacts SpecSparse SparseHist SpecSle SleHist SleGe SleGs SleCg
  SpecState StateFacts SpecOde OdeFacts SpecSys RegFacts SysFrame SysInv SysColumn SpecDyn DynState DynReact DynRound DynStep DynGather DynRight DynReady DynSolver DynLimits SpecEdge.
Local Open Scope nat_scope.

Section S.
Context {tg : target}.
Notation st := (sstate tg).
Implicit Types (ms : mats tg) (ss : sps tg) (hp : heap tg) (w : world tg) (y : sys tg) (L : law tg).
Variable priv : nat -> bool.

Lemma full_none w y : y_cons y = [] -> full_count w y = 0.
Proof. intros E. unfold full_count. now rewrite E. Qed.

(** ** after the solver *)
Lemma left_scale_none ss ms J t reg n : s_h (ss J) = 0 -> s_w (ss J) = n -> swf 3 2 (ss reg) ->
  (asserts_on tg = true -> m_h (ms t) = 0) ->
  wp (sp_left_scale 3 2 ss ms J t reg) (fun ss' => sonly reg ss ss' /\ swf 3 2 (ss' reg)).
Proof.
  intros Eh Ew Wr Ht. unfold sp_left_scale. rewrite Eh. rewrite massert_off by (intros _; now rewrite orb_true_r).
  rewrite massert_off by (intros D; now rewrite (Ht D)).
  eapply wp_seq; [apply (sp_init_spec 3 2 _ _ _ Wr)|].
  intros s' (v & Hs). cbv beta. unfold for2, for_. cbn [for_from wp]. split.
  - intros i N. now rewrite upd_other.
  - rewrite upd_same. apply Hs.
Qed.

Lemma is_sp_h (s : sparse tg) n m blk v : is_sp 3 2 s n m blk v -> s_h s = m /\ s_w s = n.
Proof. intros (A & B & C & _). auto. Qed.
Lemma finish_none w y K h f val x hp (s : st) t : y_cons y = [] -> listed w y -> attached w y -> shaped w y -> presents w y K h s ->
  prepared priv w y val f hp -> (asserts_on tg = true -> m_h (hm hp t) = 0) ->
  wp (let* ss := sp_left_scale 3 2 (hs hp) (hm hp) sJ t ssreg0 in
      let hp := {| hm := hm hp; hs := ss |} in
      let* s := apply_reactions w y hp s in Ok (hp, s)) (fun z => solved priv w y K h f val x (fst z) (snd z) /\ hm (fst z) = hm hp).
Proof.
  intros E0 HL HA HS HP (H & HM & HF & v & HJ & HV) Ht. pose proof (full_none w y E0) as F0. rewrite F0 in HJ.
  destruct (is_sp_h _ _ _ _ _ HJ) as [Eh Ew].
  eapply wp_seq; [apply (left_scale_none _ _ _ t ssreg0 _ Eh Ew); [apply H|exact Ht]|].
  intros ss [O Wr]. cbv zeta.
  eapply wp_seq.
  { apply (apply_reactions_known w y K h f _ s (fun _ _ _ => None) HL HA HS HP); [exact HF|exact HM|].
    intros r k d Hr. rewrite F0 in Hr. lia. }
  intros s' (P' & R'). cbn [wp fst snd hm]. split; [|reflexivity]. split; [|split; [exact HM|split; [exact P'|]]].
  - split; [apply H|]. cbn [hs]. intros i. destruct (Nat.eq_dec i ssreg0) as [->|N]; [exact Wr|]. rewrite O by exact N. apply H.
  - intros c j k d Hc. rewrite E0 in Hc. destruct Hc.
Qed.

(** ** the solvers *)
Lemma gs_tail_none hp ms g step u n blk v wt b : hinv priv hp -> solver_apart priv (SleGs g) ->
  system hp sJ iMinv iright n 0 blk v wt b -> only u (hm hp) ms -> u <> iMinv -> u < ifree -> wf (priv u) (ms u) -> m_h (ms u) = 0 ->
  (forall ms', m_h (ms' u) = 0 -> step ms' = Ok (ms', cofZ 0)) ->
  0 < gs_max_iterations g -> clt (cofZ 0) (gs_min_delta g) = Ok true ->
  wp (let* ss := sp_right_scale 3 2 (hs hp) ms sJ iMinv (gs_reg g) in
      let* ms := sp_multiply_transpose 3 2 (ss (gs_reg g)) (ss sJ) ms (gs_M g) in
      let* (ms, ok) := gs_iterate step (gs_min_delta g) (gs_max_iterations g) ms in
      Ok ({| hm := ms; hs := ss |}, ok)) (fun z => snd z = true /\ m_h (hm (fst z) u) = 0).
Proof.
  intros [Hwf Hswf] (A1 & A2) (HsJ & Hin & HW & _) Ho Nu Lu Wu Eu Hst Hi Hc. unfold ifree, sfree in *.
  assert (HW' : is_mat false (ms iMinv) 1 n (fun r _ => wt r)) by (rewrite Ho by auto; eapply is_mat_weaken, shows_is_mat; [apply Hwf|exact HW]).
  assert (HwM : wf (priv (gs_M g)) (ms (gs_M g))) by (rewrite Ho by lia; apply Hwf).
  pose proof (build_matrix_spec _ (hs hp) ms sJ iMinv (gs_reg g) (gs_M g) n 0 blk v wt Hswf HwM ltac:(unfold sJ; lia) HsJ Hin HW') as HB.
  destruct (sp_right_scale 3 2 (hs hp) ms sJ iMinv (gs_reg g)) as [ss| | |]; cbn [wp bind] in *; try contradiction.
  destruct HB as (Hso & _ & HB).
  destruct (sp_multiply_transpose 3 2 (ss (gs_reg g)) (ss sJ) ms (gs_M g)) as [ms1| | |]; cbn [wp bind] in *; try contradiction.
  destruct HB as [Ho1 Hm1].
  assert (E1 : m_h (ms1 u) = 0) by (rewrite Ho1 by lia; exact Eu).
  destruct (gs_max_iterations g) as [|k]; [lia|]. cbn [gs_iterate]. rewrite (Hst ms1 E1). cbn [bind]. rewrite Hc. cbn [bind wp fst snd hm].
  auto.
Qed.
Lemma gs_iteration_none ms left right u : m_h (ms u) = 0 -> gs_iteration ms left right u u = Ok (ms, cofZ 0).
Proof. intros E. unfold gs_iteration. rewrite E. reflexivity. Qed.
Lemma gs_iteration_limits_none ms left right lim u : m_h (ms u) = 0 -> gs_iteration_limits ms left right lim u u = Ok (ms, cofZ 0).
Proof. intros E. unfold gs_iteration_limits. rewrite E. reflexivity. Qed.

(** copying a matrix to itself *)
Lemma warm_self ms u n : wfs priv ms -> m_h (ms u) = n ->
  wp (warm_start ms (Some u) u n) (fun ms' => only u ms ms' /\ wf (priv u) (ms' u) /\ m_h (ms' u) = n).
Proof.
  intros Hw E. unfold warm_start. rewrite E, Nat.eqb_refl. destruct (wf_contents _ _ (Hw u)) as [f Hf].
  eapply wp_mono; [apply (mset_ref_spec (priv u) ms u u (m_w (ms u)) n f); [eapply is_mat_weaken; rewrite <- E; exact Hf|apply Hw]|].
  intros ms' [Ho Hm]. split; [exact Ho|]. split; [eapply is_mat_wf; exact Hm|eapply is_mat_h; exact Hm].
Qed.
Definition idle_post hp (z : heap tg * bool) : Prop := (asserts_on tg = true -> snd z = true /\ m_h (hm (fst z) ilambda) = 0).
Lemma gs_none g hp n blk v wt b : hinv priv hp -> solver_apart priv (SleGs g) -> system hp sJ iMinv iright n 0 blk v wt b ->
  0 < gs_max_iterations g -> clt (cofZ 0) (gs_min_delta g) = Ok true ->
  wp (gs_solve g sJ iMinv iright (Some ilambda) ilambda hp) (idle_post hp).
Proof.
  intros H Ha Sy Hi Hc. unfold gs_solve. assert (Er : m_h (hm hp iright) = 0) by apply Sy. rewrite Er.
  eapply wp_seq; [apply mresize_spec; apply (proj1 H)|]. intros ms (Ho & (f & Hf) & _).
  assert (Hw : wfs priv ms) by (eapply SleCg.wfs_only; [apply (proj1 H)|exact Ho|eapply is_mat_wf; exact Hf]).
  eapply wp_seq; [apply warm_self; [exact Hw|eapply is_mat_h; exact Hf]|]. intros ms1 (Ho1 & W1 & E1).
  eapply wp_mono; [apply (gs_tail_none hp ms1 g _ ilambda n blk v wt b); auto|].
  - eapply only_trans; eassumption.
  - discriminate.
  - unfold ilambda, ifree; lia.
  - intros ms' E'. now apply gs_iteration_none.
  - intros z [A B] _. auto.
Qed.
Lemma gs_limits_none g hp n blk v wt b : hinv priv hp -> solver_apart priv (SleGs g) -> system hp sJ iMinv iright n 0 blk v wt b ->
  0 < gs_max_iterations g -> clt (cofZ 0) (gs_min_delta g) = Ok true ->
  wp (gs_solve_limits g sJ iMinv iright ilimits ilambda (Some ilambda) hp) (idle_post hp).
Proof.
  intros H Ha Sy Hi Hc. unfold gs_solve_limits. assert (Er : m_h (hm hp iright) = 0) by apply Sy. rewrite Er.
  eapply (wp_seq _ _ (fun ms => only ilambda (hm hp) ms /\ wfs priv ms /\ m_h (ms ilambda) = 0)).
  { destruct (Nat.eqb_spec (m_h (hm hp ilambda)) 0) as [E|N]; cbn [negb].
    - cbn [wp]. split; [apply only_refl|]. split; [apply H|exact E].
    - eapply wp_mono; [apply minit0_spec; apply (proj1 H)|]. intros ms [Ho Hm]. split; [exact Ho|]. split; [|eapply is_mat_h; exact Hm].
      eapply SleCg.wfs_only; [apply (proj1 H)|exact Ho|eapply is_mat_wf; exact Hm]. }
  intros ms (Ho & Hw & E0).
  eapply wp_seq; [apply warm_self; [exact Hw|exact E0]|]. intros ms1 (Ho1 & W1 & E1).
  eapply wp_mono; [apply (gs_tail_none hp ms1 g _ ilambda n blk v wt b); auto|].
  - eapply only_trans; eassumption.
  - discriminate.
  - unfold ilambda, ifree; lia.
  - intros ms' E'. now apply gs_iteration_limits_none.
  - intros z [A B] _. auto.
Qed.
Lemma cg_system_names g : solver_apart priv (SleCg (tg := tg) g) -> cg_names g iMinv iright ilambda (Some ilambda) /\ cg_private g priv.
Proof.
  intros (A1 & A2 & A3). unfold ifree in *. split; [|exact A3].
  assert (N : forall i, i < 20 -> ~ In i [cg_mreg0 g; cg_mreg1 g; cg_Ap g; cg_x g; cg_r g; cg_p g]) by (intros i Hi X; apply A2 in X; lia).
  split.
  - assert (X : forall (i : nat) l, ~ In i l -> NoDup l -> NoDup (i :: l)) by (intros; now constructor).
    apply X; [|apply X; [|apply X; [|exact A1]]].
    + intros [Q|[Q|Q]]; try discriminate. exact (N iMinv ltac:(unfold iMinv; lia) Q).
    + intros [Q|Q]; try discriminate. exact (N iright ltac:(unfold iright; lia) Q).
    + exact (N ilambda ltac:(unfold ilambda; lia)).
  - intros p [= <-]. exact (N ilambda ltac:(unfold ilambda; lia)).
Qed.
Lemma cg_none g hp n blk v wt b : hinv priv hp -> solver_apart priv (SleCg g) -> system hp sJ iMinv iright n 0 blk v wt b ->
  m_h (hm hp ilambda) <> 0 \/ m_w (hm hp ilambda) = 1 ->
  wp (cg_solve g sJ iMinv iright (Some ilambda) ilambda hp) (idle_post hp).
Proof.
  intros H Ha Sy Hl. destruct (cg_system_names g Ha) as [Hn Hp].
  assert (St : exists x, start_cg hp (Some ilambda) 0 x).
  { destruct (Nat.eq_dec (m_h (hm hp ilambda)) 0) as [E|N].
    - exists (fun _ => None). left. exists ilambda. split; [reflexivity|]. split; [lia|]. split; [exact E|]. intros; lia.
    - exists (fun _ => cofZ 0). right. split; [|reflexivity]. now intros p [= <-]. }
  destruct St as [x St].
  pose proof (cg_solve_sim priv hp g sJ iMinv iright (Some ilambda) ilambda n 0 blk v wt b x H Hn Hp Sy St) as R.
  unfold pcg, psmall, for_ in R. cbn [for_from bind] in R.
  destruct (cg_solve g sJ iMinv iright (Some ilambda) ilambda hp) as [[hp' ok]| | |]; cbn [rel wp] in *; try contradiction.
  destruct R as (E & _ & X). cbn [fst snd] in *. intros _. split; [exact E|]. now apply X.
Qed.
Lemma ge_none g hp n blk v wt b : hinv priv hp -> solver_apart priv (SleGe (tg := tg) g) -> system hp sJ iMinv iright n 0 blk v wt b ->
  wp (ge_solve g sJ iMinv iright ilambda ilambda hp) (fun z => snd z = true /\ hm (fst z) ilambda = hm hp ilambda).
Proof.
  intros [Hwf Hswf] (A1 & A2 & A3 & A4 & A5) (HsJ & Hin & HW & Hr). unfold ifree, sfree in *. unfold ge_solve.
  assert (HW' : is_mat false (hm hp iMinv) 1 n (fun r _ => wt r)) by (eapply is_mat_weaken, shows_is_mat; [apply Hwf|exact HW]).
  pose proof (build_matrix_spec _ (hs hp) (hm hp) sJ iMinv (ge_reg g) (ge_M g) n 0 blk v wt Hswf (Hwf (ge_M g)) ltac:(unfold sJ; lia) HsJ Hin HW') as HB.
  destruct (sp_right_scale 3 2 (hs hp) (hm hp) sJ iMinv (ge_reg g)) as [ss| | |]; cbn [wp bind] in *; try contradiction.
  destruct HB as (Hso & _ & HB).
  destruct (sp_multiply_transpose 3 2 (ss (ge_reg g)) (ss sJ) (hm hp) (ge_M g)) as [ms1| | |]; cbn [wp bind] in *; try contradiction.
  destruct HB as [Ho1 Hm1]. rewrite (is_mat_w _ _ _ _ _ Hm1), (is_mat_h _ _ _ _ _ Hm1).
  rewrite bind_massert by (rewrite Ho1 by (unfold iright; lia); apply Nat.eqb_eq; apply Hr).
  rewrite orb_true_r. cbn [wp fst snd hm]. split; [reflexivity|]. apply Ho1. unfold ilambda. lia.
Qed.

Lemma prepared_none w y val f hp b : y_cons y = [] -> listed w y -> attached w y -> shaped w y -> prepared priv w y val f hp ->
  is_mat false (hm hp iright) 1 (full_count w y) (fun r _ => b r) ->
  exists n blk v wt, system hp sJ iMinv iright n 0 blk v wt b.
Proof.
  intros E0 HL HA HS P Hb. destruct (prepared_system priv w y val f hp b HL HA HS P Hb) as [v Sy]. rewrite (full_none w y E0) in Sy. eauto.
Qed.
Lemma opt_idle w y val f hp b l : y_cons y = [] -> listed w y -> attached w y -> shaped w y -> prepared priv w y val f hp ->
  is_mat false (hm hp iright) 1 (full_count w y) (fun r _ => b r) -> solver_apart priv l -> idles l (hm hp ilambda) ->
  wp (opt_solve l hp) (idle_post hp) /\ wp (sle_solve l sJ iMinv iright ilambda ilambda hp) (idle_post hp).
Proof.
  intros E0 HL HA HS P Hb Hl Hi. destruct (prepared_none w y val f hp b E0 HL HA HS P Hb) as (n & blk & v & wt & Sy).
  destruct l as [lim|g|g|g]; cbn [idles] in Hi.
  - unfold opt_solve. cbn [supports_limits negb sle_solve sle_solve_limits].
    assert (X : wp (Ok (hp, false)) (idle_post hp)) by (cbn [wp]; intros D; congruence). destruct lim; cbn [negb]; split; exact X.
  - unfold opt_solve. cbn [supports_limits negb sle_solve]. pose proof (ge_none g hp n blk v wt b (proj1 P) Hl Sy) as G.
    assert (X : wp (ge_solve g sJ iMinv iright ilambda ilambda hp) (idle_post hp)).
    { eapply wp_mono; [exact G|]. intros z [A B] D. split; [exact A|]. rewrite B. auto. }
    split; exact X.
  - unfold opt_solve. cbn [supports_limits negb sle_solve sle_solve_limits]. split.
    + eapply gs_limits_none; eauto; try apply P; apply Hi.
    + eapply gs_none; eauto; try apply P; apply Hi.
  - unfold opt_solve. cbn [supports_limits negb sle_solve]. pose proof (cg_none g hp n blk v wt b (proj1 P) Hl Sy Hi) as G. split; exact G.
Qed.

Definition no_law : law tg := mkLaw (fun _ _ => None) (fun _ _ _ => None) (fun _ _ _ => None) (fun _ _ => None) (fun _ _ => None) (fun _ _ => None) (fun _ _ => None) (fun _ _ => None).
Lemma no_answers w y K h : y_cons y = [] -> answers w y K h no_law.
Proof. intros E s _ c o Hc. rewrite E in Hc. destruct Hc. Qed.

Lemma opt_constraints_none w y K h dt f hp (s : st) l : y_cons y = [] ->
  listed w y -> attached w y -> shaped w y -> presents w y K h s -> forced w y f s ->
  hinv priv hp -> minv_ok w y (hm hp) -> y_sle y = Some l -> solver_apart priv l -> idles l (hm hp ilambda) ->
  wp (opt_process_constraints w y dt hp s) (fun z => hinv priv (fst z) /\ minv_ok w y (hm (fst z)) /\
    presents w y (with_acc K (acc_of w y f (snd z))) h (snd z)).
Proof.
  intros E0 HL HA HS HP HF H HM El Hl Hi. unfold opt_process_constraints.
  pose proof (opt_readies priv w y K h dt f no_law hp s HL HA HS HP HF (no_answers w y K h E0) H HM) as G. apply wp_ok in G. destruct G as (hp2 & E2 & R2 & L2).
  destruct (opt_gather w y dt hp s) as [hp1| | |]; try discriminate. cbn [bind] in *. rewrite E2. cbn [bind].
  unfold the_sle. rewrite El. cbn [bind]. pose proof R2 as (P2 & (b & _ & Hb) & _). rewrite <- L2 in Hi.
  destruct (opt_idle w y _ f hp2 b l E0 HL HA HS P2 Hb Hl Hi) as [G _]. apply wp_ok in G. destruct G as ([hp3 ok] & E3 & T3).
  fold (opt_solve l hp2). rewrite E3. cbn [bind]. unfold idle_post in T3. cbn [fst snd] in T3.
  rewrite massert_off by (intros D; apply (T3 D)).
  pose proof (pc_elim _ _ _ E3 (opt_solve_keeps priv l hp2 Hl (proj1 P2))) as K3. cbn [fst] in K3.
  pose proof (prepared_solve _ _ _ _ _ _ _ _ Hl P2 K3) as P3.
  assert (W : wfs priv (hm hp3)) by apply K3.
  destruct (wf_contents _ _ (W ilambda)) as [fl Hfl]. apply is_mat_weaken in Hfl.
  pose proof (mscale_spec (priv ireg0) (hm hp3) ilambda (cdiv (cofZ 1) dt) ireg0 _ _ _ Hfl (W ireg0)) as G. apply wp_ok in G. destruct G as (ms4 & E4 & O4 & M4).
  rewrite E4. cbn [bind].
  eapply wp_mono; [apply (finish_none w y K h f (l_J no_law) (fun _ => None) {| hm := ms4; hs := hs hp3 |} s ireg0 E0 HL HA HS HP)|].
  - eapply prepared_same; [exact P3|..]; cbn [hm hs]; try reflexivity; try (apply O4; discriminate).
    split; [|apply K3]. cbn [hm]. intros i. destruct (Nat.eq_dec i ireg0) as [->|N]; [eapply is_mat_wf; exact M4|]. rewrite O4 by exact N. apply W.
  - cbn [hm]. intros D. rewrite (is_mat_h _ _ _ _ _ M4). apply (T3 D).
  - intros z [Z _]. split; [apply Z|]. split; [apply Z|apply Z].
Qed.
Lemma gen_constraints_none w y K h f hp (s : st) l : y_cons y = [] ->
  listed w y -> attached w y -> shaped w y -> presents w y K h s -> forced w y f s ->
  hinv priv hp -> minv_ok w y (hm hp) -> y_sle y = Some l -> solver_apart priv l -> idles l (hm hp ilambda) ->
  wp (gen_process_constraints w y hp s) (fun z => hinv priv (fst z) /\ minv_ok w y (hm (fst z)) /\
    presents w y (with_acc K (acc_of w y f (snd z))) h (snd z)).
Proof.
  intros E0 HL HA HS HP HF H HM El Hl Hi. unfold gen_process_constraints.
  assert (H1 : forall c, In c (y_cons y) -> 1 <= c_bodycount (w_con w c)) by (rewrite E0; intros c []).
  pose proof (gen_readies priv w y K h f no_law hp s HL HA HS H1 HP HF (no_answers w y K h E0) H HM) as G. apply wp_ok in G. destruct G as (hp2 & E2 & R2 & L2).
  destruct (gen_gather w y hp s) as [hp1| | |]; try discriminate. cbn [bind] in *. rewrite E2. cbn [bind].
  unfold the_sle. rewrite El. cbn [bind]. pose proof R2 as (P2 & (b & _ & Hb)). rewrite <- L2 in Hi.
  destruct (opt_idle w y _ f hp2 b l E0 HL HA HS P2 Hb Hl Hi) as [_ G]. apply wp_ok in G. destruct G as ([hp3 ok] & E3 & T3).
  rewrite E3. cbn [bind]. unfold idle_post in T3. cbn [fst snd] in T3.
  rewrite massert_off by (intros D; apply (T3 D)).
  pose proof (pc_elim _ _ _ E3 (sle_solve_keeps priv l _ _ _ _ _ hp2 Hl (proj1 P2))) as K3. cbn [fst] in K3.
  pose proof (prepared_solve _ _ _ _ _ _ _ _ Hl P2 K3) as P3.
  eapply wp_mono; [apply (finish_none w y K h f (l_J no_law) (fun _ => None) hp3 s ilambda E0 HL HA HS HP P3)|].
  - intros D. apply (T3 D).
  - intros z [Z _]. split; [apply Z|]. split; [apply Z|apply Z].
Qed.

(** ** process *)
Lemma attached_none w y : y_cons y = [] -> attached w y.
Proof. intros E c k Hc. rewrite E in Hc. destruct Hc. Qed.
Lemma shaped_none w y : y_cons y = [] -> shaped w y.
Proof. intros E c Hc. rewrite E in Hc. destruct Hc. Qed.
Lemma kicks_free z w y h f F K K' : y_cons y = [] -> kicks z w y h f F K K' -> free_motion z w y h f K K'.
Proof.
  intros E [N M]. split; [|exact M]. intros b d Hb Hd. rewrite (N b d Hb Hd). unfold total_on, slots. now rewrite E.
Qed.
Lemma process_none k z m dt t w y l f : yreach k priv m w y -> y_cons y = [] -> uses k z y -> y_sle y = Some l ->
  idles l (hm (y_heap y) ilambda) -> all_gentle w y -> pushes w y (kin_of w) (cdiv dt (cofZ 1)) f ->
  exists w' y' K', process k dt 1 t w y = Ok (w', y') /\ free_motion z w y (cdiv dt (cofZ 1)) f (kin_of w) K' /\ arrives w' y K'.
Proof.
  intros H E0 HU El Hi HG HF. pose proof (yreach_inv priv _ m w y H) as (Hh & Hs & Hl & Hk).
  pose proof (reach_nice priv _ _ _ _ H (attached_none w y E0) (shaped_none w y E0) HG) as HN.
  pose proof HN as (_ & HL & HA & HS & _). pose proof (proj1 (profiling _ _ _ _ _ H)) as Hp.
  assert (X : good_step k z w y dt f (fun _ _ => True)).
  { destruct k; cbn [uses] in HU.
    - subst z. destruct (Hk eq_refl) as (o & Eo & No).
      assert (So : is_scheme Symplectic o) by (destruct o; try contradiction; eexists; reflexivity).
      apply (opt_total priv); auto; [eauto|]. intros hp s H1 M1 L1 P1 F1. eapply wp_mono; [eapply opt_constraints_none; eauto; now rewrite L1|].
      intros x (A & B & C). auto.
    - destruct HU as [h0 Eo]. assert (So : is_scheme z (ode_of z h0)) by (eexists; reflexivity).
      apply (gen_total priv); auto; [eauto|]. intros hp s H1 M1 L1 P1 F1. eapply wp_mono; [eapply gen_constraints_none; eauto; now rewrite L1|].
      intros x (A & B & C). auto. }
  destruct (X t) as (w' & y' & K' & E & F & KK & _ & A & _). exists w', y', K'. split; [exact E|]. split; [eapply kicks_free; eauto|exact A].
Qed.
End S.
