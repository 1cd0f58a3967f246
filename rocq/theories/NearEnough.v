(** * Lemmas for C131: with independent rows and enough sweeps a step succeeds. *)

From Coq Require Import Reals Lra QArith.
From Verif Require Import Base Targets Matrix Sparse Sle State Ode Forces Constraints System Logic RealSum
  MatrixFacts MatrixOps SpecMatrix MatrixHist SparseFacts SpecSparse SparseHist SpecSle SleHist SleGe SleGs
  SpecState StateFacts SpecOde OdeFacts SpecSys RegFacts SysFrame SysInv SysColumn SpecDyn DynState DynReact DynRound DynStep DynGather DynRight DynReady DynSolver
  SpecSolve SolveReal SolveStep SpecLimits DynLimits GsStep SpecCon ConFacts SpecLaw LawReal LawStep SpecMom MomForce SpecRun RunTotal RunReal SpecNear GsNear LimitStep GsStep NearStep RealSum.
From Verif Require GeReal.
From Verif Require GeHist GsReal GsHist SpecSlip SlipStep.
Local Open Scope nat_scope.

(** ** the matrix *)
Lemma JWJt_quad n m D W x : dot m x (mulv m (JWJt n D W) x) = Rsum n (fun k => W k * (Rsum m (fun r => D r k * x r) * Rsum m (fun r => D r k * x r)))%R.
Proof.
  unfold dot, mulv, JWJt.
  rewrite (Rsum_ext m _ (fun r => Rsum n (fun k => W k * ((D r k * x r) * Rsum m (fun c => D c k * x c))))%R).
  - rewrite Rsum_swap. apply Rsum_ext. intros k _. rewrite Rsum_scal_l. f_equal. now rewrite Rsum_scal_r.
  - intros r Hr. rewrite <- Rsum_scal_l. rewrite (Rsum_ext m _ (fun c => Rsum n (fun k => W k * ((D r k * x r) * (D c k * x c))))%R).
    2:{ intros c Hc. rewrite <- Rsum_scal_r, <- Rsum_scal_l. apply Rsum_ext. intros k _. ring. }
    rewrite Rsum_swap. apply Rsum_ext. intros k _. rewrite !Rsum_scal_l. reflexivity.
Qed.
Lemma JWJt_posdef n m D W : (forall k, k < n -> (0 < W k)%R) -> nonsingular m (JWJt n D W) -> positive_definite m (JWJt n D W).
Proof.
  intros HW HN x (c & Hc & Nc). rewrite JWJt_quad.
  assert (P : forall k, k < n -> (0 <= W k * (Rsum m (fun r => D r k * x r) * Rsum m (fun r => D r k * x r)))%R).
  { intros k Hk. apply Rmult_le_pos; [left; now apply HW|apply Rle_0_sqr]. }
  destruct (Req_dec (Rsum n (fun k => W k * (Rsum m (fun r => D r k * x r) * Rsum m (fun r => D r k * x r)))%R) 0) as [E|N].
  - exfalso. apply Nc. apply HN; [|exact Hc]. intros r Hr. unfold mulv, JWJt.
    rewrite (Rsum_ext m _ (fun c => Rsum n (fun k => (D r k * W k) * (D c k * x c)))%R).
    2:{ intros c' _. rewrite <- Rsum_scal_r. apply Rsum_ext. intros k _. ring. }
    rewrite Rsum_swap. apply Rsum_eq0. intros k Hk. rewrite Rsum_scal_l.
    pose proof (Rsum_nonneg_zero n _ P E k Hk) as Z. cbv beta in Z. apply Rmult_integral in Z. specialize (HW k Hk).
    destruct Z as [Z|Z]; [lra|]. apply Rmult_integral in Z. assert (Z' : Rsum m (fun r => D r k * x r)%R = 0%R) by tauto. rewrite Z'. ring.
  - assert (Q : (0 <= Rsum n (fun k => W k * (Rsum m (fun r => D r k * x r) * Rsum m (fun r => D r k * x r))))%R).
    { now apply Rsum_nonneg. }
    lra.
Qed.

Section S.
Context {dbg : bool}.
Notation T := (RT dbg).
Notation cl := (cell (RT dbg)).
(** as GsHist.gs_converges, from the invariant *)
Lemma gs_enough n m D W b lo hi (tol : R) :
  positive_definite m (JWJt n D W) -> (forall i, i < m -> (lo i <= hi i)%R) -> (0 < tol)%R ->
  exists N, forall priv (hp : heap T) (g : gs_solver T) J Wi right limits previous result x,
    N <= gs_max_iterations g -> gs_min_delta g = Some tol -> hinv priv hp -> gs_names_limits g J Wi right limits result -> systemR hp J Wi right n m D W b ->
    limits_are (hm hp) limits m (fun i => Some (lo i)) (fun i => Some (hi i)) ->
    start_limits hp previous result m (fun i => Some (x i)) ->
    exists hp', gs_solve_limits g J Wi right limits result previous hp = Ok (hp', true).
Proof.
  intros Hpd Hl Ht.
  assert (Hsym : symmetric m (JWJt n D W)).
  { intros r c Hr Hc. apply Rsum_ext. intros; ring. }
  assert (HN : exists N, forall k x xr, N <= k -> GsReal.lifts dbg m x xr ->
    exists x', piter (tg := RT dbg) (pstepL (tg := RT dbg) (fun r c => Some (JWJt n D W r c)) (fun i => Some (b i)) (fun i => Some (lo i)) (fun i => Some (hi i)) m)
      m (Some tol) k x = Ok (x', true)).
  { apply (GsHist.piter_converges_any dbg m (JWJt n D W) b lo hi tol Hsym Hpd Hl Ht); auto; intros i Hi; reflexivity. }
  destruct HN as [N HN].
  exists N. intros priv hp g J Wi right limits previous result x Hk Et Hr Hn Hsy Hli Hst.
  destruct (GeHist.systemR_system dbg hp J Wi right n m D W b Hsy) as (blk & v & Hs' & _ & Hin & Em).
  pose proof (gs_solve_limits_sim priv hp g J Wi right limits previous result n m blk _ _ _ _ _ _ Hr Hn Hs' Hli Hst) as HR.
  rewrite Et in HR. set (k := gs_max_iterations g) in *.
  destruct (HN k (fun i => (Some (x i) : cl)) x Hk) as [x' Ex]; [intros i Hi; reflexivity|].
  assert (Eq : forall k x0, rel
    (piter (tg := RT dbg) (pstepL (tg := RT dbg) (msys blk (fun r e k => Some (v r e k)) (fun i => Some (W i))) (fun i => Some (b i)) (fun i => Some (lo i)) (fun i => Some (hi i)) m) m (Some tol) k x0)
    (piter (tg := RT dbg) (pstepL (tg := RT dbg) (fun r c => Some (JWJt n D W r c)) (fun i => Some (b i)) (fun i => Some (lo i)) (fun i => Some (hi i)) m) m (Some tol) k x0) eq).
  { apply GsHist.piter_ext. intros y i Hi. apply GsHist.pstepL_extM; [exact Em|exact Hi]. }
  specialize (Eq k (fun i => Some (x i))). rewrite Ex in Eq.
  match type of HR with rel _ ?p _ => destruct p as [[y ok]| | |]; cbn in Eq; try contradiction end.
  injection Eq as <- <-.
  destruct (gs_solve_limits g J Wi right limits result previous hp) as [[hp' ok']| | |]; cbn in HR; try contradiction.
  destruct HR as (E & _). cbn in E. subst. exists hp'. reflexivity.
Qed.

Variable priv : nat -> bool.
Section One.
Variables (w : world T) (y : sys T).
Variables q v M : nat -> nat -> R.
Hypothesis HB : bodies_are w y q v M.
Hypothesis HL : listed w y.
Hypothesis HA : attached w y.
Hypothesis HS : shaped w y.
Hypothesis H255 : body_count y <= 255.
Notation m := (full_count w y).
Notation n := (3 * body_count y).
Notation AJ J := (JWJt n (DJ w y J) (cols y (fun b d => / M b d)%R)).
Lemma AJ_posdef J : (forall b d, In b (y_bodies y) -> d < 3 -> (0 < M b d)%R) -> independent w y J -> positive_definite m (AJ J).
Proof.
  intros HM HI. apply JWJt_posdef.
  - intros k Hk. destruct (cols_split y k Hk) as (i & b & _ & Hd & Eb & Ei & Hb). unfold cols. rewrite <- Ei, Eb. now apply Rinv_0_lt_compat, HM.
  - apply (regular_nonsingular w y J HL HA HS H255). now apply independent_regular.
Qed.
Lemma enough_mobile J : (forall b d, In b (y_bodies y) -> d < 3 -> (0 < M b d)%R) -> independent w y J -> every_row w y (fun c j => (0 < mobility w y M J c j)%R).
Proof.
  intros HM HI. apply (rows_all w y HL). intros r Hr. rewrite <- (mobility_diag w y M J r HL HA HS H255 Hr).
  apply (GsHist.posdef_diag m); [now apply AJ_posdef|exact Hr].
Qed.
End One.

(** ** one step *)
Lemma opt_enough m (dt : R) w y (beta tol : R) q v M f L J C vb lo hi :
  yreach Optimized priv m w y -> attached w y -> shaped w y -> all_gentle w y -> body_count y <= 255 -> y_cons y <> [] -> remembers w y ->
  (0 < tol < 1)%R -> (0 < dt)%R -> y_bias y = Some beta -> bodies_are w y q v M ->
  answers w y (kin_of w) (Some dt : cl) L -> rows_are w y (l_J L) J -> row_is w y (l_C L) C -> row_is w y (l_vb L) vb ->
  row_is w y (l_lo L) lo -> row_is w y (l_hi L) hi -> pushesR w y (kin_of w) dt f ->
  (forall b d, In b (y_bodies y) -> d < 3 -> (0 < M b d)%R) -> independent w y J -> every_row w y (fun c j => (lo c j <= hi c j)%R) ->
  exists N, forall (g : gs_solver T) t, N <= gs_max_iterations g -> gs_min_delta g = Some tol -> solver_apart priv (SleGs g) ->
  exists w' y' v' x e, process Optimized (Some dt : cl) 1 t w (opt_initialize y (SleGs g)) = Ok (w', y') /\ remembers w' y' /\
    ends w' y (fun b d => q b d + v' b d * dt)%R v' /\
    every_row w y (fun c j => holds_within (lo c j) (hi c j) (x c j) (along w J v' c j + vb c j + beta / dt * C c j)%R (e c j) /\
      (Rabs (e c j) <= tol / (1 - tol) * others w y M J dt x c j)%R) /\
    (forall b d, In b (y_bodies y) -> d < 3 -> (M b d * (v' b d - v b d) = (f b d + acts w y J x b d) * dt)%R) /\
    reportsR w w' y (fun d c j k => J c j (3 * k + d)%nat * x c j)%R.
Proof.
  intros H0 HA HS HG H255 HC0 HRem Ht Hdt Eb HB HW HJ HC Hvb Hlo Hhi HP HM HI Ho.
  assert (Ndt : dt <> 0%R) by lra.
  pose proof (reach_nice priv _ _ _ _ H0 HA HS HG) as (_ & HL & _). pose proof (pos_rows w y HS HC0) as Hm.
  pose proof (enough_mobile w y M HL HA HS H255 J HM HI) as HD.
  destruct (gs_enough (3 * body_count y) (full_count w y) (DJ w y J) (cols y (fun b d => / M b d)%R) (side w y M dt beta v f J C vb)
    (fun r => lo (rc w y r) (rj w y r) * dt)%R (fun r => hi (rc w y r) (rj w y r) * dt)%R tol) as [N HN].
  { now apply AJ_posdef. }
  { intros i Hi. apply Rmult_le_compat_r; [lra|]. apply (all_rows w y _ Ho i Hi). }
  { lra. }
  exists N. intros g t Hk Et Hap.
  assert (H : yreach Optimized priv m w (opt_initialize y (SleGs g))) by (eapply y_initialize with (l := SleGs g) (o := OdeNsv (cofZ 0)); [exact H0|exact Hap|reflexivity]).
  set (y1 := opt_initialize y (SleGs g)) in *.
  pose proof (yreach_inv priv _ m w y1 H) as (Hh & Hs & Hl & Hkk). destruct (Hkk eq_refl) as (o & Eo & No).
  assert (So : is_scheme Symplectic o) by (destruct o; try contradiction; eexists; reflexivity).
  pose proof (reach_nice priv _ _ _ _ H HA HS HG) as HNi.
  pose proof (proj1 (profiling _ _ _ _ _ H)) as Hf. specialize (Hl _ eq_refl). pose proof (yreach_column priv _ m w y1 H) as HCol.
  set (Q := fun (F : nat -> nat -> nat -> nat -> cl) (hp : heap T) => exists xr e : nat -> R, forces_J w y J (fun c j => / dt * by_row w y xr c j)%R F /\
    nearly w y M dt beta tol v f J C vb lo hi xr e /\ is_mat false (hm hp ilambda) 1 (full_count w y) (fun r _ => (Some (xr r) : cl))).
  pose proof (opt_total priv w y1 (Some dt : cl) (fun b d => (Some (f b d) : cl)) Q Hh Hs HNi Hf (ex_intro _ o (conj Eo So))) as G.
  cbv zeta in G. unfold good_step in G. rewrite dt1 in G.
  destruct (G HP) with (t := t) as (w' & y' & K' & E & F & KK & (xr & e & HF & HX & HXr) & AR & RP).
  - intros hp s Hhp Hmi Elam HPr HFo.
    eapply wp_mono; [apply (opt_constraints_total priv w y1 (kin_of w) (Some dt : cl) (Some dt : cl) _ L hp s (SleGs g)
      (fun x => exists xr e : nat -> R, (forall r, r < full_count w y -> x r = Some (xr r)) /\ nearly w y M dt beta tol v f J C vb lo hi xr e)
      HL HA HS H255 HPr HFo HW Hhp Hmi eq_refl Hl)|].
    + intros hp' Rd Elam'. pose proof Rd as (RP & (b0 & RS & RM) & RL).
      destruct (remembers_start priv w y hp' (proj1 RP) ltac:(rewrite Elam', Elam; exact HCol) ltac:(rewrite Elam', Elam; reflexivity) HRem Hm) as [x0 Hx0].
      assert (HK : forall b d, In b (y_bodies y) -> d < 3 -> k_v (kin_of w) b d = (Some (v b d) : cl)) by (intros b d Hb Hd; apply (HB b d Hb Hd)).
      pose proof (side_K w y q v M HB HL HA HS H255 (kin_of w) v f J vb C beta dt L hp' b0 HK Ndt Eb HJ HC Hvb RS RM) as Hb.
      pose proof (prepared_systemR priv w y q v M HB (l_J L) _ J (side w y M dt beta v f J C vb) hp' HL HA HS H255 RP HJ Hb) as HSy.
      pose proof (near_limits w y dt L lo hi hp' Hlo Hhi RL) as HLm.
      destruct (HN priv hp' g sJ iMinv iright ilimits (Some ilambda) ilambda x0 Hk Et (proj1 RP) (gs_system_names priv g Hl) HSy HLm Hx0) as [hp'' E3].
      assert (ES : opt_solve (SleGs g) hp' = Ok (hp'', true)) by (unfold opt_solve; cbn [supports_limits negb sle_solve_limits]; exact E3).
      rewrite ES. cbn [wp fst snd]. split; [reflexivity|].
      eapply (near_solved priv w y q v M HB HL HA HS H255 g dt beta tol L J C vb lo hi v f (kin_of w) hp' hp''); eauto.
      rewrite Elam', Elam. exact HCol.
    + intros [hp' s'] (x & (xr & e & EX & SX) & (Hi' & Mi' & P' & R') & XM). cbn [fst snd] in *. split; [exact Hi'|]. split; [exact Mi'|]. split; [exact P'|].
      exists xr, e. split; [|split; [exact SX|eapply is_mat_ext; [exact XM|]; intros r c Hr _; now apply EX]].
      intros c j k d Hc Hj Hk' Hd. rewrite (R' c j k d Hc Hj Hk' Hd). destruct (row_at w y c j HL Hc Hj) as (Lr & _).
      change (row0 w y1 c) with (row0 w y c). rewrite (EX _ Lr), cofZ_R, divR by exact Ndt. rewrite (HJ c j Hc Hj) by lia. unfold by_row. cbn. f_equal. unfold Rdiv. ring.
  - intros F F' hp HE (xr & e & A & B). exists xr, e. split; [|exact B]. intros c j k d Hc Hj Hk' Hd. rewrite <- HE. now apply A.
  - pose proof (kicks_J w y q v M HB Symplectic dt f J _ F K' HF KK) as KV. cbv zeta in KV.
    set (x := fun c j => (/ dt * by_row w y xr c j)%R) in *.
    exists w', y', (fun b d => (v b d + accel w y M f J x b d * dt)%R), x, (by_row w y e). split; [exact E|]. split; [|split; [|split; [|split]]].
    + destruct (process_alone _ _ _ _ _ _ _ _ E) as ((_ & Ey & _) & _ & Ew & _). change (y_cons y1) with (y_cons y) in Ey.
      assert (EF : full_count w' y' = full_count w y).
      { unfold full_count. rewrite Ey. assert (Ec : forall c, c_count (w_con w' c) = c_count (w_con w c)) by (intros c; apply (Ew c)).
        clear -Ec. generalize 0. induction (y_cons y) as [|c l IH]; intros n; cbn; [reflexivity|].
        rewrite Ec. apply IH. }
      intros r _ Hr. rewrite EF in Hr. exists (xr r). apply (mget_spec _ _ _ _ _ _ 0 r HXr); lia.
    + intros b' d Hb' Hd. destruct (AR b' d Hb' Hd) as [-> ->]. destruct (KV b' d Hb' Hd) as [-> ->]. auto.
    + exact (near_rows w y q v M HB HL HA HS H255 dt beta tol J C vb lo hi v f xr e Ht Hdt HX).
    + intros b' d Hb' Hd. unfold accel. field. apply (HB b' d Hb' Hd).
    + intros c j k d Hc Hj Hk' Hd. rewrite (RP eq_refl c j k d Hc Hj Hk' Hd). now apply HF.
Qed.
(** the same for the nine classes of constraints *)
Lemma opt_enough_kinds m (dt : R) w y (beta tol : R) q v M f kc :
  yreach Optimized priv m w y -> attached w y -> kinds_are w y kc -> all_gentle w y -> body_count y <= 255 -> y_cons y <> [] -> remembers w y ->
  (0 < tol < 1)%R -> (0 < dt)%R -> y_bias y = Some beta -> bodies_are w y q v M -> pushesR w y (kin_of w) dt f ->
  (forall b d, In b (y_bodies y) -> d < 3 -> (0 < M b d)%R) -> independent w y (fun c j i => J_of (kc c) (pose_at w q c) j i) ->
  (forall c, In c (y_cons y) -> (least (kc c) <= most (kc c))%R) ->
  exists N, forall (g : gs_solver T) t, N <= gs_max_iterations g -> gs_min_delta g = Some tol -> solver_apart priv (SleGs g) ->
  exists w' y' v' x e, process Optimized (Some dt : cl) 1 t w (opt_initialize y (SleGs g)) = Ok (w', y') /\ remembers w' y' /\
    ends w' y (fun b d => q b d + v' b d * dt)%R v' /\
    every_row w y (fun c j => holds_within (least (kc c)) (most (kc c)) (x c j)
        (along w (fun c j i => J_of (kc c) (pose_at w q c) j i) v' c j + bias_of (kc c) + beta / dt * C_of (kc c) (pose_at w q c) j)%R (e c j) /\
      (Rabs (e c j) <= tol / (1 - tol) * others w y M (fun c j i => J_of (kc c) (pose_at w q c) j i) dt x c j)%R) /\
    (forall b d, In b (y_bodies y) -> d < 3 -> (M b d * (v' b d - v b d) = (f b d + acts w y (fun c j i => J_of (kc c) (pose_at w q c) j i) x b d) * dt)%R) /\
    reportsR w w' y (fun d c j k => J_of (kc c) (pose_at w q c) j (3 * k + d)%nat * x c j)%R.
Proof.
  intros H HA HK HG H255 HC0 HRem Ht Hdt Eb HB HP HM HI Ho.
  pose proof (reg_listed _ _ _ (yreach_reg _ _ _ _ _ H)) as HL.
  assert (HW : answers w y (kin_of w) (Some dt : cl) (law_R w kc q v)).
  { apply kinds_answer; auto. intros b d Hb Hd. destruct (HB b d Hb Hd) as (A & B & _). auto. }
  apply (opt_enough m dt w y beta tol q v M f (law_R w kc q v) (fun c j i => J_of (kc c) (pose_at w q c) j i)
    (fun c j => C_of (kc c) (pose_at w q c) j) (fun c j => bias_of (kc c)) (fun c j => least (kc c)) (fun c j => most (kc c))
    H HA (kinds_shaped w y kc HK) HG H255 HC0 HRem Ht Hdt Eb HB HW); auto;
    try (intros c j _ _; reflexivity).
  - intros c j _ _; cbn [law_R l_lo]; unfold lo_of, least; now destruct (limits_of (kc c)) as [[? ?]|].
  - intros c j _ _; cbn [law_R l_hi]; unfold hi_of, most; now destruct (limits_of (kc c)) as [[? ?]|].
  - intros c j Hc _. now apply Ho.
Qed.
End S.
