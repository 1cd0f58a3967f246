(** * One step of the optimized system with Gauss-Seidel, when the rows do not interact. *)

From Coq Require Import Reals Lra.
From Verif Require Import Base Targets Matrix Sparse Sle State Ode Forces Constraints System Logic RealSum
  MatrixFacts MatrixOps SpecMatrix MatrixHist SparseFacts SpecSparse SparseHist SpecSle SleHist SleGe SleGs
  SpecState StateFacts SpecOde OdeFacts SpecForces SpecCon ConFacts SpecSys RegFacts SysFrame SysInv SysColumn SpecDyn DynState DynReact DynRound DynStep DynGather DynRight DynReady DynSolver
  SpecSolve SolveReal SolveStep SpecLaw LawReal LawStep SpecLimits DynLimits GsStep LimitStep SpecMom SpecSub SubRun SpecLeast LeastReal LeastStep LeastPart SpecSlip.
From Verif Require GeReal GeHist GsReal GsHist.
Local Open Scope nat_scope.

Section P.
Variable dbg : bool.
Notation T := (RT dbg).
Variable m : nat.
Variables (A : nat -> nat -> R) (b lo hi : nat -> R).
Hypothesis HO : forall i j, i < m -> j < m -> i <> j -> A i j = 0%R.
Hypothesis HD : forall i, i < m -> A i i <> 0%R.
Definition goal (i : nat) : R := limited (lo i) (hi i) (b i / A i i)%R.
Lemma cand_diag x i : i < m -> GsReal.stepLR m A b lo hi x i = goal i.
Proof.
  intros Hi. unfold GsReal.stepLR, goal, limited, GsReal.clampR. do 2 f_equal. rewrite GsReal.candR_eq by auto. unfold mulv.
  rewrite (Rsum_ext m _ (fun c => if Nat.eqb c i then A i c * x c else 0)%R).
  - rewrite (Rsum_single m i (fun c => A i c * x c)%R Hi). field. now apply HD.
  - intros c Hc. destruct (Nat.eqb_spec c i) as [->|N]; [reflexivity|]. rewrite HO by auto. ring.
Qed.
Variable st : (nat -> cell T) -> nat -> cell T * cell T.
Hypothesis step_R : forall x xr i, i < m -> GsReal.lifts dbg m x xr -> st x i = ((Some (GsReal.stepLR m A b lo hi xr i) : cell T), (Some (GsReal.deltaLR m A b lo hi xr i) : cell T)).
Lemma sweep_diag x xr : GsReal.lifts dbg m x xr -> exists x' e, psweep st m x = Ok (x', Some e : cell T) /\ GsReal.lifts dbg m x' goal /\
  ((forall i, i < m -> xr i = goal i) -> e = 0%R).
Proof.
  intros Hx. destruct (GsReal.psweep_R dbg m st _ _ step_R x xr Hx) as (x' & e & E & L & D1 & D2). exists x', e. split; [exact E|]. split.
  - intros i Hi. rewrite (L i Hi). f_equal. rewrite GsReal.traj_done by exact Hi. now apply cand_diag.
  - intros HG. destruct D2 as [D2|(i & Hi & D2)]; [exact D2|]. rewrite D2. unfold GsReal.deltaLR.
    rewrite cand_diag by exact Hi. rewrite GsReal.traj_later by lia. rewrite (HG i Hi). replace (goal i - goal i)%R with 0%R by ring. rewrite Rabs_R0. apply Rmult_0_l.
Qed.
Lemma piter_diag (tol : R) n x xr : (0 < tol)%R -> 2 <= n -> GsReal.lifts dbg m x xr ->
  exists u, piter st m (Some tol : cell T) n x = Ok (u, true) /\ GsReal.lifts dbg m u goal.
Proof.
  intros Ht Hn Hx. destruct n as [|[|n]]; [lia|lia|]. cbn [piter].
  destruct (sweep_diag x xr Hx) as (x1 & e1 & -> & L1 & _). cbn [bind]. change (clt (Some e1 : cell T) (Some tol : cell T)) with (Ok (R_ltb e1 tol) : res bool). cbn [bind].
  destruct (R_ltb e1 tol); [eauto|].
  destruct (sweep_diag x1 goal L1) as (x2 & e2 & -> & L2 & Z). cbn [bind]. change (clt (Some e2 : cell T) (Some tol : cell T)) with (Ok (R_ltb e2 tol) : res bool). cbn [bind].
  rewrite Z by reflexivity. rewrite (proj2 (R_ltb_true 0 tol)) by exact Ht. eauto.
Qed.
End P.

Section S.
Context {dbg : bool}.
Notation T := (RT dbg).
Notation cl := (cell T).
Implicit Types (w : world T) (y : sys T) (hp : heap T) (L : law T).
Variable priv : nat -> bool.

Section One.
Variables (w : world T) (y : sys T) (q v M : nat -> nat -> R).
Hypothesis HB : bodies_are w y q v M.
Lemma coupling_entry J r r' : listed w y -> attached w y -> shaped w y -> body_count y <= 255 -> r < full_count w y -> r' < full_count w y ->
  JWJt (3 * body_count y) (DJ w y J) (cols y (fun b d => / M b d)%R) r r' = coupling w y M J (rc w y r) (rj w y r) (rc w y r') (rj w y r').
Proof.
  intros HL HA HS H255 Hr Hr'. unfold coupling. rewrite <- (mulv_along w y J HL HA HS H255 M _ r Hr). unfold mulv.
  rewrite (Rsum_ext _ _ (fun c => if Nat.eqb c r' then JWJt (3 * body_count y) (DJ w y J) (cols y (fun b d => / M b d)%R) r c else 0%R)).
  - now rewrite (Rsum_single _ r' (fun c => JWJt (3 * body_count y) (DJ w y J) (cols y (fun b d => / M b d)%R) r c)).
  - intros c Hc. destruct (Nat.eqb_spec c r') as [->|N].
    + rewrite !Nat.eqb_refl. cbn [andb]. ring.
    + destruct (Nat.eqb_spec (rc w y c) (rc w y r')) as [E1|], (Nat.eqb_spec (rj w y c) (rj w y r')) as [E2|]; cbn [andb]; try ring.
      exfalso. apply N. pose proof (by_row_at w y HL INR c Hc) as B1. pose proof (by_row_at w y HL INR r' Hr') as B2.
      rewrite E1, E2 in B1. rewrite B2 in B1. symmetry. now apply INR_eq.
Qed.
Lemma rows_differ r r' : listed w y -> r < full_count w y -> r' < full_count w y -> r <> r' -> (rc w y r, rj w y r) <> (rc w y r', rj w y r').
Proof.
  intros HL Hr Hr' N [= E1 E2]. apply N. pose proof (by_row_at w y HL INR r Hr) as B1. pose proof (by_row_at w y HL INR r' Hr') as B2.
  rewrite E1, E2 in B1. rewrite B2 in B1. symmetry. now apply INR_eq.
Qed.
Lemma gs_exact val f J (b lo hi : nat -> R) hp g (tol : R) (x0 : nat -> R) : listed w y -> attached w y -> shaped w y -> body_count y <= 255 ->
  prepared priv w y val f hp -> rows_are w y val J -> every_row w y (fun c j => mobility w y M J c j <> 0%R) -> uncoupled w y M J ->
  solver_apart priv (SleGs (tg := T) g) -> 0 < full_count w y -> 2 <= gs_max_iterations g -> gs_min_delta g = Some tol -> (0 < tol)%R ->
  is_mat false (hm hp iright) 1 (full_count w y) (fun r _ => (Some (b r) : cell T)) ->
  is_mat false (hm hp ilimits) 2 (full_count w y) (fun r q => (match q with 0 => Some (lo r) | _ => Some (hi r) end : cell T)) ->
  start_limits hp (Some ilambda) ilambda (full_count w y) (fun r => (Some (x0 r) : cell T)) ->
  wp (gs_solve_limits g sJ iMinv iright ilimits ilambda (Some ilambda) hp) (fun z => snd z = true /\
    exists x, is_mat false (hm (fst z) ilambda) 1 (full_count w y) (fun r _ => (x r : cell T)) /\
      exists xr : nat -> R, (forall r, r < full_count w y -> x r = Some (xr r)) /\
        forall r, r < full_count w y -> xr r = limited (lo r) (hi r) (b r / mobility w y M J (rc w y r) (rj w y r))%R).
Proof.
  intros HL HA HS H255 HPr HJR HD HU Hl Hm Hi Et Htol Hb Hlim Hst. pose proof (proj1 HPr) as H.
  pose proof (prepared_systemR priv w y q v M HB val f J b hp HL HA HS H255 HPr HJR Hb) as HSy.
  destruct (GeHist.systemR_system dbg hp sJ iMinv iright _ _ _ _ _ HSy) as (blk & v0 & Sy & _ & _ & Em).
  assert (HLm : limits_are (hm hp) ilimits (full_count w y) (fun r => (Some (lo r) : cell T)) (fun r => (Some (hi r) : cell T))).
  { apply is_mat_shows in Hlim. destruct Hlim as (A & B & C). split; [exact A|]. split; [exact B|]. intros r c Hr Hc. rewrite C by assumption.
    destruct c as [|c]; reflexivity. }
  pose proof (gs_solve_limits_sim priv hp g sJ iMinv iright ilimits (Some ilambda) ilambda _ _ _ _ _ _ _ _ _ H (gs_system_names priv g Hl) Sy HLm Hst) as HR.
  set (st := pstepL _ _ _ _ _) in HR.
  set (A := JWJt (3 * body_count y) (DJ w y J) (cols y (fun b d => / M b d)%R)).
  assert (HAd : forall i, i < full_count w y -> A i i <> 0%R).
  { intros i Hi'. unfold A. rewrite (mobility_diag w y M J i HL HA HS H255 Hi'). apply (all_rows w y _ HD i Hi'). }
  destruct (piter_diag dbg (full_count w y) A b lo hi) with (st := st) (tol := tol) (n := gs_max_iterations g) (x := fun r => (Some (x0 r) : cell T)) (xr := x0) as (u & EP & Lu); auto.
  - intros i j Hi' Hj N. unfold A. rewrite coupling_entry by assumption.
    exact (all_rows w y _ (all_rows w y _ HU i Hi') j Hj (rows_differ i j HL Hi' Hj N)).
  - intros z zr i Hi' Hz. unfold st. apply GsReal.pstepL_R; try assumption; try (intros j Hj; reflexivity). now apply HAd.
  - intros i _. reflexivity.
  - rewrite Et, EP in HR.
    destruct (gs_solve_limits g sJ iMinv iright ilimits ilambda (Some ilambda) hp) as [z| | |] eqn:E; cbn [rel] in HR; try contradiction.
    destruct HR as (E1 & _ & S1 & S2 & S3). cbn [fst snd] in E1, S3. cbn [wp]. split; [exact E1|]. exists u. split.
    + pose proof (pc_elim _ _ _ E (sle_solve_limits_keeps priv (SleGs g) sJ iMinv iright ilimits ilambda ilambda hp Hl H)) as [[Kw _] _].
      apply shows_is_mat; [eapply wf_weaken; apply Kw|]. split; [exact S1|]. split; [exact S2|exact S3].
    + eexists. split; [exact Lu|]. intros r Hr. unfold goal, A. now rewrite (mobility_diag w y M J r HL HA HS H255 Hr).
Qed.
End One.

Lemma limited_scale (a lo hi z : R) : (0 < a)%R -> limited (a * lo) (a * hi) (a * z) = (a * limited lo hi z)%R.
Proof.
  intros Ha. unfold limited. rewrite <- (RmaxRmult lo _ a) by lra. f_equal. unfold Rmin.
  destruct (Rle_dec (a * hi) (a * z)) as [L|L], (Rle_dec hi z) as [L'|L']; try reflexivity; exfalso.
  - apply L'. now apply Rmult_le_reg_l with a.
  - apply L. apply Rmult_le_compat_l; lra.
Qed.
Lemma opt_exact_step m (dt : R) t w y g (beta tol : R) q v M f L J C vb lo hi :
  yreach Optimized priv m w y -> y_sle y = Some (SleGs g) -> 2 <= gs_max_iterations g -> gs_min_delta g = Some tol -> (0 < tol)%R ->
  attached w y -> shaped w y -> all_gentle w y -> body_count y <= 255 -> y_cons y <> [] -> remembers w y ->
  (0 < dt)%R -> y_bias y = Some beta -> bodies_are w y q v M ->
  answers w y (kin_of w) (Some dt : cell T) L -> rows_are w y (l_J L) J -> row_is w y (l_C L) C -> row_is w y (l_vb L) vb ->
  row_is w y (l_lo L) lo -> row_is w y (l_hi L) hi ->
  pushesR w y (kin_of w) dt f -> every_row w y (fun c j => mobility w y M J c j <> 0%R) -> uncoupled w y M J ->
  exists w' y' v' x, process Optimized (Some dt : cell T) 1 t w y = Ok (w', y') /\ remembers w' y' /\
    ends w' y (fun b d => q b d + v' b d * dt)%R v' /\
    every_row w y (fun c j => x c j = limited (lo c j) (hi c j)
      ((- vb c j - beta / dt * C c j - along w J (SpecLeast.unbound M f v dt) c j) / (mobility w y M J c j * dt))%R) /\
    (forall b d, In b (y_bodies y) -> d < 3 -> (M b d * (v' b d - v b d) = (f b d + acts w y J x b d) * dt)%R) /\
    reportsR w w' y (fun d c j k => J c j (3 * k + d)%nat * x c j)%R.
Proof.
  intros H El Hit Et Htol HA HS HG H255 HC0 HRem Hdt Eb HB HW HJ HC Hvb Hlo Hhi HP HD HU.
  assert (Ndt : dt <> 0%R) by lra.
  pose proof (yreach_inv priv _ m w y H) as (Hh & Hs & Hl & Hk). destruct (Hk eq_refl) as (o & Eo & No).
  assert (So : is_scheme Symplectic o) by (destruct o; try contradiction; eexists; reflexivity).
  pose proof (reach_nice priv _ _ _ _ H HA HS HG) as HN. pose proof HN as (_ & HL & _). pose proof (pos_rows w y HS HC0) as Hm.
  pose proof (proj1 (profiling _ _ _ _ _ H)) as Hf. specialize (Hl _ El). pose proof (yreach_column priv _ m w y H) as HCol.
  set (goals := fun c j => limited (lo c j) (hi c j)
      ((- vb c j - beta / dt * C c j - along w J (SpecLeast.unbound M f v dt) c j) / (mobility w y M J c j * dt))%R).
  set (Q := fun (F : nat -> nat -> nat -> nat -> cell T) (hp : heap T) => (exists x, forces_J w y J x F /\
    every_row w y (fun c j => x c j = goals c j)) /\
    exists xr : nat -> R, is_mat false (hm hp ilambda) 1 (full_count w y) (fun r _ => (Some (xr r) : cell T))).
  pose proof (opt_total priv w y (Some dt : cell T) (fun b d => (Some (f b d) : cell T)) Q Hh Hs HN Hf (ex_intro _ o (conj Eo So))) as G.
  cbv zeta in G. unfold good_step in G. rewrite dt1 in G.
  destruct (G HP) with (t := t) as (w' & y' & K' & E & F & KK & ((x & HF & HX) & xr & HXr) & AR & RP).
  - intros hp s Hhp Hmi Elam HPr HFo.
    eapply wp_mono; [apply (opt_constraints_total priv w y (kin_of w) (Some dt : cell T) (Some dt : cell T) _ L hp s (SleGs g)
      (fun x => exists xr : nat -> R, (forall r, r < full_count w y -> x r = Some (xr r)) /\
        forall r, r < full_count w y -> xr r = (dt * goals (rc w y r) (rj w y r))%R)
      HL HA HS H255 HPr HFo HW Hhp Hmi El Hl)|].
    + intros hp' (RP & (b0 & RS & RM) & RL) Elam'. unfold opt_solve. cbn [supports_limits negb sle_solve_limits].
      destruct (remembers_start priv w y hp' (proj1 RP) ltac:(rewrite Elam', Elam; exact HCol) ltac:(rewrite Elam', Elam; reflexivity) HRem Hm) as [x0 Hx0].
      eapply wp_mono; [eapply (gs_exact w y q v M HB (l_J L) _ J _ (fun r => lo (rc w y r) (rj w y r) * dt)%R (fun r => hi (rc w y r) (rj w y r) * dt)%R hp' g tol x0 HL HA HS H255 RP HJ HD HU Hl Hm Hit Et Htol)
        |intros z (Z0 & x & ZM & xr & ZX & ZG); split; [intros _; exact Z0|exists x; split; [exact ZM|]; exists xr; split; [exact ZX|]]].
      * eapply (opt_side_R w y q v M HB f J vb C beta dt L); eauto.
      * eapply is_mat_ext; [exact RL|]. intros r c Hr Hc. cbv beta. rewrite (all_rows w y _ Hlo r Hr), (all_rows w y _ Hhi r Hr). destruct c; apply mulR.
      * exact Hx0.
      * intros r Hr. rewrite (ZG r Hr). unfold goals. rewrite <- limited_scale by exact Hdt. pose proof (all_rows w y _ HD r Hr) as ND. cbv beta in ND.
        f_equal; [ring|ring|]. rewrite (along_ext w J (SpecLeast.unbound M f v dt) (fun b d => / M b d * (dt * f b d) + v b d)%R) by (intros; unfold SpecLeast.unbound, Rdiv; ring).
        field. auto.
    + intros [hp' s'] (x & (xr & EX & SX) & (Hi' & Mi' & P' & R') & XM). cbn [fst snd] in *. split; [exact Hi'|]. split; [exact Mi'|]. split; [exact P'|].
      split; [|exists xr; eapply is_mat_ext; [exact XM|]; intros r c Hr _; now apply EX].
      exists (fun c j => (/ dt * by_row w y xr c j)%R). split.
      * intros c j k d Hc Hj Hk' Hd. rewrite (R' c j k d Hc Hj Hk' Hd). destruct (row_at w y c j HL Hc Hj) as (Lr & _).
        rewrite (EX _ Lr), cofZ_R, divR by exact Ndt. rewrite (HJ c j Hc Hj) by lia. unfold by_row. cbn. f_equal. unfold Rdiv. ring.
      * apply (rows_all w y HL). intros r Hr. rewrite (by_row_at w y HL xr r Hr). rewrite (SX r Hr). field. exact Ndt.
  - intros F F' hp HE ((x & A & B) & D). split; [|exact D]. exists x. split; [|exact B]. intros c j k d Hc Hj Hk' Hd. rewrite <- HE. now apply A.
  - pose proof (kicks_J w y q v M HB Symplectic dt f J x F K' HF KK) as KV. cbv zeta in KV.
    exists w', y', (fun b d => (v b d + accel w y M f J x b d * dt)%R), x. split; [exact E|]. split; [|split; [|split; [exact HX|split]]].
    + destruct (process_alone _ _ _ _ _ _ _ _ E) as ((_ & Ey & _) & _ & Ew & _).
      assert (EF : full_count w' y' = full_count w y).
      { unfold full_count. rewrite Ey. assert (Ec : forall c, c_count (w_con w' c) = c_count (w_con w c)) by (intros c; apply (Ew c)).
        clear -Ec. generalize 0. induction (y_cons y) as [|c l IH]; intros n; cbn; [reflexivity|].
        rewrite Ec. apply IH. }
      intros r _ Hr. rewrite EF in Hr. exists (xr r). apply (mget_spec _ _ _ _ _ _ 0 r HXr); lia.
    + intros b' d Hb' Hd. destruct (AR b' d Hb' Hd) as [-> ->]. destruct (KV b' d Hb' Hd) as [-> ->]. auto.
    + intros b' d Hb' Hd. unfold accel. field. apply (HB b' d Hb' Hd).
    + intros c j k d Hc Hj Hk' Hd. rewrite (RP eq_refl c j k d Hc Hj Hk' Hd). now apply HF.
Qed.

(** the nine classes *)
Lemma opt_exact m (dt : R) t w y g (beta tol : R) q v M f kc : let J := fun c j i => J_of (kc c) (pose_at w q c) j i in
  yreach Optimized priv m w y -> y_sle y = Some (SleGs g) -> 2 <= gs_max_iterations g -> gs_min_delta g = Some tol -> (0 < tol)%R ->
  attached w y -> kinds_are w y kc -> all_gentle w y -> body_count y <= 255 -> y_cons y <> [] -> remembers w y ->
  (0 < dt)%R -> y_bias y = Some beta -> bodies_are w y q v M -> pushesR w y (kin_of w) dt f ->
  every_row w y (fun c j => mobility w y M J c j <> 0%R) -> uncoupled w y M J ->
  exists w' y' v' x, process Optimized (Some dt : cl) 1 t w y = Ok (w', y') /\ remembers w' y' /\
    ends w' y (fun b d => q b d + v' b d * dt)%R v' /\
    as_allowed w y kc q (SpecLeast.unbound M f v dt) M beta dt x /\
    (forall b d, In b (y_bodies y) -> d < 3 -> (M b d * (v' b d - v b d) = (f b d + acts w y J x b d) * dt)%R) /\
    reportsR w w' y (fun d c j k => J c j (3 * k + d)%nat * x c j)%R.
Proof.
  intros J H El Hit Et Htol HA HK HG H255 HC0 HRem Hdt Eb HB HP HD HU.
  pose proof (reg_listed _ _ _ (yreach_reg _ _ _ _ _ H)) as HL.
  assert (HW : answers w y (kin_of w) (Some dt : cl) (law_R w kc q v)).
  { apply kinds_answer; auto. intros b d Hb Hd. destruct (HB b d Hb Hd) as (A & B & _). auto. }
  destruct (opt_exact_step m dt t w y g beta tol q v M f (law_R w kc q v) J
    (fun c j => C_of (kc c) (pose_at w q c) j) (fun c j => bias_of (kc c)) (fun c j => loR (kc c)) (fun c j => hiR (kc c))
    H El Hit Et Htol HA (kinds_shaped w y kc HK) HG H255 HC0 HRem Hdt Eb HB HW) as (w' & y' & v' & x & E & ER & EN & EX & R); auto;
    try (intros c j _ _; reflexivity).
  1: intros c j _ _; cbn [law_R l_lo]; unfold lo_of, loR; now destruct (limits_of (kc c)) as [[? ?]|].
  1: intros c j _ _; cbn [law_R l_hi]; unfold hi_of, hiR; now destruct (limits_of (kc c)) as [[? ?]|].
  exists w', y', v', x. do 3 (split; [assumption|]). split; [|exact R].
  intros c j Hc Hj. rewrite (EX c j Hc Hj). fold J. unfold loR, hiR. now destruct (limits_of (kc c)) as [[? ?]|].
Qed.
End S.
