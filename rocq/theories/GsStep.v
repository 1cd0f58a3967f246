(** * One step of the optimized system with Gauss-Seidel, in exact reals. *)

From Coq Require Import Reals Lra.
From Verif Require Import Base Targets Matrix Sparse Sle State Ode Forces Constraints System Logic RealSum
  MatrixFacts MatrixOps SpecMatrix MatrixHist SparseFacts SpecSparse SparseHist SpecSle SleHist SleGe SleGs
  SpecState StateFacts SpecOde OdeFacts SpecSys RegFacts SysFrame SysInv SysColumn SpecDyn DynState DynReact DynRound DynStep DynGather DynRight DynReady DynSolver
  SpecSolve SolveReal SolveStep SpecLimits DynLimits.
From Verif Require GeReal GeHist GsReal GsHist.
Local Open Scope nat_scope.

(** ** what clamped means in the reals *)
Lemma motion_by_mono {tg} (P P' : kin tg -> (nat -> nat -> cell tg) -> (nat -> nat -> nat -> nat -> cell tg) -> Prop) z w y h n K0 Kn F :
  (0 < n -> forall K f F, P K f F -> P' K f F) -> motion_by P z w y h n K0 Kn F -> motion_by P' z w y h n K0 Kn F.
Proof.
  intros H (Ks & fs & Fs & A & B & C & D). exists Ks, fs, Fs. split; [exact A|]. split; [exact B|]. split; [|exact D].
  intros i Hi. destruct (C i Hi) as (X & Y & Z). split; [exact X|]. split; [exact Y|]. apply H; [lia|exact Z].
Qed.
Section S.
Context {dbg : bool}.
Notation T := (RT dbg).
Implicit Types (w : world T) (y : sys T) (hp : heap T) (L : law T).
Variable priv : nat -> bool.

Lemma clamp_R (lo hi z : R) : (lo <= hi)%R -> (lo <= Rmax lo (Rmin hi z) <= hi)%R.
Proof. intros H. unfold Rmax, Rmin. destruct (Rle_dec hi z), (Rle_dec lo _); lra. Qed.
Lemma clamped_inside w y (h : R) L x : (0 < h)%R -> clamped w y (Some h : cell T) L x -> inside w y L x.
Proof.
  intros Hh H c j Hc Hj. destruct (H c j Hc Hj) as (lo & hi & z & E1 & E2 & E3).
  destruct (l_lo L c j) as [lo'|]; [|discriminate]. destruct (l_hi L c j) as [hi'|]; [|discriminate].
  rewrite mulR in E1, E2. injection E1 as <-. injection E2 as <-.
  exists lo', hi', (1 / h * Rmax (lo' * h) (Rmin (hi' * h) z))%R. split; [reflexivity|]. split; [reflexivity|]. split.
  - rewrite E3, cofZ_R, divR by lra. apply mulR.
  - intros Ho. assert (lo' * h <= hi' * h)%R as Hm by (apply Rmult_le_compat_r; lra). pose proof (clamp_R (lo' * h) (hi' * h) z Hm) as [X Y].
    revert X Y. generalize (Rmax (lo' * h) (Rmin (hi' * h) z)). intros u X Y.
    assert (E : forall a, (1 / h * (a * h) = a)%R) by (intros; field; lra).
    split; [rewrite <- (E lo')|rewrite <- (E hi')]; apply Rmult_le_compat_l; try assumption; unfold Rdiv; rewrite Rmult_1_l; left; apply Rinv_0_lt_compat; lra.
Qed.
Lemma opt_inside_motion m (dt : R) n t w y w' y' g : yreach Optimized priv m w y -> attached w y -> shaped w y -> all_gentle w y -> body_count y <= 255 ->
  y_sle y = Some (SleGs g) -> 0 < gs_max_iterations g -> (0 < dt)%R -> process Optimized (Some dt : cell T) n t w y = Ok (w', y') ->
  let h := cdiv (Some dt : cell T) (cofZ (Z.of_nat n)) in
  exists K F, motion_by (with_rows w y h (inside w y)) Symplectic w y h n (kin_of w) K F /\ arrives w' y K /\ reports w w' y F.
Proof.
  intros H HA HS HG HB El Hi Hdt E h. destruct (opt_clamped_motion priv m (Some dt : cell T) n t w y w' y' g H HA HS HG HB El Hi E) as (K & F & M & A & R).
  exists K, F. split; [|auto]. eapply motion_by_mono; [|exact M]. intros Hn K' f F' P L HW. destruct (P L HW) as (x & C & B). exists x. split; [|exact B].
  assert (Nn : (0 < IZR (Z.of_nat n))%R) by (apply IZR_lt; lia).
  assert (Eh : h = (Some (dt / IZR (Z.of_nat n))%R : cell T)) by (unfold h; rewrite cofZ_R; apply divR; lra).
  fold h in C. rewrite Eh in C. eapply clamped_inside; [|exact C]. apply Rdiv_lt_0_compat; lra.
Qed.

(** ** the solver *)
Section One.
Variables (w : world T) (y : sys T) (q v M : nat -> nat -> R).
Hypothesis HB : bodies_are w y q v M.
Lemma mobility_diag J r : listed w y -> attached w y -> shaped w y -> body_count y <= 255 -> r < full_count w y ->
  JWJt (3 * body_count y) (DJ w y J) (cols y (fun b d => / M b d)%R) r r = mobility w y M J (rc w y r) (rj w y r).
Proof.
  intros HL HA HS H255 Hr. unfold mobility. rewrite <- (mulv_along w y J HL HA HS H255 M _ r Hr). unfold mulv.
  rewrite (Rsum_ext _ _ (fun c => if Nat.eqb c r then JWJt (3 * body_count y) (DJ w y J) (cols y (fun b d => / M b d)%R) r c else 0%R)).
  - now rewrite (Rsum_single _ r (fun c => JWJt (3 * body_count y) (DJ w y J) (cols y (fun b d => / M b d)%R) r c)).
  - intros c Hc. destruct (Nat.eqb_spec c r) as [->|N].
    + rewrite !Nat.eqb_refl. cbn [andb]. ring.
    + destruct (Nat.eqb_spec (rc w y c) (rc w y r)) as [E1|], (Nat.eqb_spec (rj w y c) (rj w y r)) as [E2|]; cbn [andb]; try ring.
      exfalso. apply N. pose proof (by_row_at w y HL INR c Hc) as B1. pose proof (by_row_at w y HL INR r Hr) as B2.
      rewrite E1, E2 in B1. rewrite B2 in B1. symmetry. now apply INR_eq.
Qed.
Lemma gs_prepared val f J (b lo hi : nat -> R) hp g (tol : R) (x0 : nat -> R) : listed w y -> attached w y -> shaped w y -> body_count y <= 255 ->
  prepared priv w y val f hp -> rows_are w y val J -> every_row w y (fun c j => mobility w y M J c j <> 0%R) ->
  solver_apart priv (SleGs (tg := T) g) -> 0 < full_count w y -> 0 < gs_max_iterations g -> gs_min_delta g = Some tol ->
  is_mat false (hm hp iright) 1 (full_count w y) (fun r _ => (Some (b r) : cell T)) ->
  is_mat false (hm hp ilimits) 2 (full_count w y) (fun r q => (match q with 0 => Some (lo r) | _ => Some (hi r) end : cell T)) ->
  start_limits hp (Some ilambda) ilambda (full_count w y) (fun r => (Some (x0 r) : cell T)) ->
  wp (gs_solve_limits g sJ iMinv iright ilimits ilambda (Some ilambda) hp) (fun z =>
    exists x, is_mat false (hm (fst z) ilambda) 1 (full_count w y) (fun r _ => (x r : cell T)) /\
      exists xr : nat -> R, (forall r, r < full_count w y -> x r = Some (xr r)) /\
        forall r, r < full_count w y -> (lo r <= hi r)%R -> (lo r <= xr r <= hi r)%R).
Proof.
  intros HL HA HS H255 HPr HJR HD Hl Hm Hi Et Hb Hlim Hst. pose proof (proj1 HPr) as H.
  pose proof (prepared_systemR priv w y q v M HB val f J b hp HL HA HS H255 HPr HJR Hb) as HSy.
  destruct (GeHist.systemR_system dbg hp sJ iMinv iright _ _ _ _ _ HSy) as (blk & v0 & Sy & _ & _ & Em).
  assert (HLm : limits_are (hm hp) ilimits (full_count w y) (fun r => (Some (lo r) : cell T)) (fun r => (Some (hi r) : cell T))).
  { apply is_mat_shows in Hlim. destruct Hlim as (A & B & C). split; [exact A|]. split; [exact B|]. intros r c Hr Hc. rewrite C by assumption.
    destruct c as [|c]; reflexivity. }
  pose proof (gs_solve_limits_sim priv hp g sJ iMinv iright ilimits (Some ilambda) ilambda _ _ _ _ _ _ _ _ _ H (gs_system_names priv g Hl) Sy HLm Hst) as HR.
  set (st := pstepL _ _ _ _ _) in HR.
  pose proof (GsHist.piterL_clamped (full_count w y) (msys blk (fun r e k => (Some (v0 r e k) : cell T)) (fun i => (Some (cols y (fun b d => / M b d)%R i) : cell T)))
    (fun i => (Some (b i) : cell T)) (fun r => (Some (lo r) : cell T)) (fun r => (Some (hi r) : cell T)) (gs_min_delta g) (gs_max_iterations g) (fun r => (Some (x0 r) : cell T)) Hi) as HZ.
  fold st in HZ.
  assert (HP : exists u ok, piter st (full_count w y) (gs_min_delta g) (gs_max_iterations g) (fun r => (Some (x0 r) : cell T)) = Ok (u, ok)).
  { rewrite Et. assert (G : forall k (u0 : nat -> cell T) yr, GsReal.lifts dbg (full_count w y) u0 yr -> exists u ok, piter st (full_count w y) (Some tol : cell T) k u0 = Ok (u, ok)).
    { induction k as [|k IH]; intros u0 yr Hy; cbn [piter]; [eauto|].
      destruct (GsReal.psweep_R dbg (full_count w y) st (fun yr i => GsReal.stepLR (full_count w y) (JWJt (3 * body_count y) (DJ w y J) (cols y (fun b d => / M b d)%R)) b lo hi yr i)
        (fun yr i => GsReal.deltaLR (full_count w y) (JWJt (3 * body_count y) (DJ w y J) (cols y (fun b d => / M b d)%R)) b lo hi yr i)) with (x := u0) (xr := yr) as (x' & e & E & Hx' & _); [|exact Hy|].
      - intros z zr i Hi' Hz. unfold st. apply GsReal.pstepL_R; try assumption; try (intros j Hj; reflexivity).
        rewrite (mobility_diag J i HL HA HS H255 Hi'). apply (all_rows w y _ HD i Hi').
      - rewrite E. cbn [bind]. change (clt (Some e : cell T) (Some tol : cell T)) with (Ok (R_ltb e tol) : res bool). cbn [bind].
        destruct (R_ltb e tol); [eauto|]. eapply IH; exact Hx'. }
    apply (G _ _ x0). intros i Hi'. reflexivity. }
  destruct HP as (u & ok & EP). rewrite EP in HR, HZ. cbn [pc fst] in HZ.
  destruct (gs_solve_limits g sJ iMinv iright ilimits ilambda (Some ilambda) hp) as [z| | |] eqn:E; cbn [rel] in HR; try contradiction.
  destruct HR as (_ & _ & S1 & S2 & S3). cbn [fst] in S3. cbn [wp].
  assert (HX : forall r, exists x : R, r < full_count w y -> u r = (Some x : cell T) /\ ((lo r <= hi r)%R -> (lo r <= x <= hi r)%R)).
  { intros r. destruct (Nat.lt_ge_cases r (full_count w y)) as [Hr|Hr]; [|exists 0%R; lia].
    destruct (HZ r Hr) as (l & h & c & E1 & E2 & E3). injection E1 as <-. injection E2 as <-. exists (Rmax (lo r) (Rmin (hi r) c)). intros _.
    split; [exact E3|apply clamp_R]. }
  exists u. split.
  - pose proof (pc_elim _ _ _ E (sle_solve_limits_keeps priv (SleGs g) sJ iMinv iright ilimits ilambda ilambda hp Hl H)) as [[Kw _] _].
    apply shows_is_mat; [eapply wf_weaken; apply Kw|]. split; [exact S1|]. split; [exact S2|exact S3].
  - exists (fun r => match u r with Some x => x | None => 0%R end). split; intros r Hr; destruct (HX r) as (x & Hx); destruct (Hx Hr) as [-> Hin]; [reflexivity|exact Hin].
Qed.
End One.

(** ** one step *)
Lemma remembers_start w y hp : hinv priv hp -> column (hm hp ilambda) -> hm hp ilambda = hm (y_heap y) ilambda -> remembers w y -> 0 < full_count w y ->
  exists x0 : nat -> R, start_limits hp (Some ilambda) ilambda (full_count w y) (fun r => (Some (x0 r) : cell T)).
Proof.
  intros H HC E HR Hm. destruct (Nat.eq_dec (m_h (hm hp ilambda)) (full_count w y)) as [Eh|Nh].
  - destruct (tall_is_mat _ _ ilambda _ (proj1 H ilambda) (column_tall _ _ HC Eh Hm)) as [x0 H0].
    exists (fun r => match x0 r with Some x => x | None => 0%R end). left. exists ilambda. split; [reflexivity|].
    apply is_mat_shows in H0. destruct H0 as (A & B & C). split; [exact A|]. split; [exact B|]. intros r c Hr Hc. rewrite C by assumption.
    replace c with 0 in * by lia. specialize (C r 0 Hr Hc). unfold mget in C. rewrite E in Eh, C. destruct (HR r Eh Hr) as (x & Ex). unfold mget in Ex.
    rewrite Ex in C. injection C as <-. reflexivity.
  - exists (fun _ => 0%R). right. split; [intros p [= <-]; exact Nh|]. right. split; [exact Nh|]. intros r. now rewrite cofZ_R.
Qed.
Lemma opt_gs_step m (dt : R) t w y g (beta tol : R) q v M f L J C vb lo hi :
  dbg = false -> yreach Optimized priv m w y -> y_sle y = Some (SleGs g) -> 0 < gs_max_iterations g -> gs_min_delta g = Some tol ->
  attached w y -> shaped w y -> all_gentle w y -> body_count y <= 255 -> y_cons y <> [] -> remembers w y ->
  (0 < dt)%R -> y_bias y = Some beta -> bodies_are w y q v M ->
  answers w y (kin_of w) (Some dt : cell T) L -> rows_are w y (l_J L) J -> row_is w y (l_C L) C -> row_is w y (l_vb L) vb ->
  row_is w y (l_lo L) lo -> row_is w y (l_hi L) hi ->
  pushesR w y (kin_of w) dt f -> every_row w y (fun c j => mobility w y M J c j <> 0%R) ->
  exists w' y' v' x, process Optimized (Some dt : cell T) 1 t w y = Ok (w', y') /\ remembers w' y' /\
    ends w' y (fun b d => q b d + v' b d * dt)%R v' /\
    every_row w y (fun c j => (lo c j <= hi c j -> lo c j <= x c j <= hi c j)%R) /\
    (forall b d, In b (y_bodies y) -> d < 3 -> (M b d * (v' b d - v b d) = (f b d + acts w y J x b d) * dt)%R) /\
    reportsR w w' y (fun d c j k => J c j (3 * k + d)%nat * x c j)%R.
Proof.
  intros Edbg H El Hit Et HA HS HG H255 HC0 HRem Hdt Eb HB HW HJ HC Hvb Hlo Hhi HP HD.
  assert (Ndt : dt <> 0%R) by lra.
  pose proof (yreach_inv priv _ m w y H) as (Hh & Hs & Hl & Hk). destruct (Hk eq_refl) as (o & Eo & No).
  assert (So : is_scheme Symplectic o) by (destruct o; try contradiction; eexists; reflexivity).
  pose proof (reach_nice priv _ _ _ _ H HA HS HG) as HN. pose proof HN as (_ & HL & _). pose proof (pos_rows w y HS HC0) as Hm.
  pose proof (proj1 (profiling _ _ _ _ _ H)) as Hf. specialize (Hl _ El). pose proof (yreach_column priv _ m w y H) as HCol.
  set (Q := fun (F : nat -> nat -> nat -> nat -> cell T) (hp : heap T) => (exists x, forces_J w y J x F /\
    every_row w y (fun c j => lo c j <= hi c j -> lo c j <= x c j <= hi c j)%R) /\
    exists xr : nat -> R, is_mat false (hm hp ilambda) 1 (full_count w y) (fun r _ => (Some (xr r) : cell T))).
  pose proof (opt_total priv w y (Some dt : cell T) (fun b d => (Some (f b d) : cell T)) Q Hh Hs HN Hf (ex_intro _ o (conj Eo So))) as G.
  cbv zeta in G. unfold good_step in G. rewrite dt1 in G.
  destruct (G HP) with (t := t) as (w' & y' & K' & E & F & KK & ((x & HF & HX) & xr & HXr) & AR & RP).
  - intros hp s Hhp Hmi Elam HPr HFo.
    eapply wp_mono; [apply (opt_constraints_total priv w y (kin_of w) (Some dt : cell T) (Some dt : cell T) _ L hp s (SleGs g)
      (fun x => exists xr : nat -> R, (forall r, r < full_count w y -> x r = Some (xr r)) /\
        forall r, r < full_count w y -> (lo (rc w y r) (rj w y r) * dt <= hi (rc w y r) (rj w y r) * dt)%R ->
          (lo (rc w y r) (rj w y r) * dt <= xr r <= hi (rc w y r) (rj w y r) * dt)%R)
      HL HA HS H255 HPr HFo HW Hhp Hmi El Hl)|].
    + intros hp' (RP & (b0 & RS & RM) & RL) Elam'. unfold opt_solve. cbn [supports_limits negb sle_solve_limits].
      destruct (remembers_start w y hp' (proj1 RP) ltac:(rewrite Elam', Elam; exact HCol) ltac:(rewrite Elam', Elam; reflexivity) HRem Hm) as [x0 Hx0].
      eapply wp_mono; [eapply (gs_prepared w y q v M HB (l_J L) _ J _ (fun r => lo (rc w y r) (rj w y r) * dt)%R (fun r => hi (rc w y r) (rj w y r) * dt)%R hp' g tol x0 HL HA HS H255 RP HJ HD Hl Hm Hit Et)
        |intros z Z; split; [cbn [asserts_on RT]; intros Y; exfalso; congruence|exact Z]].
      * eapply (opt_side_R w y q v M HB f J vb C beta dt L); eauto.
      * eapply is_mat_ext; [exact RL|]. intros r c Hr Hc. cbv beta. rewrite (all_rows w y _ Hlo r Hr), (all_rows w y _ Hhi r Hr). destruct c; apply mulR.
      * exact Hx0.
    + intros [hp' s'] (x & (xr & EX & SX) & (Hi' & Mi' & P' & R') & XM). cbn [fst snd] in *. split; [exact Hi'|]. split; [exact Mi'|]. split; [exact P'|].
      split; [|exists xr; eapply is_mat_ext; [exact XM|]; intros r c Hr _; now apply EX].
      exists (fun c j => (/ dt * by_row w y xr c j)%R). split.
      * intros c j k d Hc Hj Hk' Hd. rewrite (R' c j k d Hc Hj Hk' Hd). destruct (row_at w y c j HL Hc Hj) as (Lr & _).
        rewrite (EX _ Lr), cofZ_R, divR by exact Ndt. rewrite (HJ c j Hc Hj) by lia. unfold by_row. cbn. f_equal. unfold Rdiv. ring.
      * apply (rows_all w y HL). intros r Hr. rewrite (by_row_at w y HL xr r Hr). intros Ho. specialize (SX r Hr).
        specialize (SX ltac:(apply Rmult_le_compat_r; lra)). destruct SX as [X1 X2].
        assert (E1 : forall a, (/ dt * (a * dt) = a)%R) by (intros; field; exact Ndt). pose proof (Rinv_0_lt_compat dt Hdt).
        split; [rewrite <- (E1 (lo _ _))|rewrite <- (E1 (hi _ _))]; apply Rmult_le_compat_l; lra.
  - intros F F' hp HE ((x & A & B) & D). split; [|exact D]. exists x. split; [|exact B]. intros c j k d Hc Hj Hk' Hd. rewrite <- HE. now apply A.
  - pose proof (kicks_J w y q v M HB Symplectic dt f J x F K' HF KK) as KV. cbv zeta in KV.
    exists w', y', (fun b d => (v b d + accel w y M f J x b d * dt)%R), x. split; [exact E|]. split; [|split; [|split; [exact HX|split]]].
    + destruct (process_alone _ _ _ _ _ _ _ _ E) as ((_ & Ey & _) & _ & Ew & _).
      assert (EF : full_count w' y' = full_count w y).
      { unfold full_count. rewrite Ey. assert (Ec : forall c, c_count (w_con w' c) = c_count (w_con w c)) by (intros c; apply (Ew c)).
        clear -Ec. generalize 0. induction (y_cons y) as [|c l IH]; intros n; cbn; [reflexivity|].
        rewrite Ec. apply IH. }
      intros r _ Hr. rewrite EF in Hr. exists (xr r). apply (mget_spec _ _ _ _ _ _ 0 r HXr); lia.
    + intros b' d Hb' Hd. destruct (AR b' d Hb' Hd) as [-> ->]. destruct (KV b' d Hb' Hd) as [-> ->]. auto.
    + intros b' d Hb' Hd. unfold accel. field. apply (HB b' d Hb' Hd).
    + intros c j k d Hc Hj Hk' Hd. rewrite (RP eq_refl c j k d Hc Hj Hk' Hd). now apply HF.
Qed.
End S.
