(** * Steps of the optimized system with Gauss-Seidel in a debug build. *)

From Coq Require Import Reals Lra.
From Verif Require Import Base Targets Matrix Sparse Sle State Ode Forces Constraints System Logic RealSum
  MatrixFacts MatrixOps SpecMatrix MatrixHist SparseFacts SpecSparse SparseHist SpecSle SleHist SleGe SleGs
  SpecState StateFacts SpecOde OdeFacts SpecSys RegFacts SysFrame SysInv SysColumn SpecDyn DynState DynReact DynRound DynStep DynGather DynRight DynReady DynSolver
  SpecSolve SolveReal SolveStep SpecLimits DynLimits GsStep SpecCon ConFacts SpecLaw LawReal LawStep SpecMom MomForce SpecRun RunTotal RunReal SpecNear GsNear.
From Verif Require GeHist GsReal GsHist SpecSlip SlipStep.
Local Open Scope nat_scope.

(** processConstraints when the solver's verdict is asserted *)
Lemma opt_constraints_pc_ok {tg} priv (w : world tg) (y : sys tg) K h dt f L hp (s : sstate tg) l (Q : (nat -> cell tg) -> Prop) : asserts_on tg = true ->
  listed w y -> attached w y -> shaped w y -> body_count y <= 255 -> presents w y K h s -> forced w y f s ->
  answers w y K h L -> hinv priv hp -> minv_ok w y (hm hp) -> y_sle y = Some l -> solver_apart priv l ->
  (forall hp' hp'', opt_ready priv w y K dt f L hp' -> hm hp' ilambda = hm hp ilambda -> opt_solve l hp' = Ok (hp'', true) ->
     exists x, is_mat false (hm hp'' ilambda) 1 (full_count w y) (fun r _ => x r) /\ Q x) ->
  pc (opt_process_constraints w y dt hp s) (fun z => exists x, Q x /\ solved priv w y K h f (l_J L) (fun r => cmul (cdiv (cofZ 1) dt) (x r)) (fst z) (snd z)).
Proof.
  intros Has HL HA HS HB HP HF HW H HM El Hl HQ. unfold opt_process_constraints.
  pose proof (opt_readies priv w y K h dt f L hp s HL HA HS HP HF HW H HM) as G. apply wp_ok in G. destruct G as (hp2 & E2 & R2 & L2).
  destruct (opt_gather w y dt hp s) as [hp1| | |]; try discriminate. cbn [bind] in *. rewrite E2. cbn [bind].
  unfold the_sle. rewrite El. cbn [bind]. fold (opt_solve l hp2).
  destruct (opt_solve l hp2) as [[hp3 ok]| | |] eqn:E3; try exact I. cbn [bind].
  destruct ok; cbn [massert]; [|unfold massert; rewrite Has; exact I]. cbn [bind].
  destruct (HQ hp2 hp3 R2 L2 E3) as (x & X3 & Qx).
  pose proof (pc_elim _ _ _ E3 (opt_solve_keeps priv l hp2 Hl (proj1 (proj1 R2)))) as K3. cbn [fst] in K3.
  pose proof (prepared_solve _ _ _ _ _ _ _ _ Hl (proj1 R2) K3) as P3.
  assert (W : wfs priv (hm hp3)) by apply K3.
  pose proof (mscale_spec (priv ireg0) (hm hp3) ilambda (cdiv (cofZ 1) dt) ireg0 _ _ _ X3 (W ireg0)) as G. apply wp_ok in G. destruct G as (ms4 & E4 & O4 & M4).
  unfold massert. cbn [bind]. rewrite E4. cbn [bind].
  eapply pc_mono; [apply wp_pc, (finish priv w y K h f (l_J L) (fun r => cmul (cdiv (cofZ 1) dt) (x r)) {| hm := ms4; hs := hs hp3 |} s ireg0 HL HA HS HB HP)|].
  - eapply prepared_same; [exact P3|..]; cbn [hm hs]; try reflexivity; try (apply O4; discriminate).
    split; [|apply K3]. cbn [hm]. intros i. destruct (Nat.eq_dec i ireg0) as [->|N]; [eapply is_mat_wf; exact M4|]. rewrite O4 by exact N. apply W.
  - cbn [hm]. eapply is_mat_weaken; exact M4.
  - intros z [Z _]. eauto.
Qed.

Section S.
Context {dbg : bool}.
Notation T := (RT dbg).
Notation cl := (cell T).
Implicit Types (w : world T) (y : sys T).
Variable priv : nat -> bool.

Section One.
Variables (w : world T) (y : sys T) (q0 v0 M : nat -> nat -> R).
Hypothesis HB : bodies_are w y q0 v0 M.
Hypotheses (HL : listed w y) (HA : attached w y) (HS : shaped w y) (H255 : body_count y <= 255).
Notation m := (full_count w y).
Notation AJ J := (JWJt (3 * body_count y) (DJ w y J) (cols y (fun b d => / M b d)%R)).

Lemma unit_row r c : r < m -> c < m ->
  (if Nat.eqb (rc w y c) (rc w y r) && Nat.eqb (rj w y c) (rj w y r) then 1 else 0)%R = (if Nat.eqb c r then 1 else 0)%R.
Proof.
  intros Hr Hc. destruct (Nat.eqb_spec c r) as [->|N]; [now rewrite !Nat.eqb_refl|].
  destruct (Nat.eqb_spec (rc w y c) (rc w y r)) as [E1|], (Nat.eqb_spec (rj w y c) (rj w y r)) as [E2|]; cbn [andb]; try reflexivity.
  exfalso. apply N. pose proof (by_row_at w y HL INR c Hc) as B1. pose proof (by_row_at w y HL INR r Hr) as B2.
  rewrite E1, E2 in B1. rewrite B2 in B1. symmetry. now apply INR_eq.
Qed.
Lemma Lsum_rows g : Lsum (row_list w y) g = Rsum m (fun r => g (rc w y r, rj w y r)).
Proof.
  rewrite (Lsum_nth (0, 0)), row_list_length. apply Rsum_ext. intros r Hr. unfold rc, rj, row_of.
  rewrite <- row_list_length in Hr. rewrite (nth_error_nth' _ (0, 0) Hr). now destruct (nth r _ _).
Qed.
Lemma later_others J (h : R) (x : nat -> nat -> R) r : r < m ->
  (later m (AJ J) (fun r => x (rc w y r) (rj w y r) * h)%R r <= others w y M J h x (rc w y r) (rj w y r))%R.
Proof.
  intros Hr. unfold others. rewrite Lsum_rows. unfold later.
  replace (Rsum m) with (Rsum ((r + 1) + (m - (r + 1)))) by (f_equal; lia). rewrite Rsum_split.
  match goal with |- (?a <= ?p + ?b)%R => assert (0 <= p)%R; [|enough (a <= b)%R by lra] end.
  - apply Rsum_nonneg. intros i Hi. destruct (_ && _); [lra|]. apply Rmult_le_pos; [apply Rabs_pos|]. left. apply GsReal.min_k_pos.
  - apply Rsum_le. intros u Hu. assert (Hj : r + 1 + u < m) by lia. pose proof (unit_row r (r + 1 + u) Hr Hj) as U.
    destruct (Nat.eqb_spec (r + 1 + u) r); [lia|]. destruct (_ && _); [lra|]. rewrite (SlipStep.coupling_entry w y M J r _ HL HA HS H255 Hr Hj). lra.
Qed.

(** the right side, as the solver finds it *)
Definition side (h beta : R) (v fr : nat -> nat -> R) J (C vb : nat -> nat -> R) (r : nat) : R :=
  (- (along w J (fun b d => / M b d * (h * fr b d) + v b d) (rc w y r) (rj w y r) + vb (rc w y r) (rj w y r) + beta / h * C (rc w y r) (rj w y r)))%R.
Definition nearly (h beta tol : R) (v fr : nat -> nat -> R) J (C vb lo hi : nat -> nat -> R) (xr e : nat -> R) : Prop :=
  solves_limited m (AJ J) (fun r => lo (rc w y r) (rj w y r) * h)%R (fun r => hi (rc w y r) (rj w y r) * h)%R (fun i => side h beta v fr J C vb i + e i)%R xr /\
  forall i, i < m -> (Rabs (e i) <= tol / (1 - tol) * later m (AJ J) xr i)%R.
Lemma near_limits (h : R) L (lo hi : nat -> nat -> R) hp : row_is w y (l_lo L) lo -> row_is w y (l_hi L) hi ->
  is_mat false (hm hp ilimits) 2 m (fun r q => cmul (match q with 0 => l_lo L (rc w y r) (rj w y r) | _ => l_hi L (rc w y r) (rj w y r) end) (Some h : cl)) ->
  limits_are (hm hp) ilimits m (fun r => (Some (lo (rc w y r) (rj w y r) * h)%R : cl)) (fun r => (Some (hi (rc w y r) (rj w y r) * h)%R : cl)).
Proof.
  intros Hlo Hhi HLim. apply is_mat_shows in HLim. destruct HLim as (A1 & A2 & A3). split; [exact A1|]. split; [exact A2|]. intros r c Hr Hc. rewrite A3 by assumption.
  rewrite (all_rows w y _ Hlo r Hr), (all_rows w y _ Hhi r Hr). destruct c; reflexivity.
Qed.
Lemma near_solved g (h beta tol : R) L J C vb lo hi v fr K hp' hp'' : solver_apart priv (SleGs (tg := T) g) -> 0 < m ->
  gs_min_delta g = Some tol -> (0 < tol < 1)%R -> (0 < h)%R -> y_bias y = (Some beta : cl) ->
  rows_are w y (l_J L) J -> row_is w y (l_C L) C -> row_is w y (l_vb L) vb -> row_is w y (l_lo L) lo -> row_is w y (l_hi L) hi ->
  (forall b d, In b (y_bodies y) -> d < 3 -> k_v K b d = (Some (v b d) : cl)) ->
  every_row w y (fun c j => (0 < mobility w y M J c j)%R) -> every_row w y (fun c j => (lo c j <= hi c j)%R) ->
  opt_ready priv w y K (Some h : cl) (fun b d => (Some (fr b d) : cl)) L hp' -> column (hm hp' ilambda) -> opt_solve (SleGs g) hp' = Ok (hp'', true) ->
  exists x, is_mat false (hm hp'' ilambda) 1 m (fun r _ => (x r : cl)) /\
    exists xr e : nat -> R, (forall r, r < m -> x r = Some (xr r)) /\ nearly h beta tol v fr J C vb lo hi xr e.
Proof.
  intros Hl Hm Et Ht Hh Eb HJ HCr Hvb Hlo Hhi HK HD Ho (RP & (b0 & RS & RM) & HLim) HC' E3.
  unfold opt_solve in E3. cbn [supports_limits negb sle_solve_limits] in E3.
  pose proof (side_K w y q0 v0 M HB HL HA HS H255 K v fr J vb C beta h L hp' b0 HK ltac:(lra) Eb HJ HCr Hvb RS RM) as Hb.
  pose proof (prepared_systemR priv w y q0 v0 M HB (l_J L) _ J (side h beta v fr J C vb) hp' HL HA HS H255 RP HJ Hb) as HSy.
  pose proof (near_limits h L lo hi hp' Hlo Hhi HLim) as HLm.
  assert (HSt : exists x0, start_limits hp' (Some ilambda) ilambda m x0).
  { destruct (Nat.eq_dec (m_h (hm hp' ilambda)) m) as [Eh|Nh].
    - destruct (tall_is_mat _ _ ilambda _ (proj1 (proj1 RP) ilambda) (column_tall _ _ HC' Eh Hm)) as [x0 H0]. exists x0. left. exists ilambda.
      split; [reflexivity|]. eapply is_mat_shows; exact H0.
    - exists (fun _ => cofZ 0). right. split; [intros p [= <-]; exact Nh|]. right. auto. }
  destruct HSt as [x0 HSt].
  destruct (gs_nearby_inv dbg priv hp' hp'' g sJ iMinv iright ilimits (Some ilambda) ilambda (3 * body_count y) m (DJ w y J) (cols y (fun b d => / M b d)%R) (side h beta v fr J C vb)
    (fun r => lo (rc w y r) (rj w y r) * h)%R (fun r => hi (rc w y r) (rj w y r) * h)%R x0 tol (proj1 RP) (gs_system_names priv g Hl) HSy HLm HSt Et Ht) as (x' & e & S1 & S2 & S3).
  { intros i Hi. rewrite (mobility_diag w y M J i HL HA HS H255 Hi). apply (all_rows w y _ HD i Hi). }
  { intros i Hi. apply Rmult_le_compat_r; [lra|]. apply (all_rows w y _ Ho i Hi). }
  { exact E3. }
  exists (fun r => (Some (x' r) : cl)). split.
  - pose proof (pc_elim _ _ _ E3 (sle_solve_limits_keeps priv (SleGs g) sJ iMinv iright ilimits ilambda ilambda hp' Hl (proj1 RP))) as [[Kw _] _].
    apply shows_is_mat; [eapply wf_weaken; apply Kw|]. exact S1.
  - exists x', e. split; [reflexivity|]. exact (conj S2 S3).
Qed.
Lemma near_rows (h beta tol : R) J C vb lo hi v fr xr er : (0 < tol < 1)%R -> (0 < h)%R -> nearly h beta tol v fr J C vb lo hi xr er ->
  every_row w y (fun c j =>
    holds_within (lo c j) (hi c j) (/ h * by_row w y xr c j)
      (along w J (fun b d => v b d + (fr b d + acts w y J (fun c j => / h * by_row w y xr c j) b d) / M b d * h) c j + vb c j + beta / h * C c j)%R (by_row w y er c j) /\
    (Rabs (by_row w y er c j) <= tol / (1 - tol) * others w y M J h (fun c j => / h * by_row w y xr c j) c j)%R).
Proof.
  intros Ht Hh [[SW SX] BX]. apply (rows_all w y HL). intros r Hr. rewrite !(by_row_at w y HL _ r Hr). specialize (SX r Hr). specialize (SW r Hr). specialize (BX r Hr).
  cbv beta in SX, SW. destruct (row_of_lt w y r Hr) as (i & Ec & _). apply nth_error_In in Ec.
  assert (ER : (along w J (fun b d => v b d + (fr b d + acts w y J (fun c j => / h * by_row w y xr c j) b d) / M b d * h) (rc w y r) (rj w y r) + vb (rc w y r) (rj w y r) + beta / h * C (rc w y r) (rj w y r)
    = mulv m (AJ J) xr r - side h beta v fr J C vb r)%R).
  { change (fun b d => v b d + (fr b d + acts w y J (fun c j => / h * by_row w y xr c j) b d) / M b d * h)%R with
      (fun b d => v b d + accel w y M fr J (fun c j => / h * by_row w y xr c j)%R b d * h)%R.
    rewrite (along_accel w y q0 v0 M HB HA v fr J _ _ _ h Ec).
    rewrite (along_ext w J (fun b d => acts w y J (fun c j => / h * by_row w y xr c j) b d / M b d)%R (fun b d => / h * (acts w y J (by_row w y xr) b d / M b d))%R) by (intros k d _ _; rewrite acts_scal; unfold Rdiv; ring).
    rewrite along_scal, <- (mulv_by_row w y J HL HA HS H255 M xr r Hr). unfold side.
    assert (X : along w J (fun b d => / M b d * (h * fr b d) + v b d)%R (rc w y r) (rj w y r) = (h * along w J (fun b d => fr b d / M b d) (rc w y r) (rj w y r) + along w J v (rc w y r) (rj w y r))%R).
    { rewrite <- along_scal, <- along_plus. apply along_ext. intros; unfold Rdiv; ring. }
    rewrite X. field. lra. }
  assert (EQ : forall a, (/ h * (a * h) = a)%R) by (intros; field; lra). assert (Ih : (0 < / h)%R) by (apply Rinv_0_lt_compat; lra).
  split; [split|].
  - split; [rewrite <- (EQ (lo _ _))|rewrite <- (EQ (hi _ _))]; apply Rmult_le_compat_l; lra.
  - rewrite ER. destruct SX as [SX|[[S1 S2]|[S1 S2]]]; [left; lra|right; left|right; right].
    + split; [rewrite S1; apply EQ|lra].
    + split; [rewrite S1; apply EQ|lra].
  - eapply Rle_trans; [exact BX|]. apply Rmult_le_compat_l.
    { apply Rmult_le_pos; [lra|]. left. apply Rinv_0_lt_compat. lra. }
    eapply Rle_trans; [|apply (later_others J h (fun c j => / h * by_row w y xr c j)%R r Hr)].
    unfold later. right. apply Rsum_ext. intros u Hu. rewrite (by_row_at w y HL) by lia. do 3 f_equal. field. lra.
Qed.

Lemma opt_near g (h beta tol : R) : dbg = true -> apart priv y -> y_sle y = Some (SleGs g) -> gs_min_delta g = Some tol -> (0 < tol < 1)%R -> (0 < h)%R -> y_bias y = (Some beta : cl) ->
  DynStep.evaluates priv w y (opt_process_constraints w y (Some h : cl)) (Some h : cl) (near_round w y h beta tol M).
Proof.
  intros Edbg Hl El Et Ht Hh Eb hp s K f H HC HM HP HF. apply pc_intro. intros z E.
  pose proof (pc_elim _ _ _ E (opt_evaluates priv w y (Some h : cl) (Some h : cl) Hl HL HA HS hp s K f H HC HM HP HF)) as (A & B & C0 & _).
  split; [exact A|]. split; [exact B|]. split; [exact C0|]. specialize (Hl _ El).
  intros L J C vb lo hi v fr HW HJ HCr Hvb Hlo Hhi HK HD Ho.
  destruct (cons_full w y HL HS) as [Hm|En].
  2: { exists (fun _ _ => 0%R), (fun _ _ => 0%R). split; [intros c j k d Hc|intros c j Hc]; rewrite En in Hc; destruct Hc. }
  assert (HF' : forced w y (fun b d => (Some (fr b d) : cl)) s).
  { intros i b d Ei Hd. rewrite (HF i b d Ei Hd). destruct (HK b d (nth_error_In _ _ Ei) Hd) as [_ ->]. reflexivity. }
  pose proof (fun X => pc_elim _ _ _ E (opt_constraints_pc_ok priv w y K (Some h : cl) (Some h : cl) _ L hp s (SleGs g)
    (fun x => exists xr e : nat -> R, (forall r, r < m -> x r = Some (xr r)) /\ nearly h beta tol v fr J C vb lo hi xr e) Edbg HL HA HS H255 HP HF' HW H HM El Hl X)) as G.
  destruct G as (x & (xr & er & EX & NX) & _ & _ & _ & R').
  { intros hp' hp'' RP Elam E3. apply (near_solved g h beta tol L J C vb lo hi v fr K hp' hp''); auto; [|rewrite Elam; exact HC].
    intros b d Hb Hd. apply (HK b d Hb Hd). }
  exists (fun c j => (/ h * by_row w y xr c j)%R), (by_row w y er). split; [|now apply near_rows].
  intros c j k d Hc Hj Hk' Hd. rewrite (R' c j k d Hc Hj Hk' Hd). destruct (row_at w y c j HL Hc Hj) as (Lr & _).
  rewrite (EX _ Lr), cofZ_R, divR by lra. rewrite (HJ c j Hc Hj) by lia. unfold by_row. cbn. f_equal. unfold Rdiv. ring.
Qed.
End One.

Lemma near_slots w y (h beta tol : R) M : by_slots w y (near_round w y h beta tol M).
Proof.
  intros K f F F' E H L J C vb lo hi v g HW HJ HC Hvb Hlo Hhi HK HD Ho.
  destruct (H L J C vb lo hi v g HW HJ HC Hvb Hlo Hhi HK HD Ho) as (x & e & HF & R). exists x, e. split; [|exact R].
  intros c j k d Hc Hj Hk Hd. rewrite E. now apply HF.
Qed.
Lemma opt_near_motion m (dt : R) n t w y w' y' g (beta tol : R) q v M :
  dbg = true -> yreach Optimized priv m w y -> attached w y -> shaped w y -> all_gentle w y -> body_count y <= 255 ->
  y_sle y = Some (SleGs g) -> gs_min_delta g = Some tol -> (0 < tol < 1)%R -> (0 < dt)%R -> 0 < n -> y_bias y = Some beta -> bodies_are w y q v M ->
  process Optimized (Some dt : cl) n t w y = Ok (w', y') ->
  exists K F, motion_by (near_round w y (dt / INR n) beta tol M) Symplectic w y (Some (dt / INR n)%R : cl) n (kin_of w) K F /\ arrives w' y K /\ reports w w' y F.
Proof.
  intros Edbg H HA HS HG H255 El Et Ht Hdt Hn Eb HB E. destruct (reach_nice priv _ _ _ _ H HA HS HG) as (Hl & HL & _).
  assert (Nn : (0 < INR n)%R) by (apply lt_0_INR; exact Hn).
  assert (Eh : cdiv (Some dt : cl) (cofZ (Z.of_nat n)) = (Some (dt / INR n)%R : cl)) by (rewrite cofZ_R, <- INR_IZR_INZ; apply divR; lra).
  rewrite <- Eh. eapply (opt_motion_by priv (near_round w y (dt / INR n) beta tol M) m (Some dt : cl) n t w y w' y' H HA HS HG); [|apply near_slots|exact E].
  intros s0 y0 h. subst h. rewrite Eh.
  exact (opt_near w (with_state y s0) q v M HB HL HA HS H255 g (dt / INR n) beta tol Edbg Hl El Et Ht (Rdiv_lt_0_compat _ _ Hdt Nn) Eb).
Qed.

Lemma opt_near_step m (dt : R) t w y w' y' g (beta tol : R) q v M f L J C vb lo hi :
  dbg = true -> yreach Optimized priv m w y -> attached w y -> shaped w y -> all_gentle w y -> body_count y <= 255 ->
  y_sle y = Some (SleGs g) -> gs_min_delta g = Some tol -> (0 < tol < 1)%R -> (0 < dt)%R -> y_bias y = Some beta -> bodies_are w y q v M ->
  answers w y (kin_of w) (Some dt : cl) L -> rows_are w y (l_J L) J -> row_is w y (l_C L) C -> row_is w y (l_vb L) vb ->
  row_is w y (l_lo L) lo -> row_is w y (l_hi L) hi -> pushesR w y (kin_of w) dt f ->
  every_row w y (fun c j => (0 < mobility w y M J c j)%R) -> every_row w y (fun c j => (lo c j <= hi c j)%R) ->
  process Optimized (Some dt : cl) 1 t w y = Ok (w', y') ->
  exists v' x e, ends w' y (fun b d => q b d + v' b d * dt)%R v' /\
    every_row w y (fun c j => holds_within (lo c j) (hi c j) (x c j) (along w J v' c j + vb c j + beta / dt * C c j)%R (e c j) /\
      (Rabs (e c j) <= tol / (1 - tol) * others w y M J dt x c j)%R) /\
    (forall b d, In b (y_bodies y) -> d < 3 -> (M b d * (v' b d - v b d) = (f b d + acts w y J x b d) * dt)%R) /\
    reportsR w w' y (fun d c j k => J c j (3 * k + d)%nat * x c j)%R.
Proof.
  intros Edbg H HA HS HG H255 El Et Ht Hdt Eb HB HW HJ HC Hvb Hlo Hhi HP HD Ho E.
  destruct (opt_near_motion m dt 1 t w y w' y' g beta tol q v M Edbg H HA HS HG H255 El Et Ht Hdt ltac:(lia) Eb HB E) as (K & F & (Ks & fs & Fs & E0 & E1 & HM & EF) & AR & RP).
  assert (Ed : (dt / INR 1)%R = dt) by (cbn; field). rewrite Ed in HM.
  destruct (HM 0 ltac:(lia)) as (Hf & HK & HN). specialize (EF ltac:(lia)). cbn [Nat.sub] in EF. subst K F. rewrite E0 in *.
  specialize (Hf _ HP).
  destruct (HN L J C vb lo hi v f HW HJ HC Hvb Hlo Hhi) as (x & e & HF & HR); auto.
  { intros b d Hb Hd. split; [apply (HB b d Hb Hd)|now apply Hf]. }
  assert (HK' : kicks Symplectic w y (Some dt : cl) (fun b d => (Some (f b d) : cl)) (Fs 0) (kin_of w) (Ks 1)).
  { destruct HK as [HK1 HK2]. split; [|exact HK2]. intros b d Hb Hd. rewrite (HK1 b d Hb Hd). now rewrite (Hf b d Hb Hd). }
  pose proof (kicks_J w y q v M HB Symplectic dt f J x (Fs 0) (Ks 1) HF HK') as KV. cbv zeta in KV.
  exists (fun b d => (v b d + accel w y M f J x b d * dt)%R), x, e. split; [|split; [exact HR|split]].
  - intros b' d Hb' Hd. destruct (AR b' d Hb' Hd) as [-> ->]. destruct (KV b' d Hb' Hd) as [-> ->]. auto.
  - intros b' d Hb' Hd. unfold accel. field. apply (HB b' d Hb' Hd).
  - intros c j k d Hc Hj Hk' Hd. rewrite (RP c j k d Hc Hj Hk' Hd). now apply HF.
Qed.
End S.
