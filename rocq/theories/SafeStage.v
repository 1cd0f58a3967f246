(** * processConstraints leaves determinate values. *)

From Coq Require Import Reals.
From Verif Require Import Base Targets Matrix Sparse Sle State Ode Forces Constraints System Logic
  MatrixFacts MatrixOps SpecMatrix MatrixHist SparseFacts SpecSparse SparseHist SpecSle SleHist SleGe
  SpecState StateFacts SpecOde OdeFacts SpecSys RegFacts SysFrame SysInv SysColumn SpecDyn DynState DynReact DynRound DynStep DynGather DynRight DynReady DynSolver
  SpecRk RkStep SpecSafe SafeCalc SafeForce.
From Verif Require GeHist GsHist CgHist DynLimits EdgeNone.
Local Open Scope nat_scope.

Section S.
Context {tg : target}.
Hypothesis TA : total_arithmetic tg.
Notation st := (sstate tg).
Implicit Types (hp : heap tg) (w : world tg) (y : sys tg) (L : law tg) (K : kin tg).
Variable priv : nat -> bool.

Ltac dd := repeat first [apply GeHist.defined_cofZ|assumption|apply GeHist.defined_add|apply GeHist.defined_sub|
  apply GeHist.defined_mul|apply GeHist.defined_opp|apply (defined_over TA)].

(** lambda: a column of determinate values *)
Definition lam_set (m : matrix tg) : Prop :=
  column m /\ forall r c, r < m_h m -> c < m_w m -> exists x, mget (fun _ => m) 0 c r = Ok x /\ defined x.
Lemma lam_of_mat hp k n x : is_mat k (hm hp ilambda) 1 n (fun r _ => x r) -> (forall i, i < n -> defined (x i)) -> lam_set (hm hp ilambda).
Proof.
  intros H D. split; [right; eapply is_mat_w; exact H|]. intros r c Hr Hc. rewrite (is_mat_h _ _ _ _ _ H) in Hr. rewrite (is_mat_w _ _ _ _ _ H) in Hc.
  exists (x r). split; [exact (mget_spec _ _ _ _ _ _ c r H Hc Hr)|now apply D].
Qed.
Lemma lam_start hp n : hinv priv hp -> lam_set (hm hp ilambda) -> 0 < n ->
  m_h (hm hp ilambda) <> n \/ exists x, shows (hm hp) ilambda 1 n (fun r _ => x r) /\ forall i, i < n -> defined (x i).
Proof.
  intros [Hm _] [HC HD] Hn. destruct (Nat.eq_dec (m_h (hm hp ilambda)) n) as [E|N]; [right|now left].
  destruct (column_tall _ _ HC E Hn) as [Tw Th].
  destruct (tall_is_mat _ _ ilambda _ (Hm ilambda) (conj Tw Th)) as [x Hx]. exists x. split; [eapply is_mat_shows; exact Hx|].
  intros i Hi. destruct (HD i 0 ltac:(lia) ltac:(lia)) as (v & Ev & Dv). change (mget (hm hp) ilambda 0 i = Ok v) in Ev.
  rewrite (mget_spec _ _ _ _ _ _ 0 i Hx) in Ev by lia. injection Ev as <-. exact Dv.
Qed.

Lemma srow_set (blk : nat -> BinNums.Z) v x : (forall e k, e < 2 -> k < 3 -> blk e <> 255%Z -> defined (v e k)) -> (forall c, defined (x c)) ->
  defined (srow (tg := tg) 3 2 blk v x).
Proof.
  intros HV HX. unfold srow. apply GeHist.iter_defined; [dd|]. intros e a He Ha. destruct (Z.eqb_spec (blk e) 255); [exact Ha|].
  apply GeHist.iter_defined; [exact Ha|]. intros k a' Hk Ha'. pose proof (HV e k He Hk n). pose proof (HX (bcol 3 (blk e) k)). dd.
Qed.
Lemma blk_row w y r e : blkR w y r e <> 255%Z -> e < c_bodycount (w_con w (rc w y r)).
Proof. unfold blkR. destruct (Nat.ltb_spec e (c_bodycount (w_con w (rc w y r)))); [auto|congruence]. Qed.
Lemma mod3 c : c mod 3 < 3.
Proof. apply Nat.mod_upper_bound. lia. Qed.
Lemma W3_set w y c : masses_set w y -> defined (W3 w y c).
Proof.
  intros HM. unfold W3, inv_mass. destruct (nth_error (y_bodies y) (c / 3)) as [b|] eqn:E; [|dd].
  pose proof (HM b (c mod 3) (nth_error_In _ _ E) (mod3 c)). dd.
Qed.
Lemma V3_set y K c : kin_set y K -> defined (V3 y K c).
Proof.
  intros HK. unfold V3, vel_at. destruct (nth_error (y_bodies y) (c / 3)) as [b|] eqn:E; [|dd].
  exact (proj1 (proj2 (HK b (c mod 3) (nth_error_In _ _ E) (mod3 c)))).
Qed.
Lemma F3_set y (f : nat -> nat -> cell tg) c : (forall b d, In b (y_bodies y) -> d < 3 -> defined (f b d)) -> defined (F3 y f c).
Proof.
  intros HK. unfold F3, ext_at. destruct (nth_error (y_bodies y) (c / 3)) as [b|] eqn:E; [|dd].
  exact (HK b (c mod 3) (nth_error_In _ _ E) (mod3 c)).
Qed.
Lemma row_law w y L r : law_set w y L -> r < full_count w y ->
  defined (l_C L (rc w y r) (rj w y r)) /\ defined (l_vb L (rc w y r) (rj w y r)) /\ defined (l_lo L (rc w y r) (rj w y r)) /\ defined (l_hi L (rc w y r) (rj w y r)) /\
  defined (l_ks L (rc w y r) (rj w y r)) /\ defined (l_kd L (rc w y r) (rj w y r)) /\
  forall i, i < 3 * c_bodycount (w_con w (rc w y r)) -> defined (l_J L (rc w y r) (rj w y r) i) /\ defined (l_Jd L (rc w y r) (rj w y r) i).
Proof. intros HL Hr. destruct (row_of_lt w y r Hr) as (i & Ec & Hj & _). apply HL; [eapply nth_error_In; exact Ec|exact Hj]. Qed.

(** the system of equations is determinate *)
Lemma prepared_set w y L f hp b : listed w y -> attached w y -> shaped w y -> masses_set w y -> law_set w y L ->
  prepared priv w y (l_J L) f hp -> is_mat false (hm hp iright) 1 (full_count w y) (fun r _ => b r) -> (forall r, r < full_count w y -> defined (b r)) ->
  exists v, system hp sJ iMinv iright (3 * body_count y) (full_count w y) (blkR w y) v (W3 w y) b /\
    defined_system (3 * body_count y) (full_count w y) (blkR w y) v (W3 w y) b.
Proof.
  intros HL HA HS HM HW (H & HI & _ & v & HJ & HV) Hb Db. exists v. split.
  - split; [now apply (is_sp_shows 3 2)|]. split; [now apply blkR_inside|]. split; eapply is_mat_shows; [exact HI|exact Hb].
  - split; [|split; [intros; now apply W3_set|exact Db]]. intros r e k Hr He Hk N. apply blk_row in N. rewrite HV by assumption.
    apply (row_law w y L r HW Hr). lia.
Qed.
Lemma opt_sides_set w y K dt f L b : masses_set w y -> kin_set y K -> law_set w y L -> (forall b d, In b (y_bodies y) -> d < 3 -> defined (f b d)) ->
  defined dt -> defined (y_bias y) -> opt_sides w y K dt f L b -> forall r, r < full_count w y -> defined (b r).
Proof.
  intros HM HK HW HF Ht HB H r Hr. destruct (H r Hr) as (v & Ev & ->). pose proof (row_law w y L r HW Hr) as (D1 & D2 & _ & _ & _ & _ & DJ).
  assert (D : defined (srow 3 2 (blkR w y r) v (Q3 w y dt f K))).
  { apply srow_set.
    - intros e k He Hk N. apply blk_row in N. rewrite Ev by assumption. apply DJ. lia.
    - intros c. unfold Q3. pose proof (W3_set w y c HM). pose proof (V3_set y K c HK). pose proof (F3_set y f c HF). dd. }
  dd.
Qed.
Lemma gen_sides_set w y K f L b : masses_set w y -> kin_set y K -> law_set w y L -> (forall b d, In b (y_bodies y) -> d < 3 -> defined (f b d)) ->
  gen_sides w y K f L b -> forall r, r < full_count w y -> defined (b r).
Proof.
  intros HM HK HW HF H r Hr. destruct (H r Hr) as (v & vd & Ev & Evd & ->). pose proof (row_law w y L r HW Hr) as (D1 & D2 & _ & _ & D3 & D4 & DJ).
  assert (A : forall e k, e < 2 -> k < 3 -> blkR w y r e <> 255%Z -> defined (v e k)) by (intros e k He Hk N; apply blk_row in N; rewrite Ev by assumption; apply DJ; lia).
  assert (B : forall e k, e < 2 -> k < 3 -> blkR w y r e <> 255%Z -> defined (vd e k)) by (intros e k He Hk N; apply blk_row in N; rewrite Evd by assumption; apply DJ; lia).
  assert (X1 : defined (srow 3 2 (blkR w y r) vd (V3 y K))) by (apply srow_set; [exact B|intros c; now apply V3_set]).
  assert (X2 : defined (srow 3 2 (blkR w y r) v (fun c => cmul (W3 w y c) (F3 y f c)))).
  { apply srow_set; [exact A|]. intros c. pose proof (W3_set w y c HM). pose proof (F3_set y f c HF). dd. }
  assert (X3 : defined (srow 3 2 (blkR w y r) v (V3 y K))) by (apply srow_set; [exact A|intros c; now apply V3_set]).
  dd.
Qed.

(** ** the linear solver *)
(** whoever goes on after the call has a determinate result *)
Definition solver_post w y (z : heap tg * bool) : Prop :=
  snd z = true \/ asserts_on tg = false -> exists x, is_mat false (hm (fst z) ilambda) 1 (full_count w y) (fun r _ => x r) /\ forall r, r < full_count w y -> defined (x r).
Lemma post_of w y hp z ok x : hinv priv hp -> hm z ilambda = hm z ilambda -> wfs priv (hm z) ->
  shows (hm z) ilambda 1 (full_count w y) (fun r _ => x r) -> (forall i, i < full_count w y -> defined (x i)) -> solver_post w y (z, ok).
Proof.
  intros _ _ W S D _. exists x. cbn [fst]. split; [|exact D]. eapply is_mat_weaken. eapply shows_is_mat; [apply W|exact S].
Qed.
Lemma plain_safe k (l : sle tg) w y L f hp b : solver_set k l -> supports_limits l = false -> solver_apart priv l -> listed w y -> attached w y -> shaped w y ->
  masses_set w y -> law_set w y L -> 0 < full_count w y ->
  prepared priv w y (l_J L) f hp -> is_mat false (hm hp iright) 1 (full_count w y) (fun r _ => b r) -> (forall r, r < full_count w y -> defined (b r)) ->
  lam_set (hm hp ilambda) ->
  hoare (tg := tg) Safe (sle_solve l sJ iMinv iright ilambda ilambda hp) (solver_post w y).
Proof.
  intros HX Hs Hl HL HA HS HM HW Hm HP Hb Db HLam. destruct (prepared_set w y L f hp b HL HA HS HM HW HP Hb Db) as (v & Sy & Dy).
  pose proof (sle_solve_keeps priv l sJ iMinv iright ilambda ilambda hp Hl (proj1 HP)) as KK. destruct TA as [TD _].
  destruct l as [?|g|g|g]; cbn [solver_set supports_limits sle_solve] in *; try contradiction; try discriminate.
  - destruct (GeHist.ge_safe_inv priv hp g sJ iMinv iright ilambda ilambda _ _ _ _ _ _ (proj1 HP) (ge_system_names priv g Hl) Sy Dy TD) as [(hp' & E & _ & X)|[E As]].
    + rewrite E in *. destruct (X Hm) as (x & X1 & X2). cbn [hoare]. eapply (post_of w y hp hp' true x); [apply HP|reflexivity|apply KK|exact X1|]. intros i Hi. now apply X2.
    + rewrite E. exact As.
  - destruct HX as (D1 & D2 & As). destruct (EdgeNone.cg_system_names priv g Hl) as [N1 N2].
    assert (ST : exists x0, start_cg hp (Some ilambda) (full_count w y) x0 /\ forall i, i < full_count w y -> defined (x0 i)).
    { destruct (lam_start hp (full_count w y) (proj1 HP) HLam Hm) as [N|(x0 & X0 & X1)].
      - exists (fun _ => cofZ 0). split; [right; split; [intros p [= <-]; exact N|reflexivity]|intros; dd].
      - exists x0. split; [left; eauto|exact X1]. }
    destruct ST as (x0 & S0 & X0).
    destruct (CgHist.cg_safe_inv priv hp g sJ iMinv iright (Some ilambda) ilambda _ _ _ _ _ _ _ (proj1 HP) N1 N2 Sy S0 Dy X0 D1 D2 TD) as (hp' & ok & E & _ & X).
    rewrite E in *. cbn [hoare]. intros Hok. cbn [snd] in Hok. rewrite As in Hok. destruct Hok as [->|?]; [|discriminate]. destruct (X eq_refl) as (x & X1 & X2).
    eapply (post_of w y hp hp' true x); [apply HP|reflexivity|apply KK|exact X1|exact X2|now left].
Qed.
Lemma limits_safe g w y L f hp b h : defined (gs_min_delta g) -> solver_apart priv (SleGs g) -> listed w y -> attached w y -> shaped w y ->
  masses_set w y -> law_set w y L -> 0 < full_count w y -> defined h ->
  prepared priv w y (l_J L) f hp -> is_mat false (hm hp iright) 1 (full_count w y) (fun r _ => b r) -> (forall r, r < full_count w y -> defined (b r)) ->
  is_mat false (hm hp ilimits) 2 (full_count w y) (fun r q => cmul (match q with 0 => l_lo L (rc w y r) (rj w y r) | _ => l_hi L (rc w y r) (rj w y r) end) h) ->
  lam_set (hm hp ilambda) ->
  hoare (tg := tg) Safe (sle_solve_limits (SleGs g) sJ iMinv iright ilimits ilambda ilambda hp) (solver_post w y).
Proof.
  intros HX Hl HL HA HS HM HW Hm Hh HP Hb Db HLim HLam. destruct (prepared_set w y L f hp b HL HA HS HM HW HP Hb Db) as (v & Sy & Dy).
  pose proof (sle_solve_limits_keeps priv (SleGs g) sJ iMinv iright ilimits ilambda ilambda hp Hl (proj1 HP)) as KK. destruct TA as [TD _].
  set (lo := fun r => cmul (l_lo L (rc w y r) (rj w y r)) h). set (hi := fun r => cmul (l_hi L (rc w y r) (rj w y r)) h).
  assert (HLm : limits_are (hm hp) ilimits (full_count w y) lo hi).
  { apply is_mat_shows in HLim. destruct HLim as (A & B & C). split; [exact A|]. split; [exact B|]. intros r c Hr Hc. rewrite C by assumption.
    destruct c as [|c]; reflexivity. }
  assert (DLm : forall i, i < full_count w y -> defined (lo i) /\ defined (hi i)).
  { intros i Hi. pose proof (row_law w y L i HW Hi) as (_ & _ & D1 & D2 & _). unfold lo, hi. split; dd. }
  assert (ST : exists x0, start_limits hp (Some ilambda) ilambda (full_count w y) x0 /\ forall i, i < full_count w y -> defined (x0 i)).
  { destruct (lam_start hp (full_count w y) (proj1 HP) HLam Hm) as [N|(x0 & X0 & X1)].
    - exists (fun _ => cofZ 0). split; [right; split; [intros p [= <-]; exact N|right; auto]|intros; dd].
    - exists x0. split; [left; eauto|exact X1]. }
  destruct ST as (x0 & S0 & X0). cbn [sle_solve_limits] in *.
  destruct (GsHist.gs_limits_safe_inv priv hp g sJ iMinv iright ilimits (Some ilambda) ilambda _ _ _ _ _ _ lo hi x0 (proj1 HP) (DynLimits.gs_system_names priv g Hl) Sy HLm S0 Dy DLm X0 HX TD)
    as (hp' & ok & x & E & _ & _ & X1 & X2).
  rewrite E in *. cbn [hoare]. eapply (post_of w y hp hp' ok x); [apply HP|reflexivity|apply KK|exact X1|exact X2].
Qed.

(** ** processConstraints *)
(** what it leaves: determinate accelerations and multipliers *)
Definition stage_post w y K h (z : heap tg * st) : Prop :=
  hinv priv (fst z) /\ minv_ok w y (hm (fst z)) /\ lam_set (hm (fst z) ilambda) /\
  exists a, presents w y (with_acc K a) h (snd z) /\ (forall b d, In b (y_bodies y) -> d < 3 -> defined (a b d)) /\
    forall c j k d, In c (y_cons y) -> j < c_count (w_con w c) -> k < c_bodycount (w_con w c) -> d < 3 -> defined (reac w y (snd z) d c j k).
Lemma solved_set w y K h f L x hp' (s' : st) : listed w y -> masses_set w y -> law_set w y L ->
  (forall b d, In b (y_bodies y) -> d < 3 -> defined (f b d)) -> (forall r, r < full_count w y -> defined (x r)) ->
  solved priv w y K h f (l_J L) x hp' s' -> lam_set (hm hp' ilambda) -> stage_post w y K h (hp', s').
Proof.
  intros HL HM HW HF HX (A & B & C & D) E. cbn [stage_post fst snd]. split; [exact A|]. split; [exact B|]. split; [exact E|].
  assert (R : forall c j k d, In c (y_cons y) -> j < c_count (w_con w c) -> k < c_bodycount (w_con w c) -> d < 3 -> defined (reac w y s' d c j k)).
  { intros c j k d Hc Hj Hk Hd. rewrite (D c j k d Hc Hj Hk Hd). destruct (row_at w y c j HL Hc Hj) as (Rl & _).
    pose proof (HX _ Rl). destruct (HW c j Hc Hj) as (_ & _ & _ & _ & _ & _ & HJ). pose proof (proj1 (HJ (3 * k + d) ltac:(lia))). dd. }
  exists (acc_of w y f s'). split; [exact C|]. split; [|exact R]. intros b d Hb Hd. unfold acc_of. pose proof (HM b d Hb Hd).
  assert (T : defined (total_on w y (reac w y s' d) b (f b d))); [|dd]. unfold total_on.
  assert (G : forall e, In e (slots w y) -> let '(c, j, k) := e in In c (y_cons y) /\ j < c_count (w_con w c) /\ k < c_bodycount (w_con w c)).
  { intros e He. unfold slots in He. apply in_flat_map in He. destruct He as (c & Hc & He). apply in_flat_map in He. destruct He as (j & Hj & He).
    apply in_map_iff in He. destruct He as (k & <- & Hk). apply in_seq in Hj. apply in_seq in Hk. repeat split; auto; lia. }
  pose proof (HF b d Hb Hd) as X0. revert X0. generalize (f b d). revert G. generalize (slots w y). induction l as [|[[c j] k] l IH]; intros G x0 X0; cbn [fold_left]; [exact X0|].
  apply IH; [intros e He; apply G; now right|]. destruct (binds w b (c, j, k)); [|exact X0]. destruct (G (c, j, k) (or_introl eq_refl)) as (G1 & G2 & G3).
  pose proof (R c j k d G1 G2 G3 Hd). dd.
Qed.

Section Stage.
Variables (w : world tg) (y : sys tg) (l : sle tg).
Hypothesis (HL : listed w y) (HA : attached w y) (HS : shaped w y) (HB : body_count y <= 255) (HM : masses_set w y) (Hm : 0 < full_count w y)
  (El : y_sle y = Some l) (Hl : solver_apart priv l) (HC : forall c, In c (y_cons y) -> con_set (w_con w c)).

Lemma opt_stage K h hp (s : st) : solver_set Optimized l -> kin_set y K -> defined h -> defined (y_bias y) -> presents w y K h s -> forces_set w y s ->
  hinv priv hp -> lam_set (hm hp ilambda) -> minv_ok w y (hm hp) ->
  hoare (tg := tg) Safe (opt_process_constraints w y h hp s) (stage_post w y K h).
Proof.
  intros HX HK Hh Hy HP HF H HLam HI.
  destruct (law_answers TA w y K h s HL HA HP HC HK) as [HW LS]. set (L := law_at w s) in *. set (f := frc w s).
  pose proof (forced_frc w y K h s HL HP) as HFo. fold f in HFo.
  unfold opt_process_constraints.
  pose proof (opt_readies priv w y K h h f L hp s HL HA HS HP HFo HW H HI) as G. apply wp_ok in G. destruct G as (hp2 & E2 & R2 & L2).
  destruct (opt_gather w y h hp s) as [hp1| | |]; try discriminate. cbn [bind] in *. rewrite E2. cbn [bind].
  unfold the_sle. rewrite El. cbn [bind]. fold (opt_solve l hp2). rewrite <- L2 in HLam.
  destruct R2 as (P2 & (b & Sb & Mb) & ML).
  pose proof (opt_sides_set w y K h f L b HM HK LS HF Hh Hy Sb) as Db.
  assert (G : hoare (tg := tg) Safe (opt_solve l hp2) (solver_post w y)).
  { unfold opt_solve. destruct (supports_limits l) eqn:Es; cbn [negb].
    - destruct l as [?|g|g|g]; try discriminate; [destruct HX|]. eapply (limits_safe g w y L f hp2 b h); eauto.
    - eapply (plain_safe Optimized l w y L f hp2 b); eauto. }
  pose proof (opt_solve_keeps priv l hp2 Hl (proj1 P2)) as KK.
  destruct (opt_solve l hp2) as [[hp3 ok]| | |]; cbn [hoare bind] in *; auto. cbn [pc fst] in KK.
  unfold massert. destruct (negb ok && asserts_on tg)%bool eqn:Ea.
  { destruct ok; [discriminate|]. cbn in Ea. rewrite Ea. reflexivity. }
  assert (Ok3 : snd (hp3, ok) = true \/ asserts_on tg = false) by (destruct ok; [now left|now right]).
  assert (EM : (if ok then Ok tt else if asserts_on tg then AssertFail else Ok tt) = Ok tt) by (destruct ok, (asserts_on tg); try discriminate; reflexivity).
  rewrite EM. cbn [bind]. destruct (G Ok3) as (x & X3 & Dx). cbn [fst] in X3.
  pose proof (prepared_solve priv _ _ _ _ _ _ _ Hl P2 KK) as P3.
  assert (W : wfs priv (hm hp3)) by apply KK.
  pose proof (mscale_spec (priv ireg0) (hm hp3) ilambda (cdiv (cofZ 1) h) ireg0 _ _ _ X3 (W ireg0)) as G4. apply wp_ok in G4. destruct G4 as (ms4 & E4 & O4 & M4).
  rewrite E4. cbn [bind]. apply (hoare_wp Safe).
  eapply wp_mono; [apply (finish priv w y K h f (l_J L) (fun r => cmul (cdiv (cofZ 1) h) (x r)) {| hm := ms4; hs := hs hp3 |} s ireg0 HL HA HS HB HP)|].
  - eapply prepared_same; [exact P3|..]; cbn [hm hs]; try reflexivity; try (apply O4; discriminate).
    split; [|apply KK]. cbn [hm]. intros i. destruct (Nat.eq_dec i ireg0) as [->|N]; [eapply is_mat_wf; exact M4|]. rewrite O4 by exact N. apply W.
  - cbn [hm]. eapply is_mat_weaken; exact M4.
  - intros [hp5 s5] [Z EZ]. cbn [fst snd] in *. eapply (solved_set w y K h f L (fun r => cmul (cdiv (cofZ 1) h) (x r))); eauto.
    + intros r Hr. pose proof (Dx r Hr). dd.
    + rewrite EZ. cbn [hm]. rewrite O4 by discriminate. eapply lam_of_mat; eauto.
Qed.
Lemma gen_stage K h hp (s : st) : solver_set Generic l -> (forall c, In c (y_cons y) -> 1 <= c_bodycount (w_con w c)) ->
  kin_set y K -> presents w y K h s -> forces_set w y s ->
  hinv priv hp -> lam_set (hm hp ilambda) -> minv_ok w y (hm hp) ->
  hoare (tg := tg) Safe (gen_process_constraints w y hp s) (stage_post w y K h).
Proof.
  intros HX H1 HK HP HF H HLam HI.
  destruct (law_answers TA w y K h s HL HA HP HC HK) as [HW LS]. set (L := law_at w s) in *. set (f := frc w s).
  pose proof (forced_frc w y K h s HL HP) as HFo. fold f in HFo.
  unfold gen_process_constraints.
  pose proof (gen_readies priv w y K h f L hp s HL HA HS H1 HP HFo HW H HI) as G. apply wp_ok in G. destruct G as (hp2 & E2 & R2 & L2).
  destruct (gen_gather w y hp s) as [hp1| | |]; try discriminate. cbn [bind] in *. rewrite E2. cbn [bind].
  unfold the_sle. rewrite El. cbn [bind]. rewrite <- L2 in HLam.
  destruct R2 as (P2 & (b & Sb & Mb)).
  pose proof (gen_sides_set w y K f L b HM HK LS HF Sb) as Db.
  assert (G : hoare (tg := tg) Safe (sle_solve l sJ iMinv iright ilambda ilambda hp2) (solver_post w y)).
  { eapply (plain_safe Generic l w y L f hp2 b); eauto. destruct l as [?|g|g|g]; try reflexivity; destruct HX. }
  pose proof (sle_solve_keeps priv l sJ iMinv iright ilambda ilambda hp2 Hl (proj1 P2)) as KK.
  destruct (sle_solve l sJ iMinv iright ilambda ilambda hp2) as [[hp3 ok]| | |]; cbn [hoare bind] in *; auto. cbn [pc fst] in KK.
  unfold massert. destruct (negb ok && asserts_on tg)%bool eqn:Ea.
  { destruct ok; [discriminate|]. cbn in Ea. rewrite Ea. reflexivity. }
  assert (Ok3 : snd (hp3, ok) = true \/ asserts_on tg = false) by (destruct ok; [now left|now right]).
  assert (EM : (if ok then Ok tt else if asserts_on tg then AssertFail else Ok tt) = Ok tt) by (destruct ok, (asserts_on tg); try discriminate; reflexivity).
  rewrite EM. cbn [bind]. destruct (G Ok3) as (x & X3 & Dx). cbn [fst] in X3.
  pose proof (prepared_solve priv _ _ _ _ _ _ _ Hl P2 KK) as P3. apply (hoare_wp Safe).
  eapply wp_mono; [apply (finish priv w y K h f (l_J L) x hp3 s ilambda HL HA HS HB HP P3 X3)|].
  intros [hp5 s5] [Z EZ]. cbn [fst snd] in *. eapply (solved_set w y K h f L x); eauto. rewrite EZ. eapply lam_of_mat; eauto.
Qed.
End Stage.
End S.
