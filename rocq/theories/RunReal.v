(** * Calls of several sub-steps with Gaussian elimination. *)

From Coq Require Import Reals Lra.
From Verif Require Import Base Targets Matrix Sparse Sle State Ode Forces Constraints System Logic RealSum
  MatrixFacts MatrixOps SpecMatrix MatrixHist SparseFacts SpecSparse SparseHist SpecSle SleHist SleGe
  SpecState StateFacts SpecOde OdeFacts SpecSys RegFacts SysFrame SysInv SpecDyn DynState DynReact DynRound DynStep DynGather DynRight DynReady SpecSolve SolveReal
  SolveStep SpecCon ConFacts SpecLaw LawReal LawStep SpecMom MomForce SpecRun RunTotal.
Local Open Scope nat_scope.

Section S.
Context {dbg : bool}.
Notation T := (RT dbg).
Notation cl := (cell T).
Implicit Types (w : world T) (y : sys T).
Variable priv : nat -> bool.

Section Any.
Variables (w : world T) (y : sys T) (q0 v0 M : nat -> nat -> R).
Hypothesis HB : bodies_are w y q0 v0 M.
Hypotheses (HL : listed w y) (HA : attached w y) (HS : shaped w y) (H255 : body_count y <= 255).

(** the right-hand side of the optimized system, any motion *)
Lemma side_K K (v f : nat -> nat -> R) J vb C (beta dt : R) L hp b0 :
  (forall b d, In b (y_bodies y) -> d < 3 -> k_v K b d = (Some (v b d) : cl)) ->
  dt <> 0%R -> y_bias y = (Some beta : cl) -> rows_are w y (l_J L) J -> row_is w y (l_C L) C -> row_is w y (l_vb L) vb ->
  opt_sides w y K (Some dt : cl) (fun b d => (Some (f b d) : cl)) L b0 -> is_mat false (hm hp iright) 1 (full_count w y) (fun r _ => b0 r) ->
  is_mat false (hm hp iright) 1 (full_count w y) (fun r _ => (Some (- (along w J (fun b d => / M b d * (dt * f b d) + v b d) (rc w y r) (rj w y r) +
    vb (rc w y r) (rj w y r) + beta / dt * C (rc w y r) (rj w y r)))%R : cl)).
Proof.
  intros KV Ndt Eb HJ HC Hvb RS RM.
  eapply is_mat_ext; [exact RM|]. intros r c Hr _. cbv beta. destruct (RS r Hr) as (u & V0 & ->).
  rewrite (srow_along w y J HL HA HS H255 u _ (fun b d => / M b d * (dt * f b d) + v b d)%R r Hr).
  - rewrite (all_rows w y _ Hvb r Hr), (all_rows w y _ HC r Hr), Eb, divR by exact Ndt. reflexivity.
  - intros e k He Hk'. rewrite V0 by assumption. apply (all_rows w y _ HJ r Hr). lia.
  - intros c' Hc'. destruct (cols_split y c' Hc') as (i & b1 & Hi & Hd & Eb' & Ei & Hb).
    unfold Q3. rewrite (W3_cols w y q0 v0 M HB), F3_cols by assumption. rewrite (V3_cols y v K) by assumption. cbn. f_equal. unfold cols. now rewrite <- Ei, Eb'.
Qed.

Lemma along_accel (v f : nat -> nat -> R) J x c j (h : R) : In c (y_cons y) ->
  along w J (fun b d => v b d + accel w y M f J x b d * h)%R c j =
  (along w J v c j + h * (along w J (fun b d => f b d / M b d) c j + along w J (fun b d => acts w y J x b d / M b d) c j))%R.
Proof.
  intros Hc. rewrite <- along_plus, <- along_scal, <- along_plus. apply along_ext. intros k d Hk Hd.
  destruct (HA c k Hc Hk) as (b & Eb & Hb). unfold who. rewrite Eb. unfold accel. field. now apply (HB b d Hb Hd).
Qed.

(** processConstraints of the optimized class, any state *)
Lemma opt_ge_constraints g (beta : R) v (f : nat -> nat -> R) L J C vb (K : kin T) (dt : R) hp (s : sstate T) :
  y_sle y = Some (SleGe g) -> solver_apart priv (SleGe g : sle T) -> y_cons y <> [] -> dt <> 0%R -> y_bias y = (Some beta : cl) ->
  (forall b d, In b (y_bodies y) -> d < 3 -> k_v K b d = (Some (v b d) : cl)) ->
  answers w y K (Some dt : cl) L -> rows_are w y (l_J L) J -> row_is w y (l_C L) C -> row_is w y (l_vb L) vb ->
  regular w y M J -> hinv priv hp -> minv_ok w y (hm hp) -> presents w y K (Some dt : cl) s -> forced w y (fun b d => (Some (f b d) : cl)) s ->
  wp (opt_process_constraints w y (Some dt : cl) hp s) (fun z => hinv priv (fst z) /\ minv_ok w y (hm (fst z)) /\
    presents w y (with_acc K (acc_of w y (fun b d => (Some (f b d) : cl)) (snd z))) (Some dt : cl) (snd z) /\
    exists x, forces_J w y J x (reac w y (snd z)) /\
      every_row w y (fun c j => along w J (fun b d => v b d + accel w y M f J x b d * dt) c j + vb c j + beta / dt * C c j = 0)%R).
Proof.
  intros El Hl HC0 Ndt Eb KV HW HJ HC Hvb HR Hhp Hmi HPr HFo. pose proof (pos_rows w y HS HC0) as Hm.
  set (b := fun r => (- (along w J (fun b d => / M b d * (dt * f b d) + v b d) (rc w y r) (rj w y r) + vb (rc w y r) (rj w y r) + beta / dt * C (rc w y r) (rj w y r)))%R).
  eapply wp_mono; [apply (opt_constraints_total priv w y K (Some dt : cl) (Some dt : cl) _ L hp s (SleGe g)
    (fun x => exists xr : nat -> R, (forall r, r < full_count w y -> x r = Some (xr r)) /\
      forall r, r < full_count w y -> along w J (fun b d => acts w y J (by_row w y xr) b d / M b d)%R (rc w y r) (rj w y r) = b r)
    HL HA HS H255 HPr HFo HW Hhp Hmi El Hl)|].
  - intros hp' (RP & (b0 & RS & RM) & _) _. unfold opt_solve. cbn [supports_limits negb sle_solve].
    eapply wp_mono; [apply (ge_prepared priv w y q0 v0 M HB (l_J L) _ J b hp' g HL HA HS H255 RP HJ HR Hl Hm)|intros z [Z1 Z2]; exact (conj (fun _ => Z1) Z2)].
    eapply (side_K K v f J vb C beta dt L); eauto.
  - intros [hp' s'] (x & (xr & EX & SX) & (Hi' & Mi' & P' & R') & _). cbn [fst snd] in *. split; [exact Hi'|]. split; [exact Mi'|]. split; [exact P'|].
    exists (fun c j => (/ dt * by_row w y xr c j)%R). split.
    + intros c j k d Hc Hj Hk' Hd. rewrite (R' c j k d Hc Hj Hk' Hd). destruct (row_at w y c j HL Hc Hj) as (Lr & _).
      rewrite (EX _ Lr), cofZ_R, divR by exact Ndt. rewrite (HJ c j Hc Hj) by lia. unfold by_row. cbn. f_equal. unfold Rdiv. ring.
    + apply (rows_all w y HL). intros r Hr. specialize (SX r Hr). unfold b in SX. destruct (row_of_lt w y r Hr) as (i & Ec & _). apply nth_error_In in Ec.
      rewrite (along_accel v f J _ _ _ dt Ec).
      rewrite (along_ext w J (fun b d => acts w y J (fun c j => / dt * by_row w y xr c j) b d / M b d)%R (fun b d => / dt * (acts w y J (by_row w y xr) b d / M b d))%R) by (intros k d _ _; rewrite acts_scal; unfold Rdiv; ring).
      rewrite along_scal, SX.
      assert (X : along w J (fun b d => / M b d * (dt * f b d) + v b d)%R (rc w y r) (rj w y r) = (dt * along w J (fun b d => f b d / M b d) (rc w y r) (rj w y r) + along w J v (rc w y r) (rj w y r))%R).
      { rewrite <- along_scal, <- along_plus. apply along_ext. intros; unfold Rdiv; ring. }
      rewrite X. field. exact Ndt.
Qed.

Lemma kicks_K z (h : R) K q v a (f : nat -> nat -> R) J x F K' : shown y K q v a -> forces_J w y J x F ->
  kicks z w y (Some h : cl) (fun b d => (Some (f b d) : cl)) F K K' ->
  let a' := accel w y M f J x in let v' := fun b d => (v b d + a' b d * h)%R in
  shown y K' (fun b d => q b d + (match z with Symplectic => v' b d | Explicit => v b d end) * h)%R v' a'.
Proof.
  intros HK HF [HN HM] a' v' b d Hb Hd. destruct (HM b d Hb Hd) as [MV MQ]. destruct (HK b d Hb Hd) as (Eq & Ev & _).
  pose proof (newton_J w y q0 v0 M HB f J x F _ HF HN b d Hb Hd) as EA. rewrite EA, Ev in MV. rewrite Eq in MQ.
  assert (MV' : k_v K' b d = (Some (v' b d) : cl)) by (rewrite MV; reflexivity). split; [|split; [exact MV'|exact EA]].
  rewrite MQ. destruct z; [rewrite MV'|rewrite Ev]; reflexivity.
Qed.
End Any.

Definition val (x : cl) : R := match x with Some r => r | None => 0%R end.
Definition qK (K : kin T) b d := val (k_q K b d).
Definition vK (K : kin T) b d := val (k_v K b d).
Definition aK (K : kin T) b d := val (k_a K b d).
Lemma shown_val y K q v a : shown y K q v a -> shown y K (qK K) (vK K) (aK K) /\ forall b d, In b (y_bodies y) -> d < 3 -> qK K b d = q b d /\ vK K b d = v b d /\ aK K b d = a b d.
Proof.
  intros H. assert (X : forall b d, In b (y_bodies y) -> d < 3 -> qK K b d = q b d /\ vK K b d = v b d /\ aK K b d = a b d).
  { intros b d Hb Hd. unfold qK, vK, aK. destruct (H b d Hb Hd) as (-> & -> & ->). auto. }
  split; [|exact X]. intros b d Hb Hd. destruct (X b d Hb Hd) as (-> & -> & ->). now apply H.
Qed.

Lemma ge_run k z m (dt : R) n t w y g (beta : R) q v M kc F : let h := (dt / INR n)%R in
  yreach k priv m w y -> uses k z y -> y_sle y = Some (SleGe g) -> attached w y -> kinds_are w y kc -> all_gentle w y -> body_count y <= 255 -> y_cons y <> [] ->
  dt <> 0%R -> y_bias y = (Some beta : cl) -> bodies_are w y q v M -> exerts w y h F -> 0 < n ->
  (forall q, regular w y M (fun c j i => J_of (kc c) (pose_at w q c) j i)) ->
  exists w' y' (qs vs ac : nat -> nat -> nat -> R), process k (Some dt : cl) n t w y = Ok (w', y') /\
    (forall b d, In b (y_bodies y) -> d < 3 -> qs 0 b d = q b d /\ vs 0 b d = v b d /\ ac 0 b d = 0%R) /\ ends w' y (qs n) (vs n) /\
    forall i, i < n -> sub_step k z w y kc beta M h (F (qs i) (vs i) (ac i)) (qs i) (vs i) (qs (S i)) (vs (S i)) (ac (S i)).
Proof.
  intros h H HU El HA HK HG H255 HC0 Ndt Eb HB HF Hn HR.
  pose proof (reg_listed _ _ _ (yreach_reg _ _ _ _ _ H)) as HL. pose proof (kinds_shaped w y kc HK) as HS. pose proof (kinds_parties w y kc HK) as H1.
  pose proof (yreach_inv priv _ m w y H) as (_ & _ & Hl & _). specialize (Hl _ El). pose proof (reach_nice priv _ _ _ _ H HA HS HG) as HN.
  assert (Nn : INR n <> 0%R) by (apply not_0_INR; lia).
  assert (Eh : cdiv (Some dt : cl) (cofZ (Z.of_nat n)) = (Some h : cl)) by (rewrite cofZ_R, <- INR_IZR_INZ; now apply divR).
  assert (Nh : h <> 0%R) by (unfold h, Rdiv; apply Rmult_integral_contrapositive_currified; [exact Ndt|now apply Rinv_neq_0_compat]).
  set (J := fun q c j i => J_of (kc c) (pose_at w q c) j i). set (Jd := fun q v c j i => Jd_of (kc c) (pose_at w q c) (pose_at w v c) j i). set (C := fun q c j => C_of (kc c) (pose_at w q c) j).
  set (law := fun q v f x => every_row w y (fun c j => match k with
      | Optimized => along w (J q) (fun b d => v b d + accel w y M f (J q) x b d * h) c j + bias_of (kc c) + beta / h * C q c j = 0
      | Generic => along w (J q) (accel w y M f (J q) x) c j + along w (Jd q v) v c j = - (ks_of (kc c) j * C q c j) - kd_of (kc c) j * along w (J q) v c j
      end)%R).
  set (FK := fun K => F (qK K) (vK K) (aK K)).
  set (Q := fun (K : kin T) (f : nat -> nat -> cl) (FF : nat -> nat -> nat -> nat -> cl) => f = (fun b d => (Some (FK K b d) : cl)) /\ exists x, forces_J w y (J (qK K)) x FF /\ law (qK K) (vK K) (FK K) x).
  set (P := fun (K : kin T) => shown y K (qK K) (vK K) (aK K)).
  assert (AD : advances priv k z w y (Some h : cl) P Q).
  { intros K SK. exists (fun b d => (Some (FK K b d) : cl)). split; [now apply HF|].
    assert (KI : kin_is y K (qK K) (vK K)) by (intros b d Hb Hd; destruct (SK b d Hb Hd) as (E1 & E2 & _); auto).
    assert (KV : forall b d, In b (y_bodies y) -> d < 3 -> k_v K b d = (Some (vK K b d) : cl)) by (intros b d Hb Hd; apply (SK b d Hb Hd)).
    pose proof (kinds_answer w y kc K (Some h : cl) _ _ HL HA HK KI) as HW.
    split; [|split].
    - intros hp s Hhp Hmi HPr HFo. destruct k; cbn [evaluates].
      + eapply wp_mono; [apply (opt_ge_constraints w y q v M HB HL HA HS H255 g beta (vK K) (FK K) _ (J (qK K)) (C (qK K)) (fun c j => bias_of (kc c)) K h hp s El Hl HC0 Nh Eb KV HW)|].
        * intros c j Hc Hj i Hi. reflexivity.
        * intros c j Hc Hj. reflexivity.
        * intros c j Hc Hj. reflexivity.
        * apply HR.
        * exact Hhp.
        * exact Hmi.
        * exact HPr.
        * exact HFo.
        * intros x (X1 & X2 & X3 & xx & X4 & X5). split; [exact X1|]. split; [exact X2|]. split; [exact X3|]. split; [reflexivity|]. exists xx. split; [exact X4|exact X5].
      + eapply wp_mono; [apply (gen_ge_constraints priv w y g q v (vK K) M (FK K) _ (J (qK K)) (Jd (qK K) (vK K)) (C (qK K)) (fun c j => ks_of (kc c) j) (fun c j => kd_of (kc c) j) K (Some h : cl) hp s HN El H1 H255 HC0 HB KV HW)|].
        * intros c j Hc Hj i Hi. reflexivity.
        * intros c j Hc Hj i Hi. reflexivity.
        * intros c j Hc Hj. reflexivity.
        * intros c j Hc Hj. reflexivity.
        * intros c j Hc Hj. reflexivity.
        * apply HR.
        * exact Hhp.
        * exact Hmi.
        * exact HPr.
        * exact HFo.
        * intros x (X1 & X2 & X3 & xx & X4 & X5). split; [exact X1|]. split; [exact X2|]. split; [exact X3|]. split; [reflexivity|]. exists xx. split; [exact X4|exact X5].
    - intros FF FF' EF (Y1 & x & Y3 & Y4). split; [exact Y1|]. exists x. split; [|exact Y4].
      intros c j i d Hc Hj Hi Hd. rewrite <- EF. now apply Y3.
    - intros FF K' (Y1 & x & Y3 & Y4) KK. exact (proj1 (shown_val y K' _ _ _ (kicks_K w y q v M HB z h K _ _ _ _ _ x FF K' SK Y3 KK))). }
  assert (P0 : shown y (kin_of w) q v (fun _ _ => 0%R)).
  { intros b d Hb Hd. cbn [kin_of k_q k_v k_a]. rewrite cofZ_R. destruct (HB b d Hb Hd) as (E1 & E2 & _). auto. }
  destruct (shown_val _ _ _ _ _ P0) as [PS0 PV0].
  rewrite <- Eh in AD.
  destruct (process_total priv k z m (Some dt : cl) n t w y P Q H HA HS HG HU AD PS0 Hn) as (w' & y' & K & E & (Ks & K0 & Kn & ST) & PK & AR).
  rewrite Eh in ST.
  exists w', y', (fun i => qK (Ks i)), (fun i => vK (Ks i)), (fun i => aK (Ks i)). split; [exact E|]. split; [rewrite K0; exact PV0|]. split.
  { intros b d Hb Hd. destruct (AR b d Hb Hd) as [-> ->]. rewrite Kn. destruct (PK b d Hb Hd) as (-> & -> & _). auto. }
  intros i Hi. cbv beta. destruct (ST i Hi) as (SK & f & FF & PF & (Ef & x & FJ & LW) & KK). subst f.
  pose proof (kicks_K w y q v M HB z h (Ks i) _ _ _ _ _ x FF (Ks (S i)) SK FJ KK) as S2. cbv zeta in S2. destruct (shown_val _ _ _ _ _ S2) as [_ V2].
  exists x. split.
  - intros b d Hb Hd. destruct (V2 b d Hb Hd) as (E1 & E2 & E3). split; [|split].
    + rewrite E3. unfold accel. fold (FK (Ks i)). fold (J (qK (Ks i))). field. apply (HB b d Hb Hd).
    + rewrite E2, E3. reflexivity.
    + rewrite E1. destruct z; [rewrite E2|]; reflexivity.
  - intros c j Hc Hj. specialize (LW c j Hc Hj). cbv beta in LW. unfold J, Jd, C in LW. destruct k.
    + rewrite <- LW. f_equal. f_equal. apply along_ext. intros p d Hp Hd. destruct (HA c p Hc Hp) as (b & Ebb & Hb). unfold who. rewrite Ebb. apply (V2 b d Hb Hd).
    + rewrite <- LW. f_equal. apply along_ext. intros p d Hp Hd. destruct (HA c p Hc Hp) as (b & Ebb & Hb). unfold who. rewrite Ebb. apply (V2 b d Hb Hd).
Qed.
End S.
