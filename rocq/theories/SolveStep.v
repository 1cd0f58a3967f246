(** * One step with Gaussian elimination in exact reals. *)

From Coq Require Import Reals Lra.
From Verif Require Import Base Targets Matrix Sparse Sle State Ode Forces Constraints System Logic RealSum
  MatrixFacts MatrixOps SpecMatrix MatrixHist SparseFacts SpecSparse SparseHist SpecSle SleHist SleGe
  SpecState StateFacts SpecOde OdeFacts SpecSys RegFacts SysFrame SysInv SpecDyn DynState DynReact DynRound DynStep DynGather DynRight DynReady SpecSolve SolveReal.
From Verif Require GeHist.
Local Open Scope nat_scope.

Section S.
Context {dbg : bool}.
Notation T := (RT dbg).
Implicit Types (w : world T) (y : sys T).
Variable priv : nat -> bool.

Lemma divR (a b : R) : b <> 0%R -> cdiv (Some a : cell T) (Some b : cell T) = (Some (a / b)%R : cell T).
Proof. intros H. cbn. unfold R_div. destruct (Req_EM_T b 0); [contradiction|reflexivity]. Qed.
Lemma mulR (a b : R) : cmul (Some a : cell T) (Some b : cell T) = (Some (a * b)%R : cell T).
Proof. reflexivity. Qed.
Lemma dt1 (dt : R) : cdiv (Some dt : cell T) (cofZ 1) = (Some dt : cell T).
Proof. rewrite cofZ_R, divR by lra. f_equal. field. Qed.

Section Columns.
Variables (w : world T) (y : sys T) (q v M : nat -> nat -> R).
Hypothesis HB : bodies_are w y q v M.
Lemma W3_cols c : c < 3 * body_count y -> W3 w y c = (Some (cols y (fun b d => / M b d)%R c) : cell T).
Proof.
  intros Hc. destruct (cols_split y c Hc) as (i & b & _ & Hd & Eb & Ei & Hb). unfold W3, inv_mass, cols. rewrite <- Ei, Eb.
  destruct (HB b _ Hb Hd) as (_ & _ & -> & N). rewrite cofZ_R, divR by exact N. f_equal. unfold Rdiv. lra.
Qed.
Lemma F3_cols (f : nat -> nat -> R) c : c < 3 * body_count y -> F3 y (fun b d => (Some (f b d) : cell T)) c = (Some (cols y f c) : cell T).
Proof. intros Hc. destruct (cols_split y c Hc) as (i & b & _ & Hd & Eb & Ei & Hb). unfold F3, ext_at, cols. now rewrite <- Ei, Eb. Qed.
Lemma V3_cols K c : (forall b d, In b (y_bodies y) -> d < 3 -> k_v K b d = (Some (v b d) : cell T)) ->
  c < 3 * body_count y -> V3 y K c = (Some (cols y v c) : cell T).
Proof. intros HV Hc. destruct (cols_split y c Hc) as (i & b & _ & Hd & Eb & Ei & Hb). unfold V3, vel_at, cols. rewrite <- Ei, Eb. now apply HV. Qed.
Lemma Q3_cols K (f : nat -> nat -> R) (dt : R) c : (forall b d, In b (y_bodies y) -> d < 3 -> k_v K b d = (Some (v b d) : cell T)) ->
  c < 3 * body_count y -> Q3 w y (Some dt : cell T) (fun b d => (Some (f b d) : cell T)) K c = (Some (cols y (fun b d => / M b d * (dt * f b d) + v b d)%R c) : cell T).
Proof.
  intros HV Hc. unfold Q3. rewrite W3_cols, F3_cols, V3_cols by assumption. cbn. f_equal.
  destruct (cols_split y c Hc) as (i & b & _ & Hd & Eb & Ei & Hb). unfold cols. now rewrite <- Ei, Eb.
Qed.

(** the solver's part *)
Lemma prepared_systemR val f J (b : nat -> R) hp : listed w y -> attached w y -> shaped w y -> body_count y <= 255 ->
  prepared priv w y val f hp -> rows_are w y val J ->
  is_mat false (hm hp iright) 1 (full_count w y) (fun r _ => (Some (b r) : cell T)) ->
  systemR hp sJ iMinv iright (3 * body_count y) (full_count w y) (DJ w y J) (cols y (fun b d => / M b d)%R) b.
Proof.
  intros HL HA HS H255 (H & HM & _ & v0 & HJ & HV) HJR Hb.
  pose proof (blkR_inside w y HL HA HS) as HI.
  exists (blkR w y), (vJ w y J). split; [|split; [exact HI|split; [apply DJ_sums|split]]].
  - pose proof (is_sp_shows 3 2 _ _ _ _ _ HJ) as (S1 & S2 & S3 & S4). split; [exact S1|]. split; [exact S2|]. split; [exact S3|].
    intros r e k Hr He Hk N. rewrite S4 by assumption. f_equal.
    assert (Le : e < c_bodycount (w_con w (rc w y r))).
    { destruct (Nat.lt_ge_cases e (c_bodycount (w_con w (rc w y r)))) as [L|L]; [exact L|]. rewrite empty_at in N by lia. contradiction. }
    rewrite HV by assumption. unfold vJ. apply (all_rows w y _ HJR r Hr). lia.
  - pose proof (is_mat_shows _ _ _ _ _ _ HM) as (S1 & S2 & S3). split; [exact S1|]. split; [exact S2|]. intros r c Hr Hc. rewrite S3 by assumption.
    f_equal. now apply W3_cols.
  - pose proof (is_mat_shows _ _ _ _ _ _ Hb) as (S1 & S2 & S3). split; [exact S1|]. split; [exact S2|]. intros r c Hr Hc. now rewrite S3.
Qed.
Lemma ge_prepared val f J (b : nat -> R) hp g : listed w y -> attached w y -> shaped w y -> body_count y <= 255 ->
  prepared priv w y val f hp -> rows_are w y val J -> regular w y M J -> solver_apart priv (SleGe (tg := T) g) -> 0 < full_count w y ->
  is_mat false (hm hp iright) 1 (full_count w y) (fun r _ => (Some (b r) : cell T)) ->
  wp (ge_solve g sJ iMinv iright ilambda ilambda hp) (fun z => snd z = true /\
    exists x, is_mat false (hm (fst z) ilambda) 1 (full_count w y) (fun r _ => (x r : cell T)) /\
      exists xr : nat -> R, (forall r, r < full_count w y -> x r = Some (xr r)) /\
        forall r, r < full_count w y -> along w J (fun b d => acts w y J (by_row w y xr) b d / M b d)%R (rc w y r) (rj w y r) = b r).
Proof.
  intros HL HA HS H255 HPr HJR HR Hl Hm Hb. pose proof (proj1 HPr) as H.
  assert (Hn : ge_names g sJ iMinv iright ilambda).
  { destruct Hl as (A1 & A2 & A3 & A4 & _). unfold ifree, sfree in *. split; [|unfold sJ; lia].
    repeat constructor; cbn; unfold iMinv, iright, ilambda; intuition (try lia; try congruence). }
  pose proof (prepared_systemR val f J b hp HL HA HS H255 HPr HJR Hb) as HSy.
  destruct (GeHist.ge_solves_inv dbg priv hp g sJ iMinv iright ilambda ilambda _ _ _ _ _ H Hn HSy (regular_nonsingular w y J HL HA HS H255 M HR))
    as (hp' & x & E & SX & SO & _).
  eapply wp_eq; [exact E|]. cbn [fst snd]. split; [reflexivity|].
  pose proof (pc_elim _ _ _ E (sle_solve_keeps priv (SleGe g) sJ iMinv iright ilambda ilambda hp Hl H)) as [[Kw _] _]. cbn [fst] in Kw.
  exists (fun r => Some (x r)). split.
  - apply shows_is_mat; [eapply wf_weaken; apply Kw|]. destruct (SX Hm) as (S1 & S2 & S3). split; [exact S1|]. split; [exact S2|exact S3].
  - exists x. split; [reflexivity|]. intros r Hr. rewrite <- (mulv_by_row w y J HL HA HS H255 M x r Hr). now apply SO.
Qed.

(** the right-hand side of the optimized system *)
Lemma opt_side_R (f : nat -> nat -> R) J vb C (beta dt : R) L hp b0 : listed w y -> attached w y -> shaped w y -> body_count y <= 255 ->
  dt <> 0%R -> y_bias y = Some beta -> rows_are w y (l_J L) J -> row_is w y (l_C L) C -> row_is w y (l_vb L) vb ->
  opt_sides w y (kin_of w) (Some dt : cell T) (fun b d => (Some (f b d) : cell T)) L b0 -> is_mat false (hm hp iright) 1 (full_count w y) (fun r _ => b0 r) ->
  is_mat false (hm hp iright) 1 (full_count w y) (fun r _ => (Some (- (along w J (fun b d => / M b d * (dt * f b d) + v b d) (rc w y r) (rj w y r) +
    vb (rc w y r) (rj w y r) + beta / dt * C (rc w y r) (rj w y r)))%R : cell T)).
Proof.
  intros HL HA HS H255 Ndt Eb HJ HC Hvb RS RM.
  eapply is_mat_ext; [exact RM|]. intros r c Hr _. cbv beta. destruct (RS r Hr) as (v0 & V0 & ->).
  rewrite (srow_along w y J HL HA HS H255 v0 _ (fun b d => / M b d * (dt * f b d) + v b d)%R r Hr).
  - rewrite (all_rows w y _ Hvb r Hr), (all_rows w y _ HC r Hr), Eb, divR by exact Ndt. reflexivity.
  - intros e k He Hk'. rewrite V0 by assumption. apply (all_rows w y _ HJ r Hr). lia.
  - intros c' Hc'. apply Q3_cols; [|exact Hc']. intros b' d Hb' Hd. cbn [kin_of k_v]. apply (HB b' d Hb' Hd).
Qed.

(** Newton's law with forces J x *)
Definition forces_J (J : nat -> nat -> nat -> R) (x : nat -> nat -> R) (F : nat -> nat -> nat -> nat -> cell T) : Prop :=
  forall c j k d, In c (y_cons y) -> j < c_count (w_con w c) -> k < c_bodycount (w_con w c) -> d < 3 -> F d c j k = Some (J c j (3 * k + d)%nat * x c j)%R.
Definition accel (f : nat -> nat -> R) (J : nat -> nat -> nat -> R) (x : nat -> nat -> R) (b d : nat) : R := ((f b d + acts w y J x b d) / M b d)%R.
Lemma newton_J (f : nat -> nat -> R) J x F a : forces_J J x F -> newton w y (fun b d => (Some (f b d) : cell T)) F a ->
  forall b d, In b (y_bodies y) -> d < 3 -> a b d = (Some (accel f J x b d) : cell T).
Proof.
  intros HF HN b d Hb Hd. rewrite (HN b d Hb Hd).
  rewrite (total_ext w y (F d) (fun c j k => (Some (J c j (3 * k + d)%nat * x c j)%R : cell T)) b) by (intros; now apply HF).
  rewrite total_R. destruct (HB b d Hb Hd) as (_ & _ & -> & N). rewrite cofZ_R, divR by exact N. rewrite mulR. f_equal. unfold accel, acts. field. exact N.
Qed.
Lemma kicks_J z (dt : R) (f : nat -> nat -> R) J x F K' : forces_J J x F -> kicks z w y (Some dt : cell T) (fun b d => (Some (f b d) : cell T)) F (kin_of w) K' ->
  let v' := fun b d => (v b d + accel f J x b d * dt)%R in
  forall b d, In b (y_bodies y) -> d < 3 ->
    k_v K' b d = (Some (v' b d) : cell T) /\ k_q K' b d = (Some (q b d + (match z with Symplectic => v' b d | Explicit => v b d end) * dt)%R : cell T).
Proof.
  intros HF [HN HM] v' b d Hb Hd. destruct (HM b d Hb Hd) as [MV MQ]. destruct (HB b d Hb Hd) as (Eq & Ev & _).
  rewrite (newton_J f J x F _ HF HN b d Hb Hd) in MV. cbn [kin_of k_v k_q] in *. rewrite Ev in MV. rewrite Eq in MQ.
  assert (MV' : k_v K' b d = (Some (v' b d) : cell T)) by (rewrite MV; reflexivity). split; [exact MV'|].
  rewrite MQ. destruct z; [rewrite MV'|cbn [kin_of k_v]; rewrite Ev]; reflexivity.
Qed.
Lemma accel_along f J x c j : In c (y_cons y) -> attached w y -> forall u a : R,
  along w J (fun b d => v b d * u + accel f J x b d * a)%R c j =
  (u * along w J v c j + a * (along w J (fun b d => f b d / M b d) c j + along w J (fun b d => acts w y J x b d / M b d) c j))%R.
Proof.
  intros Hc HA u a. rewrite <- along_plus, <- !along_scal, <- along_plus. apply along_ext. intros k d Hk Hd.
  destruct (HA c k Hc Hk) as (b & Eb & Hb). unfold who. rewrite Eb. unfold accel. field. now apply (HB b d Hb Hd).
Qed.
End Columns.

Lemma pos_rows w y : shaped w y -> y_cons y <> [] -> 0 < full_count w y.
Proof.
  intros HS HN. destruct (y_cons y) as [|c l] eqn:E; [congruence|]. assert (E0 : nth_error (y_cons y) 0 = Some c) by now rewrite E.
  destruct (HS c ltac:(rewrite E; now left)) as [H1 _]. pose proof (row_lt w y 0 c 0 E0 ltac:(lia)). lia.
Qed.

(** ** C58 *)
Lemma opt_ge_step m (dt : R) t w y g (beta : R) q v M f L J C vb :
  yreach Optimized priv m w y -> y_sle y = Some (SleGe g) -> attached w y -> shaped w y -> all_gentle w y -> body_count y <= 255 -> y_cons y <> [] ->
  dt <> 0%R -> y_bias y = Some beta -> bodies_are w y q v M ->
  answers w y (kin_of w) (Some dt : cell T) L -> rows_are w y (l_J L) J -> row_is w y (l_C L) C -> row_is w y (l_vb L) vb ->
  pushesR w y (kin_of w) dt f -> regular w y M J ->
  exists w' y' v' x, process Optimized (Some dt : cell T) 1 t w y = Ok (w', y') /\
    ends w' y (fun b d => q b d + v' b d * dt)%R v' /\
    every_row w y (fun c j => (along w J v' c j + vb c j + beta / dt * C c j = 0)%R) /\
    (forall b d, In b (y_bodies y) -> d < 3 -> (M b d * (v' b d - v b d) = (f b d + acts w y J x b d) * dt)%R) /\
    reportsR w w' y (fun d c j k => J c j (3 * k + d)%nat * x c j)%R.
Proof.
  intros H El HA HS HG H255 HC0 Ndt Eb HB HW HJ HC Hvb HP HR.
  pose proof (yreach_inv priv _ m w y H) as (Hh & Hs & Hl & Hk). destruct (Hk eq_refl) as (o & Eo & No).
  assert (So : is_scheme Symplectic o) by (destruct o; try contradiction; eexists; reflexivity).
  pose proof (reach_nice priv _ _ _ _ H HA HS HG) as HN. pose proof HN as (_ & HL & _). pose proof (pos_rows w y HS HC0) as Hm.
  pose proof (proj1 (profiling _ _ _ _ _ H)) as Hf. specialize (Hl _ El).
  set (b := fun r => (- (along w J (fun b d => / M b d * (dt * f b d) + v b d) (rc w y r) (rj w y r) + vb (rc w y r) (rj w y r) + beta / dt * C (rc w y r) (rj w y r)))%R).
  set (Q := fun (F : nat -> nat -> nat -> nat -> cell T) (_ : heap T) => exists x, forces_J w y J x F /\
    every_row w y (fun c j => along w J (fun b d => acts w y J x b d / M b d) c j * dt =
      - (along w J (fun b d => / M b d * (dt * f b d) + v b d) c j + vb c j + beta / dt * C c j))%R).
  pose proof (opt_total priv w y (Some dt : cell T) (fun b d => (Some (f b d) : cell T)) Q Hh Hs HN Hf (ex_intro _ o (conj Eo So))) as G.
  cbv zeta in G. unfold good_step in G. rewrite dt1 in G.
  destruct (G HP) with (t := t) as (w' & y' & K' & E & F & KK & (x & HF & HX) & AR & RP).
  - intros hp s Hhp Hmi _ HPr HFo.
    eapply wp_mono; [apply (opt_constraints_total priv w y (kin_of w) (Some dt : cell T) (Some dt : cell T) _ L hp s (SleGe g)
      (fun x => exists xr : nat -> R, (forall r, r < full_count w y -> x r = Some (xr r)) /\
        forall r, r < full_count w y -> along w J (fun b d => acts w y J (by_row w y xr) b d / M b d)%R (rc w y r) (rj w y r) = b r)
      HL HA HS H255 HPr HFo HW Hhp Hmi El Hl)|].
    + intros hp' (RP & (b0 & RS & RM) & _) _. unfold opt_solve. cbn [supports_limits negb sle_solve].
      eapply wp_mono; [apply (ge_prepared w y q v M HB (l_J L) _ J b hp' g HL HA HS H255 RP HJ HR Hl Hm)|intros z [Z1 Z2]; exact (conj (fun _ => Z1) Z2)].
      eapply (opt_side_R w y q v M HB f J vb C beta dt L); eauto.
    + intros [hp' s'] (x & (xr & EX & SX) & (Hi' & Mi' & P' & R') & _). cbn [fst snd] in *. split; [exact Hi'|]. split; [exact Mi'|]. split; [exact P'|].
      exists (fun c j => (/ dt * by_row w y xr c j)%R). split.
      * intros c j k d Hc Hj Hk' Hd. rewrite (R' c j k d Hc Hj Hk' Hd). destruct (row_at w y c j HL Hc Hj) as (Lr & _).
        rewrite (EX _ Lr), cofZ_R, divR by exact Ndt. rewrite (HJ c j Hc Hj) by lia. unfold by_row. cbn. f_equal. unfold Rdiv. ring.
      * apply (rows_all w y HL). intros r Hr. specialize (SX r Hr). unfold b in SX. rewrite <- SX.
        rewrite (along_ext w J _ (fun b d => / dt * (acts w y J (by_row w y xr) b d / M b d))%R).
        -- rewrite along_scal. field. exact Ndt.
        -- intros k d _ _. rewrite acts_scal. unfold Rdiv. ring.
  - intros F F' hp HE (x & A & B). exists x. split; [|exact B]. intros c j k d Hc Hj Hk' Hd. rewrite <- HE. now apply A.
  - pose proof (kicks_J w y q v M HB Symplectic dt f J x F K' HF KK) as KV. cbv zeta in KV.
    exists w', y', (fun b d => (v b d + accel w y M f J x b d * dt)%R), x. split; [exact E|]. split; [|split; [|split]].
    + intros b' d Hb' Hd. destruct (AR b' d Hb' Hd) as [-> ->]. destruct (KV b' d Hb' Hd) as [-> ->]. auto.
    + intros c j Hc Hj. specialize (HX c j Hc Hj).
      rewrite (along_ext w J _ (fun b d => v b d * 1 + accel w y M f J x b d * dt)%R) by (intros; ring).
      rewrite (accel_along w y q v M HB f J x c j Hc HA).
      assert (X : along w J (fun b d => / M b d * (dt * f b d) + v b d)%R c j = (dt * along w J (fun b d => f b d / M b d) c j + along w J v c j)%R).
      { rewrite <- along_scal, <- along_plus. apply along_ext. intros; unfold Rdiv; ring. }
      cbv beta in HX. rewrite X in HX. lra.
    + intros b' d Hb' Hd. unfold accel. field. apply (HB b' d Hb' Hd).
    + intros c j k d Hc Hj Hk' Hd. rewrite (RP eq_refl c j k d Hc Hj Hk' Hd). now apply HF.
Qed.

(** ** C59 *)
Definition gen_law w y v f M J Jd C ks kd (x : nat -> nat -> R) : Prop :=
  every_row w y (fun c j => along w J (accel w y M f J x) c j + along w Jd v c j = - (ks c j * C c j) - kd c j * along w J v c j)%R.
(** processConstraints itself, any state *)
Lemma gen_ge_constraints w y g q v0 v M (f : nat -> nat -> R) L J Jd C ks kd (K : kin T) h hp (s : sstate T) :
  nice priv w y -> y_sle y = Some (SleGe g) -> (forall c, In c (y_cons y) -> 1 <= c_bodycount (w_con w c)) ->
  body_count y <= 255 -> y_cons y <> [] -> bodies_are w y q v0 M ->
  (forall b d, In b (y_bodies y) -> d < 3 -> k_v K b d = (Some (v b d) : cell T)) ->
  answers w y K h L -> rows_are w y (l_J L) J -> rows_are w y (l_Jd L) Jd -> row_is w y (l_C L) C -> row_is w y (l_ks L) ks -> row_is w y (l_kd L) kd ->
  regular w y M J -> hinv priv hp -> minv_ok w y (hm hp) -> presents w y K h s -> forced w y (fun b d => (Some (f b d) : cell T)) s ->
  wp (gen_process_constraints w y hp s) (fun z => hinv priv (fst z) /\ minv_ok w y (hm (fst z)) /\
    presents w y (with_acc K (acc_of w y (fun b d => (Some (f b d) : cell T)) (snd z))) h (snd z) /\
    exists x, forces_J w y J x (reac w y (snd z)) /\ gen_law w y v f M J Jd C ks kd x).
Proof.
  intros (Hl & HL & HA & HS & HG) El H1 H255 HC0 HB KV HW HJ HJd HC Hks Hkd HR Hhp Hmi HPr HFo. specialize (Hl _ El). pose proof (pos_rows w y HS HC0) as Hm.
  set (b := fun r => (- along w Jd v (rc w y r) (rj w y r) - along w J (fun b d => / M b d * f b d) (rc w y r) (rj w y r)
     - ks (rc w y r) (rj w y r) * C (rc w y r) (rj w y r) - kd (rc w y r) (rj w y r) * along w J v (rc w y r) (rj w y r))%R).
  eapply wp_mono; [apply (gen_constraints_total priv w y K h (fun b d => (Some (f b d) : cell T)) L hp s (SleGe g)
    (fun x => exists xr : nat -> R, (forall r, r < full_count w y -> x r = Some (xr r)) /\
      forall r, r < full_count w y -> along w J (fun b d => acts w y J (by_row w y xr) b d / M b d)%R (rc w y r) (rj w y r) = b r)
    HL HA HS H1 H255 HPr HFo HW Hhp Hmi El Hl)|].
  - intros hp' (RP & (b0 & RS & RM)) _. cbn [sle_solve].
    apply (ge_prepared w y q v0 M HB (l_J L) _ J b hp' g HL HA HS H255 RP HJ HR Hl Hm).
    eapply is_mat_ext; [exact RM|]. intros r c Hr _. cbv beta. destruct (RS r Hr) as (r0 & r1 & V0 & V1 & ->).
    rewrite (srow_along w y Jd HL HA HS H255 r1 _ v r Hr).
    2:{ intros e k He Hk'. rewrite V1 by assumption. apply (all_rows w y _ HJd r Hr). lia. }
    2:{ intros c' Hc'. now apply (V3_cols y v). }
    rewrite (srow_along w y J HL HA HS H255 r0 _ (fun b d => / M b d * f b d)%R r Hr).
    2:{ intros e k He Hk'. rewrite V0 by assumption. apply (all_rows w y _ HJ r Hr). lia. }
    2:{ intros c' Hc'. rewrite (W3_cols w y q v0 M HB c' Hc'), (F3_cols y f c' Hc'). cbn. f_equal.
        destruct (cols_split y c' Hc') as (i & b1 & _ & Hd & Eb' & Ei & Hb). unfold cols. now rewrite <- Ei, Eb'. }
    rewrite (srow_along w y J HL HA HS H255 r0 _ v r Hr).
    2:{ intros e k He Hk'. rewrite V0 by assumption. apply (all_rows w y _ HJ r Hr). lia. }
    2:{ intros c' Hc'. now apply (V3_cols y v). }
    rewrite (all_rows w y _ Hks r Hr), (all_rows w y _ Hkd r Hr), (all_rows w y _ HC r Hr). reflexivity.
  - intros [hp' s'] (x & (xr & EX & SX) & Hi' & Mi' & P' & R'). cbn [fst snd] in *. split; [exact Hi'|]. split; [exact Mi'|]. split; [exact P'|].
    exists (by_row w y xr). split.
    + intros c j k d Hc Hj Hk' Hd. rewrite (R' c j k d Hc Hj Hk' Hd). destruct (row_at w y c j HL Hc Hj) as (Lr & _).
      rewrite (EX _ Lr). rewrite (HJ c j Hc Hj) by lia. unfold by_row. cbn. f_equal. ring.
    + apply (rows_all w y HL). intros r Hr. specialize (SX r Hr). destruct (row_of_lt w y r Hr) as (i & Ec & _). apply nth_error_In in Ec.
      rewrite (along_ext w J (accel w y M f J (by_row w y xr)) (fun b d => v0 b d * 0 + accel w y M f J (by_row w y xr) b d * 1)%R) by (intros; ring).
      rewrite (accel_along w y q v0 M HB f J _ _ _ Ec HA), SX. unfold b.
      rewrite (along_ext w J (fun b d => / M b d * f b d)%R (fun b d => f b d / M b d)%R) by (intros; unfold Rdiv; ring). ring.
Qed.
Lemma gen_ge_step z m (dt : R) t w y g q v M f L J Jd C ks kd :
  yreach Generic priv m w y -> uses Generic z y -> y_sle y = Some (SleGe g) -> attached w y -> shaped w y ->
  (forall c, In c (y_cons y) -> 1 <= c_bodycount (w_con w c)) -> all_gentle w y -> body_count y <= 255 -> y_cons y <> [] ->
  bodies_are w y q v M ->
  answers w y (kin_of w) (Some dt : cell T) L -> rows_are w y (l_J L) J -> rows_are w y (l_Jd L) Jd -> row_is w y (l_C L) C ->
  row_is w y (l_ks L) ks -> row_is w y (l_kd L) kd ->
  pushesR w y (kin_of w) dt f -> regular w y M J ->
  exists w' y' a x, process Generic (Some dt : cell T) 1 t w y = Ok (w', y') /\
    ends w' y (fun b d => q b d + (match z with Symplectic => v b d + a b d * dt | Explicit => v b d end) * dt)%R (fun b d => v b d + a b d * dt)%R /\
    every_row w y (fun c j => along w J a c j + along w Jd v c j = - (ks c j * C c j) - kd c j * along w J v c j)%R /\
    (forall b d, In b (y_bodies y) -> d < 3 -> (M b d * a b d = f b d + acts w y J x b d)%R).
Proof.
  intros H [h0 Eo] El HA HS H1 HG H255 HC0 HB HW HJ HJd HC Hks Hkd HP HR.
  pose proof (yreach_inv priv _ m w y H) as (Hh & Hs & Hl & _).
  pose proof (reach_nice priv _ _ _ _ H HA HS HG) as HN.
  pose proof (proj1 (profiling _ _ _ _ _ H)) as Hf.
  set (Q := fun (F : nat -> nat -> nat -> nat -> cell T) (_ : heap T) => exists x, forces_J w y J x F /\ gen_law w y v f M J Jd C ks kd x).
  pose proof (gen_total priv z w y (Some dt : cell T) (fun b d => (Some (f b d) : cell T)) Q Hh Hs HN Hf (ex_intro _ _ (conj Eo (ex_intro _ h0 eq_refl)))) as G.
  cbv zeta in G. unfold good_step in G. rewrite dt1 in G.
  destruct (G HP) with (t := t) as (w' & y' & K' & E & F & KK & (x & HF & HX) & AR & RP).
  - intros hp s Hhp Hmi _ HPr HFo. apply (gen_ge_constraints w y g q v v M f L J Jd C ks kd (kin_of w) (Some dt) hp s); auto.
    intros b d Hb Hd. cbn [kin_of k_v]. apply (HB b d Hb Hd).
  - intros F F' hp HE (x & A & B). exists x. split; [|exact B]. intros c j k d Hc Hj Hk' Hd. rewrite <- HE. now apply A.
  - pose proof (kicks_J w y q v M HB z dt f J x F K' HF KK) as KV. cbv zeta in KV.
    exists w', y', (accel w y M f J x), x. split; [exact E|]. split; [|split].
    + intros b' d Hb' Hd. destruct (AR b' d Hb' Hd) as [-> ->]. destruct (KV b' d Hb' Hd) as [-> ->]. auto.
    + exact HX.
    + intros b' d Hb' Hd. unfold accel. field. apply (HB b' d Hb' Hd).
Qed.
End S.
