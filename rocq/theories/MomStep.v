(** * Momentum: rows of both classes, the exchange of sums, and steps. *)

From Coq Require Import Reals Lra.
From Verif Require Import Base Targets Matrix Sparse Sle State Ode Forces Constraints System Logic
  MatrixFacts MatrixOps SpecMatrix MatrixHist SparseFacts SpecSparse SparseHist SpecSle SleHist SleGe SleGs
  SpecState StateFacts SpecOde OdeFacts SpecForces SpecCon ConFacts SpecSys RegFacts SysFrame SysInv SysColumn SpecDyn DynState DynReact DynRound DynStep DynGather DynRight DynReady DynSolver
  SpecLimits DynLimits SpecSolve RealSum SolveReal SolveStep SpecLaw LawReal LawStep SpecMom MomForce.
Local Open Scope nat_scope.

(** ** the generic class: multipliers times rows, any number format *)
Section S.
Context {tg : target}.
Notation st := (sstate tg).
Implicit Types (w : world tg) (y : sys tg) (L : law tg).
Variable priv : nat -> bool.

Lemma gen_rows_any w y h l : apart priv y -> listed w y -> attached w y -> shaped w y -> (forall c, In c (y_cons y) -> 1 <= c_bodycount (w_con w c)) ->
  body_count y <= 255 -> y_sle y = Some l -> supplied l ->
  evaluates priv w y (gen_process_constraints w y) h (with_rows w y h (fun _ _ => True)).
Proof.
  intros Hl HL HA HS H1 HB El Hs hp s K f H HC HM HP HF. apply pc_intro. intros z E.
  pose proof (pc_elim _ _ _ E (gen_evaluates priv w y h Hl HL HA HS hp s K f H HC HM HP HF)) as (A & B & C & _).
  split; [exact A|]. split; [exact B|]. split; [exact C|]. intros L HW.
  destruct (cons_full w y HL HS) as [Hm|En].
  2: { exists (fun _ _ => cofZ 0). split; [exact I|]. intros c j k d Hc. rewrite En in Hc. destruct Hc. }
  assert (Q : forall hp', gen_ready priv w y K f L hp' -> hm hp' ilambda = hm hp ilambda -> pc (sle_solve l sJ iMinv iright ilambda ilambda hp')
     (fun z => exists x, is_mat false (hm (fst z) ilambda) 1 (full_count w y) (fun r _ => x r) /\ True)).
  { intros hp' (RP & (b & _ & Hb)) E'. apply pc_intro. intros z' Ez.
    pose proof (pc_elim _ _ _ Ez (sle_solve_tall priv l w y (l_J L) f hp' b Hs (Hl l El) HL HA HS RP Hb Hm ltac:(rewrite E'; exact HC))) as Tz.
    pose proof (pc_elim _ _ _ Ez (sle_solve_keeps priv l _ _ _ _ _ hp' (Hl l El) (proj1 RP))) as [[Wz _] _].
    destruct (tall_is_mat _ _ ilambda _ (Wz ilambda) Tz) as [x Hx]. eauto. }
  pose proof (pc_elim _ _ _ E (gen_constraints_pc priv w y K h f L hp s l (fun _ => True) HL HA HS H1 HB HP HF HW H HM El (Hl l El) Q)) as G.
  destruct G as (x & _ & _ & _ & _ & R).
  exists (fun c j => x (row0 w y c + j)). split; [exact I|]. exact R.
Qed.
Lemma rows_motion k z m dt n t w y w' y' l : yreach k priv m w y -> uses k z y -> attached w y -> shaped w y ->
  (forall c, In c (y_cons y) -> 1 <= c_bodycount (w_con w c)) -> all_gentle w y -> body_count y <= 255 ->
  y_sle y = Some l -> supplied l -> process k dt n t w y = Ok (w', y') ->
  let h := cdiv dt (cofZ (Z.of_nat n)) in
  exists K F, motion_by (with_rows w y h (fun _ _ => True)) z w y h n (kin_of w) K F /\ arrives w' y K.
Proof.
  intros H HU HA HS H1 HG HB El Hs E h. destruct k; cbn [uses process] in *.
  - subst z. destruct (opt_rows_motion priv m dt n t w y w' y' l H HA HS HG HB El Hs E) as (K & F & M & A & _). eauto.
  - destruct HU as [h0 Eo]. pose proof (yreach_inv priv _ m w y H) as (Hh & Hst & Hl & Hk).
    pose proof (reach_nice priv _ _ _ _ H HA HS HG) as HN. pose proof HN as (_ & HL & _).
    destruct (gen_process_motion priv (with_rows w y h (fun _ _ => True)) z dt n t w y w' y' Hh (yreach_column priv _ m w y H) Hst HN
      (fun s0 => gen_rows_any w (with_state y s0) _ l Hl HL HA HS H1 HB El Hs)
      (with_rows_slots w y h _) (ex_intro _ _ (conj Eo (ex_intro _ h0 eq_refl))) E) as (K & F & s & M & A & _).
    exists K, (reac w y s). split; [exact M|exact A].
Qed.
End S.

Section R.
Context {dbg : bool}.
Notation T := (RT dbg).
Notation cl := (cell T).
Implicit Types (w : world T) (y : sys T) (K : kin T).

(** ** the work of the constraint forces in any motion u *)
Lemma binds_one w y c j k (g : nat -> R) : NoDup (y_bodies y) -> attached w y -> In c (y_cons y) -> k < c_bodycount (w_con w c) ->
  Lsum (y_bodies y) (fun b => if binds w b (c, j, k) then g b else 0%R) = g (who w c k).
Proof.
  intros ND HA Hc Hk. destruct (HA c k Hc Hk) as (b0 & E & Hb). unfold who. rewrite E.
  rewrite <- (Lsum_one (y_bodies y) b0 g ND Hb). apply Lsum_ext. intros b _. unfold binds. rewrite E. now rewrite Nat.eqb_sym.
Qed.
Lemma slots_in w y e : In e (slots w y) -> let '(c, j, k) := e in In c (y_cons y) /\ j < c_count (w_con w c) /\ k < c_bodycount (w_con w c).
Proof.
  intros He. unfold slots in He. apply in_flat_map in He. destruct He as (c & Hc & He). apply in_flat_map in He. destruct He as (j & Hj & He).
  apply in_map_iff in He. destruct He as (k & <- & Hk). apply in_seq in Hj. apply in_seq in Hk. repeat split; auto; lia.
Qed.
Lemma rows_in w y c j : In (c, j) (row_list w y) -> In c (y_cons y) /\ j < c_count (w_con w c).
Proof.
  intros He. unfold row_list in He. apply in_flat_map in He. destruct He as (c' & Hc & He).
  apply in_map_iff in He. destruct He as (j' & [= <- <-] & Hj). apply in_seq in Hj. split; auto; lia.
Qed.
Lemma acts_along w y J x (u : nat -> nat -> R) : NoDup (y_bodies y) -> attached w y ->
  Lsum (y_bodies y) (fun b => Rsum 3 (fun d => u b d * acts w y J x b d))%R = Lsum (row_list w y) (fun '(c, j) => x c j * along w J u c j)%R.
Proof.
  intros ND HA.
  transitivity (Lsum (slots w y) (fun '(c, j, k) => x c j * Rsum 3 (fun d => J c j (3 * k + d)%nat * u (who w c k) d))%R).
  - transitivity (Lsum (y_bodies y) (fun b => Lsum (slots w y) (fun '(c, j, k) => if binds w b (c, j, k) then x c j * Rsum 3 (fun d => J c j (3 * k + d)%nat * u b d) else 0)))%R.
    + apply Lsum_ext. intros b _. unfold acts. cbn [Rsum]. rewrite <- !Lsum_scal.
      transitivity (Lsum (slots w y) (fun e => 0 + u b 0%nat * (let '(c, j, k) := e in if binds w b (c, j, k) then J c j (3 * k + 0)%nat * x c j else 0)
         + u b 1%nat * (let '(c, j, k) := e in if binds w b (c, j, k) then J c j (3 * k + 1)%nat * x c j else 0)
         + u b 2%nat * (let '(c, j, k) := e in if binds w b (c, j, k) then J c j (3 * k + 2)%nat * x c j else 0)))%R.
      * rewrite !Lsum_plus, Lsum_zero. reflexivity.
      * apply Lsum_ext. intros [[c j] k] _. destruct (binds w b (c, j, k)); ring.
    + rewrite Lsum_swap. apply Lsum_ext. intros [[c j] k] He. destruct (slots_in w y _ He) as (Hc & _ & Hk).
      exact (binds_one w y c j k (fun b => x c j * Rsum 3 (fun d => J c j (3 * k + d)%nat * u b d))%R ND HA Hc Hk).
  - rewrite rows_flat, Lsum_flat. apply Lsum_ext. intros [c j] _. rewrite Lsum_map, Lsum_seq. cbn [fst snd]. unfold along. rewrite <- Rsum_scal_l.
    apply Rsum_ext. intros k _. reflexivity.
Qed.

(** ** a row between bodies of the system has no total force *)
Definition only (d : nat) (b d' : nat) : R := if Nat.eqb d' d then 1%R else 0%R.
Ltac small r := first [exfalso; lia|destruct r as [|r]; [|small r]].
Lemma inner_row w y kc q c j d : kinds_are w y kc -> In c (y_cons y) -> inner (kc c) -> j < c_count (w_con w c) -> d < 2 ->
  along w (fun c j i => J_of (kc c) (pose_at w q c) j i) (only d) c j = 0%R.
Proof.
  intros HK Hc HI Hj Hd. destruct (HK c Hc) as (_ & Er & Ep). rewrite Er in Hj. unfold along. rewrite Ep.
  destruct (kc c); cbn [inner] in HI; try contradiction; cbn [rows parties] in *; small j; small d; cbn [Rsum J_of nth Nat.mul Nat.add]; unfold only; cbv beta iota zeta delta [Nat.eqb]; ring.
Qed.
Lemma inner_acts w y kc q x d : NoDup (y_bodies y) -> attached w y -> kinds_are w y kc -> (forall c, In c (y_cons y) -> inner (kc c)) -> d < 2 ->
  Lsum (y_bodies y) (fun b => acts w y (fun c j i => J_of (kc c) (pose_at w q c) j i) x b d) = 0%R.
Proof.
  intros ND HA HK HI Hd.
  transitivity (Lsum (y_bodies y) (fun b => Rsum 3 (fun d' => only d b d' * acts w y (fun c j i => J_of (kc c) (pose_at w q c) j i) x b d'))%R).
  - apply Lsum_ext. intros b _. cbn [Rsum]. unfold only. destruct d as [|[|]]; try lia; cbv beta iota zeta delta [Nat.eqb]; ring.
  - rewrite acts_along by assumption. rewrite (Lsum_ext _ _ (fun _ => 0%R)); [apply Lsum_zero|]. intros [c j] He.
    destruct (rows_in w y c j He) as (Hc & Hj). rewrite (inner_row w y kc q c j d HK Hc (HI c Hc) Hj Hd). ring.
Qed.

(** ** if the motion ends with real numbers, it had real numbers all along *)
Definition rp (x : cl) : R := match x with Some a => a | None => 0%R end.
Lemma rp_some (x : cl) : x <> None -> x = (Some (rp x) : cl).
Proof. destruct x; [reflexivity|congruence]. Qed.
Lemma cadd_real (x y : cl) : cadd x y <> None -> x <> None /\ y <> None.
Proof. destruct x, y; cbn; intuition congruence. Qed.
Lemma cmul_real (x y : cl) : cmul x y <> None -> x <> None /\ y <> None.
Proof. destruct x, y; cbn; intuition congruence. Qed.
Definition realK y K : Prop := forall b d, In b (y_bodies y) -> d < 3 -> k_q K b d <> None /\ k_v K b d <> None.
Lemma realK_is y K : realK y K -> kin_is y K (fun b d => rp (k_q K b d)) (fun b d => rp (k_v K b d)).
Proof. intros H b d Hb Hd. destruct (H b d Hb Hd). split; now apply rp_some. Qed.
Lemma moves_back z y h K K' : moves z y h K K' -> realK y K' -> realK y K /\ (forall b d, In b (y_bodies y) -> d < 3 -> k_a K' b d <> None).
Proof.
  intros HM HR. split; intros b d Hb Hd; destruct (HM b d Hb Hd) as [EV EQ], (HR b d Hb Hd) as [Q V]; rewrite EV in V; rewrite EQ in Q.
  - split; [apply cadd_real in Q; tauto|apply cadd_real in V; tauto].
  - apply cadd_real in V. apply (cmul_real _ h). tauto.
Qed.
Lemma total_real w y F b x0 : total_on w y F b x0 <> None -> x0 <> None /\ forall c j k, In (c, j, k) (slots w y) -> binds w b (c, j, k) = true -> F c j k <> None.
Proof.
  unfold total_on. revert x0. induction (slots w y) as [|[[c j] k] l IH]; intros x0 H; cbn [fold_left] in H; [split; [exact H|intros ? ? ? []]|].
  destruct (binds w b (c, j, k)) eqn:Eb.
  - destruct (IH _ H) as [A B]. apply cadd_real in A. split; [tauto|]. intros c' j' k' [[= <- <- <-]|Hi] E; [tauto|]. now apply B.
  - destruct (IH _ H) as [A B]. split; [exact A|]. intros c' j' k' [[= <- <- <-]|Hi] E; [congruence|]. now apply B.
Qed.
Lemma slot_in w y c j k : In c (y_cons y) -> j < c_count (w_con w c) -> k < c_bodycount (w_con w c) -> In (c, j, k) (slots w y).
Proof.
  intros Hc Hj Hk. unfold slots. apply in_flat_map. exists c. split; [exact Hc|]. apply in_flat_map. exists j. split; [apply in_seq; lia|].
  apply in_map_iff. exists k. split; [reflexivity|]. apply in_seq; lia.
Qed.
Lemma newton_real w y f F a : attached w y -> newton w y f F a -> (forall b d, In b (y_bodies y) -> d < 3 -> a b d <> None) ->
  forall c j k d, In c (y_cons y) -> j < c_count (w_con w c) -> k < c_bodycount (w_con w c) -> d < 3 -> F d c j k <> None.
Proof.
  intros HA HN Ha c j k d Hc Hj Hk Hd. destruct (HA c k Hc Hk) as (b & Eb & Hb). pose proof (Ha b d Hb Hd) as X. rewrite (HN b d Hb Hd) in X.
  apply cmul_real in X. destruct X as [X _]. apply (total_real w y (F d) b) in X. apply X; [now apply slot_in|].
  unfold binds. rewrite Eb. apply Nat.eqb_refl.
Qed.

(** ** one round *)
Lemma round_real w y z (h : R) q v M kc f fc F K K' :
  listed w y -> attached w y -> kinds_are w y kc -> bodies_are w y q v M ->
  kicks z w y (Some h : cl) fc F K K' -> realK y K' -> forces_at w y K (Some h : cl) fc -> pushesR w y K h f ->
  with_rows w y (Some h : cl) (fun _ _ => True) K fc F ->
  exists x, let q0 := fun b d => rp (k_q K b d) in let v0 := fun b d => rp (k_v K b d) in let v1 := fun b d => rp (k_v K' b d) in
    kin_is y K q0 v0 /\ kin_is y K' (fun b d => q0 b d + (match z with Symplectic => v1 b d | Explicit => v0 b d end) * h)%R v1 /\
    forall b d, In b (y_bodies y) -> d < 3 -> (M b d * (v1 b d - v0 b d) = (f b d + acts w y (fun c j i => J_of (kc c) (pose_at w q0 c) j i) x b d) * h)%R.
Proof.
  intros HL HA HK HB [HN HM] HR HF HP HW. destruct (moves_back _ _ _ _ _ HM HR) as [HR0 Ha].
  set (q0 := fun b d => rp (k_q K b d)). set (v0 := fun b d => rp (k_v K b d)). set (v1 := fun b d => rp (k_v K' b d)).
  pose proof (realK_is y K HR0) as E0. pose proof (realK_is y K' HR) as E1.
  destruct (HW (law_R w kc q0 v0) (kinds_answer w y kc K _ q0 v0 HL HA HK E0)) as (xc & _ & HX).
  set (x := fun c j => rp (xc c j)). set (J := fun c j i => J_of (kc c) (pose_at w q0 c) j i).
  assert (HJ : forces_J w y J x F).
  { intros c j k d Hc Hj Hk Hd. pose proof (newton_real w y fc F _ HA HN Ha c j k d Hc Hj Hk Hd) as X. rewrite (HX c j k d Hc Hj Hk Hd) in *.
    apply cmul_real in X. destruct X as [X _]. rewrite (rp_some _ X). cbn [law_R l_J]. rewrite mulR. f_equal. unfold x, J. ring. }
  assert (HN' : newton w y (fun b d => (Some (f b d) : cl)) F (k_a K')).
  { intros b d Hb Hd. rewrite (HN b d Hb Hd). rewrite (HF _ HP b d Hb Hd). reflexivity. }
  pose proof (newton_J w y q v M HB f J x F (k_a K') HJ HN') as EA.
  assert (EV : forall b d, In b (y_bodies y) -> d < 3 -> v1 b d = (v0 b d + accel w y M f J x b d * h)%R).
  { intros b d Hb Hd. destruct (HM b d Hb Hd) as [MV _]. rewrite (EA b d Hb Hd) in MV. destruct (E0 b d Hb Hd) as [_ X0]. rewrite X0 in MV.
    unfold v1. rewrite MV. reflexivity. }
  assert (EX : forall b d, In b (y_bodies y) -> d < 3 -> (M b d * (v1 b d - v0 b d) = (f b d + acts w y J x b d) * h)%R).
  { intros b d Hb Hd. rewrite (EV b d Hb Hd). unfold accel. destruct (HB b d Hb Hd) as (_ & _ & _ & N). field. exact N. }
  exists x. split; [exact E0|]. split; [|exact EX].
  intros b d Hb Hd. split; [|now apply E1]. destruct (HM b d Hb Hd) as [_ MQ]. rewrite MQ. destruct (E0 b d Hb Hd) as [X0 V0], (E1 b d Hb Hd) as [_ V1].
  rewrite X0. destruct z; [rewrite V1|rewrite V0]; reflexivity.
Qed.

Section Steps.
Variables (w : world T) (y : sys T) (z : scheme) (h : R) (q v M : nat -> nat -> R) (kc : nat -> rkind) (e : nat -> nat -> R).
Hypotheses (HL : listed w y) (HA : attached w y) (HK : kinds_are w y kc) (HB : bodies_are w y q v M).
Hypotheses (HI : forall c, In c (y_cons y) -> inner (kc c)) (HG : forall g, In g (y_gens y) -> outer y M (g_kind (w_gen w g)) (e g)).
Definition mom K d := momentum y M (fun b d => rp (k_v K b d)) d.
Lemma masses b : In b (y_bodies y) -> b_f (w_body w b) Bm = (Some (M b 0) : cl).
Proof. intros Hb. apply (HB b 0 Hb). lia. Qed.
Lemma round_momentum fc F K K' d : d < 2 -> kicks z w y (Some h : cl) fc F K K' -> realK y K' -> forces_at w y K (Some h : cl) fc ->
  with_rows w y (Some h : cl) (fun _ _ => True) K fc F ->
  realK y K /\ mom K' d = (mom K d + h * Lsum (y_gens y) (fun g => e g d))%R.
Proof.
  intros Hd HKi HR HF HW. destruct (moves_back _ _ _ _ _ (proj2 HKi) HR) as [HR0 _]. split; [exact HR0|].
  destruct (outer_pushes w y K h _ _ M e HL (realK_is y K HR0) masses HG) as (f & HP & Hf).
  destruct (round_real w y z h q v M kc f fc F K K' HL HA HK HB HKi HR HF HP HW) as (x & _ & _ & EX). cbv zeta in EX.
  assert (E : (mom K' d - mom K d = h * Lsum (y_gens y) (fun g => e g d))%R); [|lra].
  rewrite <- (Hf d Hd). unfold mom, momentum.
  transitivity (Lsum (y_bodies y) (fun b => M b d * (rp (k_v K' b d) - rp (k_v K b d))))%R.
  { transitivity (Lsum (y_bodies y) (fun b => M b d * rp (k_v K' b d)) + Lsum (y_bodies y) (fun b => (-1) * (M b d * rp (k_v K b d))))%R.
    - rewrite Lsum_scal. ring.
    - rewrite <- Lsum_plus. apply Lsum_ext. intros; ring. }
  rewrite (Lsum_ext (y_bodies y) _ (fun b => h * f b d + h * acts w y (fun c j i => J_of (kc c) (pose_at w (fun b d => rp (k_q K b d)) c) j i) x b d)%R).
  2:{ intros b Hb. rewrite (EX b d Hb ltac:(lia)). ring. }
  rewrite Lsum_plus, !Lsum_scal. rewrite (inner_acts w y kc _ x d) by (auto; eapply listed_nodup; eauto). ring.
Qed.
Lemma rounds_momentum n Kn Fn d : d < 2 -> motion_by (with_rows w y (Some h : cl) (fun _ _ => True)) z w y (Some h : cl) n (kin_of w) Kn Fn -> realK y Kn ->
  mom Kn d = (mom (kin_of w) d + INR n * h * Lsum (y_gens y) (fun g => e g d))%R.
Proof.
  intros Hd (Ks & fs & Fs & E0 & En & HS & _) HR.
  assert (B : forall i, i <= n -> realK y (Ks (n - i))).
  { induction i as [|i IH]; intros Hi; [now rewrite Nat.sub_0_r, En|]. specialize (IH ltac:(lia)).
    destruct (HS (n - S i) ltac:(lia)) as (HF & HKi & HW). replace (S (n - S i)) with (n - i) in HKi by lia.
    exact (proj1 (moves_back _ _ _ _ _ (proj2 HKi) IH)). }
  assert (G : forall i, i <= n -> mom (Ks i) d = (mom (kin_of w) d + INR i * h * Lsum (y_gens y) (fun g => e g d))%R).
  { induction i as [|i IH]; intros Hi; [rewrite E0; cbn [INR]; ring|]. destruct (HS i ltac:(lia)) as (HF & HKi & HW).
    assert (HRi : realK y (Ks (S i))) by (replace (S i) with (n - (n - S i)) by lia; apply B; lia).
    rewrite (proj2 (round_momentum _ _ _ _ d Hd HKi HRi HF HW)), IH by lia. rewrite S_INR. ring. }
  rewrite <- En. apply G. lia.
Qed.
End Steps.

Variable priv : nat -> bool.
Lemma mom_is y M K q v d : kin_is y K q v -> d < 3 -> mom y M K d = momentum y M v d.
Proof. intros H Hd. apply Lsum_ext. intros b Hb. destruct (H b d Hb Hd) as [_ ->]. reflexivity. Qed.
Lemma momentum_law k z m (dt : R) n t w y w' y' l q v M kc e q' v' :
  yreach k priv m w y -> uses k z y -> y_sle y = Some l -> supplied l -> attached w y -> kinds_are w y kc -> (forall c, In c (y_cons y) -> inner (kc c)) ->
  (forall g, In g (y_gens y) -> outer y M (g_kind (w_gen w g)) (e g)) -> body_count y <= 255 -> bodies_are w y q v M ->
  0 < n -> process k (Some dt : cl) n t w y = Ok (w', y') -> ends w' y q' v' ->
  forall d, d < 2 -> momentum y M v' d = (momentum y M v d + dt * Lsum (y_gens y) (fun g => e g d))%R.
Proof.
  intros H HU El Hs HA HK HI HG H255 HB Hn E HE d Hd.
  pose proof (reg_listed _ _ _ (yreach_reg _ _ _ _ _ H)) as HL.
  destruct (rows_motion priv k z m (Some dt : cl) n t w y w' y' l H HU HA (kinds_shaped w y kc HK) (kinds_parties w y kc HK) (outer_gentle w y M e HG) H255 El Hs E) as (K & F & HM & HAr).
  assert (Nn : IZR (Z.of_nat n) <> 0%R). { intros X. apply (eq_IZR _ 0) in X. lia. }
  cbv zeta in HM. rewrite cofZ_R, divR in HM by exact Nn.
  assert (KE : kin_is y K q' v').
  { intros b d' Hb Hd'. destruct (HAr b d' Hb Hd') as [A1 A2], (HE b d' Hb Hd') as [B1 B2]. split; congruence. }
  assert (KR : realK y K).
  { intros b d' Hb Hd'. destruct (KE b d' Hb Hd') as [-> ->]. split; congruence. }
  pose proof (rounds_momentum w y z _ q v M kc e HL HA HK HB HI HG n K F d Hd HM KR) as G.
  rewrite (mom_is y M K q' v' d KE ltac:(lia)) in G. rewrite G.
  rewrite (mom_is y M (kin_of w) q v d) by (lia || (intros b d' Hb Hd'; destruct (HB b d' Hb Hd') as (A1 & A2 & _); now split)).
  f_equal. f_equal. rewrite <- INR_IZR_INZ in *. field. exact Nn.
Qed.
End R.
