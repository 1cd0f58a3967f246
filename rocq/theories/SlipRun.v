(** * Frictions, clutches and rotors over any number of calls. *)

From Coq Require Import Reals Lra.
From Verif Require Import Base Targets Matrix Sparse Sle State Ode Forces Constraints System Logic RealSum SpecMatrix SpecState SpecForces SpecCon ConFacts SpecSle SleHist
  SpecSys RegFacts SysInv SpecDyn DynState DynReact DynRound DynStep DynGather DynRight DynReady DynSolver SpecSolve SolveReal SolveStep SpecLaw LawReal LawStep SpecLimits GsStep LimitStep SpecMom MomForce MomStep SpecSub SubOde SubRun
  SpecLeast LeastReal LeastStep LeastPart StaticReal SpecSlip SlipStep.
Local Open Scope nat_scope.

Section S.
Context {dbg : bool}.
Notation T := (RT dbg).
Notation cl := (cell T).
Implicit Types (w : world T) (y : sys T).
Variable priv : nat -> bool.

(** what one row alone puts on a body *)
Lemma acts_one w y J c b d : NoDup (y_cons y) -> In c (y_cons y) -> c_count (w_con w c) = 1 ->
  acts w y J (fun c0 j0 => if Nat.eqb c0 c && Nat.eqb j0 0 then 1%R else 0%R) b d =
  Rsum (c_bodycount (w_con w c)) (fun k => if binds w b (c, 0, k) then J c 0 (3 * k + d)%nat else 0%R).
Proof.
  intros ND Hc E1. unfold acts. rewrite slots_sum.
  rewrite (Lsum_ext (y_cons y) _ (fun c0 => if Nat.eqb c0 c then Lsum (seq 0 (c_bodycount (w_con w c0))) (fun k => if binds w b (c0, 0, k) then J c0 0 (3 * k + d)%nat else 0%R) else 0%R)).
  - rewrite Lsum_one by assumption. now rewrite Lsum_seq.
  - intros c0 H0. destruct (Nat.eqb_spec c0 c) as [->|N].
    + rewrite E1. cbn [seq]. rewrite Lsum_cons. unfold Lsum at 2. cbn [fold_right]. rewrite Rplus_0_r. apply Lsum_ext. intros k _. destruct (binds w b (c, 0, k)); [|reflexivity]. rewrite !Nat.eqb_refl. cbn [andb]. ring.
    + rewrite (Lsum_ext _ _ (fun _ => 0 * 1)%R); [rewrite (Lsum_scal _ 0%R (fun _ => 1%R)); ring|]. intros j _.
      rewrite (Lsum_ext _ _ (fun _ => 0 * 1)%R); [rewrite (Lsum_scal _ 0%R (fun _ => 1%R)); ring|]. intros k _. destruct (binds w b (c0, j, k)); [|ring]. cbn [andb]. ring.
Qed.
(** a row that nothing else touches responds to its own multiplier only *)
Lemma along_own w y M J x : listed w y -> attached w y -> shaped w y -> body_count y <= 255 -> uncoupled w y M J ->
  every_row w y (fun c j => along w J (fun b d => acts w y J x b d / M b d)%R c j = mobility w y M J c j * x c j)%R.
Proof.
  intros HL HA HS H255 HU. apply (rows_all w y HL). intros r Hr. rewrite <- (mulv_along w y J HL HA HS H255 M x r Hr). unfold mulv.
  rewrite (Rsum_ext _ _ (fun c => if Nat.eqb c r then mobility w y M J (rc w y r) (rj w y r) * x (rc w y c) (rj w y c) else 0)%R).
  - now rewrite (Rsum_single _ r (fun c => mobility w y M J (rc w y r) (rj w y r) * x (rc w y c) (rj w y c))%R).
  - intros c Hc. destruct (Nat.eqb_spec c r) as [->|N].
    + now rewrite (mobility_diag w y M J r HL HA HS H255 Hr).
    + rewrite coupling_entry by assumption. rewrite (all_rows w y _ (all_rows w y _ HU r Hr) c Hc); [ring|]. apply rows_differ; auto.
Qed.
(** the three classes *)
Lemma slip_along w kc q v c s : c_bodycount (w_con w c) = parties (kc c) -> slip (kc c) (pose_at w v c) = Some s -> s = (along w (Jat w kc q) v c 0 + bias_of (kc c))%R.
Proof.
  intros E. unfold along, Jat. rewrite E. destruct (kc c); cbn [slip]; try discriminate; intros [= <-]; cbn [parties Rsum J_of Nat.mul Nat.add nth bias_of q_th pose_at]; ring.
Qed.
Lemma slip_rows k v s : slip k v = Some s -> rows k = 1 /\ (forall q, C_of k q 0 = 0%R) /\ exists mn mx, limits_of k = Some (mn, mx).
Proof. destruct k; cbn [slip]; try discriminate; intros _; (split; [reflexivity|split; [reflexivity|eexists; eexists; reflexivity]]). Qed.
Lemma slip_give w y kc q v M c s : NoDup (y_cons y) -> In c (y_cons y) -> attached w y -> kinds_are w y kc -> mobility w y M (Jat w kc q) c 0 <> 0%R ->
  slip (kc c) (pose_at w v c) = Some s -> mobility w y M (Jat w kc q) c 0 = give (kc c) (fun p => M (who w c p) 2).
Proof.
  intros ND Hc HA HK. destruct (HK c Hc) as (_ & E1 & E2). intros N Hs. destruct (slip_rows _ _ _ Hs) as (ER & _).
  assert (B : forall k, k < c_bodycount (w_con w c) -> forall b j, binds w b (c, j, k) = Nat.eqb (who w c k) b).
  { intros k Hk b j. destruct (HA c k Hc Hk) as (b' & Eb & _). unfold binds, who. now rewrite Eb. }
  revert N. unfold mobility. rewrite (along_ext w _ _ (fun b d => Rsum (c_bodycount (w_con w c)) (fun k => if Nat.eqb (who w c k) b then Jat w kc q c 0 (3 * k + d)%nat else 0%R) / M b d)%R).
  2:{ intros k d _ _. f_equal. rewrite acts_one by (auto; congruence). apply Rsum_ext. intros k' Hk'. now rewrite B. }
  unfold along. rewrite E2. revert Hs. unfold Jat. destruct (kc c); cbn [slip]; try discriminate; intros _; cbn [parties Rsum J_of Nat.mul Nat.add nth give]; rewrite ?Nat.eqb_refl.
  - unfold Rdiv. intros _. ring.
  - rewrite (Nat.eqb_sym (who w c 1) (who w c 0)). destruct (Nat.eqb_spec (who w c 0) (who w c 1)) as [E|N].
    + intros N. exfalso. apply N. rewrite <- E. unfold Rdiv. ring.
    + unfold Rdiv. intros _. ring.
  - unfold Rdiv. intros _. ring.
Qed.
(** one step of the slip, in numbers *)
Lemma slow_step (s a mn mx : R) : (0 < a)%R -> (mn <= 0 <= mx)%R -> let s' := (s + a * limited mn mx (- s / a))%R in
  ((0 <= s -> s' = Rmax 0 (s + a * mn)) /\ (s <= 0 -> s' = Rmin 0 (s + a * mx)))%R.
Proof.
  intros Ha Hm. cbv zeta. rewrite <- limited_scale by exact Ha. replace (a * (- s / a))%R with (- s)%R by (field; lra).
  assert (H1 : (a * mn <= 0)%R) by (rewrite <- (Rmult_0_r a); apply Rmult_le_compat_l; lra). assert (H2 : (0 <= a * mx)%R) by (apply Rmult_le_pos; lra).
  revert H1 H2. generalize (a * mn)%R (a * mx)%R. intros l h H1 H2. unfold limited, Rmax, Rmin.
  split; intros Hs; destruct (Rle_dec h (- s)); repeat (match goal with |- context [Rle_dec ?x ?z] => destruct (Rle_dec x z) end); lra.
Qed.
(** and several *)
Lemma slow_more (s s1 s2 a b mn mx : R) : (0 <= a)%R -> (0 <= b)%R -> (mn <= 0 <= mx)%R ->
  ((0 <= s -> s1 = Rmax 0 (s + a * mn)) /\ (s <= 0 -> s1 = Rmin 0 (s + a * mx)))%R ->
  ((0 <= s1 -> s2 = Rmax 0 (s1 + b * mn)) /\ (s1 <= 0 -> s2 = Rmin 0 (s1 + b * mx)))%R ->
  ((0 <= s -> s2 = Rmax 0 (s + (a + b) * mn)) /\ (s <= 0 -> s2 = Rmin 0 (s + (a + b) * mx)))%R.
Proof.
  intros Ha Hb Hm [A1 A2] [B1 B2].
  assert (H1 : (b * mn <= 0)%R) by (rewrite <- (Rmult_0_r b); apply Rmult_le_compat_l; lra). assert (H2 : (0 <= b * mx)%R) by (apply Rmult_le_pos; lra).
  rewrite !Rmult_plus_distr_r, <- !Rplus_assoc. revert H1 H2 A1 A2 B1 B2. generalize (a * mn)%R (a * mx)%R (b * mn)%R (b * mx)%R. intros a1 a2 b1 b2 H1 H2 A1 A2 B1 B2.
  split; intros Hs.
  - specialize (A1 Hs). assert (P : (0 <= s1)%R) by (rewrite A1; apply Rmax_l). rewrite (B1 P), A1. unfold Rmax. destruct (Rle_dec 0 (s + a1)). all: repeat (match goal with |- context [Rle_dec ?x ?z] => destruct (Rle_dec x z) end); lra.
  - specialize (A2 Hs). assert (P : (s1 <= 0)%R) by (rewrite A2; apply Rmin_l). rewrite (B2 P), A2. unfold Rmin. destruct (Rle_dec 0 (s + a2)). all: repeat (match goal with |- context [Rle_dec ?x ?z] => destruct (Rle_dec x z) end); lra.
Qed.

Section Run.
Variables (kc : nat -> rkind) (kg : nat -> rgen) (dt beta : R) (M : nat -> nat -> R).
Hypothesis Pdt : (0 < dt)%R.

Lemma unspun_torque w y q v c p : unspun w y kg c -> p < c_bodycount (w_con w c) -> Lsum (y_gens y) (fun g => force_of M q v (kg g) (who w c p) 2) = 0%R.
Proof.
  intros U Hp. rewrite (Lsum_ext _ _ (fun _ => 0 * 1)%R); [rewrite (Lsum_scal _ 0%R (fun _ => 1%R)); ring|]. intros g Hg. specialize (U g p Hg Hp). rewrite Rmult_0_l.
  destruct (kg g); [now apply force_misses|reflexivity|now apply force_misses].
Qed.
Lemma slip_step t w y q v : shop priv kc kg beta M w y q v -> apart w y kc M -> (forall b, In b (y_bodies y) -> (0 < M b 2)%R) ->
  exists w' y' q' v', process Optimized (Some dt : cl) 1 t w y = Ok (w', y') /\ remembers w' y' /\ ends w' y q' v' /\
    forall c mn mx s, In c (y_cons y) -> unspun w y kg c -> limits_of (kc c) = Some (mn, mx) -> (mn <= 0 <= mx)%R -> slip (kc c) (pose_at w v c) = Some s ->
      let a := (give (kc c) (fun p => M (who w c p) 2) * dt)%R in
      (0 < a)%R /\ exists s', slip (kc c) (pose_at w v' c) = Some s' /\ ((0 <= s -> s' = Rmax 0 (s + a * mn)) /\ (s <= 0 -> s' = Rmin 0 (s + a * mx)))%R.
Proof.
  intros [(m & H) (g & tol & El & Hit & Et & Htol) A HK HG B N Rm Eb HB] HU HM. destruct (HU q) as [U1 U2].
  pose proof (reg_listed _ _ _ (yreach_reg _ _ _ _ _ H)) as HL. pose proof (kinds_shaped w y kc HK) as HS.
  set (f := fun b d => Lsum (y_gens y) (fun g => force_of M q v (kg g) b d)).
  destruct (opt_exact priv m dt t w y g beta tol q v M f kc H El Hit Et Htol A HK (gens_gentle _ _ _ HG) B N Rm Pdt Eb HB (gens_push w y kg dt q v M HL HB HG) U2 U1)
    as (w' & y' & v' & x & P & R' & En & AL & EM & _).
  exists w', y', (fun b d => q b d + v' b d * dt)%R, v'. split; [exact P|]. split; [exact R'|]. split; [exact En|].
  intros c mn mx s Hc Hun Hli Hm Hs a. destruct (HK c Hc) as (_ & E1 & E2). destruct (slip_rows _ _ _ Hs) as (ER & EC & _).
  assert (Hj : 0 < c_count (w_con w c)) by lia. destruct (reach_nodup priv _ m w y H) as (_ & NDc & _).
  fold (Jat w kc q) in U1, U2, AL, EM. pose proof (U2 c 0 Hc Hj) as ND. cbv beta in ND. pose proof (slip_give w y kc q v M c s NDc Hc A HK ND Hs) as EG.
  assert (PI : forall p, p < c_bodycount (w_con w c) -> (0 < / M (who w c p) 2)%R).
  { intros p Hp. destruct (A c p Hc Hp) as (b & Eb' & Ib). unfold who. rewrite Eb'. apply Rinv_0_lt_compat. now apply HM. }
  assert (Pa : (0 < a)%R).
  { unfold a. apply Rmult_lt_0_compat; [|exact Pdt]. rewrite E2 in PI. revert Hs PI. unfold give. destruct (kc c); cbn [slip parties]; try discriminate; intros _ PI; [apply PI; lia| |apply PI; lia].
    apply Rplus_lt_0_compat; apply PI; lia. }
  split; [exact Pa|].
  destruct (slip (kc c) (pose_at w v' c)) as [s'|] eqn:Es'; [|exfalso; revert Hs Es'; destruct (kc c); cbn [slip]; discriminate].
  exists s'. split; [reflexivity|]. replace s' with (s + a * limited mn mx (- s / a))%R; [now apply slow_step|].
  rewrite (slip_along w kc q v' c s' E2 Es').
  rewrite (along_ext w (Jat w kc q) v' (fun b d => SpecLeast.unbound M f v dt b d + dt * (acts w y (Jat w kc q) x b d / M b d))%R).
  2:{ intros p d Hp Hd. destruct (A c p Hc Hp) as (b & Eb' & Ib). unfold who. rewrite Eb'. pose proof (EM b d Ib Hd) as X. destruct (HB b d Ib Hd) as (_ & _ & _ & NM).
      unfold SpecLeast.unbound. apply Rmult_eq_reg_l with (M b d); [|exact NM]. replace (M b d * v' b d)%R with (M b d * (v' b d - v b d) + M b d * v b d)%R by ring. fold (Jat w kc q) in X. rewrite X. field. exact NM. }
  rewrite along_plus, along_scal. rewrite (along_own w y M (Jat w kc q) x HL A HS B U1 c 0 Hc Hj).
  pose proof (AL c 0 Hc Hj) as X. cbv beta zeta in X. fold (Jat w kc q) in X. rewrite Hli, EC in X. rewrite X, EG.
  assert (EA : along w (Jat w kc q) (SpecLeast.unbound M f v dt) c 0 = (s - bias_of (kc c))%R).
  { rewrite (slip_along w kc q v c s E2 Hs). replace (along w (Jat w kc q) v c 0 + bias_of (kc c) - bias_of (kc c))%R with (along w (Jat w kc q) v c 0) by ring.
    unfold along. apply Rsum_ext. intros p Hp. cbn [Rsum]. assert (Z2 : SpecLeast.unbound M f v dt (who w c p) 2 = v (who w c p) 2).
    { unfold SpecLeast.unbound. unfold f at 1. rewrite (unspun_torque w y q v c p Hun Hp). unfold Rdiv. ring. }
    rewrite Z2. rewrite E2 in Hp. f_equal. f_equal; [f_equal|]; unfold Jat; revert Hs Hp; destruct (kc c); cbn [slip parties]; try discriminate; intros _ Hp; destruct p as [|[|]]; try lia; cbn [J_of nth Nat.mul Nat.add]; ring. }
  rewrite EA. unfold a. replace (- bias_of (kc c) - beta / dt * 0 - (s - bias_of (kc c)))%R with (- s)%R by ring. ring.
Qed.
Lemma shop_next w y q v t w' y' q' v' : shop priv kc kg beta M w y q v -> process Optimized (Some dt : cl) 1 t w y = Ok (w', y') -> ends w' y q' v' -> remembers w' y' ->
  shop priv kc kg beta M w' y' q' v'.
Proof.
  intros [(m & H) (g & tol & L) A HK HG B C0 Rm Eb HB] E En Rm'. pose proof (process_alone _ _ _ _ _ _ _ _ E) as ((E1 & E2 & E3 & E4 & E5) & Fb & Fc & Fg). constructor.
  - eexists. exact (y_process priv Optimized m w y _ 1 t w' y' H (gens_orderly w y kg HG) E).
  - exists g, tol. now rewrite E4.
  - intros c p Hc Hp. destruct (Fc c) as (_ & _ & F3 & F4 & _). rewrite E2 in Hc. rewrite F3 in Hp. rewrite F4, E1. now apply A.
  - intros c Hc. rewrite E2 in Hc. destruct (Fc c) as (-> & _ & -> & _ & -> & _). now apply HK.
  - intros g' Hg. rewrite E3 in Hg. rewrite Fg, E1. now apply HG.
  - unfold body_count. now rewrite E1.
  - now rewrite E2.
  - exact Rm'.
  - congruence.
  - intros b d Hb Hd. rewrite E1 in Hb. destruct (HB b d Hb Hd) as (_ & _ & X3 & X4), (En b d Hb Hd) as (Y1 & Y2). split; [exact Y1|]. split; [exact Y2|].
    split; [|exact X4]. rewrite <- X3. destruct (Fb b) as (_ & Fm & FI & _). destruct d as [|[|[|]]]; try lia; cbn [b_mass]; assumption.
Qed.
Lemma slip_calls : forall ts w y q v, shop priv kc kg beta M w y q v -> apart w y kc M -> (forall b, In b (y_bodies y) -> (0 < M b 2)%R) ->
  exists w' y' q' v', calls_of Optimized (Some dt : cl) ts w y = Ok (w', y') /\ ends w' y q' v' /\
    forall c mn mx s, In c (y_cons y) -> unspun w y kg c -> limits_of (kc c) = Some (mn, mx) -> (mn <= 0 <= mx)%R -> slip (kc c) (pose_at w v c) = Some s ->
      let a := (INR (length ts) * (give (kc c) (fun p => M (who w c p) 2) * dt))%R in
      exists s', slip (kc c) (pose_at w v' c) = Some s' /\ ((0 <= s -> s' = Rmax 0 (s + a * mn)) /\ (s <= 0 -> s' = Rmin 0 (s + a * mx)))%R.
Proof.
  induction ts as [|t ts IH]; intros w y q v SH AP HM.
  { exists w, y, q, v. split; [reflexivity|]. split; [exact (are_ends _ _ _ _ _ (sh_are SH))|]. intros c mn mx s Hc _ _ Hm Hs a. exists s. split; [exact Hs|].
    unfold a. cbn [length INR]. rewrite !Rmult_0_l, Rplus_0_r. unfold Rmax, Rmin. split; intros; destruct (Rle_dec 0 s); lra. }
  destruct (slip_step t w y q v SH AP HM) as (w1 & y1 & q1 & v1 & P & R1 & En & S1). pose proof (shop_next w y q v t w1 y1 q1 v1 SH P En R1) as SH1.
  pose proof (process_alone _ _ _ _ _ _ _ _ P) as ((E1 & E2 & E3 & _) & _ & Fc & _).
  assert (W : forall c p, who w1 c p = who w c p) by (intros c p; unfold who; now destruct (Fc c) as (_ & _ & _ & -> & _)).
  assert (RW : forall Q : nat -> nat -> Prop, every_row w y Q -> every_row w1 y1 Q).
  { intros Q HQ c j Hc Hj. rewrite E2 in Hc. destruct (Fc c) as (_ & _ & _ & _ & F5 & _). rewrite F5 in Hj. now apply HQ. }
  destruct (IH w1 y1 q1 v1 SH1) as (w' & y' & q' & v' & C & En' & S2).
  - intros q0. destruct (AP q0) as [U1 U2]. fold (Jat w kc q0) in U1, U2. fold (Jat w1 kc q0).
    assert (CE : forall c j c' j', coupling w1 y1 M (Jat w1 kc q0) c j c' j' = coupling w y M (Jat w kc q0) c j c' j').
    { intros c j c' j'. unfold coupling. rewrite (along_moved Optimized kc dt _ _ _ _ _ q0 _ c j P). apply along_ext. intros p d _ _. f_equal. exact (acts_moved Optimized kc dt _ _ _ _ _ q0 _ _ d P). }
    split.
    + apply RW. intros c j Hc Hj. apply RW. intros c' j' Hc' Hj' Nd. rewrite CE. now apply U1.
    + apply RW. intros c j Hc Hj. change (coupling w1 y1 M (Jat w1 kc q0) c j c j <> 0%R). rewrite CE. exact (U2 c j Hc Hj).
  - intros b Hb. apply HM. now rewrite <- E1.
  - exists w', y', q', v'. cbn [calls_of]. rewrite P. cbn [bind]. split; [exact C|]. split; [intros b d Hb Hd; apply En'; [now rewrite E1|exact Hd]|].
    intros c mn mx s Hc Hu Hl Hm Hs. destruct (S1 c mn mx s Hc Hu Hl Hm Hs) as (Pa & s1 & Hs1 & X1).
    assert (EP : forall u, pose_at w1 u c = pose_at w u c) by (intros u; unfold pose_at; apply FunctionalExtensionality.functional_extensionality; intros p; now rewrite W).
    destruct (S2 c mn mx s1) as (s2 & Hs2 & X2); [now rewrite E2| |exact Hl|exact Hm|now rewrite EP|].
    + intros g p Hg Hp. rewrite E3 in Hg. destruct (Fc c) as (_ & _ & F3 & _). rewrite F3 in Hp. rewrite W. now apply Hu.
    + exists s2. rewrite EP in Hs2. split; [exact Hs2|].
      assert (EM : (fun p => M (who w1 c p) 2) = (fun p => M (who w c p) 2)) by (apply FunctionalExtensionality.functional_extensionality; intros p; now rewrite W).
      rewrite EM in X2. cbn [length]. rewrite S_INR. set (a1 := (give (kc c) (fun p => M (who w c p) 2) * dt)%R) in *.
      replace ((INR (length ts) + 1) * a1)%R with (a1 + INR (length ts) * a1)%R by ring.
      apply (slow_more s s1 s2); auto; [lra|]. apply Rmult_le_pos; [apply pos_INR|lra].
Qed.
End Run.
End S.
