(** * Springs and dampers over several calls. *)

From Coq Require Import Reals Lra.
From Verif Require Import Base Targets Matrix Sparse Sle State Ode Forces Constraints System Logic RealSum SpecMatrix SpecState StateFacts StateReal SpecForces ForceFacts ForceReal SpecCon ConFacts ConReal SleHist
  SpecSys RegFacts SysInv SpecDyn DynState DynReact DynRound DynStep SpecSolve SolveReal SolveStep SpecLaw LawReal LawStep SpecMom MomForce MomStep SpecSub SubOde SubStep SubRun EdgeOut SpecLeast LeastReal LeastStep LeastPart SpecDrift DriftReal SpecSwing SwingReal.
Local Open Scope nat_scope.

Lemma iter_succ_r {A} n (f : A -> A) x : Nat.iter (S n) f x = Nat.iter n f (f x).
Proof. induction n as [|n IH]; [reflexivity|]. change (f (Nat.iter (S n) f x) = f (Nat.iter n f (f x))). now rewrite IH. Qed.
Lemma size_zero a b : size (a, b) = 0%R -> a = 0%R /\ b = 0%R.
Proof.
  intros E. pose proof (size_sq (a, b)) as S. rewrite E in S. cbn [fst snd] in S. pose proof (Rle_0_sqr a) as P. pose proof (Rle_0_sqr b) as P'. unfold Rsqr in *.
  split; apply Rsqr_0_uniq; unfold Rsqr; lra.
Qed.
Definition fast (V A : nat -> pose) (h : R) (p : nat) : pose := mkPose (q_x (V p) + q_x (A p) * h) (q_y (V p) + q_y (A p) * h) (q_th (V p) + q_th (A p) * h).
Definition onward (z : scheme) (V A : nat -> pose) (h : R) (p : nat) : pose := match z with Symplectic => fast V A h p | Explicit => V p end.
Lemma swing_zero z ks kd h : swing z ks kd h (0, 0)%R = (0, 0)%R.
Proof. unfold swing. destruct z; f_equal; ring. Qed.
(** a constraint on centres or angles *)
Lemma centre_step k Q V A z (h : R) : holds k = true -> arm k 0 = 0%R -> arm k 1 = 0%R -> (forall j, j < rows k -> asks k Q V A j) ->
  let Q' := fun p => later (Q p) (onward z V A h p) h in let V' := fast V A h in
  (fst (gap k Q'), fst (drate k V')) = swing z (ks_of k 0) (kd_of k 0) h (fst (gap k Q), fst (drate k V)) /\
  (snd (gap k Q'), snd (drate k V')) = swing z (ks_of k 0) (kd_of k 0) h (snd (gap k Q), snd (drate k V)).
Proof.
  intros Hk A0 A1 HA. destruct k as [lx ly wx wy ks kd|lx ly p0x p0y dx dy ks kd|x1 y1 x2 y2 mx ks kd| |rot ks kd| | | |]; try discriminate; cbn [arm rows] in *.
  - destruct (size_zero _ _ A0) as [-> ->]. pose proof (HA 0 ltac:(lia)) as H0. pose proof (HA 1 ltac:(lia)) as H1. unfold asks in H0, H1. unfold coord in H0, H1. cbn in H0, H1.
    cbn [gap drate fst snd ks_of kd_of]. cbv zeta. unfold at_x, at_y, world_x, world_y in *. cbn [q_x q_y q_th later fast] in *.
    assert (X : q_x (A 0) = (- ks * (q_x (Q 0%nat) - wx) - kd * q_x (V 0%nat))%R) by lra. assert (Y : q_y (A 0) = (- ks * (q_y (Q 0%nat) - wy) - kd * q_y (V 0%nat))%R) by lra.
    unfold swing. destruct z; cbn [onward fast q_x q_y q_th]; rewrite X, Y; split; f_equal; ring.
  - cbn [gap drate fst snd ks_of kd_of]. cbv zeta. rewrite swing_zero. split; [|reflexivity].
    apply Rmult_integral in A0. destruct A0 as [A0|A0]; destruct (size_zero _ _ A0) as [-> ->].
    + pose proof (HA 0 ltac:(lia)) as H0. unfold asks in H0. unfold coord in H0. cbn in H0. unfold at_x, at_y, world_x, world_y in *. cbn [q_x q_y q_th later fast] in *.
      assert (X : (q_x (A 0%nat) * - dy + q_y (A 0%nat) * dx = - ks * ((q_x (Q 0%nat) - p0x) * - dy + (q_y (Q 0%nat) - p0y) * dx) - kd * (q_x (V 0%nat) * - dy + q_y (V 0%nat) * dx))%R) by lra.
      assert (Y : ((q_x (V 0%nat) + q_x (A 0%nat) * h) * - dy + (q_y (V 0%nat) + q_y (A 0%nat) * h) * dx = q_x (V 0%nat) * - dy + q_y (V 0%nat) * dx +
        (- ks * ((q_x (Q 0%nat) - p0x) * - dy + (q_y (Q 0%nat) - p0y) * dx) - kd * (q_x (V 0%nat) * - dy + q_y (V 0%nat) * dx)) * h)%R) by (rewrite <- X; ring).
      unfold swing. f_equal.
      * destruct z; cbn [onward fast q_x q_y q_th].
        -- replace ((q_x (Q 0%nat) + 0 * cos (q_th (Q 0%nat)) - 0 * sin (q_th (Q 0%nat)) - p0x) * - dy + (q_y (Q 0%nat) + 0 * sin (q_th (Q 0%nat)) + 0 * cos (q_th (Q 0%nat)) - p0y) * dx)%R
             with ((q_x (Q 0%nat) - p0x) * - dy + (q_y (Q 0%nat) - p0y) * dx)%R by ring. rewrite <- Y. ring.
        -- ring.
      * rewrite Y. ring.
    + unfold swing. destruct z; f_equal; ring.
  - destruct (size_zero _ _ A0) as [-> ->]. destruct (size_zero _ _ A1) as [-> ->]. pose proof (HA 0 ltac:(lia)) as H0. pose proof (HA 1 ltac:(lia)) as H1. unfold asks in H0, H1. unfold coord in H0, H1. cbn in H0, H1.
    cbn [gap drate fst snd ks_of kd_of]. cbv zeta. unfold at_x, at_y, world_x, world_y in *. cbn [q_x q_y q_th later fast] in *.
    assert (X : q_x (A 0) = (q_x (A 1%nat) - ks * (q_x (Q 0%nat) - q_x (Q 1%nat)) - kd * (q_x (V 0%nat) - q_x (V 1%nat)))%R) by lra.
    assert (Y : q_y (A 0) = (q_y (A 1%nat) - ks * (q_y (Q 0%nat) - q_y (Q 1%nat)) - kd * (q_y (V 0%nat) - q_y (V 1%nat)))%R) by lra.
    unfold swing. destruct z; cbn [onward fast q_x q_y q_th]; rewrite X, Y; split; f_equal; ring.
  - cbn [gap drate fst snd ks_of kd_of]. cbv zeta. rewrite swing_zero. split; [|reflexivity]. pose proof (HA 0 ltac:(lia)) as H0. unfold asks in H0. unfold coord in H0. cbn in H0. cbn [q_x q_y q_th later fast].
    assert (X : q_th (A 0) = (- ks * (q_th (Q 0%nat) - rot) - kd * q_th (V 0%nat))%R) by lra.
    unfold swing. destruct z; cbn [onward fast q_x q_y q_th]; rewrite X; f_equal; ring.
Qed.
Lemma turning_step k Q V A (h s : R) : asks k Q V A 0 -> turning k V = Some s -> turning k (fast V A h) = Some (s * (1 - kd_of k 0 * h))%R.
Proof.
  intros HA HT. unfold asks, coord in HA. destruct k; try discriminate; cbn in HA; cbn [turning kd_of fast q_th] in *; injection HT as <-; f_equal.
  - replace (q_th (A 0)) with (- kd * q_th (V 0%nat))%R by lra. ring.
  - replace (q_th (A 1)) with (q_th (A 0%nat) - kd * (q_th (V 1%nat) - q_th (V 0%nat)))%R by lra. ring.
  - replace (q_th (A 0)) with (- kd * q_th (V 0%nat))%R by lra. ring.
  - replace (q_th (A 0)) with (ratio * q_th (A 1%nat) - kd * (q_th (V 0%nat) - ratio * q_th (V 1%nat)))%R by lra. ring.
Qed.

(** without damping *)
Lemma swing_keeps ks h n : forall g u g' u', (g', u') = Nat.iter n (swing Symplectic ks 0 h) (g, u) -> (u' * u' + ks * (g' * g') - h * ks * (g' * u') = u * u + ks * (g * g) - h * ks * (g * u))%R.
Proof.
  induction n as [|n IH]; intros g u g' u' E; [injection E as -> ->; reflexivity|]. rewrite iter_succ_r in E. cbn [swing] in E. rewrite (IH _ _ _ _ E). ring.
Qed.
Lemma swing_grows ks h n : forall g u g' u', (g', u') = Nat.iter n (swing Explicit ks 0 h) (g, u) -> (u' * u' + ks * (g' * g') = (1 + ks * (h * h)) ^ n * (u * u + ks * (g * g)))%R.
Proof.
  induction n as [|n IH]; intros g u g' u' E; [injection E as -> ->; cbn; ring|]. rewrite iter_succ_r in E. cbn [swing] in E. rewrite (IH _ _ _ _ E). cbn [pow]. ring.
Qed.
Lemma swing_bounded ks h n g u g' u' : (g', u') = Nat.iter n (swing Symplectic ks 0 h) (g, u) ->
  (ks * (1 - ks * (h * h) / 4) * (g' * g') <= u * u + ks * (g * g) - h * ks * (g * u))%R.
Proof.
  intros E. rewrite <- (swing_keeps ks h n g u g' u' E). pose proof (Rle_0_sqr (u' - h * ks * g' / 2)) as P. unfold Rsqr in P.
  replace (u' * u' + ks * (g' * g') - h * ks * (g' * u'))%R with ((u' - h * ks * g' / 2) * (u' - h * ks * g' / 2) + ks * (1 - ks * (h * h) / 4) * (g' * g'))%R by field. lra.
Qed.

Section S.
Context {dbg : bool}.
Notation T := (RT dbg).
Notation cl := (cell T).
Implicit Types (w : world T) (y : sys T).
Variable priv : nat -> bool.
Lemma swing_calls z kc kg (dt beta : R) M : forall ts w y q v, side priv Generic z kc kg beta M w y q v -> unsingular Generic (Some dt : cl) ts w y M kc ->
  exists w' y' q' v', calls_of Generic (Some dt : cl) ts w y = Ok (w', y') /\ ends w' y q' v' /\
    (forall c, In c (y_cons y) -> holds (kc c) = true -> arm (kc c) 0 = 0%R -> arm (kc c) 1 = 0%R -> let f := swing z (ks_of (kc c) 0) (kd_of (kc c) 0) dt in
      (fst (gap (kc c) (pose_at w q' c)), fst (drate (kc c) (pose_at w v' c))) = Nat.iter (length ts) f (fst (gap (kc c) (pose_at w q c)), fst (drate (kc c) (pose_at w v c))) /\
      (snd (gap (kc c) (pose_at w q' c)), snd (drate (kc c) (pose_at w v' c))) = Nat.iter (length ts) f (snd (gap (kc c) (pose_at w q c)), snd (drate (kc c) (pose_at w v c)))) /\
    forall c s, In c (y_cons y) -> turning (kc c) (pose_at w v c) = Some s -> turning (kc c) (pose_at w v' c) = Some (s * (1 - kd_of (kc c) 0 * dt) ^ length ts)%R.
Proof.
  induction ts as [|t ts IH]; intros w y q v SD HU.
  - exists w, y, q, v. split; [reflexivity|]. split; [exact (are_ends _ _ _ _ _ (sd_are SD))|]. split; [now split|]. intros c s _ ->. cbn [length pow]. f_equal. ring.
  - pose proof (unsingular_now _ _ _ _ _ _ _ _ q v HU (are_ends _ _ _ _ _ (sd_are SD))) as HR. destruct (sd_reach SD) as [m H]. destruct (sd_sle SD) as [g L].
    pose proof (reg_listed _ _ _ (yreach_reg _ _ _ _ _ H)) as HL.
    destruct (asks_step priv z m dt t w y g q v M _ kc H (sd_uses SD) L (sd_att SD) (sd_kinds SD) (gens_gentle w y kg (sd_gens SD)) (sd_255 SD) (sd_some SD) (sd_are SD)
      (gens_push w y kg dt q v M HL (sd_are SD) (sd_gens SD)) HR) as (w1 & y1 & a & x & P & En & _ & AS).
    destruct (side_next priv Generic z kc kg beta M w y q v _ t w1 y1 _ _ SD P En) as (S1 & _ & _ & EG & EB).
    pose proof (process_alone _ _ _ _ _ _ _ _ P) as ((_ & EC & _) & _ & Fc & _).
    destruct (IH w1 y1 _ _ S1 (unsingular_next _ _ _ _ _ _ _ _ _ _ HU P)) as (w' & y' & q' & v' & C & En' & G & TU).
    assert (EP : forall u c p, pose_at w1 u c p = pose_at w u c p) by (intros u c p; unfold pose_at, who; destruct (Fc c) as (_ & _ & _ & -> & _); reflexivity).
    assert (Eg : forall k u u', (forall p, u p = u' p) -> gap k u = gap k u' /\ drate k u = drate k u' /\ turning k u = turning k u') by (intros k u u' HX; destruct k; cbn [gap drate turning]; rewrite ?HX; auto).
    exists w', y', q', v'. split; [cbn [calls_of]; now rewrite P|]. split; [intros b d Hb Hd; apply En'; [now rewrite EB|exact Hd]|]. split.
    + intros c Hc Hk A0 A1 f. rewrite <- EC in Hc. destruct (G c Hc Hk A0 A1) as [G1 G2]. rewrite EC in Hc. fold f in G1, G2.
      destruct (Eg (kc c) _ _ (EP q' c)) as (E1 & _), (Eg (kc c) _ _ (EP v' c)) as (_ & E2 & _). rewrite E1, E2 in G1, G2.
      destruct (centre_step (kc c) (pose_at w q c) (pose_at w v c) (pose_at w a c) z dt Hk A0 A1 (fun j Hj => AS c j Hc Hj)) as [S1' S2']. cbv zeta in S1', S2'. fold f in S1', S2'.
      cbn [length]. rewrite !iter_succ_r, <- S1', <- S2', G1, G2.
      match type of En with ends _ _ ?q1 ?v1 => destruct (Eg (kc c) (pose_at w1 q1 c) (fun p => later (pose_at w q c p) (onward z (pose_at w v c) (pose_at w a c) dt p) dt)) as (-> & _);
        [intros p; rewrite EP; destruct z; reflexivity|destruct (Eg (kc c) (pose_at w1 v1 c) (fast (pose_at w v c) (pose_at w a c) dt)) as (_ & -> & _); [intros p; now rewrite EP|]] end.
      now split.
    + intros c s Hc Ht.
      assert (Hr : 0 < rows (kc c)) by (destruct (kc c); cbn; lia).
      pose proof (turning_step (kc c) (pose_at w q c) (pose_at w v c) (pose_at w a c) dt s (AS c 0 Hc Hr) Ht) as T1.
      rewrite <- EC in Hc. destruct (Eg (kc c) _ _ (EP v' c)) as (_ & _ & E3). rewrite <- E3.
      rewrite (TU c (s * (1 - kd_of (kc c) 0%nat * dt))%R Hc).
      * cbn [length pow]. f_equal. ring.
      * rewrite <- T1. match goal with |- turning _ ?a = turning _ ?b => destruct (Eg (kc c) a b) as (_ & _ & ->); [|reflexivity] end. intros p. now rewrite EP.
Qed.
(** what undamped gaps do, whatever the number of calls *)
Lemma undamped_calls z kc kg (dt beta : R) M ts w y q v : side priv Generic z kc kg beta M w y q v -> unsingular Generic (Some dt : cl) ts w y M kc ->
  exists w' y' q' v', calls_of Generic (Some dt : cl) ts w y = Ok (w', y') /\ ends w' y q' v' /\
    forall c, In c (y_cons y) -> holds (kc c) = true -> arm (kc c) 0 = 0%R -> arm (kc c) 1 = 0%R -> kd_of (kc c) 0 = 0%R ->
      forall e, e = @fst R R \/ e = @snd R R -> let ks := ks_of (kc c) 0 in
      let g := e (gap (kc c) (pose_at w q c)) in let u := e (drate (kc c) (pose_at w v c)) in
      let g' := e (gap (kc c) (pose_at w q' c)) in let u' := e (drate (kc c) (pose_at w v' c)) in
      match z with
      | Symplectic => u' * u' + ks * (g' * g') - dt * ks * (g' * u') = u * u + ks * (g * g) - dt * ks * (g * u) /\
          ks * (1 - ks * (dt * dt) / 4) * (g' * g') <= u * u + ks * (g * g) - dt * ks * (g * u)
      | Explicit => u' * u' + ks * (g' * g') = (1 + ks * (dt * dt)) ^ length ts * (u * u + ks * (g * g))
      end%R.
Proof.
  intros SD HU. destruct (swing_calls z kc kg dt beta M ts w y q v SD HU) as (w' & y' & q' & v' & C & En & G & _).
  exists w', y', q', v'. split; [exact C|]. split; [exact En|]. intros c Hc Hk A0 A1 Ek e He ks g u g' u'.
  destruct (G c Hc Hk A0 A1) as [G1 G2]. rewrite Ek in G1, G2.
  assert (X : (g', u') = Nat.iter (length ts) (swing z ks 0 dt) (g, u)) by (destruct He as [-> | ->]; assumption).
  destruct z; [split; [exact (swing_keeps _ _ _ _ _ _ _ X)|exact (swing_bounded _ _ _ _ _ _ _ X)]|exact (swing_grows _ _ _ _ _ _ _ X)].
Qed.
End S.
