(** * Least constraint: consequences and examples. *)

From Coq Require Import Reals Lra.
From Verif Require Import Base Targets Sle State Ode Forces Constraints System SpecState SpecForces SpecCon ConFacts SpecSle SpecSys RegFacts RegWit SpecDyn DynState DynReact DynStep SpecLimits SpecSolve SolveReal SolveStep SolveWit SpecLaw LawReal LawStep Assemble
  SpecMom MomForce MomStep MomWit SpecSub SpecLeast LeastReal LeastStep LeastPart LeastGal LeastWit.
Local Open Scope nat_scope.

Lemma order_calls dbg priv k z kc kg (dt beta : R) M ts1 ts2 (w1 : world (RT dbg)) y1 w2 y2 q v : dt <> 0%R -> length ts1 = length ts2 ->
  side priv k z kc kg beta M w1 y1 q v -> side priv k z kc kg beta M w2 y2 q v -> reordered w1 y1 w2 y2 -> unsingular k (Some dt : cell (RT dbg)) ts2 w2 y2 M kc ->
  exists w1' y1' w2' y2' q' v', calls_of k (Some dt : cell (RT dbg)) ts1 w1 y1 = Ok (w1', y1') /\ calls_of k (Some dt : cell (RT dbg)) ts2 w2 y2 = Ok (w2', y2') /\
    ends w1' y1 q' v' /\ ends w2' y2 q' v'.
Proof.
  intros Ndt EL S1 S2 HO HR. destruct (reordered_part w1 y1 w2 y2 kc kg HO (sd_kinds S1) (sd_kinds S2)) as [HP HG].
  now apply (part_calls priv k z kc kg dt beta M Ndt ts1 ts2 w1 y1 w2 y2 q v).
Qed.
Lemma part_calls' dbg priv k z kc kg (dt beta : R) M ts1 ts2 (w1 : world (RT dbg)) y1 w2 y2 q v : dt <> 0%R -> length ts1 = length ts2 ->
  side priv k z kc kg beta M w1 y1 q v -> side priv k z kc kg beta M w2 y2 q v -> part_of w1 y1 w2 y2 -> gens_part y1 y2 kg -> unsingular k (Some dt : cell (RT dbg)) ts2 w2 y2 M kc ->
  exists w1' y1' w2' y2' q' v', calls_of k (Some dt : cell (RT dbg)) ts1 w1 y1 = Ok (w1', y1') /\ calls_of k (Some dt : cell (RT dbg)) ts2 w2 y2 = Ok (w2', y2') /\
    ends w1' y1 q' v' /\ ends w2' y2 q' v'.
Proof. intros. now apply (part_calls priv k z kc kg dt beta M H ts1 ts2 w1 y1 w2 y2 q v). Qed.
Lemma moved_calls' dbg priv k z kc kg (dt beta : R) M (u a : nat -> R) ts1 ts2 (w1 : world (RT dbg)) y1 w2 y2 q v : dt <> 0%R -> u 2 = 0%R -> a 2 = 0%R -> length ts1 = length ts2 ->
  side priv k z kc kg beta M w1 y1 q v -> side priv k z kc kg beta M w2 y2 (fun b d => q b d + a d)%R (fun b d => v b d + u d)%R -> reordered w1 y1 w2 y2 ->
  (forall c, In c (y_cons y1) -> inner (kc c)) -> unsingular k (Some dt : cell (RT dbg)) ts1 w1 y1 M kc ->
  exists w1' y1' w2' y2' q' v', calls_of k (Some dt : cell (RT dbg)) ts1 w1 y1 = Ok (w1', y1') /\ calls_of k (Some dt : cell (RT dbg)) ts2 w2 y2 = Ok (w2', y2') /\
    ends w1' y1 q' v' /\ ends w2' y2 (fun b d => q' b d + (a d + INR (length ts1) * (u d * dt)))%R (fun b d => v' b d + u d)%R.
Proof. intros. now apply (moved_calls priv k z kc kg dt beta M u H H0 ts1 ts2 w1 y1 w2 y2 q v a). Qed.

(** joints without a gap and without a speed of their own, no generators *)
Lemma energy_free dbg priv m (dt : R) t (w : world (RT dbg)) y g (beta : R) q v M kc :
  yreach Optimized priv m w y -> y_sle y = Some (SleGe g) -> attached w y -> kinds_are w y kc -> body_count y <= 255 -> y_cons y <> [] -> y_gens y = [] ->
  dt <> 0%R -> y_bias y = Some beta -> bodies_are w y q v M -> (forall b d, In b (y_bodies y) -> d < 3 -> (0 < M b d)%R) ->
  every_row w y (fun c j => C_of (kc c) (pose_at w q c) j = 0%R /\ bias_of (kc c) = 0%R) ->
  regular w y M (fun c j i => J_of (kc c) (pose_at w q c) j i) ->
  exists w' y' v', process Optimized (Some dt : cell (RT dbg)) 1 t w y = Ok (w', y') /\ ends w' y (fun b d => q b d + v' b d * dt)%R v' /\
    (kinetic y M v' + kinetic y M (fun b d => v' b d - v b d) = kinetic y M v)%R /\ (kinetic y M v' <= kinetic y M v)%R.
Proof.
  intros H L A K B N G Ndt Eb HB HM HZ HR. pose proof (reg_listed _ _ _ (yreach_reg _ _ _ _ _ H)) as HL.
  assert (K0 : kin_is y (kin_of w) q v) by (intros b d Hb Hd; destruct (HB b d Hb Hd) as (X1 & X2 & _); now split).
  assert (HG : gens_are w y (fun _ => VGravity 0)) by (intros g0 Hg; rewrite G in Hg; destruct Hg).
  pose proof (gens_push w y _ dt q v M HL HB HG) as HF. rewrite G in HF.
  pose proof (kinds_answer w y kc (kin_of w) (Some dt : cell (RT dbg)) q v HL A K K0) as HW.
  destruct (energy_lost priv m dt t w y g beta q v M (fun _ _ => 0%R) (law_R w kc q v) (fun c j i => J_of (kc c) (pose_at w q c) j i)
    (fun c j => C_of (kc c) (pose_at w q c) j) (fun c j => bias_of (kc c)) H L A (kinds_shaped w y kc K) (gens_gentle w y _ HG) B N Ndt Eb HB HM HW) as (w' & y' & v' & E & En & E1 & E2); auto.
  - intros c j _ _ i _. reflexivity.
  - intros c j _ _. reflexivity.
  - intros c j _ _. reflexivity.
  - intros c j Hc Hj. destruct (HZ c j Hc Hj) as [-> ->]. ring.
  - exists w', y', v'. split; [exact E|]. split; [exact En|].
    assert (EU : forall b d, unbound M (fun _ _ => 0%R) v dt b d = v b d) by (intros b d; unfold unbound, Rdiv; ring).
    rewrite (kinetic_ext y M (unbound M (fun _ _ => 0%R) v dt) v) in E1, E2 by (intros; apply EU).
    rewrite (kinetic_ext y M (fun b d => v' b d - unbound M (fun _ _ => 0%R) v dt b d)%R (fun b d => v' b d - v b d)%R) in E1 by (intros; now rewrite EU). auto.
Qed.

(** two linked bodies without generators *)
Lemma linked_free : exists m (w : world (RT true)) y, yreach Optimized nopriv m w y /\ y_sle y = Some (SleGe geS) /\ attached w y /\ kinds_are w y kL /\ body_count y <= 255 /\
  y_cons y <> [] /\ y_gens y = [] /\ y_bias y = Some 1%R /\ bodies_are w y qD vD MD /\ (forall b d, In b (y_bodies y) -> d < 3 -> (0 < MD b d)%R) /\
  every_row w y (fun c j => C_of (kL c) (pose_at w qD c) j = 0%R /\ bias_of (kL c) = 0%R) /\
  regular w y MD (fun c j i => J_of (kL c) (pose_at w qD c) j i) /\ along w (fun c j i => J_of (kL c) (pose_at w qD c) j i) vD 0 1 <> 0%R.
Proof.
  destruct (linked (dbg := true) Optimized (OdeNsv (cofZ 0)) [] (NoDup_nil _)) as (m & w & y & H & S & B & C & G & L & O & Bi).
  pose proof (reg_listed _ _ _ (yreach_reg _ _ _ _ _ H)) as HL.
  exists m, w, y. split; [exact H|]. split; [exact L|]. split; [now apply L_attached|]. split; [now apply L_kinds|]. split; [unfold body_count; rewrite B; cbn; lia|].
  split; [rewrite C; discriminate|]. split; [exact G|]. split; [exact Bi|]. split; [now apply L_bodies|].
  split; [intros b d _ Hd; destruct d as [|[|[|]]]; cbn; lra || lia|].
  split; [|split; [now apply L_regular|now apply (L_along w y S B)]].
  intros c j Hc Hj. split; [|reflexivity]. destruct (L_con w S c) as (_ & Er & _). rewrite Er in Hj. pose proof (L_closed w S c) as X. unfold closed, kL in X.
  unfold kL. cbn [C_of]. destruct j as [|[|]]; [| |lia]; cbn [nth]; lra.
Qed.
(** the double pendulum: every hypothesis, and the masses are positive *)
Lemma pendulum_heavy k z : exists m (w : world (RT true)) y q v M f kc, yreach k nopriv m w y /\ uses k (match k with Optimized => Symplectic | Generic => z end) y /\
  y_sle y = Some (SleGe geS) /\ attached w y /\ shaped w y /\ kinds_are w y kc /\ (forall c, In c (y_cons y) -> 1 <= c_bodycount (w_con w c)) /\ all_gentle w y /\ body_count y = 2 /\
  con_count y = 2 /\ y_bias y = Some 1%R /\ bodies_are w y q v M /\ (forall b d, In b (y_bodies y) -> d < 3 -> (0 < M b d)%R) /\ (forall dt, pushesR w y (kin_of w) dt f) /\
  (forall dt, answers w y (kin_of w) (Some dt : cell (RT true)) (law_R w kc q v)) /\ regular w y M (fun c j i => J_of (kc c) (pose_at w q c) j i).
Proof.
  destruct (pendulum (dbg := true) k (ode_of z (cofZ 0))) as (m & w & y & H & S & B & C & G & L & O & Bi).
  exists m, w, y, qD, vD, MD, fD, kD.
  pose proof (reg_listed _ _ _ (yreach_reg _ _ _ _ _ H)) as HL. pose proof (D_attached w y S B C) as HA.
  split; [exact H|]. split; [destruct k; cbn; [reflexivity|eexists; exact O]|]. split; [exact L|]. split; [exact HA|]. split; [now apply D_shaped|].
  split; [now apply D_kinds|]. split; [now apply D_parties|]. split; [now apply D_gentle|]. split; [unfold body_count; now rewrite B|].
  split; [unfold con_count; now rewrite C|]. split; [exact Bi|]. split; [now apply D_bodies|].
  split; [intros b d _ Hd; destruct d as [|[|[|]]]; cbn; lra || lia|]. split; [intros dt; now apply D_pushes|].
  split; [|now apply D_regular]. intros dt. apply kinds_answer; auto; [now apply D_kinds|].
  intros b d Hb Hd. destruct (D_bodies w y S b d Hb Hd) as (E1 & E2 & _). auto.
Qed.
