(** * Limits of the nine constraint classes, with Gauss-Seidel. *)

From Coq Require Import Reals Lra.
From Verif Require Import Base Targets Matrix Sparse Sle State Ode Forces Constraints System Logic SpecMatrix SpecState SpecForces SpecCon ConFacts
  SpecSle SpecSys RegFacts SpecDyn DynState DynReact DynRound DynStep DynGather SpecSolve SolveReal SolveStep SpecLaw LawReal LawStep SpecLimits GsStep.
Local Open Scope nat_scope.

Section S.
Context {dbg : bool}.
Notation T := (RT dbg).
Notation cl := (cell T).
Variable priv : nat -> bool.
Implicit Types (w : world T) (y : sys T).

(** positive masses and independent rows: every row can be moved *)
Lemma independent_mobile w y J M : listed w y -> attached w y -> shaped w y -> body_count y <= 255 ->
  (forall b d, In b (y_bodies y) -> d < 3 -> (0 < M b d)%R) -> independent w y J -> every_row w y (fun c j => mobility w y M J c j <> 0%R).
Proof.
  intros HL HA HS H255 HM HI c j Hc Hj HZ.
  set (x := fun c' j' => if Nat.eqb c' c && Nat.eqb j' j then 1%R else 0%R).
  enough (x c j = 0%R) as X by (unfold x in X; rewrite !Nat.eqb_refl in X; cbn [andb] in X; lra).
  apply HI; auto. apply (energy_zero w y J HL HA HS H255 M); auto.
  intros c' j' Hc' Hj'. destruct (Nat.eqb_spec c' c) as [->|Nc], (Nat.eqb_spec j' j) as [->|Nj]; unfold x at 1; rewrite ?Nat.eqb_refl;
    try (rewrite (proj2 (Nat.eqb_neq _ _)) by eassumption); cbn [andb]; try ring.
  unfold mobility in HZ. fold x in HZ. rewrite HZ. ring.
Qed.

Definition loR (k : rkind) : R := match limits_of k with Some (a, _) => a | None => (- R_dblmax)%R end.
Definition hiR (k : rkind) : R := match limits_of k with Some (_, a) => a | None => R_dblmax end.
Lemma opt_gs_limits m (dt : R) t w y g (beta tol : R) q v M f kc :
  dbg = false -> yreach Optimized priv m w y -> y_sle y = Some (SleGs g) -> 0 < gs_max_iterations g -> gs_min_delta g = Some tol ->
  attached w y -> kinds_are w y kc -> all_gentle w y -> body_count y <= 255 -> y_cons y <> [] -> remembers w y ->
  (0 < dt)%R -> y_bias y = Some beta -> bodies_are w y q v M -> pushesR w y (kin_of w) dt f ->
  every_row w y (fun c j => mobility w y M (fun c j i => J_of (kc c) (pose_at w q c) j i) c j <> 0%R) ->
  exists w' y' v' x, process Optimized (Some dt : cl) 1 t w y = Ok (w', y') /\ remembers w' y' /\
    ends w' y (fun b d => q b d + v' b d * dt)%R v' /\
    every_row w y (fun c j => forall a b, limits_of (kc c) = Some (a, b) -> (a <= b)%R -> (a <= x c j <= b)%R) /\
    (forall b d, In b (y_bodies y) -> d < 3 -> (M b d * (v' b d - v b d) = (f b d + acts w y (fun c j i => J_of (kc c) (pose_at w q c) j i) x b d) * dt)%R) /\
    reportsR w w' y (fun d c j k => J_of (kc c) (pose_at w q c) j (3 * k + d)%nat * x c j)%R.
Proof.
  intros Edbg H El Hit Et HA HK HG H255 HC0 HRem Hdt Eb HB HP HD.
  pose proof (reg_listed _ _ _ (yreach_reg _ _ _ _ _ H)) as HL.
  assert (HW : answers w y (kin_of w) (Some dt : cl) (law_R w kc q v)).
  { apply kinds_answer; auto. intros b d Hb Hd. destruct (HB b d Hb Hd) as (A & B & _). auto. }
  destruct (opt_gs_step priv m dt t w y g beta tol q v M f (law_R w kc q v) (fun c j i => J_of (kc c) (pose_at w q c) j i)
    (fun c j => C_of (kc c) (pose_at w q c) j) (fun c j => bias_of (kc c)) (fun c j => loR (kc c)) (fun c j => hiR (kc c))
    Edbg H El Hit Et HA (kinds_shaped w y kc HK) HG H255 HC0 HRem Hdt Eb HB HW) as (w' & y' & v' & x & E & ER & EN & EX & R); auto;
    try (intros c j _ _; reflexivity).
  1: intros c j _ _; cbn [law_R l_lo]; unfold lo_of, loR; now destruct (limits_of (kc c)) as [[? ?]|].
  1: intros c j _ _; cbn [law_R l_hi]; unfold hi_of, hiR; now destruct (limits_of (kc c)) as [[? ?]|].
  exists w', y', v', x. do 3 (split; [assumption|]). split; [|exact R].
  intros c j Hc Hj a b0 Ea Ho. specialize (EX c j Hc Hj). cbv beta in EX. unfold loR, hiR in EX. rewrite Ea in EX. auto.
Qed.
(** a gear in neutral is reported, and acts, as absent *)
Lemma opt_gs_neutral m (dt : R) t w y g (beta tol : R) q v M f kc :
  dbg = false -> yreach Optimized priv m w y -> y_sle y = Some (SleGs g) -> 0 < gs_max_iterations g -> gs_min_delta g = Some tol ->
  attached w y -> kinds_are w y kc -> all_gentle w y -> body_count y <= 255 -> y_cons y <> [] -> remembers w y ->
  (0 < dt)%R -> y_bias y = Some beta -> bodies_are w y q v M -> pushesR w y (kin_of w) dt f ->
  every_row w y (fun c j => mobility w y M (fun c j i => J_of (kc c) (pose_at w q c) j i) c j <> 0%R) ->
  exists w' y' v' x, process Optimized (Some dt : cl) 1 t w y = Ok (w', y') /\
    ends w' y (fun b d => q b d + v' b d * dt)%R v' /\
    (forall b d, In b (y_bodies y) -> d < 3 -> (M b d * (v' b d - v b d) = (f b d + acts w y (fun c j i => J_of (kc c) (pose_at w q c) j i) x b d) * dt)%R) /\
    forall c ratio ks kd, In c (y_cons y) -> kc c = RGear ratio true ks kd -> x c 0 = 0%R /\
      forall k d, k < 2 -> d < 3 -> c_force (w_con w' c) d 0 k = (Some 0%R : cl).
Proof.
  intros Edbg H El Hit Et HA HK HG H255 HC0 HRem Hdt Eb HB HP HD.
  destruct (opt_gs_limits m dt t w y g beta tol q v M f kc Edbg H El Hit Et HA HK HG H255 HC0 HRem Hdt Eb HB HP HD) as (w' & y' & v' & x & E & ER & EN & EX & NW & RP).
  exists w', y', v', x. do 3 (split; [assumption|]). intros c ra ks kd Hc Ek. destruct (HK c Hc) as (_ & Er & Ep).
  assert (X : x c 0 = 0%R).
  { assert (H0 : 0 < c_count (w_con w c)) by (rewrite Er, Ek; cbn; lia). specialize (EX c 0 Hc H0 0%R 0%R). rewrite Ek in EX. specialize (EX eq_refl ltac:(lra)). lra. }
  split; [exact X|]. intros k d Hk Hd. rewrite (RP c 0 k d Hc) by (rewrite ?Er, ?Ep, ?Ek; cbn; lia). rewrite X. f_equal. ring.
Qed.
End S.
