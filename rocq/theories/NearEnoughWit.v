(** * A system that meets the hypotheses of the theorems about steps with Gauss-Seidel: the double pendulum. *)

From Coq Require Import Reals Lra.
From Verif Require Import Base Targets Matrix Sparse Sle State Ode Forces Constraints System Logic SpecMatrix SpecState SpecForces SpecCon ConFacts
  SpecSle SpecSys RegFacts RegWit SpecDyn DynState DynReact DynStep DynForce DynWit SpecSolve SolveReal SpecLaw LawReal LawStep SpecLimits LimitStep Assemble SolveWit LimitWit SpecNear NearEnough.
Local Open Scope nat_scope.

Section S.
Context {dbg : bool}.
Notation T := (RT dbg).
Notation cl := (cell (RT dbg)).
Lemma dblmax_pos : (0 < R_dblmax)%R.
Proof.
  unfold R_dblmax. apply Rmult_lt_0_compat; [|apply powerRZ_lt; lra].
  assert (H : (1 < powerRZ 2 53)%R) by (change (powerRZ 2 53) with (2 ^ 53)%R; apply Rlt_pow_R1; [lra|lia]). lra.
Qed.
Lemma near_world : exists m (w : world T) y q v M f kc, yreach Optimized nopriv m w y /\
  attached w y /\ kinds_are w y kc /\ all_gentle w y /\ body_count y = 2 /\ y_cons y = [0; 1] /\ remembers w y /\
  y_bias y = Some 1%R /\ bodies_are w y q v M /\ (forall dt, pushesR w y (kin_of w) dt f) /\
  (forall b d, In b (y_bodies y) -> d < 3 -> (0 < M b d)%R) /\ independent w y (fun c j i => J_of (kc c) (pose_at w q c) j i) /\
  (forall c, In c (y_cons y) -> (least (kc c) <= most (kc c))%R).
Proof.
  destruct (assembled_fresh nopriv Optimized (wD (dbg := dbg)) (SleGs gsW) (OdeNsv (cofZ 0)) [0; 1] [0; 1] [0]) as (m & w & y & H & S & B & C & G & L & O & Bi & Hh).
  - cbn. unfold ifree, sfree, nopriv. repeat split; lia.
  - repeat constructor; cbn; intuition lia.
  - repeat constructor; cbn; intuition lia.
  - repeat constructor; cbn; intuition lia.
  - pose proof (reg_listed _ _ _ (yreach_reg _ _ _ _ _ H)) as HL. pose proof (D_attached w y S B C) as HA.
    exists m, w, y, qD, vD, MD, fD, kD. split; [exact H|]. split; [exact HA|]. split; [now apply D_kinds|]. split; [now apply D_gentle|].
    split; [unfold body_count; now rewrite B|]. split; [exact C|]. split; [intros r Hr Hr2; rewrite Hh in Hr; lia|]. split; [exact Bi|]. split; [now apply D_bodies|].
    split; [intros dt; now apply D_pushes|]. split; [|split; [now apply D_independent|]].
    + intros b d _ Hd. destruct d as [|[|[|]]]; cbn; lra || lia.
    + rewrite C. pose proof dblmax_pos. intros c [<-|[<-|[]]]; unfold least, most; cbn; lra.
Qed.
(** with enough sweeps the pendulum steps, in both builds *)
Lemma near_runs : exists m (w : world T) y q v M f kc N, yreach Optimized nopriv m w y /\ attached w y /\ kinds_are w y kc /\ y_cons y = [0; 1] /\
  bodies_are w y q v M /\ forall (g : gs_solver T) t, N <= gs_max_iterations g -> gs_min_delta g = (Some (1 / 10)%R : cl) -> solver_apart nopriv (SleGs g) ->
  exists w' y' v' x e, process Optimized (Some (1 / 100)%R : cl) 1 t w (opt_initialize y (SleGs g)) = Ok (w', y') /\
    ends w' y (fun b d => q b d + v' b d * (1 / 100))%R v' /\
    every_row w y (fun c j => holds_within (least (kc c)) (most (kc c)) (x c j)
        (along w (fun c j i => J_of (kc c) (pose_at w q c) j i) v' c j + bias_of (kc c) + 1 / (1 / 100) * C_of (kc c) (pose_at w q c) j)%R (e c j) /\
      (Rabs (e c j) <= 1 / 9 * others w y M (fun c j i => J_of (kc c) (pose_at w q c) j i) (1 / 100) x c j)%R) /\
    (forall b d, In b (y_bodies y) -> d < 3 -> (M b d * (v' b d - v b d) = (f b d + acts w y (fun c j i => J_of (kc c) (pose_at w q c) j i) x b d) * (1 / 100))%R).
Proof.
  destruct near_world as (m & w & y & q & v & M & f & kc & H & HA & HK & HG & Eb & Ec & HR & Bi & HB & HP & HM & HI & Ho).
  destruct (opt_enough_kinds nopriv m (1 / 100) w y 1 (1 / 10) q v M f kc H HA HK HG ltac:(rewrite Eb; lia) ltac:(rewrite Ec; discriminate) HR ltac:(lra) ltac:(lra) Bi HB (HP _) HM HI Ho) as [N HN].
  exists m, w, y, q, v, M, f, kc, N. do 5 (split; [assumption|]). intros g t Hk Et Hl.
  destruct (HN g t Hk Et Hl) as (w' & y' & v' & x & e & E & _ & EN & EX & NW & _). exists w', y', v', x, e.
  split; [exact E|]. split; [exact EN|]. split; [|exact NW]. replace (1 / 9)%R with (1 / 10 / (1 - 1 / 10))%R by field. exact EX.
Qed.
End S.
(** so the calls of the debug theorem exist *)
Lemma near_returns : exists m (w : world (RT true)) y g w' y' kc q v M, yreach Optimized nopriv m w y /\ attached w y /\ kinds_are w y kc /\ all_gentle w y /\ body_count y = 2 /\
  y_cons y = [0; 1] /\ y_sle y = Some (SleGs g) /\ gs_min_delta g = (Some (1 / 10)%R : cell (RT true)) /\ y_bias y = Some 1%R /\ bodies_are w y q v M /\
  every_row w y (fun c j => (0 < mobility w y M (fun c j i => J_of (kc c) (pose_at w q c) j i) c j)%R) /\
  process Optimized (Some (1 / 100)%R : cell (RT true)) 1 (t0 7) w y = Ok (w', y').
Proof.
  destruct (near_world (dbg := true)) as (m & w & y & q & v & M & f & kc & H & HA & HK & HG & Eb & Ec & HR & Bi & HB & HP & HM & HI & Ho).
  destruct (opt_enough_kinds nopriv m (1 / 100) w y 1 (1 / 10) q v M f kc H HA HK HG ltac:(rewrite Eb; lia) ltac:(rewrite Ec; discriminate) HR ltac:(lra) ltac:(lra) Bi HB (HP _) HM HI Ho) as [N HN].
  set (g := mkGs (tg := RT true) 20 21 N (Some (1 / 10)%R)).
  assert (Hl : solver_apart (tg := RT true) nopriv (SleGs g)) by (cbn; unfold ifree, sfree, nopriv; repeat split; lia).
  destruct (HN g (t0 7) (le_n _) eq_refl Hl) as (w' & y' & _ & _ & _ & E & _).
  exists m, w, (opt_initialize y (SleGs g)), g, w', y', kc, q, v, M.
  split; [eapply y_initialize with (l := SleGs g) (o := OdeNsv (cofZ 0)); [exact H|exact Hl|reflexivity]|]. do 5 (split; [assumption|]). do 4 (split; [first [reflexivity|assumption]|]).
  split; [|exact E]. exact (enough_mobile w y M (reg_listed _ _ _ (yreach_reg _ _ _ _ _ H)) HA (kinds_shaped w y kc HK) ltac:(rewrite Eb; lia) _ HM HI).
Qed.
