(** * Multipliers of the supplied solvers: one per row, clamped by Gauss-Seidel. *)

From Coq Require Import Reals.
From Verif Require Import Base Targets Matrix Sparse Sle State Ode Forces Constraints System Logic
  MatrixFacts MatrixOps SpecMatrix MatrixHist SparseFacts SpecSparse SparseHist SpecSle SleHist SleGe SleGs
  SpecState StateFacts SpecOde OdeFacts SpecSys RegFacts SysFrame SysInv SysColumn SpecDyn DynState DynReact DynRound DynStep DynGather DynRight DynReady DynSolver SpecLimits.
From Verif Require GsHist.
Local Open Scope nat_scope.

Section S.
Context {tg : target}.
Notation st := (sstate tg).
Implicit Types (ms : mats tg) (ss : sps tg) (hp : heap tg) (w : world tg) (y : sys tg) (L : law tg).
Variable priv : nat -> bool.

Lemma full_pos w y c j : listed w y -> In c (y_cons y) -> j < c_count (w_con w c) -> 0 < full_count w y.
Proof. intros HL Hc Hj. destruct (row_at w y c j HL Hc Hj) as [H _]. lia. Qed.
Lemma cons_full w y : listed w y -> shaped w y -> 0 < full_count w y \/ y_cons y = [].
Proof.
  intros HL HS. destruct (y_cons y) as [|c q] eqn:E; [now right|left]. assert (Hc : In c (y_cons y)) by (rewrite E; now left).
  apply (full_pos w y c 0 HL Hc). apply HS, Hc.
Qed.

(** ** a claim about the multipliers of the solver becomes a claim about the round *)
Lemma opt_evaluates_rows w y h l (P : law tg -> (nat -> nat -> cell tg) -> Prop) :
  apart priv y -> listed w y -> attached w y -> shaped w y -> body_count y <= 255 -> y_sle y = Some l ->
  (y_cons y = [] -> forall L, P L (fun _ _ => cofZ 0)) ->
  (forall hp L K f, opt_ready priv w y K h f L hp -> column (hm hp ilambda) -> 0 < full_count w y ->
     pc (opt_solve l hp) (fun z => exists x, is_mat false (hm (fst z) ilambda) 1 (full_count w y) (fun r _ => x r) /\
       P L (fun c j => cmul (cdiv (cofZ 1) h) (x (row0 w y c + j))))) ->
  evaluates priv w y (opt_process_constraints w y h) h (with_rows w y h P).
Proof.
  intros Hl HL HA HS HB El H0 HQ hp s K f H HC HM HP HF. apply pc_intro. intros z E.
  pose proof (pc_elim _ _ _ E (opt_evaluates priv w y h h Hl HL HA HS hp s K f H HC HM HP HF)) as (A & B & C & _).
  split; [exact A|]. split; [exact B|]. split; [exact C|]. intros L HW.
  destruct (cons_full w y HL HS) as [Hm|En].
  2: { exists (fun _ _ => cofZ 0). split; [auto|]. intros c j k d Hc. rewrite En in Hc. destruct Hc. }
  pose proof (pc_elim _ _ _ E (opt_constraints_pc priv w y K h h f L hp s l
    (fun x => P L (fun c j => cmul (cdiv (cofZ 1) h) (x (row0 w y c + j)))) HL HA HS HB HP HF HW H HM El (Hl l El)
    (fun hp' R E' => HQ hp' L K f R ltac:(rewrite E'; exact HC) Hm))) as (x & Px & _ & _ & _ & R).
  eexists. split; [exact Px|]. exact R.
Qed.

(** any solver: there are multipliers *)
Lemma opt_rows_any w y h l : apart priv y -> listed w y -> attached w y -> shaped w y -> body_count y <= 255 -> y_sle y = Some l -> supplied l ->
  evaluates priv w y (opt_process_constraints w y h) h (with_rows w y h (fun _ _ => True)).
Proof.
  intros Hl HL HA HS HB El Hs. apply (opt_evaluates_rows w y h l); auto.
  intros hp L K f R HC Hm. destruct R as (HP & (b & _ & Hb) & _). apply pc_intro. intros z E.
  pose proof (pc_elim _ _ _ E (opt_solve_tall priv l w y (l_J L) f hp b Hs (Hl l El) HL HA HS HP Hb Hm HC)) as Tz.
  pose proof (pc_elim _ _ _ E (opt_solve_keeps priv l hp (Hl l El) (proj1 HP))) as [[Wz _] _].
  destruct (tall_is_mat _ _ ilambda _ (Wz ilambda) Tz) as [x Hx]. eauto.
Qed.

(** Gauss-Seidel with limits: they are clamped *)
Lemma gs_system_names g : solver_apart priv (SleGs (tg := tg) g) -> gs_names_limits g sJ iMinv iright ilimits ilambda.
Proof.
  intros (A1 & A2). unfold ifree, sfree in *. split; [|unfold sJ; lia].
  repeat constructor; cbn; unfold iMinv, iright, ilambda, ilimits; intuition (try lia; try congruence).
Qed.
Lemma opt_rows_clamped w y h g : apart priv y -> listed w y -> attached w y -> shaped w y -> body_count y <= 255 ->
  y_sle y = Some (SleGs g) -> 0 < gs_max_iterations g ->
  evaluates priv w y (opt_process_constraints w y h) h (with_rows w y h (clamped w y h)).
Proof.
  intros Hl HL HA HS HB El Hi. apply (opt_evaluates_rows w y h (SleGs g)); auto.
  { intros E L c j Hc. rewrite E in Hc. destruct Hc. }
  intros hp L K f R HC Hm. destruct R as (HP & (b & _ & Hb) & HLim). specialize (Hl _ El). apply pc_intro. intros z E.
  pose proof (pc_elim _ _ _ E (opt_solve_tall priv (SleGs g) w y (l_J L) f hp b I Hl HL HA HS HP Hb Hm HC)) as Tz.
  pose proof (pc_elim _ _ _ E (opt_solve_keeps priv (SleGs g) hp Hl (proj1 HP))) as [[Wz _] _].
  destruct (tall_is_mat _ _ ilambda _ (Wz ilambda) Tz) as [x Hx]. exists x. split; [exact Hx|].
  destruct (prepared_system priv w y (l_J L) f hp b HL HA HS HP Hb) as [v Sy].
  set (lo := fun r => cmul (l_lo L (rc w y r) (rj w y r)) h). set (hi := fun r => cmul (l_hi L (rc w y r) (rj w y r)) h).
  assert (HLm : limits_are (hm hp) ilimits (full_count w y) lo hi).
  { apply is_mat_shows in HLim. destruct HLim as (A & B & C). split; [exact A|]. split; [exact B|]. intros r c Hr Hc. rewrite C by assumption.
    destruct c as [|c]; reflexivity. }
  assert (HSt : exists x0, start_limits hp (Some ilambda) ilambda (full_count w y) x0).
  { destruct (Nat.eq_dec (m_h (hm hp ilambda)) (full_count w y)) as [Eh|Nh].
    - destruct (tall_is_mat _ _ ilambda _ (proj1 (proj1 HP) ilambda) (column_tall _ _ HC Eh Hm)) as [x0 H0]. exists x0. left. exists ilambda.
      split; [reflexivity|]. eapply is_mat_shows; exact H0.
    - exists (fun _ => cofZ 0). right. split; [intros p [= <-]; exact Nh|]. right. auto. }
  destruct HSt as [x0 HSt].
  pose proof (gs_solve_limits_sim priv hp g sJ iMinv iright ilimits (Some ilambda) ilambda _ _ _ _ _ _ lo hi x0 (proj1 HP) (gs_system_names g Hl) Sy HLm HSt) as HR.
  pose proof (GsHist.piterL_clamped (full_count w y) (msys (blkR w y) v (fun r => inv_mass w y (r / 3) (r mod 3))) b lo hi (gs_min_delta g) (gs_max_iterations g) x0 Hi) as HZ.
  unfold opt_solve in E. cbn [supports_limits negb sle_solve_limits] in E. rewrite E in HR.
  destruct (piter _ _ _ _ x0) as [u| | |]; cbn [rel] in HR; try contradiction. cbn [pc] in HZ. destruct HR as (_ & _ & _ & _ & G).
  intros c j Hc Hj. destruct (row_at w y c j HL Hc Hj) as (Rl & Ec & Ej). destruct (HZ _ Rl) as (l & u' & q & E1 & E2 & E3).
  specialize (G _ 0 Rl ltac:(lia)). rewrite (mget_spec _ _ _ _ _ _ 0 _ Hx) in G by lia. injection G as G. rewrite E3 in G.
  exists l, u', q. split; [subst lo; cbv beta in E1; now rewrite Ec, Ej in E1|]. split; [subst hi; cbv beta in E2; now rewrite Ec, Ej in E2|]. now rewrite G.
Qed.

Lemma with_rows_slots w y h P : by_slots w y (with_rows w y h P).
Proof.
  intros K f F F' E H L HW. destruct (H L HW) as (x & Px & R). exists x. split; [exact Px|].
  intros c j k d Hc Hj Hk Hd. rewrite E. now apply R.
Qed.
Lemma opt_rows_motion m dt n t w y w' y' l : yreach Optimized priv m w y -> attached w y -> shaped w y -> all_gentle w y -> body_count y <= 255 ->
  y_sle y = Some l -> supplied l -> process Optimized dt n t w y = Ok (w', y') ->
  let h := cdiv dt (cofZ (Z.of_nat n)) in
  exists K F, motion_by (with_rows w y h (fun _ _ => True)) Symplectic w y h n (kin_of w) K F /\ arrives w' y K /\ reports w w' y F.
Proof.
  intros H HA HS HG HB El Hs E h. destruct (reach_nice priv _ _ _ _ H HA HS HG) as (Hl & HL & _).
  eapply (opt_motion_by priv); eauto; [|apply with_rows_slots]. intros s0.
  exact (opt_rows_any w (with_state y s0) _ l Hl HL HA HS HB El Hs).
Qed.
Lemma opt_clamped_motion m dt n t w y w' y' g : yreach Optimized priv m w y -> attached w y -> shaped w y -> all_gentle w y -> body_count y <= 255 ->
  y_sle y = Some (SleGs g) -> 0 < gs_max_iterations g -> process Optimized dt n t w y = Ok (w', y') ->
  let h := cdiv dt (cofZ (Z.of_nat n)) in
  exists K F, motion_by (with_rows w y h (clamped w y h)) Symplectic w y h n (kin_of w) K F /\ arrives w' y K /\ reports w w' y F.
Proof.
  intros H HA HS HG HB El Hi E h. destruct (reach_nice priv _ _ _ _ H HA HS HG) as (Hl & HL & _).
  eapply (opt_motion_by priv); eauto; [|apply with_rows_slots]. intros s0.
  exact (opt_rows_clamped w (with_state y s0) _ g Hl HL HA HS HB El Hi).
Qed.
End S.
