(** * The nine constraint classes answer with a definite law. *)

From Coq Require Import Reals Lra.
From Verif Require Import Base Targets State Ode Forces Constraints System Logic SpecMatrix SpecState StateFacts StateReal SpecForces SpecCon ConFacts
  SpecSys SpecDyn DynState DynReact SpecSolve SpecLaw.
Local Open Scope nat_scope.

Section R.
Context {dbg : bool}.
Notation T := (RT dbg).
Notation cl := (cell T).
Implicit Types (w : world T) (y : sys T).

Definition lo_of (k : rkind) : cl := match limits_of k with Some (a, _) => (Some a : cl) | None => copp cdblmax end.
Definition hi_of (k : rkind) : cl := match limits_of k with Some (_, a) => (Some a : cl) | None => cdblmax end.
Definition law_R w (kc : nat -> rkind) (q v : nat -> nat -> R) : law T :=
  @mkLaw T (fun c j => (Some (C_of (kc c) (pose_at w q c) j) : cl)) (fun c j i => (Some (J_of (kc c) (pose_at w q c) j i) : cl))
    (fun c j i => (Some (Jd_of (kc c) (pose_at w q c) (pose_at w v c) j i) : cl))
    (fun c j => (Some (bias_of (kc c)) : cl)) (fun c j => lo_of (kc c)) (fun c j => hi_of (kc c))
    (fun c j => (Some (ks_of (kc c) j) : cl)) (fun c j => (Some (kd_of (kc c) j) : cl)).

Ltac small r := first [exfalso; lia|destruct r as [|r]; [|small r]].
Lemma calc_rest (bs : bodies T) (c : constraint T) (o : output T) s k o' :
  c_kind c = kind_of dbg k -> calculate bs c o s = Ok o' ->
  forall j, j < rows k -> o_vbias o' j = (Some (bias_of k) : cl) /\ o_limits o' j 0 = lo_of k /\ o_limits o' j 1 = hi_of k /\
    o_ks o' j = (Some (ks_of k j) : cl) /\ o_kd o' j = (Some (kd_of k j) : cl).
Proof.
  intros Ek E. unfold calculate in E. rewrite Ek in E.
  destruct k; cbn [kind_of rows] in *; unfold con_body_index in E;
    unfold fp_calculate, line_calculate, link_calculate, rolling_calculate, fr_calculate, cr_calculate, clutch_calculate, friction_calculate, gear_calculate in E;
    repeat match type of E with
    | (let* _ := (let* _ := deref ?b ?x in _) in _) = _ => destruct (deref b x); cbn [bind] in E; try discriminate
    | (let* _ := ld ?s ?f ?i in _) = _ => destruct (ld s f i); cbn [bind] in E; try discriminate
    end; injection E as <-; intros j Hj; small j;
    try (destruct neutral);
    cbn [write_out o_vbias o_limits o_ks o_kd wr1 wr2 nth_error no_limits bias_of ks_of kd_of lo_of hi_of limits_of];
    unfold lo_of, hi_of, limits_of; repeat split; rt_unfold; unfold cofZ; try (apply some_eq; cbn [n_ofZ RT]; ring).
Qed.

Lemma pose_presents w y K h s (q v : nat -> nat -> R) c p : listed w y -> attached w y -> In c (y_cons y) -> p < c_bodycount (w_con w c) ->
  (forall b d, In b (y_bodies y) -> d < 3 -> k_q K b d = (Some (q b d) : cl) /\ k_v K b d = (Some (v b d) : cl)) ->
  presents w y K h s ->
  exists i, c_bodies (w_con w c) p = Some i /\ state_pose s (b_index (w_body w i)) (pose_at w q c p) /\
    state_velocity s (b_index (w_body w i)) (pose_at w v c p).
Proof.
  intros HL HA Hc Hp HK (_ & _ & _ & _ & HP). destruct (HA c p Hc Hp) as (b & Eb & Hb). exists b. split; [exact Eb|].
  destruct (In_nth_error _ _ Hb) as [i Ei]. destruct HL as (EI & _). rewrite (EI i b Ei). destruct (HP i b Ei) as (_ & HD).
  assert (Ew : who w c p = b) by (unfold who; now rewrite Eb).
  unfold state_pose, state_velocity, pose_at. rewrite Ew. cbn [q_x q_y q_th].
  destruct (HD 0 ltac:(lia)) as (X & U & _), (HD 1 ltac:(lia)) as (Y & V & _), (HD 2 ltac:(lia)) as (TH & W & _). cbn [posf velf] in *.
  destruct (HK b 0 Hb ltac:(lia)) as [E0 V0], (HK b 1 Hb ltac:(lia)) as [E1 V1], (HK b 2 Hb ltac:(lia)) as [E2 V2].
  rewrite X, Y, TH, U, V, W, E0, E1, E2, V0, V1, V2. repeat split.
Qed.

Lemma kinds_answer w y kc K h (q v : nat -> nat -> R) : listed w y -> attached w y -> kinds_are w y kc ->
  (forall b d, In b (y_bodies y) -> d < 3 -> k_q K b d = (Some (q b d) : cl) /\ k_v K b d = (Some (v b d) : cl)) ->
  answers w y K h (law_R w kc q v).
Proof.
  intros HL HA HK HV s HP c o Hc. destruct (HK c Hc) as (Ek & Er & Ep).
  destruct (calc_R (w_body w) (w_con w c) o s (kc c) (pose_at w q c) (pose_at w v c) Ek) as (o' & E & R).
  { intros p Hp. apply (pose_presents w y K h s q v c p HL HA Hc); auto. lia. }
  exists o'. split; [exact E|]. rewrite Er. intros j Hj. destruct (calc_rest _ _ _ _ _ _ Ek E j Hj) as (E1 & E2 & E3 & E4 & E5).
  destruct (R j Hj) as (EC & EJ). cbn [law_R l_C l_vb l_lo l_hi l_ks l_kd l_J l_Jd]. do 6 (split; [assumption|]).
  intros i Hi. apply EJ. lia.
Qed.

Lemma obeys_rows w y kc (q v : nat -> nat -> R) r : kinds_are w y kc ->
  every_row w y (fun c j => (along w (fun c j i => J_of (kc c) (pose_at w q c) j i) v c j + bias_of (kc c) + r * C_of (kc c) (pose_at w q c) j = 0)%R) ->
  forall c, In c (y_cons y) -> obeys (kc c) (pose_at w q c) (pose_at w v c) r.
Proof.
  intros HK H c Hc. destruct (HK c Hc) as (_ & Er & Ep). pose proof (fun j Hj => H c j Hc Hj) as G. rewrite Er in G. cbv beta in G.
  unfold along in G. rewrite Ep in G. unfold obeys. revert G. unfold vel_x, vel_y, at_x, at_y, world_x, world_y.
  destruct (kc c); cbn [rows parties]; intros G; pose proof (G 0 ltac:(lia)) as G0; try (pose proof (G 1 ltac:(lia)) as G1); clear G;
    cbn [Rsum J_of C_of nth Nat.mul Nat.add bias_of] in *; unfold at_x, at_y, world_x, world_y in *; cbv zeta in *; cbn [pose_at q_x q_y q_th] in *;
    try split; lra.
Qed.
End R.
