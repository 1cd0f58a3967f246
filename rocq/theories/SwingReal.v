(** * Constraints of the generic class as springs and dampers. *)

From Coq Require Import Reals Lra.
From Verif Require Import Base Targets Matrix Sparse Sle State Ode Forces Constraints System Logic RealSum SpecMatrix SpecState StateFacts StateReal SpecForces ForceFacts ForceReal SpecCon ConFacts ConReal SleHist
  SpecSys RegFacts SysInv SpecDyn DynState DynReact DynRound DynStep SpecSolve SolveReal SolveStep SpecLaw LawReal LawStep SpecMom MomForce MomStep SpecSub SubOde SubStep SubRun EdgeOut SpecLeast LeastReal LeastStep LeastPart SpecDrift SpecSwing.
Local Open Scope nat_scope.

(** ** along a parabola *)
Definition vel_at (v a : nat -> nat -> R) (t : R) (b d : nat) : R := (v b d + a b d * t)%R.
Lemma parabola (q v a t : R) : derivable_pt_lim (fun t => q + v * t + a * (t * t) / 2)%R t (v + a * t)%R.
Proof.
  replace (v + a * t)%R with (0 + v * 1 + (a * (1 * id t + id t * 1)) * / 2)%R by (unfold id; field).
  apply (derivable_pt_lim_plus (fun t => q + v * t)%R (fun t => a * (t * t) / 2)%R).
  - apply (derivable_pt_lim_plus (fun _ => q) (fun t => v * t)%R); [apply derivable_pt_lim_const|]. apply (derivable_pt_lim_scal id v). apply derivable_pt_lim_id.
  - replace (a * (1 * id t + id t * 1) * / 2)%R with (/ 2 * (a * (1 * id t + id t * 1)))%R by ring.
    apply (derivable_pt_lim_ext (fun t => / 2 * (a * (id t * id t)))%R); [intros x; unfold id; field|].
    apply (derivable_pt_lim_scal (fun t => a * (id t * id t))%R). apply (derivable_pt_lim_scal (fun t => id t * id t)%R). apply derivable_pt_lim_mult; apply derivable_pt_lim_id.
Qed.
Lemma straight (v a t : R) : derivable_pt_lim (fun t => v + a * t)%R t a.
Proof.
  eapply (dlim_val _ _ (0 + a * 1)%R); [ring|]. apply (derivable_pt_lim_plus (fun _ => v) (fun t => a * t)%R); [apply derivable_pt_lim_const|]. apply (derivable_pt_lim_scal id a). apply derivable_pt_lim_id.
Qed.
Lemma dlim_Rsum n (f : nat -> R -> R) (f' : nat -> R) t : (forall i, i < n -> derivable_pt_lim (f i) t (f' i)) -> derivable_pt_lim (fun t => Rsum n (fun i => f i t)) t (Rsum n f').
Proof.
  induction n as [|n IH]; intros H; cbn [Rsum]; [apply derivable_pt_lim_const|].
  apply (derivable_pt_lim_plus (fun t => Rsum n (fun i => f i t)) (f n)); [apply IH; auto with arith|apply H; lia].
Qed.
(** a row along the motion, and its second derivative *)
Lemma row_swings k (Q V A : nat -> pose) j : positional k = true -> j < rows k ->
  let m := fun p t => mkPose (q_x (Q p) + q_x (V p) * t + q_x (A p) * (t * t) / 2)%R (q_y (Q p) + q_y (V p) * t + q_y (A p) * (t * t) / 2)%R (q_th (Q p) + q_th (V p) * t + q_th (A p) * (t * t) / 2)%R in
  let u := fun p t => mkPose (q_x (V p) + q_x (A p) * t)%R (q_y (V p) + q_y (A p) * t)%R (q_th (V p) + q_th (A p) * t)%R in
  let g1 := fun t => Rsum (3 * parties k) (fun i => J_of k (fun p => m p t) j i * coord (fun p => u p t) i)%R in
  (forall t, derivable_pt_lim (fun t => C_of k (fun p => m p t) j) t (g1 t)) /\
  derivable_pt_lim g1 0 (Rsum (3 * parties k) (fun i => Jd_of k Q V j i * coord V i + J_of k Q j i * coord A i)%R) /\
  g1 0%R = Rsum (3 * parties k) (fun i => J_of k Q j i * coord V i)%R /\ C_of k (fun p => m p 0%R) j = C_of k Q j.
Proof.
  intros Hk Hj m u g1.
  assert (Mv : forall t p, SpecState.moves (m p) t (u p t)) by (intros t p; unfold SpecState.moves, m, u; repeat split; cbn; apply parabola).
  assert (Em : forall p, m p 0%R = Q p) by (intros p; unfold m; destruct (Q p); cbn; f_equal; lra).
  assert (Eu : forall p, u p 0%R = V p) by (intros p; unfold u; destruct (V p); cbn; f_equal; lra).
  assert (Ec : forall i (X Y : nat -> pose), (forall p, X p = Y p) -> coord X i = coord Y i) by (intros i X Y H; unfold coord; now rewrite H).
  split; [intros t; now apply (C_deriv k m t (fun p => u p t) j)|]. split; [|split].
  - unfold g1. apply (dlim_Rsum _ (fun i t => J_of k (fun p => m p t) j i * coord (fun p => u p t) i)%R). intros i Hi.
    eapply dlim_val; [|apply dlim_mul; [exact (J_deriv k m 0 (fun p => u p 0%R) j i Hj Hi (fun p _ => Mv 0%R p))|]].
    2:{ instantiate (1 := coord A i). unfold coord. destruct (i mod 3) as [|[|]]; unfold u; cbn; apply straight. }
    cbv beta. rewrite (Jd_ext k _ Q _ V j i Em Eu), (J_ext k _ Q j i Em), (Ec i _ V Eu). reflexivity.
  - unfold g1. apply Rsum_ext. intros i _. now rewrite (J_ext k _ Q j i Em), (Ec i _ V Eu).
  - now apply C_ext.
Qed.

Lemma swings_ext ks kd g g' : (forall t, g t = g' t) -> swings ks kd g -> swings ks kd g'.
Proof.
  intros E (g1 & g2 & A & B & C). exists g1, g2. split; [intros t; eapply derivable_pt_lim_ext; [exact E|apply A]|]. split; [exact B|]. now rewrite <- E.
Qed.
Lemma swings_opp ks kd g : swings ks kd g -> swings ks kd (fun t => - g t)%R.
Proof.
  intros (g1 & g2 & A & B & C). exists (fun t => - g1 t)%R, (- g2)%R. split; [intros t; apply dlim_opp, A|]. split; [now apply dlim_opp|]. rewrite C. ring.
Qed.
(** the constraint function is the miss, up to its sign *)
Lemma miss_C k q j : positional k = true -> j < rows k -> miss k q j = (match k with RRolling _ _ _ _ _ _ _ => - C_of k q j | _ => C_of k q j end)%R.
Proof.
  intros Hk Hj. destruct k; try discriminate; cbn [rows] in Hj; destruct j as [|[|j]]; try lia; cbn [miss gap C_of nth fst snd]; unfold at_x, at_y, world_x, world_y; try reflexivity; ring.
Qed.

Section S.
Context {dbg : bool}.
Notation T := (RT dbg).
Notation cl := (cell T).
Implicit Types (w : world T) (y : sys T).
Variable priv : nat -> bool.

Lemma along_coord w (J : nat -> nat -> nat -> R) u c j k : c_bodycount (w_con w c) = parties k -> along w J u c j = Rsum (3 * parties k) (fun i => J c j i * coord (pose_at w u c) i)%R.
Proof. intros E. unfold along. rewrite E. destruct k; cbn; unfold coord, pose_at; cbn; ring. Qed.

(** one step of the generic class: Newton's law, and what every row asks for *)
Definition asks (k : rkind) (Q V A : nat -> pose) (j : nat) : Prop :=
  (Rsum (3 * parties k) (fun i => J_of k Q j i * coord A i) + Rsum (3 * parties k) (fun i => Jd_of k Q V j i * coord V i) =
   - (ks_of k j * C_of k Q j) - kd_of k j * Rsum (3 * parties k) (fun i => J_of k Q j i * coord V i))%R.
Lemma asks_step z m (dt : R) t w y g q v M f kc :
  yreach Generic priv m w y -> uses Generic z y -> y_sle y = Some (SleGe g) -> attached w y -> kinds_are w y kc -> all_gentle w y -> body_count y <= 255 -> y_cons y <> [] ->
  bodies_are w y q v M -> pushesR w y (kin_of w) dt f -> regular w y M (fun c j i => J_of (kc c) (pose_at w q c) j i) ->
  exists w' y' a x, process Generic (Some dt : cl) 1 t w y = Ok (w', y') /\
    ends w' y (fun b d => q b d + (match z with Symplectic => v b d + a b d * dt | Explicit => v b d end) * dt)%R (fun b d => v b d + a b d * dt)%R /\
    (forall b d, In b (y_bodies y) -> d < 3 -> (M b d * a b d = f b d + acts w y (fun c j i => J_of (kc c) (pose_at w q c) j i) x b d)%R) /\
    forall c j, In c (y_cons y) -> j < rows (kc c) -> asks (kc c) (pose_at w q c) (pose_at w v c) (pose_at w a c) j.
Proof.
  intros H U L A HK HG B C0 HB HP HR. pose proof (reg_listed _ _ _ (yreach_reg _ _ _ _ _ H)) as HL.
  assert (K0 : kin_is y (kin_of w) q v) by (intros b d Hb Hd; destruct (HB b d Hb Hd) as (X1 & X2 & _); now split).
  pose proof (kinds_answer w y kc (kin_of w) (Some dt : cl) q v HL A HK K0) as HW.
  destruct (gen_ge_step priv z m dt t w y g q v M f _ (fun c j i => J_of (kc c) (pose_at w q c) j i) (fun c j i => Jd_of (kc c) (pose_at w q c) (pose_at w v c) j i) (fun c j => C_of (kc c) (pose_at w q c) j)
    (fun c j => ks_of (kc c) j) (fun c j => kd_of (kc c) j) H U L A (kinds_shaped w y kc HK) (kinds_parties w y kc HK) HG B C0 HB HW
    ltac:(intros c j _ _ i _; reflexivity) ltac:(intros c j _ _ i _; reflexivity) ltac:(intros c j _ _; reflexivity)
    ltac:(intros c j _ _; reflexivity) ltac:(intros c j _ _; reflexivity) HP HR) as (w' & y' & a & x & E & En & ER & EM).
  exists w', y', a, x. split; [exact E|]. split; [exact En|]. split; [exact EM|]. intros c j Hc Hj. destruct (HK c Hc) as (_ & E2 & E3).
  pose proof (ER c j Hc ltac:(now rewrite E2)) as Q. cbv beta in Q. rewrite !(along_coord w _ _ c j (kc c) E3) in Q. exact Q.
Qed.
Lemma asks_swings k Q V A j : positional k = true -> j < rows k -> asks k Q V A j ->
  swings (ks_of k j) (kd_of k j) (fun t => miss k (fun p => mkPose (q_x (Q p) + q_x (V p) * t + q_x (A p) * (t * t) / 2)%R (q_y (Q p) + q_y (V p) * t + q_y (A p) * (t * t) / 2)%R
    (q_th (Q p) + q_th (V p) * t + q_th (A p) * (t * t) / 2)%R) j).
Proof.
  intros Hk Hj HA. destruct (row_swings k Q V A j Hk Hj) as (D1 & D2 & E1 & E0).
  assert (SW : swings (ks_of k j) (kd_of k j) (fun t => C_of k (fun p => mkPose (q_x (Q p) + q_x (V p) * t + q_x (A p) * (t * t) / 2)%R (q_y (Q p) + q_y (V p) * t + q_y (A p) * (t * t) / 2)%R
    (q_th (Q p) + q_th (V p) * t + q_th (A p) * (t * t) / 2)%R) j)).
  { eexists. eexists. split; [exact D1|]. split; [exact D2|]. rewrite E1, E0. unfold asks in HA.
    rewrite (Rsum_ext _ _ (fun i => J_of k Q j i * coord A i + Jd_of k Q V j i * coord V i)%R) by (intros; ring). rewrite Rsum_plus. rewrite HA. ring. }
  destruct k; try discriminate;
    first [eapply swings_ext; [|exact SW]; intros t; rewrite miss_C by assumption; reflexivity | eapply swings_ext; [|apply swings_opp; exact SW]; intros t; rewrite miss_C by assumption; reflexivity].
Qed.
Lemma spring_step z m (dt : R) t w y g q v M f kc :
  yreach Generic priv m w y -> uses Generic z y -> y_sle y = Some (SleGe g) -> attached w y -> kinds_are w y kc -> all_gentle w y -> body_count y <= 255 -> y_cons y <> [] ->
  bodies_are w y q v M -> pushesR w y (kin_of w) dt f -> regular w y M (fun c j i => J_of (kc c) (pose_at w q c) j i) ->
  exists w' y' a x, process Generic (Some dt : cl) 1 t w y = Ok (w', y') /\
    ends w' y (fun b d => q b d + (match z with Symplectic => v b d + a b d * dt | Explicit => v b d end) * dt)%R (fun b d => v b d + a b d * dt)%R /\
    (forall b d, In b (y_bodies y) -> d < 3 -> (M b d * a b d = f b d + acts w y (fun c j i => J_of (kc c) (pose_at w q c) j i) x b d)%R) /\
    forall c j, In c (y_cons y) -> positional (kc c) = true -> j < rows (kc c) ->
      swings (ks_of (kc c) j) (kd_of (kc c) j) (fun s => miss (kc c) (pose_at w (follows q v a s) c) j).
Proof.
  intros H U L A HK HG B C0 HB HP HR.
  destruct (asks_step z m dt t w y g q v M f kc H U L A HK HG B C0 HB HP HR) as (w' & y' & a & x & E & En & EM & AS).
  exists w', y', a, x. split; [exact E|]. split; [exact En|]. split; [exact EM|]. intros c j Hc Hp Hj. exact (asks_swings _ _ _ _ j Hp Hj (AS c j Hc Hj)).
Qed.
End S.
