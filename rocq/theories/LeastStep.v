(** * One step and n calls of process, seen from a part of a system. *)

From Coq Require Import Reals Lra Permutation.
From Verif Require Import Base Targets Matrix Sparse Sle State Ode Forces Constraints System Logic RealSum SpecMatrix SpecState SpecForces ForceFacts ForceReal SpecCon ConFacts SleHist
  SpecSys RegFacts SysInv SpecDyn DynState DynReact DynRound DynStep SpecSolve SolveReal SolveStep SpecLaw LawReal LawStep SpecMom MomForce MomStep SpecSub SubOde SubRun SpecLeast LeastReal.
Local Open Scope nat_scope.

Section S.
Context {dbg : bool}.
Notation T := (RT dbg).
Notation cl := (cell T).
Implicit Types (w : world T) (y : sys T) (K : kin T).

(** ** forces *)
Definition force_of (M q v : nat -> nat -> R) (k : rgen) (b d : nat) : R :=
  match k with
  | VSpring r i1 i2 =>
      let q1 := pose_of q i1 in let q2 := pose_of q i2 in let v1 := pose_of v i1 in let v2 := pose_of v i2 in
      on i1 (point_force q1 (end1x r q1) (end1y r q1) (spring_fx r q1 v1 q2 v2) (spring_fy r q1 v1 q2 v2)) b d +
      on i2 (point_force q2 (end2x r q2) (end2y r q2) (- spring_fx r q1 v1 q2 v2) (- spring_fy r q1 v1 q2 v2)) b d
  | VGravity gr => match d with 1%nat => - M b 0%nat * gr | _ => 0 end
  | VStatic px py fx fy b0 => on b0 (point_force (pose_of q b0) (at_x (pose_of q b0) px py) (at_y (pose_of q b0) px py) fx fy) b d
  end%R.
Lemma gens_gentle w y kg : gens_are w y kg -> all_gentle w y.
Proof. intros H g Hg. destruct (H g Hg) as [-> _]. destruct (kg g); exact I. Qed.
Lemma gens_orderly w y kg : gens_are w y kg -> forall g, In g (y_gens y) -> orderly (g_kind (w_gen w g)).
Proof. intros H g Hg. destruct (H g Hg) as [-> _]. destruct (kg g); exact I. Qed.
Lemma gens_push w y kg (h : R) q v M : listed w y -> bodies_are w y q v M -> gens_are w y kg ->
  pushesR w y (kin_of w) h (fun b d => Lsum (y_gens y) (fun g => force_of M q v (kg g) b d)).
Proof.
  intros HL HB HG. apply pushes_adds; [now apply (gens_gentle w y kg)|]. intros g Hg. destruct (HG g Hg) as [-> HN].
  assert (HK : kin_is y (kin_of w) q v) by (intros b d Hb Hd; destruct (HB b d Hb Hd) as (X1 & X2 & _); now split).
  destruct (kg g) as [r i1 i2|gr|px py fx fy b0]; cbn [gen_of force_of names] in *.
  - apply (spring_adds w y (kin_of w) _ q v r i1 i2 HL HK); apply HN; cbn; auto.
  - apply (gravity_adds w y (kin_of w) _ gr M). exact (masses w y q v M HB).
  - apply (static_adds w y (kin_of w) _ q v px py fx fy b0 HL HK). apply HN; cbn; auto.
Qed.
Lemma on_other b0 F b d : b <> b0 -> on b0 F b d = 0%R.
Proof. intros N. unfold on. destruct (Nat.eqb_spec b b0); [contradiction|reflexivity]. Qed.
Lemma force_misses M q v k b d : ~ aims k b -> force_of M q v k b d = 0%R.
Proof.
  intros N. destruct k as [r i1 i2|gr|px py fx fy b0]; cbn [aims names force_of In] in *; cbv zeta; [|tauto|]; rewrite !on_other by (intros ->; tauto); ring.
Qed.
Lemma force_mass (M q v M' q' v' : nat -> nat -> R) k b d (P : nat -> Prop) : (forall b d, P b -> d < 3 -> M b d = M' b d /\ q b d = q' b d /\ v b d = v' b d) ->
  (forall b, In b (names k) -> P b) -> P b -> force_of M q v k b d = force_of M' q' v' k b d.
Proof.
  intros H HN Hb. destruct (H b 0 Hb ltac:(lia)) as (EM & _).
  assert (EP : forall x, P x -> pose_of q x = pose_of q' x /\ pose_of v x = pose_of v' x).
  { intros x Hx. unfold pose_of. destruct (H x 0 Hx ltac:(lia)) as (_ & -> & ->), (H x 1 Hx ltac:(lia)) as (_ & -> & ->), (H x 2 Hx ltac:(lia)) as (_ & -> & ->). auto. }
  destruct k as [r i1 i2|gr|px py fx fy b0]; cbn [names force_of In] in *; cbv zeta.
  - destruct (EP i1 ltac:(auto)) as [-> ->], (EP i2 ltac:(auto)) as [-> ->]. reflexivity.
  - now rewrite EM.
  - destruct (EP b0 ltac:(auto)) as [-> _]. reflexivity.
Qed.

(** ** the built-in formulas depend on the poses only *)
Lemma J_ext k P P' j i : (forall p, P p = P' p) -> J_of k P j i = J_of k P' j i.
Proof. intros H. destruct k; cbn [J_of]; rewrite ?H; reflexivity. Qed.
Lemma C_ext k P P' j : (forall p, P p = P' p) -> C_of k P j = C_of k P' j.
Proof. intros H. destruct k; cbn [C_of]; rewrite ?H; reflexivity. Qed.
Lemma Jd_ext k P P' V V' j i : (forall p, P p = P' p) -> (forall p, V p = V' p) -> Jd_of k P V j i = Jd_of k P' V' j i.
Proof. intros H H'. destruct k; cbn [Jd_of]; rewrite ?H, ?H'; reflexivity. Qed.

(** ** a step, either class *)
(** the unknown u is the velocity in the optimized class and the acceleration in the generic one *)
Definition newv (k : flavour) (v u : nat -> nat -> R) (dt : R) (b d : nat) : R := match k with Optimized => u b d | Generic => (v b d + u b d * dt)%R end.
Definition newq (k : flavour) (z : scheme) (q v u : nat -> nat -> R) (dt : R) (b d : nat) : R :=
  match k, z with Generic, Explicit => (q b d + v b d * dt)%R | _, _ => (q b d + newv k v u dt b d * dt)%R end.
Definition start (k : flavour) (M f v : nat -> nat -> R) (dt : R) (b d : nat) : R := match k with Optimized => unbound M f v dt b d | Generic => (f b d / M b d)%R end.
Definition tau (k : flavour) (dt : R) : R := match k with Optimized => dt | Generic => 1%R end.
Definition wanted (k : flavour) w (kc : nat -> rkind) (v : nat -> nat -> R) (J Jd : nat -> nat -> nat -> R) (C : nat -> nat -> R) (beta dt : R) (c j : nat) : R :=
  match k with
  | Optimized => (- (bias_of (kc c) + beta / dt * C c j))%R
  | Generic => (- along w Jd v c j - ks_of (kc c) j * C c j - kd_of (kc c) j * along w J v c j)%R
  end.
Section Step.
Variable priv : nat -> bool.
Lemma ge_step k z m (dt : R) t w y g (beta : R) q v M f kc J Jd C :
  yreach k priv m w y -> uses k z y -> y_sle y = Some (SleGe g) -> attached w y -> kinds_are w y kc -> all_gentle w y -> body_count y <= 255 -> y_cons y <> [] ->
  dt <> 0%R -> y_bias y = (Some beta : cl) -> bodies_are w y q v M -> pushesR w y (kin_of w) dt f -> regular w y M J ->
  every_row w y (fun c j => C_of (kc c) (pose_at w q c) j = C c j /\
    forall i, J_of (kc c) (pose_at w q c) j i = J c j i /\ Jd_of (kc c) (pose_at w q c) (pose_at w v c) j i = Jd c j i) ->
  exists w' y' u x, process k (Some dt : cl) 1 t w y = Ok (w', y') /\ ends w' y (newq k z q v u dt) (newv k v u dt) /\
    allowed w y J (wanted k w kc v J Jd C beta dt) u /\
    forall b d, In b (y_bodies y) -> d < 3 -> (M b d * (u b d - start k M f v dt b d) = acts w y J x b d * tau k dt)%R.
Proof.
  intros H U L A HK HG B C0 Ndt Eb HB HP HR HE. pose proof (reg_listed _ _ _ (yreach_reg _ _ _ _ _ H)) as HL.
  assert (K0 : kin_is y (kin_of w) q v) by (intros b d Hb Hd; destruct (HB b d Hb Hd) as (X1 & X2 & _); now split).
  pose proof (kinds_answer w y kc (kin_of w) (Some dt : cl) q v HL A HK K0) as HW.
  assert (EJ : rows_are w y (l_J (law_R w kc q v)) J) by (intros c j Hc Hj i _; cbn; f_equal; now apply HE).
  assert (EJd : rows_are w y (l_Jd (law_R w kc q v)) Jd) by (intros c j Hc Hj i _; cbn; f_equal; now apply HE).
  assert (EC : row_is w y (l_C (law_R w kc q v)) C) by (intros c j Hc Hj; cbn; f_equal; now apply HE).
  assert (HM : forall b d, In b (y_bodies y) -> d < 3 -> M b d <> 0%R) by (intros b d Hb Hd; apply (HB b d Hb Hd)).
  destruct k.
  - destruct (opt_ge_step priv m dt t w y g beta q v M f _ J C (fun c j => bias_of (kc c)) H L A (kinds_shaped w y kc HK) HG B C0 Ndt Eb HB HW EJ EC ltac:(intros c j _ _; reflexivity) HP HR)
      as (w' & y' & v' & x & E & En & ER & EM & _).
    exists w', y', v', x. split; [exact E|]. split; [destruct z; exact En|]. split.
    + intros c j Hc Hj. pose proof (ER c j Hc Hj) as Q. cbv beta in Q. unfold wanted. lra.
    + intros b d Hb Hd. pose proof (EM b d Hb Hd) as Q. unfold start, unbound, tau.
      replace (M b d * (v' b d - (v b d + f b d / M b d * dt)))%R with (M b d * (v' b d - v b d) - f b d * dt)%R by (field; now apply HM). rewrite Q. ring.
  - destruct (gen_ge_step priv z m dt t w y g q v M f _ J Jd C (fun c j => ks_of (kc c) j) (fun c j => kd_of (kc c) j) H U L A (kinds_shaped w y kc HK) (kinds_parties w y kc HK) HG B C0 HB HW EJ EJd EC
      ltac:(intros c j _ _; reflexivity) ltac:(intros c j _ _; reflexivity) HP HR) as (w' & y' & a & x & E & En & ER & EM).
    exists w', y', a, x. split; [exact E|]. split.
    { intros b d Hb Hd. destruct (En b d Hb Hd) as [E1 E2]. split; [|exact E2]. rewrite E1. unfold newq, newv. destruct z; reflexivity. }
    split.
    + intros c j Hc Hj. pose proof (ER c j Hc Hj) as Q. cbv beta in Q. unfold wanted. lra.
    + intros b d Hb Hd. pose proof (EM b d Hb Hd) as Q. unfold start, tau.
      replace (M b d * (a b d - f b d / M b d))%R with (M b d * a b d - f b d)%R by (field; now apply HM). rewrite Q. ring.
Qed.
End Step.
End S.
