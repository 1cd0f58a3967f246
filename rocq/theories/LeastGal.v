(** * A system that is elsewhere and moves along moves in the same way. *)

From Coq Require Import Reals Lra.
From Verif Require Import Base Targets Matrix Sparse Sle State Ode Forces Constraints System Logic RealSum SpecMatrix SpecState SpecForces ForceFacts ForceReal SpecCon ConFacts SleHist
  SpecSys RegFacts SysInv SpecDyn DynState DynReact DynRound DynStep SpecSolve SolveReal SolveStep SpecLaw LawReal LawStep SpecMom MomForce MomStep SpecSub SubOde SubStep SubRun SpecLeast LeastReal LeastStep LeastPart.
Local Open Scope nat_scope.

(** ** the same system in another order *)
Section Order.
Context {dbg : bool}.
Notation T := (RT dbg).
Lemma reordered_part (w1 : world T) y1 w2 y2 kc kg : reordered w1 y1 w2 y2 -> kinds_are w1 y1 kc -> kinds_are w2 y2 kc -> part_of w1 y1 w2 y2 /\ gens_part y1 y2 kg.
Proof.
  intros (A & B & C & D) K1 K2. split; split.
  - intros b. apply A.
  - split.
    + intros c Hc. destruct (K1 c Hc) as (_ & -> & ->), (K2 c (proj1 (B c) Hc)) as (_ & -> & ->). split; [now apply B|]. split; [reflexivity|]. split; [reflexivity|]. now apply D.
    + intros c k b Hc N. now apply B in Hc.
  - intros g. apply C.
  - intros g b Hg N. now apply C in Hg.
Qed.
End Order.

(** ** shifts *)
Definition moved (q : nat -> nat -> R) (a : nat -> R) (b d : nat) : R := (q b d + a d)%R.
Definition slid (p : pose) (a : nat -> R) : pose := mkPose (q_x p + a 0) (q_y p + a 1) (q_th p).
Lemma pose_moved {dbg} (w : world (RT dbg)) q a c p : a 2 = 0%R -> pose_at w (moved q a) c p = slid (pose_at w q c p) a.
Proof. intros Z. unfold pose_at, moved, slid. cbn [q_x q_y q_th]. rewrite Z. now rewrite Rplus_0_r. Qed.
Lemma of_moved q a b : a 2 = 0%R -> pose_of (moved q a) b = slid (pose_of q b) a.
Proof. intros Z. unfold pose_of, moved, slid. cbn [q_x q_y q_th]. rewrite Z. now rewrite Rplus_0_r. Qed.
Ltac slide := unfold slid, at_x, at_y, world_x, world_y; cbn [q_x q_y q_th nth]; ring.
Lemma C_slid k P a j : inner k -> j < rows k -> C_of k (fun p => slid (P p) a) j = C_of k P j.
Proof. intros HI Hj. destruct k; cbn [inner] in HI; try contradiction; cbn [rows] in Hj; cbn [C_of]; cbv zeta; (destruct j as [|[|[|]]]; try lia; slide). Qed.
Ltac cols i := destruct i as [|[|[|[|[|[|i]]]]]]; [slide|slide|slide|slide|slide|slide|destruct i; reflexivity].
Lemma J_slid k P a j i : inner k -> j < rows k -> J_of k (fun p => slid (P p) a) j i = J_of k P j i.
Proof. intros HI Hj. destruct k; cbn [inner] in HI; try contradiction; try reflexivity; cbn [rows] in Hj; cbn [J_of]; cbv zeta; (destruct j as [|[|[|]]]; try lia; cbn [nth]; cols i). Qed.
Lemma Jd_slid k P V a u j i : inner k -> j < rows k -> Jd_of k (fun p => slid (P p) a) (fun p => slid (V p) u) j i = Jd_of k P V j i.
Proof. intros HI Hj. destruct k; cbn [inner] in HI; try contradiction; try reflexivity; cbn [rows] in Hj; cbn [Jd_of]; cbv zeta; (destruct j as [|[|[|]]]; try lia; cbn [nth]; cols i). Qed.
Lemma spring_slid r q1 v1 q2 v2 a u : spring_fx r (slid q1 a) (slid v1 u) (slid q2 a) (slid v2 u) = spring_fx r q1 v1 q2 v2 /\
  spring_fy r (slid q1 a) (slid v1 u) (slid q2 a) (slid v2 u) = spring_fy r q1 v1 q2 v2.
Proof.
  assert (EX : (end2x r (slid q2 a) - end1x r (slid q1 a) = end2x r q2 - end1x r q1)%R) by (unfold end1x, end2x; slide).
  assert (EY : (end2y r (slid q2 a) - end1y r (slid q1 a) = end2y r q2 - end1y r q1)%R) by (unfold end1y, end2y; slide).
  assert (EL : spring_length r (slid q1 a) (slid q2 a) = spring_length r q1 q2).
  { unfold spring_length, dist2. f_equal. unfold end1x, end2x, end1y, end2y. unfold slid, world_x, world_y. cbn [q_x q_y q_th]. ring. }
  assert (RX : relvx r (slid q1 a) (slid v1 u) (slid q2 a) (slid v2 u) = relvx r q1 v1 q2 v2).
  { unfold relvx, ptvx, end1x, end2x, end1y, end2y. slide. }
  assert (RY : relvy r (slid q1 a) (slid v1 u) (slid q2 a) (slid v2 u) = relvy r q1 v1 q2 v2).
  { unfold relvy, ptvy, end1x, end2x, end1y, end2y. slide. }
  unfold spring_fx, spring_fy. rewrite EL, EX, EY, RX, RY. auto.
Qed.
Lemma point_slid q a x y x' y' fx fy : (x' = x + a 0%nat)%R -> (y' = y + a 1%nat)%R -> point_force (slid q a) x' y' fx fy = point_force q x y fx fy.
Proof. intros -> ->. unfold point_force. f_equal. slide. Qed.
Lemma force_slid M q v a u k b d : a 2 = 0%R -> u 2 = 0%R -> force_of M (moved q a) (moved v u) k b d = force_of M q v k b d.
Proof.
  intros Za Zu. destruct k as [r i1 i2|gr|px py fx fy b0]; cbn [force_of]; cbv zeta; [|reflexivity|].
  - rewrite !(of_moved q a), !(of_moved v u) by assumption. destruct (spring_slid r (pose_of q i1) (pose_of v i1) (pose_of q i2) (pose_of v i2) a u) as [-> ->].
    rewrite (point_slid _ a (end1x r (pose_of q i1)) (end1y r (pose_of q i1))) by (unfold end1x, end1y; slide).
    rewrite (point_slid _ a (end2x r (pose_of q i2)) (end2y r (pose_of q i2))) by (unfold end2x, end2y; slide). reflexivity.
  - rewrite (of_moved q a) by assumption. rewrite (point_slid _ a (at_x (pose_of q b0) px py) (at_y (pose_of q b0) px py)) by slide. reflexivity.
Qed.

Section S.
Context {dbg : bool}.
Notation T := (RT dbg).
Notation cl := (cell T).
Implicit Types (w : world T) (y : sys T).
Variable priv : nat -> bool.

(** a common translation moves no row of a constraint between bodies of the system *)
Ltac small r := first [exfalso; lia|destruct r as [|r]; [|small r]].
Lemma inner_along w y kc q (u : nat -> R) c j : kinds_are w y kc -> In c (y_cons y) -> inner (kc c) -> j < c_count (w_con w c) -> u 2 = 0%R ->
  along w (fun c j i => J_of (kc c) (pose_at w q c) j i) (fun _ d => u d) c j = 0%R.
Proof.
  intros HK Hc HI Hj Z. destruct (HK c Hc) as (_ & Er & Ep). rewrite Er in Hj. unfold along. rewrite Ep.
  destruct (kc c); cbn [inner] in HI; try contradiction; cbn [rows parties] in *; small j; cbn [Rsum J_of nth Nat.mul Nat.add]; rewrite Z; ring.
Qed.
Lemma inner_along_d w y kc q v (u : nat -> R) c j : kinds_are w y kc -> In c (y_cons y) -> inner (kc c) -> j < c_count (w_con w c) -> u 2 = 0%R ->
  along w (fun c j i => Jd_of (kc c) (pose_at w q c) (pose_at w v c) j i) (fun _ d => u d) c j = 0%R.
Proof.
  intros HK Hc HI Hj Z. destruct (HK c Hc) as (_ & Er & Ep). rewrite Er in Hj. unfold along. rewrite Ep.
  destruct (kc c); cbn [inner] in HI; try contradiction; cbn [rows parties] in *; small j; cbn [Rsum Jd_of nth Nat.mul Nat.add]; rewrite Z; ring.
Qed.

Lemma moved_step k z kc kg (dt beta : R) M w1 y1 w2 y2 q v a u t1 t2 : dt <> 0%R -> a 2 = 0%R -> u 2 = 0%R ->
  side priv k z kc kg beta M w1 y1 q v -> side priv k z kc kg beta M w2 y2 (moved q a) (moved v u) -> reordered w1 y1 w2 y2 ->
  (forall c, In c (y_cons y1) -> inner (kc c)) -> regular w1 y1 M (Jat w1 kc q) ->
  exists w1' y1' w2' y2' q' v', process k (Some dt : cl) 1 t1 w1 y1 = Ok (w1', y1') /\ process k (Some dt : cl) 1 t2 w2 y2 = Ok (w2', y2') /\
    ends w1' y1 q' v' /\ ends w2' y2 (moved q' (fun d => a d + u d * dt)%R) (moved v' u).
Proof.
  intros Ndt Za Zu [(m1 & H1) U1 (g1 & L1) A1 K1 G1 B1 N1 E1 Q1] [(m2 & H2) U2 (g2 & L2) A2 K2 G2 B2 N2 E2 Q2] HO HI HR.
  destruct (reordered_part w1 y1 w2 y2 kc kg HO K1 K2) as [HP HG].
  assert (HO' : reordered w2 y2 w1 y1).
  { destruct HO as (X1 & X2 & X3 & X4). split; [intros b; symmetry; apply X1|]. split; [intros c; symmetry; apply X2|]. split; [intros g; symmetry; apply X3|].
    intros c Hc p. symmetry. apply X4, X2, Hc. }
  destruct (reordered_part w2 y2 w1 y1 kc kg HO' K2 K1) as [HP' HG'].
  pose proof (reg_listed _ _ _ (yreach_reg _ _ _ _ _ H1)) as HL1. pose proof (reg_listed _ _ _ (yreach_reg _ _ _ _ _ H2)) as HL2.
  destruct (reach_nodup priv _ _ _ _ H1) as (_ & ND1 & NG1), (reach_nodup priv _ _ _ _ H2) as (_ & ND2 & NG2).
  set (f1 := fun b d => Lsum (y_gens y1) (fun g => force_of M q v (kg g) b d)). set (f2 := fun b d => Lsum (y_gens y2) (fun g => force_of M (moved q a) (moved v u) (kg g) b d)).
  assert (EF : forall b d, In b (y_bodies y1) -> f2 b d = f1 b d).
  { intros b d Hb. unfold f1, f2. rewrite (Lsum_ext (y_gens y2) _ (fun g => force_of M q v (kg g) b d)) by (intros; now apply force_slid).
    apply Lsum_sub; auto; [apply HG|]. intros g Hg N. apply force_misses. now apply HG. }
  set (J := Jat w1 kc q). set (Jd := fun c j i => Jd_of (kc c) (pose_at w1 q c) (pose_at w1 v c) j i). set (C := fun c j => C_of (kc c) (pose_at w1 q c) j).
  assert (HR2 : regular w2 y2 M J) by (apply (part_regular w2 w1 y2 y1 J ND2 ND1 A2 HP' M A1 HR)).
  destruct (ge_step priv k z m1 dt t1 w1 y1 g1 beta q v M f1 kc J Jd C H1 U1 L1 A1 K1 (gens_gentle _ _ _ G1) B1 N1 Ndt E1 Q1 (gens_push w1 y1 kg dt q v M HL1 Q1 G1) HR)
    as (w1' & y1' & u1 & x1 & P1 & En1 & AL1 & EQ1).
  { intros c j Hc Hj. split; [reflexivity|]. intros i. split; reflexivity. }
  destruct (ge_step priv k z m2 dt t2 w2 y2 g2 beta (moved q a) (moved v u) M f2 kc J Jd C H2 U2 L2 A2 K2 (gens_gentle _ _ _ G2) B2 N2 Ndt E2 Q2 (gens_push w2 y2 kg dt _ _ M HL2 Q2 G2) HR2)
    as (w2' & y2' & u2 & x2 & P2 & En2 & AL2 & EQ2).
  { intros c j Hc Hj. pose proof Hc as Hc1. apply HO in Hc1. destruct (K2 c Hc) as (_ & Er & _). rewrite Er in Hj.
    assert (EP : forall p, pose_at w2 (moved q a) c p = slid (pose_at w1 q c p) a) by (intros p; rewrite <- (part_pose w1 y1 w2 y2) by assumption; now apply pose_moved).
    assert (EV : forall p, pose_at w2 (moved v u) c p = slid (pose_at w1 v c p) u) by (intros p; rewrite <- (part_pose w1 y1 w2 y2) by assumption; now apply pose_moved).
    split; [rewrite (C_ext (kc c) _ _ j EP); apply C_slid; auto|]. intros i. split; [rewrite (J_ext (kc c) _ _ j i EP); apply J_slid; auto|].
    rewrite (Jd_ext (kc c) _ _ _ _ j i EP EV). apply Jd_slid; auto. }
  exists w1', y1', w2', y2', (newq k z q v u1 dt), (newv k v u1 dt). split; [exact P1|]. split; [exact P2|]. split; [exact En1|].
  set (s := match k with Optimized => u | Generic => fun _ => 0%R end).
  assert (JZ : forall c j, In c (y_cons y1) -> j < c_count (w_con w1 c) -> along w1 J (fun _ d => u d) c j = 0%R) by (intros c j Hc Hj; apply (inner_along w1 y1); auto).
  assert (JdZ : forall c j, In c (y_cons y1) -> j < c_count (w_con w1 c) -> along w1 Jd (fun _ d => u d) c j = 0%R) by (intros c j Hc Hj; apply (inner_along_d w1 y1); auto).
  destruct (only_one w1 y1 J M (wanted k w1 kc v J Jd C beta dt) (tau k dt) (start k M f1 v dt) x1 x2 u1 (fun b d => u2 b d - s d)%R) as [_ EU]; auto.
  - destruct k; cbn [tau]; [exact Ndt|lra].
  - intros b d Hb Hd. apply (Q1 b d Hb Hd).
  - intros c j Hc Hj. pose proof Hc as Hc2. apply HO in Hc2. destruct HP as (X1 & HPc & X3). destruct (HPc c Hc) as (_ & En & _). pose proof Hj as Hj2. rewrite En in Hj2.
    pose proof (AL2 c j Hc2 Hj2) as Q. cbv beta in Q. rewrite <- (part_along w1 w2 y1 y2 J (conj X1 (conj HPc X3)) u2 c j Hc) in Q.
    rewrite (along_minus w1 J u2 (fun _ d => s d)). rewrite Q. unfold wanted, s. destruct k.
    + rewrite JZ by assumption. ring.
    + rewrite <- !(part_along w1 w2 y1 y2 _ (conj X1 (conj HPc X3)) _ c j Hc). unfold moved. rewrite (along_plus w1 Jd v (fun _ d => u d)), (along_plus w1 J v (fun _ d => u d)), JZ, JdZ by assumption.
      rewrite (along_ext w1 J (fun _ _ => 0%R) (fun _ d => 0 * u d)%R c j) by (intros; ring). rewrite along_scal. ring.
  - intros b d Hb Hd. pose proof Hb as Hb2. apply HO in Hb2. pose proof (EQ2 b d Hb2 Hd) as X. rewrite (part_acts w1 w2 y1 y2 J ND1 ND2 HP x2 b d Hb) in X.
    rewrite <- X. unfold start, unbound, moved, s. destruct k; rewrite (EF b d Hb); ring.
  - intros b d Hb Hd. pose proof Hb as Hb1. apply HO in Hb1. destruct (En2 b d Hb Hd) as [X1 X2]. rewrite X1, X2. pose proof (EU b d Hb1 Hd) as X. cbv beta in X.
    unfold newq, newv, moved, s in *. destruct k, z; split; f_equal; rewrite ?X; ring.
Qed.
Lemma reordered_sym w1 y1 w2 y2 : reordered w1 y1 w2 y2 -> reordered w2 y2 w1 y1.
Proof.
  intros (X1 & X2 & X3 & X4). split; [intros b; symmetry; apply X1|]. split; [intros c; symmetry; apply X2|]. split; [intros g; symmetry; apply X3|].
  intros c Hc p. symmetry. apply X4, X2, Hc.
Qed.
Lemma reordered_trans w1 y1 w2 y2 w3 y3 : reordered w1 y1 w2 y2 -> reordered w2 y2 w3 y3 -> reordered w1 y1 w3 y3.
Proof.
  intros (A & B & C & D) (A' & B' & C' & D'). split; [intros b; now rewrite A|]. split; [intros c; now rewrite B|]. split; [intros g; now rewrite C|].
  intros c Hc p. rewrite (D c Hc). apply D', B, Hc.
Qed.
Lemma next_reordered k dt n t w y w' y' : process k dt n t w y = Ok (w', y') -> reordered w y w' y'.
Proof.
  intros E. pose proof (process_alone _ _ _ _ _ _ _ _ E) as ((E1 & E2 & E3 & _) & _ & Fc & _). 
  split; [intros; now rewrite E1|]. split; [intros; now rewrite E2|]. split; [intros; now rewrite E3|]. intros c _ p. now destruct (Fc c) as (_ & _ & _ & -> & _).
Qed.
Lemma ends_ext w y q v q' v' : (forall b d, In b (y_bodies y) -> d < 3 -> q b d = q' b d /\ v b d = v' b d) -> ends w y q v -> ends w y q' v'.
Proof. intros H En b d Hb Hd. destruct (H b d Hb Hd) as [<- <-]. now apply En. Qed.
Lemma moved_calls k z kc kg (dt beta : R) M u : dt <> 0%R -> u 2 = 0%R -> forall ts1 ts2 w1 y1 w2 y2 q v a, length ts1 = length ts2 -> a 2 = 0%R ->
  side priv k z kc kg beta M w1 y1 q v -> side priv k z kc kg beta M w2 y2 (moved q a) (moved v u) -> reordered w1 y1 w2 y2 ->
  (forall c, In c (y_cons y1) -> inner (kc c)) -> unsingular k (Some dt : cl) ts1 w1 y1 M kc ->
  exists w1' y1' w2' y2' q' v', calls_of k (Some dt : cl) ts1 w1 y1 = Ok (w1', y1') /\ calls_of k (Some dt : cl) ts2 w2 y2 = Ok (w2', y2') /\
    ends w1' y1 q' v' /\ ends w2' y2 (moved q' (fun d => a d + INR (length ts1) * (u d * dt))%R) (moved v' u).
Proof.
  intros Ndt Zu. induction ts1 as [|t1 ts1 IH]; intros [|t2 ts2] w1 y1 w2 y2 q v a EL Za S1 S2 HO HI HR; try discriminate EL.
  - exists w1, y1, w2, y2, q, v. split; [reflexivity|]. split; [reflexivity|]. split.
    + intros b d Hb Hd. destruct (sd_are S1 b d Hb Hd) as (X1 & X2 & _). now split.
    + apply (ends_ext w2 y2 (moved q a) (moved v u)).
      * intros b d _ _. cbn [length INR]. unfold moved. split; ring.
      * intros b d Hb Hd. destruct (sd_are S2 b d Hb Hd) as (X1 & X2 & _). now split.
  - injection EL as EL. destruct (moved_step k z kc kg dt beta M w1 y1 w2 y2 q v a u t1 t2 Ndt Za Zu S1 S2 HO HI (unsingular_now _ _ _ _ _ _ _ _ q v HR (are_ends _ _ _ _ _ (sd_are S1)))) as (w1' & y1' & w2' & y2' & q' & v' & P1 & P2 & En1 & En2).
    destruct (side_next priv k z kc kg beta M w1 y1 q v _ t1 w1' y1' q' v' S1 P1 En1) as (S1' & F1 & R1 & EG1 & EB1).
    destruct (side_next priv k z kc kg beta M w2 y2 _ _ _ t2 w2' y2' _ _ S2 P2 En2) as (S2' & F2 & R2 & EG2 & EB2).
    assert (HC : forall c, In c (y_cons y1') -> In c (y_cons y1)) by (intros c Hc; now apply (next_reordered _ _ _ _ _ _ _ _ P1)).
    destruct (IH ts2 w1' y1' w2' y2' q' v' (fun d => a d + u d * dt)%R EL) as (w1'' & y1'' & w2'' & y2'' & q'' & v'' & C1 & C2 & X1 & X2); auto.
    + rewrite Za, Zu. ring.
    + eapply reordered_trans; [exact (reordered_sym _ _ _ _ (next_reordered _ _ _ _ _ _ _ _ P1))|]. eapply reordered_trans; [exact HO|]. exact (next_reordered _ _ _ _ _ _ _ _ P2).
    + exact (unsingular_next _ _ _ _ _ _ _ _ _ _ HR P1).
    + exists w1'', y1'', w2'', y2'', q'', v''. cbn [calls_of]. rewrite P1, P2. cbn [bind]. split; [exact C1|]. split; [exact C2|].
      split; [intros b d Hb Hd; apply X1; [rewrite EB1|]; auto|]. apply (ends_ext _ _ (moved q'' (fun d => a d + u d * dt + INR (length ts1) * (u d * dt))%R) (moved v'' u)).
      * intros b d _ _. cbn [length]. rewrite S_INR. unfold moved. split; ring.
      * intros b d Hb Hd. apply X2; [rewrite EB2|]; auto.
Qed.
End S.
