(** * Least constraint, energy, and the motion of a part of a system. *)

From Coq Require Import Reals Lra.
From Verif Require Import Base Targets Matrix Sparse Sle State Ode Forces Constraints System Logic RealSum SpecMatrix SpecState SpecForces ForceFacts ForceReal SpecCon ConFacts SleHist
  SpecSys RegFacts SysInv SpecDyn DynState DynReact DynRound DynStep SpecSolve SolveReal SolveStep SpecLaw LawReal LawStep SpecMom MomForce MomStep SpecSub SubOde SubStep SubRun EdgeOut SpecLeast LeastReal LeastStep.
Local Open Scope nat_scope.

(** ** process keeps the integrator *)
Section Any.
Context {tg : target}.
Lemma rounds_scheme z (w : world tg) y pcf fuel : forall o hp s, is_scheme z o -> pc (ode_rounds fuel w y pcf o hp s) (fun x => is_scheme z (fst (fst x))).
Proof.
  induction fuel as [|fuel IH]; intros o hp s H; cbn [ode_rounds]; [exact I|].
  assert (E : exists s', ode_step o s = Ok (o, s', true)) by (destruct H as [h ->]; destruct z; cbn; eauto). destruct E as [s' ->]. cbn [bind].
  apply pc_any. intros s1. apply pc_any. intros [hp1 s2].
  assert (E : exists r, ode_solve o s2 = let* s := r in Ok (o, s)) by (destruct H as [h ->]; destruct z; cbn; eauto). destruct E as [r ->].
  destruct r; cbn [bind]; try exact I. exact H.
Qed.
Lemma substep_scheme z (w : world tg) y pcf h x : is_scheme z (fst (fst x)) -> pc (substep w y pcf h x) (fun x => is_scheme z (fst (fst x))).
Proof.
  destruct x as [[o hp] s]. cbn [fst]. intros H. unfold substep.
  assert (E : exists o', ode_start o s h = Ok o' /\ is_scheme z o') by (destruct H as [h0 ->]; destruct z; cbn; eexists; (split; [reflexivity|now exists h])).
  destruct E as (o' & -> & H'). cbn [bind]. eapply pc_seq; [exact (rounds_scheme z w y pcf 8 o' hp s H')|]. intros [[o1 hp1] s1] [h1 E1]. cbn [fst] in E1. subst o1.
  cbn. exists h1. destruct z; reflexivity.
Qed.
Lemma process_scheme k z dt t (w : world tg) y w' y' : uses k z y -> process k dt 1 t w y = Ok (w', y') -> uses k z y'.
Proof.
  intros U E. destruct k; [exact U|]. destruct U as [h0 Eo]. rewrite process_unfold in E.
  destruct (populate_state w y) as [s| | |]; try discriminate E. cbn [bind] in E. destruct (populate_mass w y (hm (y_heap y))) as [ms| | |]; try discriminate E. cbn [bind] in E.
  unfold the_ode in E. rewrite Eo in E. cbn [bind] in E.
  destruct (loop Generic 1 (cdiv dt (cofZ (Z.of_nat 1))) w y (ode_of z h0, with_hm (y_heap y) ms, s)) as [x| | |] eqn:EL; try discriminate E. cbn [bind] in E.
  rewrite loop_one in EL. assert (S0 : is_scheme z (ode_of z h0)) by now exists h0.
  pose proof (pc_elim _ _ _ EL (substep_scheme z w y _ _ (ode_of z h0, with_hm (y_heap y) ms, s) S0)) as [h1 E1].
  destruct (propagate Generic y (snd x) w); try discriminate E. cbn [bind] in E. destruct (record_profile (put y x) t) as [y1| | |] eqn:ER; try discriminate E. cbn [bind ticked] in E.
  injection E as _ <-. exists h1. rewrite <- E1. unfold record_profile in ER. repeat (apply bind_inv in ER; destruct ER as (? & _ & ER)). injection ER as <-. reflexivity.
Qed.
End Any.

Section S.
Context {dbg : bool}.
Notation T := (RT dbg).
Notation cl := (cell T).
Implicit Types (w : world T) (y : sys T) (K : kin T).
Variable priv : nat -> bool.

(** ** least constraint *)
Definition positive (y : sys T) (M : nat -> nat -> R) : Prop := forall b d, In b (y_bodies y) -> d < 3 -> (0 < M b d)%R.
Lemma smallest w y J M r (dt : R) x (v' s : nat -> nat -> R) : NoDup (y_bodies y) -> attached w y -> positive y M -> allowed w y J r v' ->
  (forall b d, In b (y_bodies y) -> d < 3 -> (M b d * (v' b d - s b d) = acts w y J x b d * dt)%R) ->
  forall u, allowed w y J r u -> (kinetic y M (fun b d => v' b d - s b d) <= kinetic y M (fun b d => u b d - s b d))%R /\
    (kinetic y M (fun b d => u b d - s b d)%R = kinetic y M (fun b d => v' b d - s b d)%R -> forall b d, In b (y_bodies y) -> d < 3 -> u b d = v' b d).
Proof.
  intros ND HA HM Hv He u Hu. pose proof (least w y J M r dt x v' s ND HA Hv He u Hu) as Q. pose proof (kinetic_nonneg y M (fun b d => u b d - v' b d)%R HM) as P. split; [lra|].
  intros E b d Hb Hd. assert (Z : kinetic y M (fun b d => u b d - v' b d)%R = 0%R) by lra. pose proof (kinetic_zero y M _ HM Z b d Hb Hd) as X. cbv beta in X. lra.
Qed.
Lemma reach_nodup k m w y : yreach k priv m w y -> NoDup (y_bodies y) /\ NoDup (y_cons y) /\ NoDup (y_gens y).
Proof. intros H. destruct (yreach_reg _ _ _ _ _ H) as ((A & _) & (B & _) & (C & _)). auto. Qed.
Lemma least_velocity m (dt : R) t w y g (beta : R) q v M f L J C vb :
  yreach Optimized priv m w y -> y_sle y = Some (SleGe g) -> attached w y -> shaped w y -> all_gentle w y -> body_count y <= 255 -> y_cons y <> [] ->
  dt <> 0%R -> y_bias y = Some beta -> bodies_are w y q v M -> (forall b d, In b (y_bodies y) -> d < 3 -> (0 < M b d)%R) ->
  answers w y (kin_of w) (Some dt : cl) L -> rows_are w y (l_J L) J -> row_is w y (l_C L) C -> row_is w y (l_vb L) vb ->
  pushesR w y (kin_of w) dt f -> regular w y M J ->
  exists w' y' v', process Optimized (Some dt : cl) 1 t w y = Ok (w', y') /\ ends w' y (fun b d => q b d + v' b d * dt)%R v' /\
    allowed w y J (fun c j => - (vb c j + beta / dt * C c j))%R v' /\
    forall u, allowed w y J (fun c j => - (vb c j + beta / dt * C c j))%R u ->
      (kinetic y M (fun b d => v' b d - unbound M f v dt b d) <= kinetic y M (fun b d => u b d - unbound M f v dt b d))%R /\
      (kinetic y M (fun b d => u b d - unbound M f v dt b d)%R = kinetic y M (fun b d => v' b d - unbound M f v dt b d)%R -> forall b d, In b (y_bodies y) -> d < 3 -> u b d = v' b d).
Proof.
  intros H El HA HS HG H255 HC0 Ndt Eb HB HP HW HJ HC Hvb HF HR.
  destruct (opt_ge_step priv m dt t w y g beta q v M f L J C vb H El HA HS HG H255 HC0 Ndt Eb HB HW HJ HC Hvb HF HR) as (w' & y' & v' & x & E & En & ER & EM & _).
  assert (AL : allowed w y J (fun c j => - (vb c j + beta / dt * C c j))%R v') by (intros c j Hc Hj; pose proof (ER c j Hc Hj) as Q; cbv beta in Q; lra).
  exists w', y', v'. split; [exact E|]. split; [exact En|]. split; [exact AL|].
  apply (smallest w y J M _ dt x v' (unbound M f v dt)); auto; [apply (reach_nodup _ _ _ _ H)|].
  intros b d Hb Hd. unfold unbound. pose proof (EM b d Hb Hd) as Q. destruct (HB b d Hb Hd) as (_ & _ & _ & NM).
  replace (M b d * (v' b d - (v b d + f b d / M b d * dt)))%R with (M b d * (v' b d - v b d) - f b d * dt)%R by (now field). rewrite Q. ring.
Qed.
Lemma least_acceleration z m (dt : R) t w y g q v M f L J Jd C ks kd :
  yreach Generic priv m w y -> uses Generic z y -> y_sle y = Some (SleGe g) -> attached w y -> shaped w y ->
  (forall c, In c (y_cons y) -> 1 <= c_bodycount (w_con w c)) -> all_gentle w y -> body_count y <= 255 -> y_cons y <> [] ->
  bodies_are w y q v M -> (forall b d, In b (y_bodies y) -> d < 3 -> (0 < M b d)%R) ->
  answers w y (kin_of w) (Some dt : cl) L -> rows_are w y (l_J L) J -> rows_are w y (l_Jd L) Jd -> row_is w y (l_C L) C ->
  row_is w y (l_ks L) ks -> row_is w y (l_kd L) kd -> pushesR w y (kin_of w) dt f -> regular w y M J ->
  exists w' y' a, process Generic (Some dt : cl) 1 t w y = Ok (w', y') /\
    ends w' y (fun b d => q b d + (match z with Symplectic => v b d + a b d * dt | Explicit => v b d end) * dt)%R (fun b d => v b d + a b d * dt)%R /\
    let wanted := (fun c j => - along w Jd v c j - ks c j * C c j - kd c j * along w J v c j)%R in
    allowed w y J wanted a /\
    forall u, allowed w y J wanted u ->
      (kinetic y M (fun b d => a b d - f b d / M b d) <= kinetic y M (fun b d => u b d - f b d / M b d))%R /\
      (kinetic y M (fun b d => u b d - f b d / M b d)%R = kinetic y M (fun b d => a b d - f b d / M b d)%R -> forall b d, In b (y_bodies y) -> d < 3 -> u b d = a b d).
Proof.
  intros H U El HA HS H1 HG H255 HC0 HB HM HW HJ HJd HC Hks Hkd HF HR.
  destruct (gen_ge_step priv z m dt t w y g q v M f L J Jd C ks kd H U El HA HS H1 HG H255 HC0 HB HW HJ HJd HC Hks Hkd HF HR) as (w' & y' & a & x & E & En & ER & EM).
  exists w', y', a. split; [exact E|]. split; [exact En|]. cbv zeta.
  assert (AL : allowed w y J (fun c j => - along w Jd v c j - ks c j * C c j - kd c j * along w J v c j)%R a) by (intros c j Hc Hj; pose proof (ER c j Hc Hj) as Q; cbv beta in Q; lra).
  split; [exact AL|]. apply (smallest w y J M _ 1%R x a (fun b d => f b d / M b d)%R); auto; [apply (reach_nodup _ _ _ _ H)|].
  intros b d Hb Hd. pose proof (EM b d Hb Hd) as Q. destruct (HB b d Hb Hd) as (_ & _ & _ & NM).
  replace (M b d * (a b d - f b d / M b d))%R with (M b d * a b d - f b d)%R by (now field). rewrite Q. ring.
Qed.

(** ** energy *)
Lemma kinetic_ext y M u u' : (forall b d, In b (y_bodies y) -> d < 3 -> u b d = u' b d) -> kinetic y M u = kinetic y M u'.
Proof. intros H. unfold kinetic. f_equal. apply Lsum_ext. intros b Hb. now rewrite (H b 0 Hb ltac:(lia)), (H b 1 Hb ltac:(lia)), (H b 2 Hb ltac:(lia)). Qed.
Lemma energy_split m (dt : R) t w y g (beta : R) q v M f L J C vb :
  yreach Optimized priv m w y -> y_sle y = Some (SleGe g) -> attached w y -> shaped w y -> all_gentle w y -> body_count y <= 255 -> y_cons y <> [] ->
  dt <> 0%R -> y_bias y = Some beta -> bodies_are w y q v M ->
  answers w y (kin_of w) (Some dt : cl) L -> rows_are w y (l_J L) J -> row_is w y (l_C L) C -> row_is w y (l_vb L) vb ->
  pushesR w y (kin_of w) dt f -> regular w y M J ->
  exists w' y' v' x, process Optimized (Some dt : cl) 1 t w y = Ok (w', y') /\ ends w' y (fun b d => q b d + v' b d * dt)%R v' /\
    reportsR w w' y (fun d c j k => J c j (3 * k + d)%nat * x c j)%R /\
    (kinetic y M v' + kinetic y M (fun b d => v' b d - unbound M f v dt b d) =
      kinetic y M (unbound M f v dt) - dt * Lsum (row_list w y) (fun '(c, j) => x c j * (vb c j + beta / dt * C c j)))%R.
Proof.
  intros H El HA HS HG H255 HC0 Ndt Eb HB HW HJ HC Hvb HF HR.
  destruct (opt_ge_step priv m dt t w y g beta q v M f L J C vb H El HA HS HG H255 HC0 Ndt Eb HB HW HJ HC Hvb HF HR) as (w' & y' & v' & x & E & En & ER & EM & RP).
  exists w', y', v', x. split; [exact E|]. split; [exact En|]. split; [exact RP|].
  set (s := unbound M f v dt).
  transitivity (kinetic y M v' + kinetic y M (fun b d => v' b d - s b d) - Lsum (y_bodies y) (fun b => Rsum 3 (fun d => v' b d * (M b d * (v' b d - s b d)))) +
    Lsum (y_bodies y) (fun b => Rsum 3 (fun d => v' b d * (M b d * (v' b d - s b d)))))%R; [ring|].
  assert (E1 : kinetic y M s = (kinetic y M v' + kinetic y M (fun b d => v' b d - s b d) - Lsum (y_bodies y) (fun b => Rsum 3 (fun d => v' b d * (M b d * (v' b d - s b d)))))%R).
  { pose proof (dot_kinetic y M (fun b d => v' b d - s b d)%R (fun b d => - v' b d)%R) as D. cbv beta in D.
    rewrite (Lsum_ext (y_bodies y) (fun b => Rsum 3 (fun d => - v' b d * (M b d * (v' b d - s b d)))) (fun b => (-1) * Rsum 3 (fun d => v' b d * (M b d * (v' b d - s b d)))))%R in D
      by (intros; cbn [Rsum]; ring).
    rewrite Lsum_scal in D.
    assert (K1 : kinetic y M (fun b d => v' b d - s b d + - v' b d)%R = kinetic y M s) by (unfold kinetic; f_equal; apply Lsum_ext; intros; ring).
    assert (K2 : kinetic y M (fun b d => - v' b d)%R = kinetic y M v') by (unfold kinetic; f_equal; apply Lsum_ext; intros; ring).
    rewrite K1, K2 in D. lra. }
  rewrite <- E1.
  assert (E2 : Lsum (y_bodies y) (fun b => Rsum 3 (fun d => v' b d * (M b d * (v' b d - s b d))))%R = (dt * Lsum (y_bodies y) (fun b => Rsum 3 (fun d => v' b d * acts w y J x b d)))%R).
  { rewrite <- Lsum_scal. apply Lsum_ext. intros b Hb. rewrite <- Rsum_scal_l. apply Rsum_ext. intros d Hd. unfold s, unbound.
    pose proof (EM b d Hb Hd) as Q. destruct (HB b d Hb Hd) as (_ & _ & _ & NM).
    replace (M b d * (v' b d - (v b d + f b d / M b d * dt)))%R with (M b d * (v' b d - v b d) - f b d * dt)%R by (now field). rewrite Q. ring. }
  rewrite E2, (acts_along w y J x v' (proj1 (reach_nodup _ _ _ _ H)) HA).
  rewrite (Lsum_ext (row_list w y) (fun '(c, j) => x c j * along w J v' c j) (fun a => (-1) * (let '(c, j) := a in x c j * (vb c j + beta / dt * C c j))))%R.
  - rewrite Lsum_scal. ring.
  - intros [c j] He. destruct (rows_in w y c j He) as (Hc & Hj). pose proof (ER c j Hc Hj) as Q. cbv beta in Q.
    replace (along w J v' c j) with (- (vb c j + beta / dt * C c j))%R by lra. ring.
Qed.
Lemma energy_lost m (dt : R) t w y g (beta : R) q v M f L J C vb :
  yreach Optimized priv m w y -> y_sle y = Some (SleGe g) -> attached w y -> shaped w y -> all_gentle w y -> body_count y <= 255 -> y_cons y <> [] ->
  dt <> 0%R -> y_bias y = Some beta -> bodies_are w y q v M -> (forall b d, In b (y_bodies y) -> d < 3 -> (0 < M b d)%R) ->
  answers w y (kin_of w) (Some dt : cl) L -> rows_are w y (l_J L) J -> row_is w y (l_C L) C -> row_is w y (l_vb L) vb ->
  every_row w y (fun c j => vb c j + beta / dt * C c j = 0)%R ->
  pushesR w y (kin_of w) dt f -> regular w y M J ->
  exists w' y' v', process Optimized (Some dt : cl) 1 t w y = Ok (w', y') /\ ends w' y (fun b d => q b d + v' b d * dt)%R v' /\
    (kinetic y M v' + kinetic y M (fun b d => v' b d - unbound M f v dt b d) = kinetic y M (unbound M f v dt))%R /\
    (kinetic y M v' <= kinetic y M (unbound M f v dt))%R.
Proof.
  intros H El HA HS HG H255 HC0 Ndt Eb HB HM HW HJ HC Hvb HZ HF HR.
  destruct (energy_split m dt t w y g beta q v M f L J C vb H El HA HS HG H255 HC0 Ndt Eb HB HW HJ HC Hvb HF HR) as (w' & y' & v' & x & E & En & _ & Q).
  exists w', y', v'. split; [exact E|]. split; [exact En|].
  rewrite (Lsum_ext (row_list w y) _ (fun _ => 0%R)) in Q.
  - rewrite Lsum_zero in Q. pose proof (kinetic_nonneg y M (fun b d => v' b d - unbound M f v dt b d)%R HM). lra.
  - intros [c j] He. destruct (rows_in w y c j He) as (Hc & Hj). pose proof (HZ c j Hc Hj) as X. cbv beta in X. rewrite X. ring.
Qed.

(** ** parts *)
Lemma allowed_J w y J J' r u : every_row w y (fun c j => forall i, J c j i = J' c j i) -> allowed w y J r u -> allowed w y J' r u.
Proof.
  intros H HA c j Hc Hj. rewrite <- (HA c j Hc Hj). unfold along. apply Rsum_ext. intros k _. apply Rsum_ext. intros d _. now rewrite (H c j Hc Hj).
Qed.
Lemma acts_J w y J J' x b d : every_row w y (fun c j => forall i, J c j i = J' c j i) -> acts w y J x b d = acts w y J' x b d.
Proof.
  intros H. unfold acts. apply Lsum_ext. intros [[c j] k] He. destruct (MomStep.slots_in w y _ He) as (Hc & Hj & _). destruct (binds w b (c, j, k)); [|reflexivity]. now rewrite (H c j Hc Hj).
Qed.
Lemma regular_J w y M J J' : every_row w y (fun c j => forall i, J c j i = J' c j i) -> regular w y M J -> regular w y M J'.
Proof.
  intros H HR x Hx. apply HR. refine (allowed_J w y J' J (fun _ _ => 0%R) _ _ _); [intros c j Hc Hj i; symmetry; now apply H|].
  intros c j Hc Hj. rewrite <- (Hx c j Hc Hj). apply along_ext. intros k d _ _. now rewrite (acts_J w y J J' x _ d H).
Qed.
Definition Jat w (kc : nat -> rkind) (q : nat -> nat -> R) : nat -> nat -> nat -> R := fun c j i => J_of (kc c) (pose_at w q c) j i.
Lemma side_next k z kc kg beta M w y q v dt t w' y' q' v' : side priv k z kc kg beta M w y q v -> process k dt 1 t w y = Ok (w', y') -> ends w' y q' v' ->
  side priv k z kc kg beta M w' y' q' v' /\ part_of w y w' y' /\ part_of w' y' w y /\ y_gens y' = y_gens y /\ y_bodies y' = y_bodies y.
Proof.
  intros [(m & H) U (g & L) A HK HG B C0 Eb HB] E En. pose proof (process_alone _ _ _ _ _ _ _ _ E) as ((E1 & E2 & E3 & E4 & E5) & Fb & Fc & Fg).
  split; [constructor|split; [|split; [|auto]]].
  - eexists. exact (y_process priv k m w y dt 1 t w' y' H (gens_orderly w y kg HG) E).
  - now apply (process_scheme k z dt t w y w' y').
  - exists g. congruence.
  - intros c p Hc Hp. destruct (Fc c) as (_ & _ & F3 & F4 & _). rewrite E2 in Hc. rewrite F3 in Hp. rewrite F4, E1. now apply A.
  - intros c Hc. rewrite E2 in Hc. destruct (Fc c) as (-> & _ & -> & _ & -> & _). now apply HK.
  - intros g' Hg. rewrite E3 in Hg. rewrite Fg, E1. now apply HG.
  - unfold body_count. now rewrite E1.
  - now rewrite E2.
  - congruence.
  - intros b d Hb Hd. rewrite E1 in Hb. destruct (HB b d Hb Hd) as (_ & _ & X3 & X4), (En b d Hb Hd) as (Y1 & Y2). split; [exact Y1|]. split; [exact Y2|].
    split; [|exact X4]. rewrite <- X3. destruct (Fb b) as (_ & Fm & FI & _). destruct d as [|[|[|]]]; try lia; cbn [b_mass]; assumption.
  - split; [intros b; now rewrite E1|]. split; [|intros c p b Hc N; rewrite E2 in Hc; contradiction].
    intros c Hc. rewrite E2. destruct (Fc c) as (_ & _ & -> & -> & -> & _). auto.
  - split; [intros b; now rewrite E1|]. split; [|intros c p b Hc N; rewrite E2 in N; contradiction].
    intros c Hc. rewrite E2 in Hc. destruct (Fc c) as (_ & _ & -> & -> & -> & _). auto.
Qed.
Lemma part_trans w1 y1 w2 y2 w3 y3 : part_of w1 y1 w2 y2 -> part_of w2 y2 w3 y3 -> part_of w1 y1 w3 y3.
Proof.
  intros (A & B & C) (A' & B' & C'). split; [auto|]. split.
  - intros c Hc. destruct (B c Hc) as (I1 & F1 & F2 & F3), (B' c I1) as (G1 & G2 & G3 & G4). split; [exact G1|]. split; [congruence|]. split; [congruence|]. intros k. now rewrite F3.
  - intros c k b Hc N Hk Eb Hb. destruct (in_dec Nat.eq_dec c (y_cons y2)) as [I2|N2].
    + destruct (B' c I2) as (_ & _ & G3 & G4). rewrite <- G3 in Hk. rewrite <- G4 in Eb. exact (C c k b I2 N Hk Eb Hb).
    + exact (C' c k b Hc N2 Hk Eb (A b Hb)).
Qed.

Lemma part_pose w1 y1 w2 y2 q c p : part_of w1 y1 w2 y2 -> In c (y_cons y1) -> pose_at w1 q c p = pose_at w2 q c p.
Proof. intros (_ & H & _) Hc. destruct (H c Hc) as (_ & _ & _ & E). unfold pose_at, who. now rewrite E. Qed.

Lemma part_step k z kc kg (dt beta : R) M w1 y1 w2 y2 q v t1 t2 : dt <> 0%R -> side priv k z kc kg beta M w1 y1 q v -> side priv k z kc kg beta M w2 y2 q v ->
  part_of w1 y1 w2 y2 -> gens_part y1 y2 kg -> regular w2 y2 M (Jat w2 kc q) ->
  exists w1' y1' w2' y2' q' v', process k (Some dt : cl) 1 t1 w1 y1 = Ok (w1', y1') /\ process k (Some dt : cl) 1 t2 w2 y2 = Ok (w2', y2') /\
    ends w1' y1 q' v' /\ ends w2' y2 q' v'.
Proof.
  intros Ndt [(m1 & H1) U1 (g1 & L1) A1 K1 G1 B1 N1 E1 Q1] [(m2 & H2) U2 (g2 & L2) A2 K2 G2 B2 N2 E2 Q2] HP HG HR.
  pose proof (reg_listed _ _ _ (yreach_reg _ _ _ _ _ H1)) as HL1. pose proof (reg_listed _ _ _ (yreach_reg _ _ _ _ _ H2)) as HL2.
  destruct (reach_nodup _ _ _ _ H1) as (_ & ND1 & NG1), (reach_nodup _ _ _ _ H2) as (_ & ND2 & NG2).
  set (f1 := fun b d => Lsum (y_gens y1) (fun g => force_of M q v (kg g) b d)). set (f2 := fun b d => Lsum (y_gens y2) (fun g => force_of M q v (kg g) b d)).
  assert (EF : forall b d, In b (y_bodies y1) -> f2 b d = f1 b d).
  { intros b d Hb. unfold f1, f2. apply Lsum_sub; auto; [apply HG|]. intros g Hg N. apply force_misses. now apply HG. }
  assert (HR1 : regular w1 y1 M (Jat w2 kc q)) by (apply (part_regular w1 w2 y1 y2 (Jat w2 kc q) ND1 ND2 A1 HP M A2 HR)).
  set (Jd := fun c j i => Jd_of (kc c) (pose_at w2 q c) (pose_at w2 v c) j i). set (C := fun c j => C_of (kc c) (pose_at w2 q c) j).
  destruct (ge_step priv k z m1 dt t1 w1 y1 g1 beta q v M f1 kc (Jat w2 kc q) Jd C H1 U1 L1 A1 K1 (gens_gentle _ _ _ G1) B1 N1 Ndt E1 Q1 (gens_push w1 y1 kg dt q v M HL1 Q1 G1) HR1)
    as (w1' & y1' & u1 & x1 & P1 & En1 & AL1 & EQ1).
  { intros c j Hc Hj. split; [apply C_ext; intros p; now apply (part_pose w1 y1 w2 y2)|]. intros i. split; [apply J_ext|apply Jd_ext]; intros p; now apply (part_pose w1 y1 w2 y2). }
  destruct (ge_step priv k z m2 dt t2 w2 y2 g2 beta q v M f2 kc (Jat w2 kc q) Jd C H2 U2 L2 A2 K2 (gens_gentle _ _ _ G2) B2 N2 Ndt E2 Q2 (gens_push w2 y2 kg dt q v M HL2 Q2 G2) HR)
    as (w2' & y2' & u2 & x2 & P2 & En2 & AL2 & EQ2).
  { intros c j Hc Hj. split; [reflexivity|]. intros i. split; reflexivity. }
  exists w1', y1', w2', y2', (newq k z q v u2 dt), (newv k v u2 dt). split; [exact P1|]. split; [exact P2|]. split; [|exact En2].
  assert (EW : forall c j, In c (y_cons y1) -> wanted k w1 kc v (Jat w2 kc q) Jd C beta dt c j = wanted k w2 kc v (Jat w2 kc q) Jd C beta dt c j).
  { intros c j Hc. unfold wanted. destruct k; [reflexivity|]. now rewrite !(part_along w1 w2 y1 y2 _ HP _ c j Hc). }
  destruct (only_one w1 y1 (Jat w2 kc q) M (wanted k w1 kc v (Jat w2 kc q) Jd C beta dt) (tau k dt) (start k M f1 v dt) x1 x2 u1 u2) as [_ EU]; auto.
  - destruct k; cbn [tau]; [exact Ndt|lra].
  - intros b d Hb Hd. apply (Q1 b d Hb Hd).
  - intros c j Hc Hj. rewrite (EW c j Hc), (part_along w1 w2 y1 y2 _ HP _ c j Hc). destruct HP as (_ & HPc & _). destruct (HPc c Hc) as (Hc2 & En & _). rewrite En in Hj.
    exact (AL2 c j Hc2 Hj).
  - intros b d Hb Hd. destruct HP as (HPb & HPr). pose proof (EQ2 b d (HPb b Hb) Hd) as X. rewrite (part_acts w1 w2 y1 y2 (Jat w2 kc q) ND1 ND2 (conj HPb HPr) x2 b d Hb) in X.
    rewrite <- X. unfold start, unbound. destruct k; now rewrite (EF b d Hb).
  - intros b d Hb Hd. destruct (En1 b d Hb Hd) as [X1 X2]. rewrite X1, X2. unfold newq, newv. destruct k, z; now rewrite (EU b d Hb Hd).
Qed.
(** any number of calls *)
Lemma process_reattached k dt n t w y w' y' : process k dt n t w y = Ok (w', y') -> attached w y -> attached w' y'.
Proof.
  intros E A. pose proof (process_alone _ _ _ _ _ _ _ _ E) as ((E1 & E2 & _) & _ & Fc & _).
  intros c p Hc Hp. destruct (Fc c) as (_ & _ & F3 & F4 & _). rewrite E2 in Hc. rewrite F3 in Hp. rewrite F4, E1. now apply A.
Qed.
Lemma process_part k dt n t w y w' y' : process k dt n t w y = Ok (w', y') -> part_of w' y' w y.
Proof.
  intros E. pose proof (process_alone _ _ _ _ _ _ _ _ E) as ((E1 & E2 & E3 & _) & _ & Fc & _). split; [intros b; now rewrite E1|]. split.
  - intros c Hc. rewrite E2 in Hc. destruct (Fc c) as (_ & _ & F3 & F4 & F5 & _). split; [exact Hc|]. split; [exact F5|]. split; [exact F3|]. intros k0. now rewrite F4.
  - intros c p b Hc N. now rewrite E2 in N.
Qed.
(** a system whose rows are independent in every pose never becomes singular *)
Lemma never_singular k dt ts kc M : forall m w y, yreach k priv m w y -> attached w y -> (forall g, In g (y_gens y) -> orderly (g_kind (w_gen w g))) ->
  (forall q, regular w y M (Jat w kc q)) -> unsingular k dt ts w y M kc.
Proof.
  induction ts as [|t ts IH]; intros m w y H A HG HR [|t' pre] t1 suf w' y' q v Ets E En; try discriminate Ets.
  - injection E as <- <-. apply HR.
  - injection Ets as <- ->. cbn [calls_of] in E. destruct (process k dt 1 t w y) as [[w1 y1]| | |] eqn:P; cbn [bind] in E; try discriminate E.
    pose proof (y_process priv k m w y dt 1 t w1 y1 H HG P) as H1. pose proof (process_alone _ _ _ _ _ _ _ _ P) as ((E1 & E2 & E3 & _) & _ & Fc & Fg).
    pose proof (process_reattached _ _ _ _ _ _ _ _ P A) as A1. pose proof (process_part _ _ _ _ _ _ _ _ P) as R1.
    destruct (reach_nodup _ _ _ _ H) as (_ & ND & _), (reach_nodup _ _ _ _ H1) as (_ & ND1 & _).
    apply (IH _ w1 y1 H1 A1) with (pre := pre) (t := t1) (suf := suf) (v := v); auto.
    + intros g Hg. rewrite E3 in Hg. rewrite Fg. now apply HG.
    + intros q0. apply (regular_J w1 y1 M (Jat w kc q0)).
      * intros c j Hc Hj i. apply J_ext. intros p. symmetry. now apply (part_pose w1 y1 w y).
      * apply (part_regular w1 w y1 y (Jat w kc q0) ND1 ND A1 R1 M A). apply HR.
Qed.
Lemma unsingular_now k dt t ts w y M kc q v : unsingular k dt (t :: ts) w y M kc -> ends w y q v -> regular w y M (Jat w kc q).
Proof. intros H En. exact (H [] t ts w y q v eq_refl eq_refl En). Qed.
Lemma unsingular_next k dt t ts w y M kc w' y' : unsingular k dt (t :: ts) w y M kc -> process k dt 1 t w y = Ok (w', y') -> unsingular k dt ts w' y' M kc.
Proof.
  intros H E pre t1 suf w1 y1 q v -> E1 En. apply (H (t :: pre) t1 suf w1 y1 q v eq_refl); auto. cbn [calls_of]. rewrite E. exact E1.
Qed.
Lemma are_ends w y q v M : bodies_are w y q v M -> ends w y q v.
Proof. intros H b d Hb Hd. destruct (H b d Hb Hd) as (X1 & X2 & _). now split. Qed.
Lemma part_calls k z kc kg (dt beta : R) M : dt <> 0%R -> forall ts1 ts2 w1 y1 w2 y2 q v, length ts1 = length ts2 ->
  side priv k z kc kg beta M w1 y1 q v -> side priv k z kc kg beta M w2 y2 q v -> part_of w1 y1 w2 y2 -> gens_part y1 y2 kg -> unsingular k (Some dt : cl) ts2 w2 y2 M kc ->
  exists w1' y1' w2' y2' q' v', calls_of k (Some dt : cl) ts1 w1 y1 = Ok (w1', y1') /\ calls_of k (Some dt : cl) ts2 w2 y2 = Ok (w2', y2') /\
    ends w1' y1 q' v' /\ ends w2' y2 q' v'.
Proof.
  intros Ndt. induction ts1 as [|t1 ts1 IH]; intros [|t2 ts2] w1 y1 w2 y2 q v EL S1 S2 HP HG HR; try discriminate EL.
  - exists w1, y1, w2, y2, q, v. split; [reflexivity|]. split; [reflexivity|]. split; eapply are_ends; eapply sd_are; eassumption.
  - injection EL as EL. pose proof (unsingular_now _ _ _ _ _ _ _ _ q v HR (are_ends _ _ _ _ _ (sd_are S2))) as HR2.
    destruct (part_step k z kc kg dt beta M w1 y1 w2 y2 q v t1 t2 Ndt S1 S2 HP HG HR2) as (w1' & y1' & w2' & y2' & q' & v' & P1 & P2 & En1 & En2).
    destruct (side_next k z kc kg beta M w1 y1 q v _ t1 w1' y1' q' v' S1 P1 En1) as (S1' & F1 & R1 & EG1 & EB1).
    destruct (side_next k z kc kg beta M w2 y2 q v _ t2 w2' y2' q' v' S2 P2 En2) as (S2' & F2 & R2 & EG2 & EB2).
    destruct (IH ts2 w1' y1' w2' y2' q' v' EL S1' S2') as (w1'' & y1'' & w2'' & y2'' & q'' & v'' & C1 & C2 & X1 & X2).
    + eapply part_trans; [exact R1|]. eapply part_trans; [exact HP|exact F2].
    + destruct HG as [HG1 HG2]. split; intros g; rewrite EG1, EG2; [apply HG1|intros b; rewrite EB1; apply HG2].
    + exact (unsingular_next _ _ _ _ _ _ _ _ _ _ HR P2).
    + exists w1'', y1'', w2'', y2'', q'', v''. cbn [calls_of]. rewrite P1, P2. cbn [bind]. split; [exact C1|]. split; [exact C2|].
      split; intros b d Hb Hd; [apply X1; [rewrite EB1|]|apply X2; [rewrite EB2|]]; auto.
Qed.
End S.
