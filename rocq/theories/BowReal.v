(** * Two bodies at the ends of a spring in the fourth-order scheme. *)

From Coq Require Import Reals Lra.
From Verif Require Import Base Targets State Ode Forces Constraints System Logic SpecState StateFacts StateReal SpecForces ForceFacts ForceReal SpecSys RegFacts SysFrame SysInv
  SpecDyn DynState DynReact DynRound DynStep DynForce RealSum SpecSolve SolveReal SolveStep SpecMom MomForce SpecSub LeastPart SpecRk RkStep RkReal RkOwn SpecFlight FlightReal SpecSwing SwingStep SpecMotor MotorReal SpecRun RunStep SpecSpring SpringReal SpringStep SpecBow.
From Verif Require SafeStep.
Local Open Scope nat_scope.

Definition pull (r : R) (t : R * R) : R * R := (- (fst t * r), - (snd t * r))%R.
Lemma drawn_tug L ks kd r x : drawn L ks kd r x = pull r (tug L ks kd x).
Proof. destruct x as [[dx dy] [ux uy]]. reflexivity. Qed.

Section S.
Context {dbg : bool}.
Notation T := (RT dbg).
Notation cl := (cell T).
Implicit Types (w : world T) (y : sys T).
Variable priv : nat -> bool.
(** the accelerations a show body b speeding up with c *)
Definition rushes (a : nat -> nat -> cl) (b : nat) (c : nat -> R) : Prop := forall d, d < 3 -> a b d = (Some (c d) : cl).
Definition quick (h : R) (u c : nat -> R) (d : nat) : R := (u d + h * c d)%R.
Definition moved (h : R) (p u c : nat -> R) (d : nat) : R := (p d + h * quick h u c d)%R.
Definition mean4 (h : R) (p p1 p2 p3 p4 : nat -> R) (d : nat) : R := (p d + h / 6 * (p1 d + 2 * p2 d + 2 * p3 d + p4 d))%R.
Lemma has_half (h : R) (K : kin T) a b p u c : has K b p u -> rushes a b c -> has (half_way (Some h : cl) K a) b (moved (h / 2) p u c) (quick (h / 2) u c).
Proof.
  intros HK HA d Hd. destruct (HK d Hd) as [E1 E2]. cbn [half_way k_q k_v]. rewrite E1, E2, (HA d Hd), half_R, addR, half_R, addR. unfold moved, quick. split; f_equal; rr; field.
Qed.
Lemma has_whole (h : R) (K : kin T) a b p u c : has K b p u -> rushes a b c -> has (whole_way (Some h : cl) K a) b (moved h p u c) (quick h u c).
Proof. intros HK HA d Hd. destruct (HK d Hd) as [E1 E2]. cbn [whole_way k_q k_v]. rewrite E1, E2, (HA d Hd), mulR, addR, mulR, addR. split; reflexivity. Qed.

Section One.
Variables (w : world T) (y : sys T) (g b1 b2 : nat) (L ks kd : R) (gr : nat -> R) (M1 M2 : nat -> R).
Hypothesis HL : listed w y.
Hypothesis ND : NoDup (y_gens y).
Hypothesis I1 : In b1 (y_bodies y).
Hypothesis I2 : In b2 (y_bodies y).
Hypothesis N : b1 <> b2.
Hypothesis U1 : unbound w y b1.
Hypothesis U2 : unbound w y b2.
Hypothesis HSp : spring_on w y g b1 b2 L ks kd gr.
Hypothesis HM1 : forall d, d < 3 -> b_mass (w_body w b1) d = (Some (M1 d) : cl) /\ M1 d <> 0%R.
Hypothesis HM2 : forall d, d < 3 -> b_mass (w_body w b2) d = (Some (M2 d) : cl) /\ M2 d <> 0%R.
Notation W := (weight y g gr).
Notation r := (/ M1 0%nat + / M2 0%nat)%R.
(** how the ends speed up *)
Definition c1 (t : R * R) (d : nat) : R := (match d with 0 => fst t / M1 0%nat | 1 => snd t / M1 0%nat - W | _ => 0 end)%R.
Definition c2 (t : R * R) (d : nat) : R := (match d with 0 => - fst t / M2 0%nat | 1 => - snd t / M2 0%nat - W | _ => 0 end)%R.
Lemma same1 : M1 1 = M1 0. Proof. destruct (HM1 0 ltac:(lia)) as [A _], (HM1 1 ltac:(lia)) as [B _]. change (b_f (w_body w b1) Bm = (Some (M1 0) : cl)) in A. change (b_f (w_body w b1) Bm = (Some (M1 1) : cl)) in B. rewrite A in B. now injection B. Qed.
Lemma same2 : M2 1 = M2 0. Proof. destruct (HM2 0 ltac:(lia)) as [A _], (HM2 1 ltac:(lia)) as [B _]. change (b_f (w_body w b2) Bm = (Some (M2 0) : cl)) in A. change (b_f (w_body w b2) Bm = (Some (M2 1) : cl)) in B. rewrite A in B. now injection B. Qed.
Lemma stage_bow P (K : kin T) (h : cl) a p1 u1 p2 u2 : feels w y P K h a -> has K b1 p1 u1 -> has K b2 p2 u2 ->
  let t := tug L ks kd (seen_from p1 p2 u1 u2) in rushes a b1 (c1 t) /\ rushes a b2 (c2 t).
Proof.
  intros (f & F & FA & NW & _) K1 K2 t.
  destruct (spring_pushes w y K h g b1 b2 L ks kd gr p1 u1 p2 u2 (M1 0) (M2 0) HL ND I1 I2 N HSp K1 K2 (proj1 (HM1 0 ltac:(lia))) (proj1 (HM2 0 ltac:(lia)))) as (f' & PF & Q1 & Q2). cbv zeta in Q1, Q2. fold t in Q1, Q2.
  assert (G : forall b (MM ff : nat -> R), In b (y_bodies y) -> unbound w y b -> (forall d, d < 3 -> b_mass (w_body w b) d = (Some (MM d) : cl) /\ MM d <> 0%R) ->
    (forall d, d < 3 -> f' b d = (Some (ff d) : cl)) -> rushes a b (fun d => ff d / MM d)%R).
  { intros b MM ff Hb U HM Hf d Hd. destruct (HM d Hd) as [HMa HMb]. rewrite (NW b d Hb Hd), (total_unbound w y _ b _ U), (FA f' PF b d Hb Hd), (Hf d Hd), HMa, cofZ_R, divR, mulR by exact HMb.
    f_equal. rr. field. exact HMb. }
  pose proof (proj2 (HM1 0 ltac:(lia))) as Z1. pose proof (proj2 (HM2 0 ltac:(lia))) as Z2. pose proof (proj2 (HM1 2 ltac:(lia))) as Z3. pose proof (proj2 (HM2 2 ltac:(lia))) as Z4.
  split; intros d Hd; [rewrite (G b1 M1 _ I1 U1 HM1 Q1 d Hd)|rewrite (G b2 M2 _ I2 U2 HM2 Q2 d Hd)]; f_equal; rr; unfold c1, c2; destruct d as [|[|[|]]]; try lia; rewrite ?same1, ?same2; field; auto.
Qed.
Lemma seen_along (h : R) p1 u1 p2 u2 t : seen_from (moved h p1 u1 (c1 t)) (moved h p2 u2 (c2 t)) (quick h u1 (c1 t)) (quick h u2 (c2 t)) = along h (seen_from p1 p2 u1 u2) (pull r t).
Proof.
  pose proof (proj2 (HM1 0 ltac:(lia))) as Z1. pose proof (proj2 (HM2 0 ltac:(lia))) as Z2.
  unfold seen_from, moved, quick, along, pull, c1, c2. cbn [fst snd]. f_equal; f_equal; field; auto.
Qed.
Lemma four_bow P (h : R) K K' p1 u1 p2 u2 : four_stages (feels w y P) (Some h : cl) K K' -> has K b1 p1 u1 -> has K b2 p2 u2 ->
  exists p1' u1' p2' u2', has K' b1 p1' u1' /\ has K' b2 p2' u2' /\ seen_from p1' p2' u1' u2' = bow L ks kd r h (seen_from p1 p2 u1 u2) /\
    (M1 0%nat * (u1' 0%nat - u1 0%nat) + M2 0%nat * (u2' 0%nat - u2 0%nat) = 0)%R /\
    (M1 0%nat * (u1' 1%nat - u1 1%nat) + M2 0%nat * (u2' 1%nat - u2 1%nat) = - ((M1 0%nat + M2 0%nat) * W * h))%R /\
    (u1' 2%nat = u1 2%nat /\ p1' 2%nat = p1 2%nat + u1 2%nat * h /\ u2' 2%nat = u2 2%nat /\ p2' 2%nat = p2 2%nat + u2 2%nat * h)%R.
Proof.
  intros (f1 & f2 & f3 & f4 & A1 & A2 & A3 & A4 & ->) K1 K2.
  destruct (stage_bow P _ _ _ _ _ _ _ A1 K1 K2) as [R11 R12]. set (t1 := tug _ _ _ _) in *.
  pose proof (has_half h K f1 b1 _ _ _ K1 R11) as K21. pose proof (has_half h K f1 b2 _ _ _ K2 R12) as K22.
  destruct (stage_bow P _ _ _ _ _ _ _ A2 K21 K22) as [R21 R22]. rewrite seen_along in R21, R22. set (t2 := tug _ _ _ _) in R21, R22.
  pose proof (has_half h K f2 b1 _ _ _ K1 R21) as K31. pose proof (has_half h K f2 b2 _ _ _ K2 R22) as K32.
  destruct (stage_bow P _ _ _ _ _ _ _ A3 K31 K32) as [R31 R32]. rewrite seen_along in R31, R32. set (t3 := tug _ _ _ _) in R31, R32.
  pose proof (has_whole h K f3 b1 _ _ _ K1 R31) as K41. pose proof (has_whole h K f3 b2 _ _ _ K2 R32) as K42.
  destruct (stage_bow P _ _ _ _ _ _ _ A4 K41 K42) as [R41 R42]. rewrite seen_along in R41, R42. set (t4 := tug _ _ _ _) in R41, R42.
  assert (B : forall b p u d1 d2 d3 d4, has K b p u -> rushes f1 b d1 -> rushes f2 b d2 -> rushes f3 b d3 -> rushes f4 b d4 ->
    has (mkKin (fun b d => blend (Some h : cl) (k_q K b d) (k_v K b d) (k_v (half_way (Some h : cl) K f1) b d) (k_v (half_way (Some h : cl) K f2) b d) (k_v (whole_way (Some h : cl) K f3) b d))
      (fun b d => blend (Some h : cl) (k_v K b d) (f1 b d) (f2 b d) (f3 b d) (f4 b d)) f4) b
      (mean4 h p u (quick (h / 2) u d1) (quick (h / 2) u d2) (quick h u d3)) (mean4 h u d1 d2 d3 d4)).
  { intros b p u d1 d2 d3 d4 HK X1 X2 X3 X4 d Hd. cbn [k_q k_v].
    pose proof (proj2 (has_half h K f1 b _ _ _ HK X1 d Hd)) as Y1. pose proof (proj2 (has_half h K f2 b _ _ _ HK X2 d Hd)) as Y2. pose proof (proj2 (has_whole h K f3 b _ _ _ HK X3 d Hd)) as Y3.
    rewrite Y1, Y2, Y3, (X1 d Hd), (X2 d Hd), (X3 d Hd), (X4 d Hd). destruct (HK d Hd) as [-> ->]. rewrite !blendR. split; reflexivity. }
  exists (mean4 h p1 u1 (quick (h / 2) u1 (c1 t1)) (quick (h / 2) u1 (c1 t2)) (quick h u1 (c1 t3))), (mean4 h u1 (c1 t1) (c1 t2) (c1 t3) (c1 t4)),
    (mean4 h p2 u2 (quick (h / 2) u2 (c2 t1)) (quick (h / 2) u2 (c2 t2)) (quick h u2 (c2 t3))), (mean4 h u2 (c2 t1) (c2 t2) (c2 t3) (c2 t4)).
  split; [exact (B b1 p1 u1 _ _ _ _ K1 R11 R21 R31 R41)|]. split; [exact (B b2 p2 u2 _ _ _ _ K2 R12 R22 R32 R42)|].
  pose proof (proj2 (HM1 0 ltac:(lia))) as Z1. pose proof (proj2 (HM2 0 ltac:(lia))) as Z2.
  split; [|split; [|split; [|split; [|split; [|split]]]]].
  - unfold bow. cbv zeta. rewrite !drawn_tug. fold t1. fold t2. fold t3. fold t4. clearbody t1 t2 t3 t4.
    unfold along, pull, seen_from, mean4, quick, c1, c2. cbn [fst snd]. f_equal; f_equal; field; auto.
  - unfold mean4, c1, c2. field. auto.
  - unfold mean4, c1, c2. field. auto.
  - unfold mean4, c1. field.
  - unfold mean4, quick, c1. field.
  - unfold mean4, c2. field.
  - unfold mean4, quick, c2. field.
Qed.
End One.

Lemma strung_gentle w y g b1 b2 L ks kd gr x1 v1 M1 x2 v2 M2 : strung priv w y g b1 b2 L ks kd gr x1 v1 M1 x2 v2 M2 -> all_gentle w y.
Proof. intros HT g' Hg'. destruct (st_spring _ _ _ _ _ _ _ _ _ _ _ _ _ _ _ _ HT) as (_ & EG & HO). destruct (Nat.eq_dec g' g) as [->|Ng]; [now rewrite EG|]. now rewrite (HO g' Hg' Ng). Qed.
Lemma strung_next (dt : R) n t w y w' y' g b1 b2 L ks kd gr x1 v1 M1 x2 v2 M2 x1' v1' x2' v2' : 0 < n -> strung priv w y g b1 b2 L ks kd gr x1 v1 M1 x2 v2 M2 ->
  process Generic (Some dt : cl) n t w y = Ok (w', y') -> is_at w' b1 x1' v1' M1 -> is_at w' b2 x2' v2' M2 -> strung priv w' y' g b1 b2 L ks kd gr x1' v1' M1 x2' v2' M2.
Proof.
  intros Hn HT E A1 A2. pose proof HT as [(m & H) HA HS LO (r & Eo) I1 I2 N U1 U2 (Hg & EG & HO) _ _]. pose proof (process_alone _ _ _ _ _ _ _ _ E) as ((EB & EC & EGs & _) & Fb & Fc & Fg).
  assert (UN : forall b, unbound w y b -> unbound w' y' b).
  { intros b U c p Hc Hp. rewrite EC in Hc. destruct (Fc c) as (_ & _ & F3 & F4 & _). rewrite F3 in Hp. rewrite F4. now apply U. }
  assert (OR : forall g', In g' (y_gens y) -> orderly (g_kind (w_gen w g'))).
  { intros g' Hg'. destruct (Nat.eq_dec g' g) as [->|Ng]; [now rewrite EG|]. now rewrite (HO g' Hg' Ng). }
  constructor; auto; try (now rewrite EB).
  - eexists. eapply y_process; [exact H|exact OR|exact E].
  - exact (process_reattached _ _ _ _ _ _ _ _ E HA).
  - intros c Hc. rewrite EC in Hc. destruct (Fc c) as (_ & _ & -> & _ & -> & _). now apply HS.
  - eapply (lone_process priv m w y (Some dt : cl) n t w' y'); eauto.
  - destruct (SafeStep.gen_process_ode (Some dt : cl) n t w y w' y' Hn E) as (o & o' & E1 & E2 & SO). rewrite Eo in E1. injection E1 as <-. rewrite E2. destruct o'; try contradiction. eexists; reflexivity.
  - unfold spring_on. rewrite EGs. split; [exact Hg|]. split; [now rewrite Fg|]. intros g' Hg' Ng. rewrite Fg. now apply HO.
Qed.

Lemma bow_call (dt : R) n t w y w' y' g b1 b2 (L ks kd : R) gr x1 v1 M1 x2 v2 M2 :
  strung priv w y g b1 b2 L ks kd gr x1 v1 M1 x2 v2 M2 -> process Generic (Some dt : cl) n t w y = Ok (w', y') -> 0 < n ->
  exists x1' v1' x2' v2', strung priv w' y' g b1 b2 L ks kd gr x1' v1' M1 x2' v2' M2 /\ weight y' g gr = weight y g gr /\
    seen_from x1' x2' v1' v2' = Nat.iter n (bow L ks kd (/ M1 0%nat + / M2 0%nat) (dt / INR n)) (seen_from x1 x2 v1 v2) /\
    (M1 0%nat * (v1' 0%nat - v1 0%nat) + M2 0%nat * (v2' 0%nat - v2 0%nat) = 0)%R /\
    (M1 0%nat * (v1' 1%nat - v1 1%nat) + M2 0%nat * (v2' 1%nat - v2 1%nat) = - ((M1 0%nat + M2 0%nat) * weight y g gr * dt))%R /\
    (v1' 2%nat = v1 2%nat /\ x1' 2%nat = x1 2%nat + v1 2%nat * dt /\ v2' 2%nat = v2 2%nat /\ x2' 2%nat = x2 2%nat + v2 2%nat * dt)%R.
Proof.
  intros HT E Hn. pose proof HT as [(m & H) HA HS LO (ro & Eo) I1 I2 N U1 U2 HSp HA1 HA2].
  pose proof (reg_listed _ _ _ (yreach_reg _ _ _ _ _ H)) as HL. destruct (reach_nodup priv _ _ _ _ H) as (_ & _ & ND). pose proof (strung_gentle _ _ _ _ _ _ _ _ _ _ _ _ _ _ _ HT) as HG.
  assert (HU : uses_rk y) by (destruct (lone_rk priv m w y ro H LO Eo) as (Z1 & Z2 & _); exists ro; auto).
  assert (Nn : INR n <> 0%R) by (apply not_0_INR; lia).
  set (h := (dt / INR n)%R). set (r := (/ M1 0%nat + / M2 0%nat)%R).
  assert (Eh : cdiv (Some dt : cl) (cofZ (Z.of_nat n)) = (Some h : cl)) by (rewrite cofZ_R, <- INR_IZR_INZ; now apply divR).
  assert (NB : y_bodies y <> []) by (intros X; rewrite X in I1; destruct I1).
  destruct (reach_nice priv _ _ _ _ H HA HS HG) as (Hl & _).
  destruct (rk_runs priv (fun _ _ _ _ => True) m (Some dt : cl) n t w y w' y' H HA HS HG HU NB (fun s0 h => gen_evaluates priv w (with_state y s0) h Hl HL HA HS) E) as (K & MO & AR).
  rewrite Eh in MO. destruct MO as (Ks & E0 & En & ST).
  set (W := weight y g gr). pose (X := fun i => Nat.iter i (bow L ks kd r h) (seen_from x1 x2 v1 v2)).
  assert (G : forall i, i <= n -> exists p1 u1 p2 u2, has (Ks i) b1 p1 u1 /\ has (Ks i) b2 p2 u2 /\ seen_from p1 p2 u1 u2 = X i /\
    (M1 0%nat * (u1 0%nat - v1 0%nat) + M2 0%nat * (u2 0%nat - v2 0%nat) = 0)%R /\
    (M1 0%nat * (u1 1%nat - v1 1%nat) + M2 0%nat * (u2 1%nat - v2 1%nat) = - ((M1 0%nat + M2 0%nat) * W * (INR i * h)))%R /\
    (u1 2%nat = v1 2%nat /\ p1 2%nat = x1 2%nat + v1 2%nat * (INR i * h) /\ u2 2%nat = v2 2%nat /\ p2 2%nat = x2 2%nat + v2 2%nat * (INR i * h))%R).
  { induction i as [|i IH]; intros Hi.
    - exists x1, v1, x2, v2. rewrite E0. split; [intros d Hd; destruct (HA1 d Hd) as (A & B & _); now split|]. split; [intros d Hd; destruct (HA2 d Hd) as (A & B & _); now split|].
      split; [reflexivity|]. cbn [INR]. repeat split; try ring.
    - destruct (IH ltac:(lia)) as (p1 & u1 & p2 & u2 & K1 & K2 & EX & P0 & P1 & T1 & T1' & T2 & T2').
      destruct (four_bow w y g b1 b2 L ks kd gr M1 M2 HL ND I1 I2 N U1 U2 HSp (fun d Hd => proj2 (proj2 (HA1 d Hd))) (fun d Hd => proj2 (proj2 (HA2 d Hd))) _ h _ _ _ _ _ _ (ST i ltac:(lia)) K1 K2)
        as (p1' & u1' & p2' & u2' & K1' & K2' & EX' & P0' & P1' & S1 & S1' & S2 & S2').
      exists p1', u1', p2', u2'. split; [exact K1'|]. split; [exact K2'|]. split; [rewrite EX', EX; reflexivity|]. fold W in P1'. rewrite S_INR. split; [lra|]. split; [lra|].
      rewrite S1, S1', S2, S2', T1, T1', T2, T2'. repeat split; ring. }
  destruct (G n (le_n n)) as (p1 & u1 & p2 & u2 & K1 & K2 & EX & P0 & P1 & TT). rewrite En in K1, K2.
  assert (Enh : (INR n * h = dt)%R) by (unfold h; field; exact Nn). rewrite Enh in P1, TT.
  destruct (process_alone _ _ _ _ _ _ _ _ E) as ((EB & _ & EGs & _) & Fb & _).
  assert (AT : forall b x v p u M, In b (y_bodies y) -> is_at w b x v M -> has K b p u -> is_at w' b p u M).
  { intros b x v p u M Hb HB HK d Hd. destruct (AR b d Hb Hd) as [-> ->]. destruct (HK d Hd) as [-> ->]. destruct (HB d Hd) as (_ & _ & EM & NM). split; [reflexivity|]. split; [reflexivity|]. split; [|exact NM].
    rewrite <- EM. destruct (Fb b) as (_ & Fm & FI & _). destruct d as [|[|[|]]]; try lia; cbn [b_mass]; assumption. }
  exists p1, u1, p2, u2. split; [|split; [unfold weight; now rewrite EGs|auto]].
  refine (strung_next dt n t w y w' y' g b1 b2 L ks kd gr x1 v1 M1 x2 v2 M2 _ _ _ _ Hn HT E _ _); eauto.
Qed.

Lemma bow_calls (L ks kd : R) gr g b1 b2 M1 M2 : forall l w y w' y' x1 v1 x2 v2,
  strung priv w y g b1 b2 L ks kd gr x1 v1 M1 x2 v2 M2 -> plays Generic l w y = Ok (w', y') -> busy l ->
  exists x1' v1' x2' v2', strung priv w' y' g b1 b2 L ks kd gr x1' v1' M1 x2' v2' M2 /\ weight y' g gr = weight y g gr /\
    seen_from x1' x2' v1' v2' = bows L ks kd (/ M1 0%nat + / M2 0%nat) l (seen_from x1 x2 v1 v2) /\
    (M1 0%nat * (v1' 0%nat - v1 0%nat) + M2 0%nat * (v2' 0%nat - v2 0%nat) = 0)%R /\
    (M1 0%nat * (v1' 1%nat - v1 1%nat) + M2 0%nat * (v2' 1%nat - v2 1%nat) = - ((M1 0%nat + M2 0%nat) * weight y g gr * lasts l))%R /\
    (v1' 2%nat = v1 2%nat /\ x1' 2%nat = x1 2%nat + v1 2%nat * lasts l /\ v2' 2%nat = v2 2%nat /\ x2' 2%nat = x2 2%nat + v2 2%nat * lasts l)%R.
Proof.
  induction l as [|[[dt n] t] l IH]; intros w y w' y' x1 v1 x2 v2 HT E HB; cbn [plays] in E.
  - injection E as <- <-. exists x1, v1, x2, v2. split; [exact HT|]. split; [reflexivity|]. split; [reflexivity|]. cbn [lasts]. repeat split; try ring.
  - destruct (process Generic (Some dt : cl) n t w y) as [[w2 y2]| | |] eqn:E1; try discriminate E. cbn [bind] in E.
    destruct (bow_call dt n t w y w2 y2 g b1 b2 L ks kd gr x1 v1 M1 x2 v2 M2 HT E1 (HB dt n t (or_introl eq_refl))) as (p1 & u1 & p2 & u2 & HT2 & W2 & X2 & P0 & P1 & T1 & T2 & T3 & T4).
    destruct (IH w2 y2 w' y' p1 u1 p2 u2 HT2 E) as (x1' & v1' & x2' & v2' & HT' & W' & X' & P0' & P1' & T1' & T2' & T3' & T4'); [intros dt' n' t' Hi; apply (HB dt' n' t'); now right|].
    exists x1', v1', x2', v2'. split; [exact HT'|]. split; [congruence|]. split; [rewrite X', X2; reflexivity|]. cbn [lasts]. rewrite W2 in P1'.
    split; [lra|]. split; [lra|]. rewrite T1', T3', T2', T4', T1, T2, T3, T4. repeat split; ring.
Qed.
End S.
