(** * A motor in the fourth-order scheme. *)

From Coq Require Import Reals Lra.
From Verif Require Import Base Targets State Ode Forces Constraints System Logic SpecState StateFacts StateReal SpecForces ForceFacts ForceReal SpecSys RegFacts SysFrame SysInv
  SpecDyn DynState DynReact DynRound DynStep DynForce RealSum SolveStep SpecSub LeastPart SpecRk RkStep RkReal RkOwn SpecFlight FlightReal SwingStep SpecMotor MotorReal SpecRun SpecSpin.
From Verif Require SafeStep.
Local Open Scope nat_scope.

Section S.
Context {dbg : bool}.
Notation T := (RT dbg).
Notation cl := (cell T).
Implicit Types (w : world T) (y : sys T).
Variable priv : nat -> bool.
(** the accelerations a show body b speeding up at the rate c *)
Definition speeds w y (a : nat -> nat -> cl) (b : nat) (c : R) : Prop :=
  (In b (y_bodies y) /\ a b 2 = (Some c : cl)) \/ (~ In b (y_bodies y) /\ b_index (w_body w b) = (-1)%Z /\ c = 0%R).
Section One.
Variables (w : world T) (y : sys T) (g b0 b1 : nat) (sp ks kd mx w0 w1 r0 r1 : R).
Hypothesis HL : listed w y.
Hypothesis ND : NoDup (y_gens y).
Hypothesis H1 : In b1 (y_bodies y).
Hypothesis N : b0 <> b1.
Hypothesis Hm : (0 <= mx)%R.
Hypothesis HM : motor_on w y g b0 b1 sp ks kd mx.
Hypothesis T0 : turns w y b0 w0 r0.
Hypothesis T1 : turns w y b1 w1 r1.
Lemma stage_spun P (K : kin T) (h : cl) a (v0 a0 v1 a1 : R) : feels w y P K h a -> seen w y K b0 v0 a0 -> seen w y K b1 v1 a1 ->
  exists c0 c1, speeds w y a b0 c0 /\ speeds w y a b1 c1 /\ (c1 - c0 = spun ks kd mx (r1 + r0) (sp - (v1 - v0)) (a1 - a0))%R /\ (r1 * c0 = - (r0 * c1))%R.
Proof.
  intros (f & F & FA & NW & _) S0 S1.
  destruct (motor_pushes w y K h g b0 b1 sp ks kd mx v0 a0 v1 a1 HL ND H1 N Hm HM S0 S1) as (f' & PF & P1 & P0).
  unfold spun. set (L := cut mx _) in *.
  assert (FB : forall b v r q, turns w y b v r -> In b (y_bodies y) -> f' b 2 = (Some q : cl) -> a b 2 = (Some (q * r)%R : cl)).
  { intros b v r q [(Hb & U & _ & I & NI & Er & EI)|(X0 & _)] Hb' Ef; [|contradiction].
    pose proof (FA f' PF b 2 Hb ltac:(lia)) as E1. rewrite Ef in E1.
    rewrite (NW b 2 Hb ltac:(lia)), (total_unbound w y _ b _ U), E1, EI, cofZ_R, divR, mulR by exact NI. f_equal. rr. rewrite Er. field. exact NI. }
  destruct T0 as [(H0 & _)|(H0 & I0 & _ & Er)].
  - exists (- L * r0)%R, (L * r1)%R. split; [left; split; [exact H0|exact (FB b0 w0 r0 _ T0 H0 P0)]|]. split; [left; split; [exact H1|exact (FB b1 w1 r1 _ T1 H1 P1)]|]. split; ring.
  - exists 0%R, (L * r1)%R. split; [right; auto|]. split; [left; split; [exact H1|exact (FB b1 w1 r1 _ T1 H1 P1)]|]. rewrite Er. split; ring.
Qed.
Lemma seen_half (h : R) (K : kin T) a b v (a0 : R) (c : R) : seen w y K b v a0 -> speeds w y a b c -> seen w y (half_way (Some h : cl) K a) b (v + h * c / 2)%R c.
Proof.
  intros [(Hb & V & _)|(Hb & I & Ev & _)] [(Hc & A)|(Hc & _ & Ec)]; try contradiction.
  - left. split; [exact Hb|]. cbn [half_way k_v k_a]. split; [|exact A]. rewrite V, A. rewrite !half_R, addR. reflexivity.
  - right. split; [exact Hb|]. split; [exact I|]. split; [subst; lra|exact Ec].
Qed.
Lemma seen_whole (h : R) (K : kin T) a b v (a0 : R) (c : R) : seen w y K b v a0 -> speeds w y a b c -> seen w y (whole_way (Some h : cl) K a) b (v + h * c)%R c.
Proof.
  intros [(Hb & V & _)|(Hb & I & Ev & _)] [(Hc & A)|(Hc & _ & Ec)]; try contradiction.
  - left. split; [exact Hb|]. cbn [whole_way k_v k_a]. split; [|exact A]. now rewrite V, A, mulR, addR.
  - right. split; [exact Hb|]. split; [exact I|]. split; [subst; ring|exact Ec].
Qed.
Lemma four_spun P (h : R) K K' (v0 a0 v1 a1 : R) : four_stages (feels w y P) (Some h : cl) K K' -> seen w y K b0 v0 a0 -> seen w y K b1 v1 a1 ->
  exists v0' a0' v1' a1', seen w y K' b0 v0' a0' /\ seen w y K' b1 v1' a1' /\
    (sp - (v1' - v0'), a1' - a0')%R = spin_four ks kd mx (r1 + r0) h (sp - (v1 - v0), a1 - a0)%R /\ (r1 * (v0' - v0) = - (r0 * (v1' - v1)))%R.
Proof.
  intros (f1 & f2 & f3 & f4 & A1 & A2 & A3 & A4 & ->) S0 S1. cbn [spin_four].
  destruct (stage_spun P _ _ _ v0 a0 v1 a1 A1 S0 S1) as (c0 & c1 & C0 & C1 & CE & CP).
  pose proof (seen_half h K f1 b0 v0 a0 c0 S0 C0) as S20. pose proof (seen_half h K f1 b1 v1 a1 c1 S1 C1) as S21.
  destruct (stage_spun P _ _ _ _ _ _ _ A2 S20 S21) as (d0 & d1 & D0 & D1 & DE & DP).
  pose proof (seen_half h K f2 b0 v0 a0 d0 S0 D0) as S30. pose proof (seen_half h K f2 b1 v1 a1 d1 S1 D1) as S31.
  destruct (stage_spun P _ _ _ _ _ _ _ A3 S30 S31) as (e0 & e1 & E0 & E1 & EE & EP).
  pose proof (seen_whole h K f3 b0 v0 a0 e0 S0 E0) as S40. pose proof (seen_whole h K f3 b1 v1 a1 e1 S1 E1) as S41.
  destruct (stage_spun P _ _ _ _ _ _ _ A4 S40 S41) as (g0 & g1 & G0 & G1 & GE & GP).
  rewrite <- CE. replace (sp - (v1 - v0) - h * (c1 - c0) / 2)%R with (sp - ((v1 + h * c1 / 2) - (v0 + h * c0 / 2)))%R by field. rewrite <- DE.
  replace (sp - (v1 - v0) - h * (d1 - d0) / 2)%R with (sp - ((v1 + h * d1 / 2) - (v0 + h * d0 / 2)))%R by field. rewrite <- EE.
  replace (sp - (v1 - v0) - h * (e1 - e0))%R with (sp - ((v1 + h * e1) - (v0 + h * e0)))%R by ring. rewrite <- GE.
  exists (v0 + h / 6 * (c0 + 2 * d0 + 2 * e0 + g0))%R, g0, (v1 + h / 6 * (c1 + 2 * d1 + 2 * e1 + g1))%R, g1.
  assert (B : forall b v a u1 u2 u3 u4, seen w y K b v a -> speeds w y f1 b u1 -> speeds w y f2 b u2 -> speeds w y f3 b u3 -> speeds w y f4 b u4 ->
    seen w y (mkKin (fun b d => blend (Some h : cl) (k_q K b d) (k_v K b d) (k_v (half_way (Some h : cl) K f1) b d) (k_v (half_way (Some h : cl) K f2) b d) (k_v (whole_way (Some h : cl) K f3) b d))
      (fun b d => blend (Some h : cl) (k_v K b d) (f1 b d) (f2 b d) (f3 b d) (f4 b d)) f4) b (v + h / 6 * (u1 + 2 * u2 + 2 * u3 + u4))%R u4).
  { intros b v a u1 u2 u3 u4 [(Hb & V & _)|(Hb & I & Ev & _)] [(Y1 & Q1)|(X1 & _ & Q1)] [(Y2 & Q2)|(X2 & _ & Q2)] [(Y3 & Q3)|(X3 & _ & Q3)] [(X & Q4)|(X4 & _ & Q4)]; try contradiction.
    - left. split; [exact Hb|]. cbn [k_v k_a]. split; [|exact Q4]. rewrite V, Q1, Q2, Q3, Q4, blendR. reflexivity.
    - right. split; [exact Hb|]. split; [exact I|]. split; [rewrite Ev, Q1, Q2, Q3, Q4; field|exact Q4]. }
  split; [now apply (B b0 v0 a0)|]. split; [now apply (B b1 v1 a1)|]. split; [f_equal; field|].
  replace (r1 * (v0 + h / 6 * (c0 + 2 * d0 + 2 * e0 + g0) - v0))%R with (h / 6 * ((r1 * c0) + 2 * (r1 * d0) + 2 * (r1 * e0) + (r1 * g0)))%R by ring.
  rewrite CP, DP, EP, GP. ring.
Qed.
End One.

Lemma spin_call m (dt : R) n t w y w' y' g b0 b1 (sp ks kd mx v0 v1 r0 r1 : R) :
  yreach Generic priv m w y -> attached w y -> shaped w y -> uses_rk y ->
  process Generic (Some dt : cl) n t w y = Ok (w', y') -> 0 < n -> In b1 (y_bodies y) -> b0 <> b1 -> (0 <= mx)%R ->
  motor_on w y g b0 b1 sp ks kd mx -> turns w y b0 v0 r0 -> turns w y b1 v1 r1 ->
  exists v0' v1', turns w' y' b0 v0' r0 /\ turns w' y' b1 v1' r1 /\ (r1 * (v0' - v0) = - (r0 * (v1' - v1)))%R /\
    (sp - (v1' - v0') = fst (Nat.iter n (spin_four ks kd mx (r1 + r0) (dt / INR n)) (sp - (v1 - v0), 0)%R))%R.
Proof.
  intros H HA HS HU E Hn H1 N Hm HM T0 T1. pose proof (reg_listed _ _ _ (yreach_reg _ _ _ _ _ H)) as HL. destruct (reach_nodup priv _ _ _ _ H) as (_ & _ & ND).
  assert (HG : all_gentle w y).
  { destruct HM as (_ & EM & HO). intros g' Hg'. destruct (Nat.eq_dec g' g) as [->|Ng]; [now rewrite EM|]. destruct (HO g' Hg' Ng) as [gr ->]. exact I. }
  assert (Nn : INR n <> 0%R) by (apply not_0_INR; lia).
  set (h := (dt / INR n)%R).
  assert (Eh : cdiv (Some dt : cl) (cofZ (Z.of_nat n)) = (Some h : cl)) by (rewrite cofZ_R, <- INR_IZR_INZ; now apply divR).
  assert (NB : y_bodies y <> []) by (intros X; rewrite X in H1; destruct H1).
  destruct (reach_nice priv _ _ _ _ H HA HS HG) as (Hl & _).
  destruct (rk_runs priv (fun _ _ _ _ => True) m (Some dt : cl) n t w y w' y' H HA HS HG HU NB (fun s0 h => gen_evaluates priv w (with_state y s0) h Hl HL HA HS) E) as (K & MO & AR).
  rewrite Eh in MO. destruct MO as (Ks & E0 & En & ST).
  pose (x0 := (sp - (v1 - v0), 0)%R : R * R). pose (X := fun i => Nat.iter i (spin_four ks kd mx (r1 + r0) h) x0).
  assert (G : forall i, i <= n -> exists u0 u1 a0 a1 : R, seen w y (Ks i) b0 u0 a0 /\ seen w y (Ks i) b1 u1 a1 /\ X i = (sp - (u1 - u0), a1 - a0)%R /\ (r1 * (u0 - v0) = - (r0 * (u1 - v1)))%R).
  { induction i as [|i IH]; intros Hi.
    - exists v0, v1, 0%R, 0%R. rewrite E0. split; [|split; [|split; [unfold X, x0; cbn; f_equal; ring|ring]]].
      + destruct T0 as [(Hb & _ & Ev & _)|(Hb & Ix & -> & _)]; [left|right; auto]. split; [exact Hb|]. split; [exact Ev|]. cbn [kin_of k_a]. apply cofZ_R.
      + destruct T1 as [(Hb & _ & Ev & _)|(Hb & Ix & -> & _)]; [left|right; auto]. split; [exact Hb|]. split; [exact Ev|]. cbn [kin_of k_a]. apply cofZ_R.
    - destruct (IH ltac:(lia)) as (u0 & u1 & a0 & a1 & S0 & S1 & EX & EP).
      destruct (four_spun w y g b0 b1 sp ks kd mx v0 v1 r0 r1 HL ND H1 N Hm HM T0 T1 _ h _ _ u0 a0 u1 a1 (ST i ltac:(lia)) S0 S1) as (p0 & c0 & p1 & c1 & Q0 & Q1 & QE & QP).
      exists p0, p1, c0, c1. split; [exact Q0|]. split; [exact Q1|]. split; [|lra].
      rewrite QE, <- EX. reflexivity. }
  destruct (G n (le_n n)) as (u0 & u1 & a0 & a1 & S0 & S1 & EX & EP). rewrite En in S0, S1.
  pose proof (process_alone _ _ _ _ _ _ _ _ E) as ((EB & EC & _) & Fb & Fc & _).
  assert (KE : forall b v r u a, turns w y b v r -> seen w y K b u a -> turns w' y' b u r).
  { intros b v r u a Tb Sb. destruct Tb as [(Hb & U & _ & I & NI & Er & EI)|(Hb & Ix & _ & Er)], Sb as [(Hs & Ev & _)|(Hs & Is & Ev & _)]; try contradiction.
    - left. rewrite EB. split; [exact Hb|]. split; [|split].
      + intros c p Hc Hp. rewrite EC in Hc. destruct (Fc c) as (_ & _ & F3 & F4 & _). rewrite F3 in Hp. rewrite F4. now apply U.
      + rewrite <- Ev. apply (AR b 2 Hb). lia.
      + exists I. split; [exact NI|]. split; [exact Er|]. rewrite <- EI. destruct (Fb b) as (_ & _ & FI & _). exact FI.
    - right. rewrite EB. split; [exact Hb|]. split; [destruct (Fb b) as (-> & _); exact Ix|]. now split. }
  exists u0, u1. split; [now apply (KE b0 v0 r0 u0 a0)|]. split; [now apply (KE b1 v1 r1 u1 a1)|]. split; [exact EP|]. fold h. fold x0. fold (X n). rewrite EX. reflexivity.
Qed.

(** ** lists of calls *)
Lemma spin_next (dt : R) n t w y w' y' g b0 b1 (sp ks kd mx : R) : 0 < n -> driven_four priv w y g b0 b1 sp ks kd mx -> process Generic (Some dt : cl) n t w y = Ok (w', y') ->
  driven_four priv w' y' g b0 b1 sp ks kd mx.
Proof.
  intros Hn ((m & H) & HA & HS & LO & (r & Eo) & H1 & N & (Hg & EM & HO)) E. pose proof (process_alone _ _ _ _ _ _ _ _ E) as ((EB & EC & EG & _) & Fb & Fc & Fg).
  assert (OR : forall g', In g' (y_gens y) -> orderly (g_kind (w_gen w g'))).
  { intros g' Hg'. destruct (Nat.eq_dec g' g) as [->|Ng]; [now rewrite EM|]. destruct (HO g' Hg' Ng) as [gr ->]. exact I. }
  split; [eexists; eapply y_process; [exact H|exact OR|exact E]|]. split; [|split; [|split; [|split; [|split; [now rewrite EB|split; [exact N|]]]]]].
  - intros c p Hc Hp. destruct (Fc c) as (_ & _ & F3 & F4 & _). rewrite EC in Hc. rewrite F3 in Hp. rewrite F4, EB. now apply HA.
  - intros c Hc. rewrite EC in Hc. destruct (Fc c) as (_ & _ & -> & _ & -> & _). now apply HS.
  - eapply (lone_process priv m w y (Some dt : cl) n t w' y'); eauto.
  - destruct (SafeStep.gen_process_ode (Some dt : cl) n t w y w' y' Hn E) as (o & o' & E1 & E2 & SO). rewrite Eo in E1. injection E1 as <-. rewrite E2. destruct o'; try contradiction. eexists; reflexivity.
  - unfold motor_on. rewrite EG. split; [exact Hg|]. split; [now rewrite Fg|]. intros g' Hg' Ng. rewrite Fg. now apply HO.
Qed.
Lemma driven_rk w y g b0 b1 (sp ks kd mx : R) : driven_four priv w y g b0 b1 sp ks kd mx -> uses_rk y.
Proof. intros ((m & H) & _ & _ & LO & (r & Eo) & _). destruct (lone_rk priv m w y r H LO Eo) as (Z1 & Z2 & _). exists r. auto. Qed.
Lemma spin_calls l : forall w y w' y' g b0 b1 (sp ks kd mx v0 v1 r0 r1 : R), driven_four priv w y g b0 b1 sp ks kd mx -> (0 <= mx)%R -> (forall dt n t, In (dt, n, t) l -> 0 < n) ->
  plays Generic l w y = Ok (w', y') -> turns w y b0 v0 r0 -> turns w y b1 v1 r1 ->
  exists v0' v1', turns w' y' b0 v0' r0 /\ turns w' y' b1 v1' r1 /\ (r1 * (v0' - v0) = - (r0 * (v1' - v1)))%R /\ (sp - (v1' - v0') = spins ks kd mx (r1 + r0) l (sp - (v1 - v0)))%R.
Proof.
  induction l as [|[[dt n] t] l IH]; intros w y w' y' g b0 b1 sp ks kd mx v0 v1 r0 r1 HD Hm Hl E T0 T1; cbn [plays] in E.
  - injection E as <- <-. exists v0, v1. split; [exact T0|]. split; [exact T1|]. split; [ring|reflexivity].
  - destruct (process Generic (Some dt : cl) n t w y) as [[w2 y2]| | |] eqn:E1; try discriminate E. cbn [bind] in E.
    pose proof (Hl dt n t (or_introl eq_refl)) as Hn. pose proof (driven_rk _ _ _ _ _ _ _ _ _ HD) as HU.
    pose proof HD as ((m & H) & HA & HS & _ & _ & H1 & N & HM).
    destruct (spin_call m dt n t w y w2 y2 g b0 b1 sp ks kd mx v0 v1 r0 r1 H HA HS HU E1 Hn H1 N Hm HM T0 T1) as (u0 & u1 & T0' & T1' & EP & EX).
    pose proof (spin_next dt n t w y w2 y2 g b0 b1 sp ks kd mx Hn HD E1) as HD2.
    destruct (IH w2 y2 w' y' g b0 b1 sp ks kd mx u0 u1 r0 r1 HD2 Hm (fun dt n t X => Hl dt n t (or_intror X)) E T0' T1') as (z0 & z1 & Z0 & Z1 & ZP & ZX).
    exists z0, z1. split; [exact Z0|]. split; [exact Z1|]. split; [lra|]. rewrite ZX. cbn [spins]. now rewrite EX.
Qed.
End S.
