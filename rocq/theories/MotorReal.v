(** * What a motor turns, call by call. *)

From Coq Require Import Reals Lra.
From Verif Require Import Base Targets State Ode Forces Constraints System Logic SpecState StateFacts StateReal SpecForces ForceFacts ForceReal SpecSys RegFacts SysFrame SysInv
  SpecDyn DynState DynReact DynRound DynStep DynForce RealSum SolveStep SpecSub LeastPart SpecRk RkStep RkReal SpecFlight FlightReal SwingStep SpecMotor.
Local Open Scope nat_scope.

Lemma cut_is mx x : (0 <= mx)%R -> cut mx x = Rmin mx (Rmax (- mx) x).
Proof. intros H. unfold cut, Rmin, Rmax. destruct (Rle_dec x (- mx)), (Rle_dec mx x), (Rle_dec (- mx) x); repeat destruct (Rle_dec _ _); lra. Qed.

Section S.
Context {dbg : bool}.
Notation T := (RT dbg).
Notation cl := (cell T).
Implicit Types (w : world T) (y : sys T).
Variable priv : nat -> bool.

(** the torque L on body b1 and against b0 *)
Definition add_torque (y : sys T) (b0 b1 : nat) (L : R) (f : nat -> nat -> cl) (b d : nat) : cl :=
  match d with
  | 2 => if Nat.eqb b b1 then cadd (f b 2) (Some L : cl) else if Nat.eqb b b0 then csub (f b 2) (Some L : cl) else f b 2
  | _ => f b d
  end.
(** the motion K shows body b turning at speed v with acceleration a *)
Definition seen w y (K : kin T) (b : nat) (v a : R) : Prop :=
  (In b (y_bodies y) /\ k_v K b 2 = (Some v : cl) /\ k_a K b 2 = (Some a : cl)) \/ (~ In b (y_bodies y) /\ b_index (w_body w b) = (-1)%Z /\ v = 0%R /\ a = 0%R).
Lemma torque_effect w y K h b0 b1 sp ks kd mx (v0 a0 v1 a1 : R) : listed w y -> In b1 (y_bodies y) -> b0 <> b1 -> (0 <= mx)%R -> seen w y K b0 v0 a0 -> seen w y K b1 v1 a1 ->
  effect w y K h (GMotor (@mkMotor T (Some ks) (Some kd) (Some mx) (Some sp) (Some b0) (Some b1)))
    (add_torque y b0 b1 (cut mx (ks * (sp - (v1 - v0)) - kd * (a1 - a0)))%R).
Proof.
  intros HL H1 N Hm S0 S1 s f (P1 & P2 & P3 & P4 & P5) HF. cbn [gen_apply].
  destruct S1 as [(_ & V1 & A1)|(X & _)]; [|contradiction].
  destruct (In_nth_error _ _ H1) as [i1 E1]. pose proof (proj1 HL _ _ E1) as I1.
  destruct (P5 i1 b1 E1) as (_ & D1). destruct (D1 2 ltac:(lia)) as (_ & L1 & M1). cbn [velf accf] in L1, M1. rewrite V1 in L1. rewrite A1 in M1.
  pose proof (HF i1 b1 2 E1 ltac:(lia)) as T1. cbn [frcf] in T1.
  assert (B0 : base_spin s (b_index (w_body w b0)) (Some v0 : cl) (Some a0 : cl)).
  { destruct S0 as [(H0 & V0 & A0)|(_ & X & -> & ->)].
    - destruct (In_nth_error _ _ H0) as [i0 E0]. right. rewrite (proj1 HL _ _ E0). destruct (P5 i0 b0 E0) as (_ & D0). destruct (D0 2 ltac:(lia)) as (_ & L0 & M0). cbn [velf accf] in L0, M0.
      rewrite V0 in L0. rewrite A0 in M0. split; [lia|]. now split.
    - left. split; [exact X|]. now rewrite cofZ_R. }
  assert (T0 : exists t0, b_index (w_body w b0) <> (-1)%Z -> ld s Ft (b_index (w_body w b0)) = Ok t0).
  { destruct S0 as [(H0 & _)|(_ & X & _)].
    - destruct (In_nth_error _ _ H0) as [i0 E0]. exists (f b0 2). intros _. rewrite (proj1 HL _ _ E0). exact (HF i0 b0 2 E0 ltac:(lia)).
    - exists None. congruence. }
  destruct T0 as [t0 T0].
  destruct (motor_effect (@mkMotor T (Some ks) (Some kd) (Some mx) (Some sp) (Some b0) (Some b1)) (w_body w) s b0 b1 (Some v0 : cl) (Some a0 : cl) (Some v1 : cl) (Some a1 : cl) t0 (f b1 2)
    eq_refl eq_refl B0 ltac:(rewrite I1; exact L1) ltac:(rewrite I1; exact M1) ltac:(rewrite I1; exact T1) T0) as (s' & E & K1 & _ & _ & _ & _ & K2 & K3 & _).
  cbn [mo_max mo_speed mo_ks mo_kd] in K2, K3.
  assert (EL : cfmin (Some mx : cl) (cfmax (copp (Some mx : cl)) (cadd (cmul (csub (Some sp : cl) (csub (Some v1 : cl) (Some v0 : cl))) (Some ks : cl)) (cmul (copp (csub (Some a1 : cl) (Some a0 : cl))) (Some kd : cl)))) =
    (Some (cut mx (ks * (sp - (v1 - v0)) - kd * (a1 - a0)))%R : cl)).
  { rewrite cut_is by exact Hm. rt_unfold. f_equal. rr. f_equal. f_equal. ring. }
  rewrite EL in K2, K3. set (L := cut _ _) in *.
  assert (Nz : b_index (w_body w b0) <> b_index (w_body w b1)).
  { rewrite I1. destruct S0 as [(H0 & _)|(_ & X & _)]; [|rewrite X; lia]. destruct (In_nth_error _ _ H0) as [i0 E0]. rewrite (proj1 HL _ _ E0). intros X. apply Nat2Z.inj in X. subst i0. congruence. }
  eapply wp_eq; [exact E|]. intros i b d Eb Hd. unfold add_torque.
  assert (J : d <> 2 \/ (Z.of_nat i <> b_index (w_body w b0) /\ Z.of_nat i <> b_index (w_body w b1)) -> ld s' (frcf d) (Z.of_nat i) = Ok (f b d)).
  { intros [Q|Q]; rewrite K1; try (apply (HF i b d Eb Hd)); [left|right; exact Q]. destruct d as [|[|[|]]]; try lia; discriminate. }
  destruct d as [|[|[|]]]; try lia; [apply J; lia|apply J; lia|]. cbn [frcf] in *.
  destruct (Nat.eqb_spec b b1) as [->|Nb1]; [|destruct (Nat.eqb_spec b b0) as [->|Nb0]].
  - destruct (K2 Nz) as (t & Q1 & Q2). rewrite <- (proj1 HL _ _ Eb). rewrite Q2. rewrite I1, T1 in Q1. injection Q1 as <-. reflexivity.
  - assert (Q0 : b_index (w_body w b0) <> (-1)%Z) by (rewrite (proj1 HL _ _ Eb); lia). destruct (K3 Nz Q0) as (t & Q1 & Q2). rewrite <- (proj1 HL _ _ Eb). rewrite Q2.
    pose proof (HF i b0 2 Eb ltac:(lia)) as Q3. cbn [frcf] in Q3. rewrite <- (proj1 HL _ _ Eb), Q1 in Q3. injection Q3 as ->. reflexivity.
  - apply J. right. rewrite I1. split.
    + destruct S0 as [(H0 & _)|(_ & X & _)]; [|rewrite X; lia]. destruct (In_nth_error _ _ H0) as [i0 E0]. rewrite (proj1 HL _ _ E0). intros X. apply Nat2Z.inj in X. subst i0. congruence.
    + intros X. apply Nat2Z.inj in X. subst i1. congruence.
Qed.

Lemma motor_pushes w y K h g b0 b1 sp ks kd mx (v0 a0 v1 a1 : R) : listed w y -> NoDup (y_gens y) -> In b1 (y_bodies y) -> b0 <> b1 -> (0 <= mx)%R ->
  motor_on w y g b0 b1 sp ks kd mx -> seen w y K b0 v0 a0 -> seen w y K b1 v1 a1 ->
  exists f, pushes w y K h f /\ let L := cut mx (ks * (sp - (v1 - v0)) - kd * (a1 - a0))%R in f b1 2 = (Some L : cl) /\ f b0 2 = (Some (- L)%R : cl).
Proof.
  intros HL ND H1 N Hm (Hg & EM & HO) S0 S1. set (L := cut mx _).
  set (E := fun g' => if Nat.eqb g' g then add_torque y b0 b1 L else match g_kind (w_gen w g') with GGravity gr => add_weight w gr | _ => fun f => f end).
  exists (fold_left (fun f g' => E g' f) (y_gens y) (fun _ _ => cofZ 0)). split.
  - apply pushes_effects.
    + intros g' Hg'. destruct (Nat.eq_dec g' g) as [->|Ng]; [now rewrite EM|]. destruct (HO g' Hg' Ng) as [gr ->]. exact I.
    + intros g' Hg'. unfold E. destruct (Nat.eqb_spec g' g) as [->|Ng]; [rewrite EM; now apply torque_effect|]. destruct (HO g' Hg' Ng) as [gr ->]. apply gravity_effect.
  - assert (Q : forall l f b, ~ In g l -> incl l (y_gens y) -> fold_left (fun f g' => E g' f) l f b 2 = f b 2).
    { induction l as [|g' l IH]; intros f b Nl Il; cbn [fold_left]; [reflexivity|]. rewrite IH; [|intros X; apply Nl; now right|intros x Hx; apply Il; now right].
      unfold E. destruct (Nat.eqb_spec g' g) as [->|Ng]; [exfalso; apply Nl; now left|]. destruct (HO g' (Il g' (or_introl eq_refl)) Ng) as [gr ->]. reflexivity. }
    destruct (in_split _ _ Hg) as (l1 & l2 & El). rewrite El in ND |- *. apply NoDup_remove_2 in ND. rewrite El in Q.
    assert (N1 : ~ In g l1) by (intros X; apply ND, in_or_app; now left). assert (N2 : ~ In g l2) by (intros X; apply ND, in_or_app; now right).
    assert (W : forall b, fold_left (fun f g' => E g' f) (l1 ++ g :: l2) (fun _ _ => cofZ 0) b 2 = add_torque y b0 b1 L (fold_left (fun f g' => E g' f) l1 (fun _ _ => cofZ 0)) b 2).
    { intros b. rewrite fold_left_app. cbn [fold_left]. rewrite Q; [|exact N2|intros x Hx; apply in_or_app; right; now right]. unfold E at 1. now rewrite Nat.eqb_refl. }
    rewrite !W. cbn [add_torque]. rewrite Nat.eqb_refl. destruct (Nat.eqb_spec b0 b1); [contradiction|]. rewrite Nat.eqb_refl, !Q; try exact N1; try (intros x Hx; apply in_or_app; now left).
    rewrite cofZ_R. split; rt_unfold; f_equal; rr; ring.
Qed.

(** one call of n sub-steps *)
Lemma motor_call k z m (dt : R) n t w y w' y' g b0 b1 (sp ks kd mx v0 v1 r0 r1 : R) :
  yreach k priv m w y -> attached w y -> shaped w y -> uses k z y ->
  process k (Some dt : cl) n t w y = Ok (w', y') -> 0 < n -> In b1 (y_bodies y) -> b0 <> b1 -> (0 <= mx)%R ->
  motor_on w y g b0 b1 sp ks kd mx -> turns w y b0 v0 r0 -> turns w y b1 v1 r1 ->
  exists v0' v1', turns w' y' b0 v0' r0 /\ turns w' y' b1 v1' r1 /\ (r1 * (v0' - v0) = - (r0 * (v1' - v1)))%R /\
    (sp - (v1' - v0') = fst (Nat.iter n (spin_up ks kd mx (r1 + r0) (dt / INR n)) (sp - (v1 - v0), 0)%R))%R.
Proof.
  intros H HA HS HU E Hn H1 N Hm HM T0 T1. pose proof (reg_listed _ _ _ (yreach_reg _ _ _ _ _ H)) as HL. destruct (reach_nodup priv _ _ _ _ H) as (_ & _ & ND).
  assert (HG : all_gentle w y).
  { destruct HM as (_ & EM & HO). intros g' Hg'. destruct (Nat.eq_dec g' g) as [->|Ng]; [now rewrite EM|]. destruct (HO g' Hg' Ng) as [gr ->]. exact I. }
  assert (Nn : INR n <> 0%R) by (apply not_0_INR; lia).
  set (h := (dt / INR n)%R).
  assert (Eh : cdiv (Some dt : cl) (cofZ (Z.of_nat n)) = (Some h : cl)) by (rewrite cofZ_R, <- INR_IZR_INZ; now apply divR).
  destruct (process_motion priv k z m _ n t w y w' y' H HA HS HG HU E) as (K & F & MO & AR). rewrite Eh in MO.
  destruct MO as (Ks & fs & Fs & E0 & En & ST & _).
  pose (x0 := (sp - (v1 - v0), 0)%R : R * R). pose (X := fun i => Nat.iter i (spin_up ks kd mx (r1 + r0) h) x0).
  assert (FA : forall i b v (r : R) (q : R), i < n -> turns w y b v r -> In b (y_bodies y) -> fs i b 2 = (Some q : cl) -> k_a (Ks (S i)) b 2 = (Some (q * r)%R : cl)).
  { intros i b v r q Hi [(Hb & U & _ & I & NI & Er & EI)|(X0 & _)] Hb' Ef; [|contradiction]. destruct (ST i Hi) as (_ & (NW & _) & _).
    rewrite (NW b 2 Hb ltac:(lia)), (total_unbound w y _ b _ U), Ef, EI, cofZ_R, divR, mulR by exact NI. f_equal. rr. rewrite Er. field. exact NI. }
  assert (G : forall i, i <= n -> exists u0 u1 a0 a1 : R, seen w y (Ks i) b0 u0 a0 /\ seen w y (Ks i) b1 u1 a1 /\ X i = (sp - (u1 - u0), a1 - a0)%R /\ (r1 * (u0 - v0) = - (r0 * (u1 - v1)))%R).
  { induction i as [|i IH]; intros Hi.
    - exists v0, v1, 0%R, 0%R. rewrite E0. split; [|split; [|split; [unfold X, x0; cbn; f_equal; ring|ring]]].
      + destruct T0 as [(Hb & _ & Ev & _)|(Hb & Ix & -> & _)]; [left|right; auto]. split; [exact Hb|]. split; [exact Ev|]. cbn [kin_of k_a]. apply cofZ_R.
      + destruct T1 as [(Hb & _ & Ev & _)|(Hb & Ix & -> & _)]; [left|right; auto]. split; [exact Hb|]. split; [exact Ev|]. cbn [kin_of k_a]. apply cofZ_R.
    - destruct (IH ltac:(lia)) as (u0 & u1 & a0 & a1 & S0 & S1 & EX & EP). destruct (ST i ltac:(lia)) as (FO & (NW & MV) & _).
      destruct (motor_pushes w y (Ks i) (Some h : cl) g b0 b1 sp ks kd mx u0 a0 u1 a1 HL ND H1 N Hm HM S0 S1) as (f & PF & P1 & P0). set (L := cut mx _) in *.
      pose proof (FO f PF b1 2 H1 ltac:(lia)) as F1. rewrite P1 in F1.
      pose proof (FA i b1 v1 r1 L ltac:(lia) T1 H1 F1) as A1.
      destruct S1 as [(_ & V1 & _)|(Q & _)]; [|contradiction].
      destruct (MV b1 2 H1 ltac:(lia)) as [MV1 _]. rewrite V1, A1, mulR, addR in MV1.
      assert (EX' : X (S i) = spin_up ks kd mx (r1 + r0) h (sp - (u1 - u0), a1 - a0)%R) by (unfold X in EX |- *; cbn [Nat.iter nat_rect]; unfold Nat.iter in EX; now rewrite EX).
      cbn [spin_up] in EX'. replace (ks * (sp - (u1 - u0)) - kd * (a1 - a0))%R with (ks * (sp - (u1 - u0)) - kd * (a1 - a0))%R in EX' by ring. fold L in EX'.
      destruct S0 as [(H0 & V0 & _)|(H0 & I0 & -> & ->)].
      + pose proof (FO f PF b0 2 H0 ltac:(lia)) as F0. rewrite P0 in F0. pose proof (FA i b0 v0 r0 (- L)%R ltac:(lia) T0 H0 F0) as A0.
        destruct (MV b0 2 H0 ltac:(lia)) as [MV0 _]. rewrite V0, A0, mulR, addR in MV0.
        exists (u0 + - L * r0 * h)%R, (u1 + L * r1 * h)%R, (- L * r0)%R, (L * r1)%R. split; [left; auto|]. split; [left; auto|]. split; [rewrite EX'; f_equal; ring|].
        replace (r1 * (u0 + - L * r0 * h - v0))%R with (r1 * (u0 - v0) - L * r0 * r1 * h)%R by ring. rewrite EP. ring.
      + destruct T0 as [(Q & _)|(_ & _ & Ev & Er)]; [contradiction|].
        exists 0%R, (u1 + L * r1 * h)%R, 0%R, (L * r1)%R. split; [right; auto|]. split; [left; auto|]. split; [rewrite EX', Er; f_equal; ring|]. rewrite Ev, Er. ring. }
  destruct (G n (le_n n)) as (u0 & u1 & a0 & a1 & S0 & S1 & EX & EP). rewrite En in S0, S1.
  pose proof (process_alone _ _ _ _ _ _ _ _ E) as ((EB & EC & _) & Fb & Fc & _).
  assert (KE : forall b v r u a, turns w y b v r -> seen w y K b u a -> turns w' y' b u r).
  { intros b v r u a Tb Sb. destruct Tb as [(Hb & U & _ & I & NI & Er & EI)|(Hb & Ix & _ & Er)], Sb as [(Hs & Ev & _)|(Hs & Is & Ev & _)]; try contradiction.
    - left. rewrite EB. split; [exact Hb|]. split; [|split].
      + intros c p Hc Hp. rewrite EC in Hc. destruct (Fc c) as (_ & _ & F3 & F4 & _). rewrite F3 in Hp. rewrite F4. now apply U.
      + rewrite <- Ev. apply (AR b 2 Hb). lia.
      + exists I. split; [exact NI|]. split; [exact Er|]. rewrite <- EI. destruct (Fb b) as (_ & _ & FI & _). exact FI.
    - right. rewrite EB. split; [exact Hb|]. split; [destruct (Fb b) as (-> & _); exact Ix|]. now split. }
  exists u0, u1. split; [now apply (KE b0 v0 r0 u0 a0)|]. split; [now apply (KE b1 v1 r1 u1 a1)|]. split; [exact EP|]. fold h. fold x0. fold (X n). rewrite EX. reflexivity.
Qed.

(** calls of one sub-step *)
Lemma motor_next k z (dt : R) n t w y w' y' m g b0 b1 (sp ks kd mx : R) : yreach k priv m w y -> attached w y -> shaped w y -> uses k z y -> motor_on w y g b0 b1 sp ks kd mx ->
  process k (Some dt : cl) n t w y = Ok (w', y') -> (exists m', yreach k priv m' w' y') /\ attached w' y' /\ shaped w' y' /\ (n = 1 -> uses k z y') /\ motor_on w' y' g b0 b1 sp ks kd mx /\ y_bodies y' = y_bodies y.
Proof.
  intros H HA HS HU (Hg & EM & HO) E. pose proof (process_alone _ _ _ _ _ _ _ _ E) as ((EB & EC & EG & _) & Fb & Fc & Fg).
  split; [|split; [|split; [|split; [|split; [|exact EB]]]]].
  - eexists. eapply y_process; [exact H| |exact E]. intros g' Hg'. destruct (Nat.eq_dec g' g) as [->|Ng]; [now rewrite EM|]. destruct (HO g' Hg' Ng) as [gr ->]. exact I.
  - intros c p Hc Hp. destruct (Fc c) as (_ & _ & F3 & F4 & _). rewrite EC in Hc. rewrite F3 in Hp. rewrite F4, EB. now apply HA.
  - intros c Hc. rewrite EC in Hc. destruct (Fc c) as (_ & _ & -> & _ & -> & _). now apply HS.
  - intros ->. now apply (process_scheme k z (Some dt : cl) t w y w' y').
  - unfold motor_on. rewrite EG. split; [exact Hg|]. split; [now rewrite Fg|]. intros g' Hg' Ng. rewrite Fg. now apply HO.
Qed.
Lemma motor_calls k z (dt : R) ts : forall m w y w' y' g b0 b1 (sp ks kd mx v0 v1 r0 r1 : R),
  yreach k priv m w y -> attached w y -> shaped w y -> uses k z y ->
  calls_of k (Some dt : cl) ts w y = Ok (w', y') -> In b1 (y_bodies y) -> b0 <> b1 -> (0 <= mx)%R ->
  motor_on w y g b0 b1 sp ks kd mx -> turns w y b0 v0 r0 -> turns w y b1 v1 r1 ->
  exists v0' v1', turns w' y' b0 v0' r0 /\ turns w' y' b1 v1' r1 /\ (r1 * (v0' - v0) = - (r0 * (v1' - v1)))%R /\
    (sp - (v1' - v0') = Nat.iter (length ts) (fun e => e - cut mx (ks * e) * (r1 + r0) * dt) (sp - (v1 - v0)))%R.
Proof.
  induction ts as [|t ts IH]; intros m w y w' y' g b0 b1 sp ks kd mx v0 v1 r0 r1 H HA HS HU E H1 N Hm HM T0 T1; cbn [calls_of] in E.
  - injection E as <- <-. exists v0, v1. split; [exact T0|]. split; [exact T1|]. split; [ring|reflexivity].
  - destruct (process k (Some dt : cl) 1 t w y) as [[w2 y2]| | |] eqn:E1; try discriminate E. cbn [bind] in E.
    destruct (motor_call k z m dt 1 t w y w2 y2 g b0 b1 sp ks kd mx v0 v1 r0 r1 H HA HS HU E1 ltac:(lia) H1 N Hm HM T0 T1) as (u0 & u1 & T0' & T1' & EP & EX).
    destruct (motor_next k z dt 1 t w y w2 y2 m g b0 b1 sp ks kd mx H HA HS HU HM E1) as ((m2 & H2) & A2 & S2 & U2 & M2 & EB).
    destruct (IH m2 w2 y2 w' y' g b0 b1 sp ks kd mx u0 u1 r0 r1 H2 A2 S2 (U2 eq_refl) E ltac:(now rewrite EB) N Hm M2 T0' T1') as (v0' & v1' & Z0 & Z1 & ZP & ZX).
    exists v0', v1'. split; [exact Z0|]. split; [exact Z1|]. split; [lra|]. rewrite ZX. cbn [length]. rewrite iter_succ_r. f_equal. rewrite EX. cbn [Nat.iter nat_rect spin_up fst INR].
    replace (ks * (sp - (v1 - v0)) - kd * 0)%R with (ks * (sp - (v1 - v0)))%R by ring. unfold Rdiv. rewrite Rinv_1. ring.
Qed.

End S.

(** ** what this means *)
Section E.
Open Scope R_scope.
Definition step_e (ks mx c e : R) : R := e - cut mx (ks * e) * c.
Lemma cut_cases mx x : 0 <= mx -> (Rabs x <= mx /\ cut mx x = x) \/ (mx <= x /\ cut mx x = mx) \/ (x <= - mx /\ cut mx x = - mx).
Proof.
  intros H. unfold cut. destruct (Rle_dec x (- mx)); [auto|]. destruct (Rle_dec mx x); [auto|]. left. split; [apply Rabs_le; lra|reflexivity].
Qed.
Lemma cut_opp mx x : 0 <= mx -> cut mx (- x) = - cut mx x.
Proof. intros H. unfold cut. destruct (Rle_dec (- x) (- mx)), (Rle_dec mx (- x)), (Rle_dec x (- mx)), (Rle_dec mx x); lra. Qed.
Lemma cut_in mx x : Rabs x <= mx -> cut mx x = x.
Proof. intros H. unfold cut. unfold Rabs in H. destruct (Rcase_abs x), (Rle_dec x (- mx)), (Rle_dec mx x); lra. Qed.
Lemma unsat ks mx c e : Rabs (ks * e) <= mx -> step_e ks mx c e = (1 - ks * c) * e.
Proof. intros H. unfold step_e. rewrite cut_in by exact H. ring. Qed.
Lemma unsat_iter ks mx c e n : Rabs (ks * e) <= mx -> Rabs (1 - ks * c) <= 1 -> Nat.iter n (step_e ks mx c) e = (1 - ks * c) ^ n * e.
Proof.
  intros H Hc. induction n as [|n IH]; [cbn; ring|]. cbn [Nat.iter nat_rect]. unfold Nat.iter in IH. rewrite IH, unsat; [cbn [pow]; ring|].
  replace (ks * ((1 - ks * c) ^ n * e)) with ((1 - ks * c) ^ n * (ks * e)) by ring. rewrite Rabs_mult, <- RPow_abs.
  assert (Rabs (1 - ks * c) ^ n <= 1). { replace 1 with (1 ^ n) at 2 by apply pow1. apply pow_incr. split; [apply Rabs_pos|exact Hc]. }
  pose proof (Rabs_pos (ks * e)). pose proof (pow_le _ n (Rabs_pos (1 - ks * c))). nra.
Qed.
(** no overshoot *)
Lemma steady_up ks mx c e : 0 <= mx -> 0 <= ks -> 0 <= c -> ks * c <= 1 -> (0 <= e -> 0 <= step_e ks mx c e <= e) /\ (e <= 0 -> e <= step_e ks mx c e <= 0).
Proof.
  intros Hm Hk Hc Hkc.
  assert (P : forall e, 0 <= e -> 0 <= step_e ks mx c e <= e).
  { intros x Hx. pose proof (Rmult_le_pos _ _ Hk Hx) as K. pose proof (Rmult_le_pos _ _ Hm Hc) as MC.
    assert (B : 0 <= cut mx (ks * x) <= ks * x).
    { destruct (cut_cases mx (ks * x) Hm) as [(_ & ->)|[(A & ->)|(A & ->)]]; lra. }
    unfold step_e. assert (cut mx (ks * x) * c <= ks * x * c) by (apply Rmult_le_compat_r; lra). assert (0 <= cut mx (ks * x) * c) by (apply Rmult_le_pos; lra).
    assert (ks * x * c <= x). { replace (ks * x * c) with (ks * c * x) by ring. rewrite <- (Rmult_1_l x) at 2. now apply Rmult_le_compat_r. }
    lra. }
  split; [apply P|]. intros H. pose proof (P (- e) ltac:(lra)) as Q. unfold step_e in *. replace (ks * - e) with (- (ks * e)) in Q by ring. rewrite cut_opp in Q by exact Hm. lra.
Qed.
Lemma steady_iter ks mx c e n : 0 <= mx -> 0 <= ks -> 0 <= c -> ks * c <= 1 ->
  (0 <= e -> 0 <= Nat.iter n (step_e ks mx c) e <= e) /\ (e <= 0 -> e <= Nat.iter n (step_e ks mx c) e <= 0).
Proof.
  intros Hm Hk Hc Hkc. induction n as [|n IH]; [cbn; lra|]. cbn [Nat.iter nat_rect]. unfold Nat.iter in IH.
  set (x := nat_rect _ _ _ n) in *. destruct (steady_up ks mx c x Hm Hk Hc Hkc) as [A B]. split; intros He; [destruct IH as [IH _]|destruct IH as [_ IH]]; specialize (IH He); [specialize (A ltac:(lra))|specialize (B ltac:(lra))]; lra.
Qed.
(** the speed is reached *)
Definition margin (ks mx c : R) : R := Rmin (mx * c) (mx * (2 / ks - c)).
Lemma margin_pos ks mx c : 0 < mx -> 0 < ks -> 0 < ks * c < 2 -> 0 < margin ks mx c.
Proof.
  intros Hm Hk [H1 H2]. assert (Hc : 0 < c). { apply (Rmult_lt_reg_l ks); lra. }
  assert (c < 2 / ks). { apply (Rmult_lt_reg_l ks); [lra|]. replace (ks * (2 / ks)) with 2 by (field; lra). lra. }
  unfold margin. apply Rmin_glb_lt; apply Rmult_lt_0_compat; lra.
Qed.
Lemma saturated ks mx c e : 0 < mx -> 0 < ks -> 0 < ks * c < 2 -> mx <= Rabs (ks * e) -> Rabs (step_e ks mx c e) <= Rabs e - margin ks mx c.
Proof.
  intros Hm Hk Hc.
  assert (P : forall e, 0 <= e -> mx <= ks * e -> Rabs (step_e ks mx c e) <= e - margin ks mx c).
  { intros x Hx H. unfold step_e. assert (cut mx (ks * x) = mx) as ->. { destruct (cut_cases mx (ks * x) ltac:(lra)) as [(A & ->)|[(A & ->)|(A & ->)]]; try lra. rewrite Rabs_pos_eq in A by lra. lra. }
    assert (mx / ks <= x). { apply (Rmult_le_reg_l ks); [lra|]. replace (ks * (mx / ks)) with mx by (field; lra). exact H. }
    assert (Q : mx * (2 / ks - c) = 2 * (mx / ks) - mx * c) by (field; lra).
    pose proof (Rmin_l (mx * c) (mx * (2 / ks - c))) as L1. pose proof (Rmin_r (mx * c) (mx * (2 / ks - c))) as L2. fold (margin ks mx c) in *. rewrite Q in *.
    apply Rabs_le. lra. }
  intros H. destruct (Rle_dec 0 e) as [He|He].
  - rewrite (Rabs_pos_eq e He). apply P; [exact He|]. rewrite Rabs_pos_eq in H; [exact H|]. apply Rmult_le_pos; lra.
  - pose proof (P (- e) ltac:(lra)) as Q. unfold step_e in *. replace (ks * - e) with (- (ks * e)) in Q by ring. rewrite cut_opp in Q by lra.
    rewrite (Rabs_left e) by lra. replace (e - cut mx (ks * e) * c) with (- (- e - - cut mx (ks * e) * c)) by ring. rewrite Rabs_Ropp. apply Q.
    rewrite Rabs_left in H; [lra|]. nra.
Qed.
Lemma settles ks mx c : 0 < mx -> 0 < ks -> 0 < ks * c < 2 -> forall n e, ks * Rabs e <= mx + ks * (INR n * margin ks mx c) ->
  exists i, (i <= n)%nat /\ Rabs (ks * Nat.iter i (step_e ks mx c) e) <= mx.
Proof.
  intros Hm Hk Hc. assert (AB : forall x, Rabs (ks * x) = ks * Rabs x) by (intros x; rewrite Rabs_mult, (Rabs_pos_eq ks); lra).
  induction n as [|n IH]; intros e He.
  - exists 0%nat. split; [lia|]. cbn [Nat.iter nat_rect INR] in *. rewrite AB. lra.
  - destruct (Rle_dec (Rabs (ks * e)) mx) as [L|L]; [exists 0%nat; split; [lia|exact L]|].
    pose proof (saturated ks mx c e Hm Hk Hc ltac:(lra)) as Sa. rewrite S_INR in He.
    destruct (IH (step_e ks mx c e)) as (i & Hi & Hx).
    + assert (ks * Rabs (step_e ks mx c e) <= ks * (Rabs e - margin ks mx c)) by (apply Rmult_le_compat_l; lra). lra.
    + exists (S i). split; [lia|]. now rewrite iter_succ_r.
Qed.
Lemma iter_plus {A} (f : A -> A) x n m : Nat.iter (n + m) f x = Nat.iter n f (Nat.iter m f x).
Proof. induction n as [|n IH]; [reflexivity|]. cbn [Nat.add Nat.iter nat_rect]. unfold Nat.iter in IH. now rewrite IH. Qed.
Lemma archimed_nat (x : R) : exists n, x < INR n.
Proof.
  exists (Z.to_nat (up x)). destruct (archimed x) as [A _]. rewrite INR_IZR_INZ. destruct (Z_le_dec 0 (up x)) as [H|H]; [now rewrite Z2Nat.id|].
  apply Rlt_trans with (IZR (up x)); [exact A|]. apply IZR_lt. lia.
Qed.
Lemma reached ks mx c e eps : 0 < mx -> 0 < ks -> 0 < ks * c < 2 -> 0 < eps -> exists N, forall n, (N <= n)%nat -> Rabs (Nat.iter n (step_e ks mx c) e) < eps.
Proof.
  intros Hm Hk Hc He. pose proof (margin_pos ks mx c Hm Hk Hc) as MP.
  destruct (archimed_nat (Rabs e / margin ks mx c)) as [n Hn].
  destruct (settles ks mx c Hm Hk Hc n e) as (i & _ & Hi).
  { assert (Rabs e <= INR n * margin ks mx c). { apply Rlt_le. apply (Rmult_lt_reg_r (/ margin ks mx c)); [now apply Rinv_0_lt_compat|]. replace (INR n * margin ks mx c * / margin ks mx c) with (INR n) by (field; lra). exact Hn. }
    assert (ks * Rabs e <= ks * (INR n * margin ks mx c)) by (apply Rmult_le_compat_l; lra). lra. }
  set (e1 := Nat.iter i (step_e ks mx c) e) in *.
  assert (Rabs (1 - ks * c) < 1) as Q by (apply Rabs_def1; lra).
  destruct (pow_lt_1_zero (1 - ks * c) Q (eps / (Rabs e1 + 1))) as [N HN].
  { apply Rdiv_lt_0_compat; [exact He|]. pose proof (Rabs_pos e1). lra. }
  exists (i + N)%nat. intros m Hm'. replace m with ((m - i) + i)%nat by lia. rewrite iter_plus. fold e1. rewrite unsat_iter by (lra || exact Hi).
  rewrite Rabs_mult. specialize (HN (m - i)%nat ltac:(lia)). pose proof (Rabs_pos e1). pose proof (Rabs_pos ((1 - ks * c) ^ (m - i))).
  assert (eps = eps / (Rabs e1 + 1) * (Rabs e1 + 1)) as -> by (field; lra).
  apply Rle_lt_trans with (Rabs ((1 - ks * c) ^ (m - i)) * (Rabs e1 + 1)); [apply Rmult_le_compat_l; lra|]. apply Rmult_lt_compat_r; lra.
Qed.
(** too stiff: it turns back and forth *)
Lemma chatters ks mx c n : 0 <= mx -> 0 <= ks -> 2 <= ks * c -> Nat.iter n (step_e ks mx c) (mx * c / 2) = (-1) ^ n * (mx * c / 2).
Proof.
  intros Hm Hk Hc. induction n as [|n IH]; [cbn; ring|]. cbn [Nat.iter nat_rect]. unfold Nat.iter in IH. rewrite IH.
  assert (B : mx <= ks * (mx * c / 2)). { replace (ks * (mx * c / 2)) with (mx * (ks * c / 2)) by field. rewrite <- (Rmult_1_r mx) at 1. apply Rmult_le_compat_l; lra. }
  assert (E : cut mx (ks * (mx * c / 2)) = mx).
  { destruct (cut_cases mx (ks * (mx * c / 2)) Hm) as [(A & ->)|[(A & ->)|(A & ->)]]; try lra. rewrite Rabs_pos_eq in A by lra. lra. }
  assert (P : (-1) ^ n = 1 \/ (-1) ^ n = -1). { clear. induction n as [|n [IH|IH]]; [left; reflexivity|right|left]; cbn [pow]; rewrite IH; ring. }
  unfold step_e. cbn [pow]. destruct P as [-> | ->].
  - rewrite Rmult_1_l, E. field.
  - replace (ks * (-1 * (mx * c / 2))) with (- (ks * (mx * c / 2))) by ring. rewrite cut_opp, E by exact Hm. field.
Qed.
(** without damping, sub-steps are like calls *)
Lemma undamped_spin ks mx r h n : forall x, fst (Nat.iter n (spin_up ks 0 mx r h) x) = Nat.iter n (step_e ks mx (r * h)) (fst x).
Proof.
  induction n as [|n IH]; intros x; [reflexivity|]. cbn [Nat.iter nat_rect]. unfold Nat.iter in IH. rewrite <- IH. set (z := nat_rect _ _ _ n). destruct z as [e a]. cbn [spin_up fst].
  unfold step_e. replace (ks * e - 0 * a) with (ks * e) by ring. ring.
Qed.
(** too much damping: every other sub-step undoes the one before *)
Lemma stalls ks kd mx r h e n : 0 <= mx -> 0 <= r -> 0 <= h -> 0 <= ks -> mx <= ks * e -> mx + ks * e <= kd * (mx * r) ->
  fst (Nat.iter (2 * n) (spin_up ks kd mx r h) (e, 0)) = e.
Proof.
  intros Hm Hr Hh Hk H1 H2.
  assert (E : forall a, (a = 0 \/ a = - mx * r) -> spin_up ks kd mx r h (spin_up ks kd mx r h (e, a)) = (e, - mx * r)).
  { intros a Ha. assert (C1 : cut mx (ks * e - kd * a) = mx).
    { destruct (cut_cases mx (ks * e - kd * a) Hm) as [(A & ->)|[(_ & ->)|(A & ->)]]; [|reflexivity|].
      - apply Rabs_le in A || idtac. assert (mx <= ks * e - kd * a) by (destruct Ha as [-> | ->]; lra). unfold Rabs in A. destruct (Rcase_abs _); lra.
      - assert (mx <= ks * e - kd * a) by (destruct Ha as [-> | ->]; lra). lra. }
    unfold spin_up at 2. rewrite C1. unfold spin_up.
    assert (mx * r * h * ks >= 0). { apply Rle_ge. repeat apply Rmult_le_pos; assumption. }
    assert (C2 : cut mx (ks * (e - mx * r * h) - kd * (mx * r)) = - mx).
    { destruct (cut_cases mx (ks * (e - mx * r * h) - kd * (mx * r)) Hm) as [(A & ->)|[(A & ->)|(_ & ->)]]; [| |reflexivity].
      - unfold Rabs in A. destruct (Rcase_abs _); lra.
      - lra. }
    rewrite C2. f_equal; ring. }
  assert (G : Nat.iter (2 * n) (spin_up ks kd mx r h) (e, 0) = (e, match n with O => 0 | _ => - mx * r end)).
  { induction n as [|n IH]; [reflexivity|]. replace (2 * S n)%nat with (S (S (2 * n))) by lia. cbn [Nat.iter nat_rect]. unfold Nat.iter in IH. rewrite IH. apply E. destruct n; auto. }
  now rewrite G.
Qed.
End E.
