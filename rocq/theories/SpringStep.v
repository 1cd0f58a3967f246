(** * Two bodies at the ends of a spring: a call and any number of calls. *)

From Coq Require Import Reals Lra.
From Verif Require Import Base Targets State Ode Forces Constraints System Logic SpecState StateFacts StateReal SpecForces ForceFacts ForceReal SpecSys RegFacts SysFrame SysInv
  SpecDyn DynState DynReact DynRound DynStep DynForce RealSum SpecSolve SolveReal SolveStep SpecMom MomForce SpecSub LeastPart SpecRk RkStep RkReal SpecFlight FlightReal SpecSwing SwingStep SpecMotor MotorReal SpecRun RunStep SpecSpring SpringReal.
Local Open Scope nat_scope.

Section S.
Context {dbg : bool}.
Notation T := (RT dbg).
Notation cl := (cell T).
Implicit Types (w : world T) (y : sys T).
Variable priv : nat -> bool.

Lemma bounce_tug z L ks kd r h x : bounce z L ks kd r h x =
  let t := tug L ks kd x in let u := (fst (snd x) - fst t * r * h, snd (snd x) - snd t * r * h)%R in
  let m := match z with Symplectic => u | Explicit => snd x end in ((fst (fst x) + fst m * h, snd (fst x) + snd m * h)%R, u).
Proof. destruct x as [[dx dy] [ux uy]]. unfold bounce, tug. cbv zeta. cbn [fst snd]. destruct z; reflexivity. Qed.

Lemma tied_gentle k z w y g b1 b2 L ks kd gr x1 v1 M1 x2 v2 M2 : tied priv k z w y g b1 b2 L ks kd gr x1 v1 M1 x2 v2 M2 -> all_gentle w y.
Proof. intros HT g' Hg'. destruct (ti_spring HT) as (_ & EG & HO). destruct (Nat.eq_dec g' g) as [->|Ng]; [now rewrite EG|]. now rewrite (HO g' Hg' Ng). Qed.
Lemma tied_next k z dt n t w y w' y' g b1 b2 L ks kd gr x1 v1 M1 x2 v2 M2 x1' v1' x2' v2' : tied priv k z w y g b1 b2 L ks kd gr x1 v1 M1 x2 v2 M2 ->
  process k dt (S n) t w y = Ok (w', y') -> is_at w' b1 x1' v1' M1 -> is_at w' b2 x2' v2' M2 -> tied priv k z w' y' g b1 b2 L ks kd gr x1' v1' M1 x2' v2' M2.
Proof.
  intros HT E A1 A2. pose proof HT as [(m & H) HA HS HU I1 I2 N U1 U2 (Hg & EG & HO) _ _]. pose proof (process_alone _ _ _ _ _ _ _ _ E) as ((EB & EC & EGs & _) & Fb & Fc & Fg).
  assert (UN : forall b, unbound w y b -> unbound w' y' b).
  { intros b U c p Hc Hp. rewrite EC in Hc. destruct (Fc c) as (_ & _ & F3 & F4 & _). rewrite F3 in Hp. rewrite F4. now apply U. }
  constructor; auto; try (now rewrite EB).
  - eexists. eapply y_process; [exact H| |exact E]. intros g' Hg'. destruct (Nat.eq_dec g' g) as [->|Ng]; [now rewrite EG|]. now rewrite (HO g' Hg' Ng).
  - exact (process_reattached _ _ _ _ _ _ _ _ E HA).
  - intros c Hc. rewrite EC in Hc. destruct (Fc c) as (_ & _ & -> & _ & -> & _). now apply HS.
  - now apply (process_scheme_n k z dt n t w y w' y').
  - unfold spring_on. rewrite EGs. split; [exact Hg|]. split; [now rewrite Fg|]. intros g' Hg' Ng. rewrite Fg. now apply HO.
Qed.

Lemma spring_call k z (dt : R) n t w y w' y' g b1 b2 (L ks kd : R) gr x1 v1 M1 x2 v2 M2 :
  tied priv k z w y g b1 b2 L ks kd gr x1 v1 M1 x2 v2 M2 -> process k (Some dt : cl) n t w y = Ok (w', y') -> 0 < n ->
  exists x1' v1' x2' v2', tied priv k z w' y' g b1 b2 L ks kd gr x1' v1' M1 x2' v2' M2 /\ weight y' g gr = weight y g gr /\
    seen_from x1' x2' v1' v2' = Nat.iter n (bounce z L ks kd (/ M1 0%nat + / M2 0%nat) (dt / INR n)) (seen_from x1 x2 v1 v2) /\
    (M1 0%nat * (v1' 0%nat - v1 0%nat) + M2 0%nat * (v2' 0%nat - v2 0%nat) = 0)%R /\
    (M1 0%nat * (v1' 1%nat - v1 1%nat) + M2 0%nat * (v2' 1%nat - v2 1%nat) = - ((M1 0%nat + M2 0%nat) * weight y g gr * dt))%R /\
    (v1' 2%nat = v1 2%nat /\ x1' 2%nat = x1 2%nat + v1 2%nat * dt /\ v2' 2%nat = v2 2%nat /\ x2' 2%nat = x2 2%nat + v2 2%nat * dt)%R.
Proof.
  intros HT E Hn. pose proof HT as [(m & H) HA HS HU I1 I2 N U1 U2 HSp HA1 HA2].
  pose proof (reg_listed _ _ _ (yreach_reg _ _ _ _ _ H)) as HL. destruct (reach_nodup priv _ _ _ _ H) as (_ & _ & ND). pose proof (tied_gentle _ _ _ _ _ _ _ _ _ _ _ _ _ _ _ _ _ HT) as HG.
  assert (Nn : INR n <> 0%R) by (apply not_0_INR; lia).
  set (h := (dt / INR n)%R). set (r := (/ M1 0%nat + / M2 0%nat)%R).
  assert (Eh : cdiv (Some dt : cl) (cofZ (Z.of_nat n)) = (Some h : cl)) by (rewrite cofZ_R, <- INR_IZR_INZ; now apply divR).
  destruct (process_motion priv k z m _ n t w y w' y' H HA HS HG HU E) as (K & F & MO & AR). rewrite Eh in MO.
  destruct MO as (Ks & fs & Fs & E0 & En & ST & _).
  assert (N1 : forall d, d < 3 -> M1 d <> 0%R) by (intros d Hd; apply (HA1 d Hd)). assert (N2 : forall d, d < 3 -> M2 d <> 0%R) by (intros d Hd; apply (HA2 d Hd)).
  assert (Em1 : b_f (w_body w b1) Bm = (Some (M1 0) : cl)) by (apply (HA1 0); lia). assert (Em2 : b_f (w_body w b2) Bm = (Some (M2 0) : cl)) by (apply (HA2 0); lia).
  assert (S1 : M1 1 = M1 0). { destruct (HA1 1 ltac:(lia)) as (_ & _ & X & _). change (b_f (w_body w b1) Bm = (Some (M1 1) : cl)) in X. rewrite Em1 in X. now injection X. }
  assert (S2 : M2 1 = M2 0). { destruct (HA2 1 ltac:(lia)) as (_ & _ & X & _). change (b_f (w_body w b2) Bm = (Some (M2 1) : cl)) in X. rewrite Em2 in X. now injection X. }
  set (W := weight y g gr). pose (X := fun i => Nat.iter i (bounce z L ks kd r h) (seen_from x1 x2 v1 v2)).
  assert (G : forall i, i <= n -> exists p1 u1 p2 u2, has (Ks i) b1 p1 u1 /\ has (Ks i) b2 p2 u2 /\ seen_from p1 p2 u1 u2 = X i /\
    (M1 0%nat * (u1 0%nat - v1 0%nat) + M2 0%nat * (u2 0%nat - v2 0%nat) = 0)%R /\
    (M1 0%nat * (u1 1%nat - v1 1%nat) + M2 0%nat * (u2 1%nat - v2 1%nat) = - ((M1 0%nat + M2 0%nat) * W * (INR i * h)))%R /\
    (u1 2%nat = v1 2%nat /\ p1 2%nat = x1 2%nat + v1 2%nat * (INR i * h) /\ u2 2%nat = v2 2%nat /\ p2 2%nat = x2 2%nat + v2 2%nat * (INR i * h))%R).
  { induction i as [|i IH]; intros Hi.
    - exists x1, v1, x2, v2. rewrite E0. split; [intros d Hd; destruct (HA1 d Hd) as (A & B & _); now split|]. split; [intros d Hd; destruct (HA2 d Hd) as (A & B & _); now split|].
      split; [reflexivity|]. cbn [INR]. repeat split; try ring.
    - destruct (IH ltac:(lia)) as (p1 & u1 & p2 & u2 & K1 & K2 & EX & P0 & P1 & T1 & T1' & T2 & T2'). destruct (ST i ltac:(lia)) as (FO & (NW & MV) & _).
      destruct (spring_pushes w y (Ks i) (Some h : cl) g b1 b2 L ks kd gr p1 u1 p2 u2 (M1 0) (M2 0) HL ND I1 I2 N HSp K1 K2 Em1 Em2) as (f & PF & Q1 & Q2). cbv zeta in Q1, Q2. rewrite EX in Q1, Q2. fold W in Q1, Q2.
      set (tg := tug L ks kd (X i)) in *.
      set (f1 := fun d : nat => (match d with 0%nat => fst tg | 1%nat => snd tg - M1 0%nat * W | _ => 0 end)%R). set (f2 := fun d : nat => (match d with 0%nat => - fst tg | 1%nat => - snd tg - M2 0%nat * W | _ => 0 end)%R).
      assert (ST1 : forall b (MM pp uu ff : nat -> R), In b (y_bodies y) -> unbound w y b -> (forall d, d < 3 -> b_mass (w_body w b) d = (Some (MM d) : cl) /\ MM d <> 0%R) -> has (Ks i) b pp uu -> (forall d, d < 3 -> f b d = (Some (ff d) : cl)) ->
        has (Ks (S i)) b (fun d => pp d + match z with Symplectic => uu d + ff d / MM d * h | Explicit => uu d end * h)%R (fun d => uu d + ff d / MM d * h)%R).
      { intros b MM pp uu ff Hb U HM HK Hf d Hd. destruct (MV b d Hb Hd) as [MV1 MV2]. destruct (HK d Hd) as [HK1 HK2]. destruct (HM d Hd) as [HM1 HM2].
        pose proof (NW b d Hb Hd) as NWd. rewrite (total_unbound w y _ b _ U), (FO f PF b d Hb Hd), (Hf d Hd), HM1, cofZ_R, divR, mulR in NWd by exact HM2.
        rewrite HK2, NWd, mulR, addR in MV1.
        assert (EV : k_v (Ks (S i)) b d = (Some (uu d + ff d / MM d * h)%R : cl)) by (rewrite MV1; f_equal; rr; field; exact HM2).
        split; [|exact EV]. rewrite MV2, HK1. destruct z; [rewrite EV|rewrite HK2]; rewrite mulR, addR; reflexivity. }
      pose proof (ST1 b1 M1 p1 u1 f1 I1 U1 (fun d Hd => proj2 (proj2 (HA1 d Hd))) K1 Q1) as K1'.
      pose proof (ST1 b2 M2 p2 u2 f2 I2 U2 (fun d Hd => proj2 (proj2 (HA2 d Hd))) K2 Q2) as K2'.
      eexists _, _, _, _. split; [exact K1'|]. split; [exact K2'|].
      assert (Z1 := N1 0 ltac:(lia)). assert (Z2 := N2 0 ltac:(lia)). assert (Z3 := N1 2 ltac:(lia)). assert (Z4 := N2 2 ltac:(lia)).
      split; [|split; [|split; [|split; [|split; [|split]]]]].
      + unfold X. change (Nat.iter (S i) (bounce z L ks kd r h) (seen_from x1 x2 v1 v2)) with (bounce z L ks kd r h (X i)). rewrite bounce_tug. fold tg. cbv zeta.
        rewrite <- EX. unfold seen_from, f1, f2. cbn [fst snd]. rewrite S1, S2. unfold r. destruct z; cbn [fst snd]; f_equal; f_equal; field; auto.
      + unfold f1, f2. transitivity (M1 0%nat * (u1 0%nat - v1 0%nat) + M2 0%nat * (u2 0%nat - v2 0%nat))%R; [field; auto|exact P0].
      + unfold f1, f2. rewrite S1, S2, S_INR. transitivity (M1 0%nat * (u1 1%nat - v1 1%nat) + M2 0%nat * (u2 1%nat - v2 1%nat) - (M1 0%nat + M2 0%nat) * W * h)%R; [field; auto|rewrite P1; ring].
      + unfold f1. rewrite T1. field; auto.
      + unfold f1. rewrite S_INR, T1'. destruct z; rewrite T1; field; auto.
      + unfold f2. rewrite T2. field; auto.
      + unfold f2. rewrite S_INR, T2'. destruct z; rewrite T2; field; auto. }
  destruct (G n (le_n n)) as (p1 & u1 & p2 & u2 & K1 & K2 & EX & P0 & P1 & T). rewrite En in K1, K2.
  assert (Enh : (INR n * h = dt)%R) by (unfold h; field; exact Nn). rewrite Enh in P1, T.
  destruct (process_alone _ _ _ _ _ _ _ _ E) as ((EB & _ & EGs & _) & Fb & _).
  assert (AT : forall b x v p u M, In b (y_bodies y) -> is_at w b x v M -> has K b p u -> is_at w' b p u M).
  { intros b x v p u M Hb HB HK d Hd. destruct (AR b d Hb Hd) as [-> ->]. destruct (HK d Hd) as [-> ->]. destruct (HB d Hd) as (_ & _ & EM & NM). split; [reflexivity|]. split; [reflexivity|]. split; [|exact NM].
    rewrite <- EM. destruct (Fb b) as (_ & Fm & FI & _). destruct d as [|[|[|]]]; try lia; cbn [b_mass]; assumption. }
  exists p1, u1, p2, u2. split; [|split; [unfold weight; now rewrite EGs|auto]].
  destruct n as [|n]; [lia|]. refine (tied_next k z (Some dt : cl) n t w y w' y' g b1 b2 L ks kd gr x1 v1 M1 x2 v2 M2 _ _ _ _ HT E _ _); eauto.
Qed.

Lemma spring_calls k z (L ks kd : R) gr g b1 b2 M1 M2 : forall l w y w' y' x1 v1 x2 v2,
  tied priv k z w y g b1 b2 L ks kd gr x1 v1 M1 x2 v2 M2 -> plays k l w y = Ok (w', y') -> busy l ->
  exists x1' v1' x2' v2', tied priv k z w' y' g b1 b2 L ks kd gr x1' v1' M1 x2' v2' M2 /\ weight y' g gr = weight y g gr /\
    seen_from x1' x2' v1' v2' = course z L ks kd (/ M1 0%nat + / M2 0%nat) l (seen_from x1 x2 v1 v2) /\
    (M1 0%nat * (v1' 0%nat - v1 0%nat) + M2 0%nat * (v2' 0%nat - v2 0%nat) = 0)%R /\
    (M1 0%nat * (v1' 1%nat - v1 1%nat) + M2 0%nat * (v2' 1%nat - v2 1%nat) = - ((M1 0%nat + M2 0%nat) * weight y g gr * lasts l))%R /\
    (v1' 2%nat = v1 2%nat /\ x1' 2%nat = x1 2%nat + v1 2%nat * lasts l /\ v2' 2%nat = v2 2%nat /\ x2' 2%nat = x2 2%nat + v2 2%nat * lasts l)%R.
Proof.
  induction l as [|[[dt n] t] l IH]; intros w y w' y' x1 v1 x2 v2 HT E HB; cbn [plays] in E.
  - injection E as <- <-. exists x1, v1, x2, v2. split; [exact HT|]. split; [reflexivity|]. split; [reflexivity|]. cbn [lasts]. repeat split; try ring.
  - destruct (process k (Some dt : cl) n t w y) as [[w2 y2]| | |] eqn:E1; try discriminate E. cbn [bind] in E.
    destruct (spring_call k z dt n t w y w2 y2 g b1 b2 L ks kd gr x1 v1 M1 x2 v2 M2 HT E1 (HB dt n t (or_introl eq_refl))) as (p1 & u1 & p2 & u2 & HT2 & W2 & X2 & P0 & P1 & T1 & T2 & T3 & T4).
    destruct (IH w2 y2 w' y' p1 u1 p2 u2 HT2 E) as (x1' & v1' & x2' & v2' & HT' & W' & X' & P0' & P1' & T1' & T2' & T3' & T4'); [intros dt' n' t' Hi; apply (HB dt' n' t'); now right|].
    exists x1', v1', x2', v2'. split; [exact HT'|]. split; [congruence|]. split; [rewrite X', X2; reflexivity|]. cbn [lasts]. rewrite W2 in P1'.
    split; [lra|]. split; [lra|]. rewrite T1', T3', T2', T4', T1, T2, T3, T4. repeat split; ring.
Qed.
End S.
