(** * The energy of falling bodies. *)

From Coq Require Import Reals Lra.
From Verif Require Import Base Targets State Ode Forces Constraints System Logic SpecState StateFacts StateReal SpecForces ForceFacts ForceReal SpecSys RegFacts SysFrame SysInv
  SpecDyn DynState DynStep DynForce RealSum GeReal SpecRk RkReal SpecFlight FlightReal SpecSafe RunStep SpecFall.
Local Open Scope nat_scope.

Section S.
Context {dbg : bool}.
Notation T := (RT dbg).
Notation cl := (cell T).
Implicit Types (w : world T) (y : sys T).
Variable priv : nat -> bool.

Lemma is_at_energy w b x v M : is_at w b x v M ->
  b_energy (w_body w b) = (Some (/ 2 * M 0%nat * (v 0%nat * v 0%nat) + / 2 * M 1%nat * (v 1%nat * v 1%nat) + / 2 * M 2%nat * (v 2%nat * v 2%nat))%R : cl).
Proof.
  intros H. destruct (H 0 ltac:(lia)) as (_ & V0 & M0 & _), (H 1 ltac:(lia)) as (_ & V1 & M1 & _), (H 2 ltac:(lia)) as (_ & V2 & M2 & _).
  unfold b_vel, b_mass in *. assert (E : M 0 = M 1) by (rewrite M0 in M1; now injection M1).
  unfold b_energy. rewrite V0, V1, V2, M0, M2. unfold clit, cadd, cmul, cdiv, cofZ, lift2, lift2p. cbn. rewrite R_div_some by lra. cbn.
  f_equal. rr. rewrite <- E. lra.
Qed.

Definition work (F x x' : nat -> R) : R := (F 0%nat * (x' 0%nat - x 0%nat) + F 1%nat * (x' 1%nat - x 1%nat) + F 2%nat * (x' 2%nat - x 2%nat))%R.
Definition power (F M : nat -> R) : R := (F 0%nat * F 0%nat / M 0%nat + F 1%nat * F 1%nat / M 1%nat + F 2%nat * F 2%nat / M 2%nat)%R.

Lemma fall k z m (dt : R) n t w y w' y' b F (x v M : nat -> R) :
  yreach k priv m w y -> attached w y -> shaped w y -> all_gentle w y -> uses k z y ->
  process k (Some dt : cl) n t w y = Ok (w', y') -> 0 < n -> In b (y_bodies y) -> unbound w y b -> steady w y b F -> is_at w b x v M ->
  exists x' v' E E', is_at w' b x' v' M /\ b_energy (w_body w b) = (Some E : cl) /\ b_energy (w_body w' b) = (Some E' : cl) /\
    (E' - E = F 0%nat * (x' 0%nat - x 0%nat) + F 1%nat * (x' 1%nat - x 1%nat) + F 2%nat * (x' 2%nat - x 2%nat) +
       side_of z * (F 0%nat * F 0%nat / M 0%nat + F 1%nat * F 1%nat / M 1%nat + F 2%nat * F 2%nat / M 2%nat) * (dt * dt / (2 * INR n)))%R.
Proof.
  intros H HA HS HG HU E Hn Hb U HF HB.
  pose proof (flight priv k z m dt n t w y w' y' b F x v M H HA HS HG HU E Hn Hb U HF HB) as HE.
  eexists _, _, _, _. split; [exact HE|]. split; [exact (is_at_energy _ _ _ _ _ HB)|]. split; [exact (is_at_energy _ _ _ _ _ HE)|]. cbn beta.
  assert (Nn : INR n <> 0%R) by (apply not_0_INR; lia).
  destruct (HB 0 ltac:(lia)) as (_ & _ & _ & N0), (HB 1 ltac:(lia)) as (_ & _ & _ & N1), (HB 2 ltac:(lia)) as (_ & _ & _ & N2).
  destruct z; cbn [side_of]; field; auto.
Qed.
Lemma fall_rk m (dt : R) n t w y w' y' b F (x v M : nat -> R) :
  yreach Generic priv m w y -> attached w y -> shaped w y -> all_gentle w y -> uses_rk y ->
  process Generic (Some dt : cl) n t w y = Ok (w', y') -> 0 < n -> In b (y_bodies y) -> unbound w y b -> steady w y b F -> is_at w b x v M ->
  exists x' v' E E', is_at w' b x' v' M /\ b_energy (w_body w b) = (Some E : cl) /\ b_energy (w_body w' b) = (Some E' : cl) /\
    (E' - E = F 0%nat * (x' 0%nat - x 0%nat) + F 1%nat * (x' 1%nat - x 1%nat) + F 2%nat * (x' 2%nat - x 2%nat))%R.
Proof.
  intros H HA HS HG HU E Hn Hb U HF HB.
  pose proof (flight_rk priv m dt n t w y w' y' b F x v M H HA HS HG HU E Hn Hb U HF HB) as HE.
  eexists _, _, _, _. split; [exact HE|]. split; [exact (is_at_energy _ _ _ _ _ HB)|]. split; [exact (is_at_energy _ _ _ _ _ HE)|]. cbn beta.
  destruct (HB 0 ltac:(lia)) as (_ & _ & _ & N0), (HB 1 ltac:(lia)) as (_ & _ & _ & N1), (HB 2 ltac:(lia)) as (_ & _ & _ & N2).
  field; auto.
Qed.

Lemma gravity_gentle w y G : weighs w y G -> all_gentle w y.
Proof. intros (gr & H & _) g Hg. now rewrite (H g Hg). Qed.
Lemma weighs_next k dt n t w y w' y' G : process k dt n t w y = Ok (w', y') -> weighs w y G -> weighs w' y' G.
Proof.
  intros E (gr & H & EG). pose proof (process_alone _ _ _ _ _ _ _ _ E) as ((_ & _ & E3 & _) & _ & _ & Fg).
  exists gr. rewrite E3. split; [|exact EG]. intros g Hg. rewrite Fg. now apply H.
Qed.
Lemma next k z m dt n t w y w' y' G b : yreach k priv m w y -> attached w y -> shaped w y -> uses k z y -> weighs w y G -> 0 < n ->
  process k dt n t w y = Ok (w', y') -> In b (y_bodies y) -> unbound w y b ->
  (exists m', yreach k priv m' w' y') /\ attached w' y' /\ shaped w' y' /\ uses k z y' /\ weighs w' y' G /\ In b (y_bodies y') /\ unbound w' y' b.
Proof.
  intros H HA HS HU HW Hn E Hb Ub. pose proof (process_alone _ _ _ _ _ _ _ _ E) as ((EB & EC & EG & _) & Fb & Fc & Fg).
  split; [|split; [|split; [|split; [|split; [|split]]]]].
  - eexists. eapply y_process; [exact H| |exact E]. intros g' Hg'. destruct HW as (gr & HW & _). now rewrite (HW g' Hg').
  - intros c p Hc Hp. destruct (Fc c) as (_ & _ & F3 & F4 & _). rewrite EC in Hc. rewrite F3 in Hp. rewrite F4, EB. now apply HA.
  - intros c Hc. rewrite EC in Hc. destruct (Fc c) as (_ & _ & -> & _ & -> & _). now apply HS.
  - destruct n as [|n]; [lia|]. eapply process_scheme_n; eassumption.
  - eapply weighs_next; eassumption.
  - now rewrite EB.
  - intros c p Hc Hp. destruct (Fc c) as (_ & _ & F3 & F4 & _). rewrite EC in Hc. rewrite F3 in Hp. rewrite F4. now apply Ub.
Qed.

Lemma falls k z G b M : forall l m w y w' y' x v,
  yreach k priv m w y -> attached w y -> shaped w y -> uses k z y -> weighs w y G -> In b (y_bodies y) -> unbound w y b -> is_at w b x v M ->
  Forall (fun c => 0 < snd (fst c)) l -> process_all k (as_calls l) w y = Ok (w', y') ->
  exists E E', has_energy w b (M 1%nat) G E /\ has_energy w' b (M 1%nat) G E' /\ (E' = E + side_of z * (M 1%nat * (G * G)) * coarseness l)%R.
Proof.
  induction l as [|[[dt n] t] l IH]; intros m w y w' y' x v H HA HS HU HW Hb Ub HB HF E; cbn [as_calls map process_all fst snd] in E.
  - injection E as <- <-. exists (/ 2 * M 0%nat * (v 0%nat * v 0%nat) + / 2 * M 1%nat * (v 1%nat * v 1%nat) + / 2 * M 2%nat * (v 2%nat * v 2%nat) + M 1%nat * G * x 1%nat)%R. eexists. split; [|split; [|]].
    + eexists _, _. split; [exact (is_at_energy _ _ _ _ _ HB)|]. split; [exact (proj1 (HB 1 ltac:(lia)))|reflexivity].
    + eexists _, _. split; [exact (is_at_energy _ _ _ _ _ HB)|]. split; [exact (proj1 (HB 1 ltac:(lia)))|reflexivity].
    + cbn. ring.
  - inversion HF as [|c l' Hn HF' E0]; subst. cbn [fst snd] in Hn.
    match type of E with context [process k ?a n t w y] => destruct (process k a n t w y) as [[w1 y1]| | |] eqn:E1 end; cbn [bind] in E; try discriminate.
    pose proof (gravity_gentle w y G HW) as HG.
    assert (Sd : steady w y b (fun d => match d with 1 => (- M 1%nat * G)%R | _ => 0%R end)).
    { destruct HW as (gr & W1 & W2). rewrite W2. apply gravity_steady; [exact W1|]. apply (HB 1). lia. }
    destruct (fall k z m dt n t w y w1 y1 b _ x v M H HA HS HG HU E1 Hn Hb Ub Sd HB) as (x1 & v1 & e & e1 & HB1 & Ee & Ee1 & D).
    destruct (next k z m _ n t w y w1 y1 G b H HA HS HU HW Hn E1 Hb Ub) as ((m1 & H1) & HA1 & HS1 & HU1 & HW1 & Hb1 & Ub1).
    destruct (IH m1 w1 y1 w' y' x1 v1 H1 HA1 HS1 HU1 HW1 Hb1 Ub1 HB1 HF' E) as (EA & EB & (ea & ha & A1 & A2 & A3) & XB & D').
    exists (e + M 1%nat * G * x 1%nat)%R, EB. split; [|split; [exact XB|]].
    + exists e, (x 1). split; [exact Ee|]. split; [exact (proj1 (HB 1 ltac:(lia)))|reflexivity].
    + assert (ea = e1) by (rewrite Ee1 in A1; now injection A1). subst ea.
      assert (ha = x1 1). { pose proof (proj1 (HB1 1 ltac:(lia))) as X. unfold b_pos in X. rewrite A2 in X. now injection X. } subst ha.
      rewrite D', A3. cbn [coarseness fold_right fst snd]. fold (coarseness l).
      destruct (HB 1 ltac:(lia)) as (_ & _ & _ & N1), (HB 0 ltac:(lia)) as (_ & _ & _ & N0), (HB 2 ltac:(lia)) as (_ & _ & _ & N2).
      assert (Nn : INR n <> 0%R) by (apply not_0_INR; lia).
      assert (X : (e1 = e + - M 1%nat * G * (x1 1%nat - x 1%nat) + side_of z * (M 1%nat * G * G) * (dt * dt / (2 * INR n)))%R).
      { replace (side_of z * (M 1%nat * G * G))%R with (side_of z * (0 * 0 / M 0%nat + - M 1%nat * G * (- M 1%nat * G) / M 1%nat + 0 * 0 / M 2%nat))%R by (field; auto). lra. }
      rewrite X. ring.
Qed.
End S.
