(** * Bodies in free flight. *)

From Coq Require Import Reals Lra.
From Verif Require Import Base Targets State Ode Forces Constraints System Logic SpecState StateFacts StateReal SpecForces ForceFacts ForceReal SpecSys RegFacts SysFrame SysInv
  SpecDyn DynState DynReact DynRound DynStep DynForce RealSum SolveStep SpecRk RkStep RkReal SpecFlight.
Local Open Scope nat_scope.

Ltac rr := match goal with |- @eq _ ?a ?b => change (@eq R a b) end.
Section S.
Context {dbg : bool}.
Notation T := (RT dbg).
Notation cl := (cell T).
Implicit Types (w : world T) (y : sys T).
Variable priv : nat -> bool.

(** gravity of any number of generators is steady *)
Lemma gravity_steady w y b (m : R) (gr : nat -> R) : (forall g, In g (y_gens y) -> g_kind (w_gen w g) = GGravity (Some (gr g) : cl)) -> b_f (w_body w b) Bm = (Some m : cl) ->
  steady w y b (fun d => match d with 1 => (- m * fold_right (fun g r => gr g + r) 0 (y_gens y))%R | _ => 0%R end).
Proof.
  intros HG Hm K h. exists (fold_left (fun f g => add_weight w (Some (gr g) : cl) f) (y_gens y) (fun _ _ => cofZ 0)). split.
  - apply (pushes_effects w y K h (fun g => add_weight w (Some (gr g) : cl))).
    + intros g Hg. now rewrite (HG g Hg).
    + intros g Hg. rewrite (HG g Hg). apply gravity_effect.
  - intros d Hd. clear HG.
    assert (G : forall l (f : nat -> nat -> cl) (a : nat -> R), (forall d, d < 3 -> f b d = (Some (a d) : cl)) ->
      fold_left (fun f g => add_weight w (Some (gr g) : cl) f) l f b d = (Some (a d + match d with 1 => - m * fold_right (fun g r => gr g + r) 0 l | _ => 0 end)%R : cl)).
    { induction l as [|g l IH]; intros f a Hf; cbn [fold_left fold_right].
      - rewrite (Hf d Hd). f_equal. rr. destruct d as [|[|]]; ring.
      - rewrite (IH _ (fun d => a d + match d with 1 => - m * gr g | _ => 0 end)%R).
        + f_equal. rr. destruct d as [|[|]]; ring.
        + intros d' Hd'. unfold add_weight. destruct d' as [|[|[|]]]; try lia; rewrite ?Hf, ?Hm by lia; cbn; f_equal; rr; ring. }
    rewrite (G _ _ (fun _ => 0%R)); [|intros d' _; apply cofZ_R]. f_equal. rr. destruct d as [|[|]]; ring.
Qed.


Lemma steady_acc w y b F K h f d (m : R) : In b (y_bodies y) -> steady w y b F -> forces_at w y K h f -> d < 3 -> m <> 0%R ->
  cmul (f b d) (cdiv (cofZ 1) (Some m : cl)) = (Some (F d / m)%R : cl).
Proof.
  intros Hb HF HA Hd Nm. destruct (HF K h) as (f' & HP & EF). rewrite (HA f' HP b d Hb Hd), (EF d Hd), cofZ_R, divR, mulR by exact Nm. f_equal. rr. unfold Rdiv. ring.
Qed.
Lemma flight k z m (dt : R) n t w y w' y' b F (x v M : nat -> R) :
  yreach k priv m w y -> attached w y -> shaped w y -> all_gentle w y -> uses k z y ->
  process k (Some dt : cl) n t w y = Ok (w', y') -> 0 < n -> In b (y_bodies y) -> unbound w y b -> steady w y b F -> is_at w b x v M ->
  is_at w' b (fun d => x d + v d * dt + F d / M d * (dt * dt) / 2 * match z with Symplectic => (INR n + 1) / INR n | Explicit => (INR n - 1) / INR n end)%R (fun d => v d + F d / M d * dt)%R M.
Proof.
  intros H HA HS HG HU E Hn Hb U HF HB.
  destruct (free_bodies priv k z m _ n t w y w' y' b H HA HS HG HU E Hb U) as (Ks & fs & A & B & C). cbv zeta in C.
  assert (Nn : INR n <> 0%R) by (apply not_0_INR; lia).
  set (h := (dt / INR n)%R).
  assert (Eh : cdiv (Some dt : cl) (cofZ (Z.of_nat n)) = (Some h : cl)) by (rewrite cofZ_R, <- INR_IZR_INZ; now apply divR).
  rewrite Eh in C.
  assert (G : forall i, i <= n -> forall d, d < 3 -> k_v (Ks i) b d = (Some (v d + F d / M d * (INR i * h))%R : cl) /\
    k_q (Ks i) b d = (Some (x d + v d * (INR i * h) + F d / M d * (h * h) / 2 * match z with Symplectic => INR i * (INR i + 1) | Explicit => INR i * (INR i - 1) end)%R : cl)).
  { induction i as [|i IH]; intros Hi d Hd.
    - rewrite A. cbn [kin_of k_v k_q]. destruct (HB d Hd) as (-> & -> & _). cbn [INR]. split; f_equal; rr; destruct z; ring.
    - destruct (C i ltac:(lia)) as (F0 & M0 & N0). specialize (N0 d Hd). destruct (HB d Hd) as (_ & _ & EM & NM). rewrite EM, (steady_acc w y b F _ _ _ d (M d) Hb HF F0 Hd NM) in N0.
      destruct (M0 b d Hb Hd) as [MV MQ]. destruct (IH ltac:(lia) d Hd) as [IV IQ]. rewrite N0, IV, mulR, addR in MV. rewrite MV, MQ, IQ. rewrite S_INR.
      split; [f_equal; rr; ring|]. destruct z; [rewrite MV|rewrite IV]; rewrite mulR, addR; f_equal; rr; field; exact NM. }
  intros d Hd. destruct (B b d Hb Hd) as [-> ->]. destruct (G n (le_n n) d Hd) as [-> ->]. destruct (HB d Hd) as (_ & _ & EM & NM).
  destruct (process_alone _ _ _ _ _ _ _ _ E) as (_ & Fb & _). split; [|split; [|split; [|exact NM]]].
  - f_equal. rr. unfold h. destruct z; field; auto.
  - f_equal. rr. unfold h. field. auto.
  - rewrite <- EM. destruct (Fb b) as (_ & Fm & FI & _). destruct d as [|[|[|]]]; try lia; cbn [b_mass]; assumption.
Qed.
Lemma flight_rk m (dt : R) n t w y w' y' b F (x v M : nat -> R) :
  yreach Generic priv m w y -> attached w y -> shaped w y -> all_gentle w y -> uses_rk y ->
  process Generic (Some dt : cl) n t w y = Ok (w', y') -> 0 < n -> In b (y_bodies y) -> unbound w y b -> steady w y b F -> is_at w b x v M ->
  is_at w' b (fun d => x d + v d * dt + F d / M d * (dt * dt) / 2)%R (fun d => v d + F d / M d * dt)%R M.
Proof.
  intros H HA HS HG HU E Hn Hb U HF HB.
  destruct (free_fourth priv m _ n t w y w' y' b H HA HS HG HU E Hb U) as (K & B & Ks & A & EK & C).
  assert (Nn : INR n <> 0%R) by (apply not_0_INR; lia).
  set (h := (dt / INR n)%R).
  assert (Eh : cdiv (Some dt : cl) (cofZ (Z.of_nat n)) = (Some h : cl)) by (rewrite cofZ_R, <- INR_IZR_INZ; now apply divR).
  rewrite Eh in C.
  assert (G : forall i, i <= n -> forall d, d < 3 -> k_v (Ks i) b d = (Some (v d + F d / M d * (INR i * h))%R : cl) /\
    k_q (Ks i) b d = (Some (x d + v d * (INR i * h) + F d / M d * ((INR i * h) * (INR i * h)) / 2)%R : cl)).
  { induction i as [|i IH]; intros Hi d Hd.
    - rewrite A. cbn [kin_of k_v k_q]. destruct (HB d Hd) as (-> & -> & _). cbn [INR]. split; f_equal; rr; unfold Rdiv; ring.
    - destruct (C i ltac:(lia)) as (a1 & a2 & a3 & a4 & (f1 & P1 & E1) & (f2 & P2 & E2) & (f3 & P3 & E3) & (f4 & P4 & E4) & ->).
      destruct (HB d Hd) as (_ & _ & EM & NM). specialize (E1 d Hd). specialize (E2 d Hd). specialize (E3 d Hd). specialize (E4 d Hd). rewrite EM in E1, E2, E3, E4.
      rewrite (steady_acc w y b F _ _ _ d (M d) Hb HF P1 Hd NM) in E1. rewrite (steady_acc w y b F _ _ _ d (M d) Hb HF P2 Hd NM) in E2.
      rewrite (steady_acc w y b F _ _ _ d (M d) Hb HF P3 Hd NM) in E3. rewrite (steady_acc w y b F _ _ _ d (M d) Hb HF P4 Hd NM) in E4.
      destruct (IH ltac:(lia) d Hd) as [IV IQ]. cbn [k_v k_q half_way whole_way]. rewrite E1, E2, E3, E4, IV, IQ, !half_R, mulR, !addR, !blendR, S_INR.
      split; f_equal; rr; field; exact NM. }
  intros d Hd. destruct (B b d Hb Hd) as [-> ->]. rewrite <- EK. destruct (G n (le_n n) d Hd) as [-> ->]. destruct (HB d Hd) as (_ & _ & EM & NM).
  destruct (process_alone _ _ _ _ _ _ _ _ E) as (_ & Fb & _). split; [|split; [|split; [|exact NM]]].
  - f_equal. rr. unfold h. field. auto.
  - f_equal. rr. unfold h. field. auto.
  - rewrite <- EM. destruct (Fb b) as (_ & Fm & FI & _). destruct d as [|[|[|]]]; try lia; cbn [b_mass]; assumption.
Qed.
End S.
