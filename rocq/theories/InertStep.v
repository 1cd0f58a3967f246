(** * Newton's first law in binary64. *)

From Coq Require Import Reals.
From Coq Require Import Floats.SpecFloat.
From Verif Require Import Base Targets Matrix Sparse Sle State Ode Forces Constraints System Logic
  SpecState SpecForces SpecSys SpecDyn DynStep DynForce DynWit SpecRk RkReal SpecInert.
Local Open Scope nat_scope.

Section S.
Context {dbg : bool} {sn cs : spec_float -> option spec_float}.
Notation T := (F64_trig dbg sn cs).
Notation cl := (cell T).

Lemma mul_zero_l (x y : cl) : zero64 x -> finite64 y -> zero64 (cmul x y).
Proof. intros [s ->]. destruct y as [[s'|s'| |s' m e]|]; cbn; try contradiction; intros _; eexists; reflexivity. Qed.
Lemma mul_zero_r (x y : cl) : finite64 x -> zero64 y -> zero64 (cmul x y).
Proof. intros Hx [s ->]. destruct x as [[s'|s'| |s' m e]|]; cbn in *; try contradiction; eexists; reflexivity. Qed.
Lemma div_zero (x : cl) : zero64 x -> zero64 (cdiv x (cofZ 2)).
Proof. intros [s ->]. eexists. reflexivity. Qed.
Lemma zero_finite (x : cl) : zero64 x -> finite64 x.
Proof. intros [s ->]. exact I. Qed.
Lemma add_zero (x y : cl) : zero64 y -> same64 x (cadd x y).
Proof.
  intros [s ->]. destruct x as [[s'|s'| |s' m e]|]; cbn.
  - right. split; [eexists; reflexivity|]. destruct s', s; eexists; reflexivity.
  - now left.
  - now left.
  - now left.
  - now left.
Qed.
Lemma same_refl (x : cl) : same64 x x.
Proof. now left. Qed.
Lemma same_trans (x y z : cl) : same64 x y -> same64 y z -> same64 x z.
Proof. intros [->|[A B]] [->|[C D]]; unfold same64; auto. Qed.
Lemma same_zero (x y : cl) : same64 x y -> zero64 x -> zero64 y.
Proof. intros [->|[A B]]; auto. Qed.

Variable priv : nat -> bool.
Lemma force_zero (w : world T) y b d K h f : no_force w y b d -> forces_at w y K h f -> In b (y_bodies y) -> d < 3 -> zero64 (f b d).
Proof. intros HN HF Hb Hd. destruct (HN K h) as (f' & HP & HZ). now rewrite (HF f' HP b d Hb Hd). Qed.

Lemma inertia k z m (dt : cl) n t w y w' y' b d :
  yreach k priv m w y -> attached w y -> shaped w y -> all_gentle w y -> uses k z y ->
  process k dt n t w y = Ok (w', y') -> In b (y_bodies y) -> unbound w y b -> d < 3 -> no_force w y b d ->
  finite64 (cdiv dt (cofZ (Z.of_nat n))) -> finite64 (cdiv (cofZ 1) (b_mass (w_body w b) d)) ->
  same64 (b_vel (w_body w b) d) (b_vel (w_body w' b) d) /\
  (zero64 (b_vel (w_body w b) d) -> same64 (b_pos (w_body w b) d) (b_pos (w_body w' b) d)).
Proof.
  intros HR HA HS HG HU E Hb Ub Hd HN Hh Hm.
  destruct (free_bodies priv k z m dt n t w y w' y' b HR HA HS HG HU E Hb Ub) as (Ks & fs & E0 & Ar & HM).
  destruct (Ar b d Hb Hd) as [-> ->].
  change (b_vel (w_body w b) d) with (k_v (kin_of w) b d). change (b_pos (w_body w b) d) with (k_q (kin_of w) b d). rewrite <- E0.
  assert (G : forall i, i <= n -> same64 (k_v (Ks 0) b d) (k_v (Ks i) b d) /\ (zero64 (k_v (Ks 0) b d) -> same64 (k_q (Ks 0) b d) (k_q (Ks i) b d))).
  { induction i as [|i IH]; intros Hi; [split; [|intros _]; apply same_refl|].
    destruct IH as [I1 I2]; [lia|]. destruct (HM i ltac:(lia)) as (F & MV & NA). destruct (MV b d Hb Hd) as [E1 E2].
    assert (Z : zero64 (k_a (Ks (S i)) b d)).
    { rewrite (NA d Hd). apply mul_zero_l; [|exact Hm]. eapply force_zero; eauto. }
    assert (V : same64 (k_v (Ks 0) b d) (k_v (Ks (S i)) b d)).
    { eapply same_trans; [exact I1|]. rewrite E1. apply add_zero. now apply mul_zero_l. }
    split; [exact V|]. intros Z0. eapply same_trans; [exact (I2 Z0)|]. rewrite E2. apply add_zero.
    apply mul_zero_l; [|exact Hh]. destruct z; [exact (same_zero _ _ V Z0)|exact (same_zero _ _ I1 Z0)]. }
  apply G. lia.
Qed.

Lemma one_finite : finite64 (cofZ 1 : cl). Proof. exact I. Qed.
Lemma two_finite : finite64 (cofZ 2 : cl). Proof. exact I. Qed.
Lemma blend_zero (h x x1 x2 x3 x4 : cl) : finite64 (cdiv h (cofZ 6)) ->
  zero64 x1 -> zero64 x2 -> zero64 x3 -> zero64 x4 -> same64 x (blend h x x1 x2 x3 x4).
Proof.
  intros Hh H1 H2 H3 H4. unfold blend. cbv zeta.
  assert (G : forall x i, zero64 x -> finite64 (cofZ i : cl) -> zero64 (cmul (cmul (cdiv h (cofZ 6)) x) (cofZ i))).
  { intros x' i Hx Hi. apply mul_zero_l; [|exact Hi]. now apply mul_zero_r. }
  pose proof one_finite. pose proof two_finite.
  repeat (eapply same_trans; [|apply add_zero; apply G; assumption]). apply same_refl.
Qed.

Lemma inertia_fourth m (dt : cl) n t w y w' y' b d :
  yreach Generic priv m w y -> attached w y -> shaped w y -> all_gentle w y -> uses_rk y ->
  process Generic dt n t w y = Ok (w', y') -> In b (y_bodies y) -> unbound w y b -> d < 3 -> no_force w y b d ->
  finite64 (cdiv dt (cofZ (Z.of_nat n))) -> finite64 (cdiv (cdiv dt (cofZ (Z.of_nat n))) (cofZ 6)) -> finite64 (cdiv (cofZ 1) (b_mass (w_body w b) d)) ->
  same64 (b_vel (w_body w b) d) (b_vel (w_body w' b) d) /\
  (zero64 (b_vel (w_body w b) d) -> same64 (b_pos (w_body w b) d) (b_pos (w_body w' b) d)).
Proof.
  intros HR HA HS HG HU E Hb Ub Hd HN Hh Hh6 Hm.
  destruct (free_fourth priv m dt n t w y w' y' b HR HA HS HG HU E Hb Ub) as (K & Ar & Ks & E0 & En & HM).
  destruct (Ar b d Hb Hd) as [-> ->].
  change (b_vel (w_body w b) d) with (k_v (kin_of w) b d). change (b_pos (w_body w b) d) with (k_q (kin_of w) b d). rewrite <- E0, <- En.
  set (h := cdiv dt (cofZ (Z.of_nat n))) in *.
  assert (G : forall i, i <= n -> same64 (k_v (Ks 0) b d) (k_v (Ks i) b d) /\ (zero64 (k_v (Ks 0) b d) -> same64 (k_q (Ks 0) b d) (k_q (Ks i) b d))).
  { induction i as [|i IH]; intros Hi; [split; [|intros _]; apply same_refl|].
    destruct IH as [I1 I2]; [lia|]. destruct (HM i ltac:(lia)) as (a1 & a2 & a3 & a4 & (f1 & F1 & A1) & (f2 & F2 & A2) & (f3 & F3 & A3) & (f4 & F4 & A4) & ->).
    cbn [k_v k_q].
    assert (Z1 : zero64 (a1 b d)) by (rewrite (A1 d Hd); apply mul_zero_l; [eapply force_zero; eauto|exact Hm]).
    assert (Z2 : zero64 (a2 b d)) by (rewrite (A2 d Hd); apply mul_zero_l; [eapply force_zero; eauto|exact Hm]).
    assert (Z3 : zero64 (a3 b d)) by (rewrite (A3 d Hd); apply mul_zero_l; [eapply force_zero; eauto|exact Hm]).
    assert (Z4 : zero64 (a4 b d)) by (rewrite (A4 d Hd); apply mul_zero_l; [eapply force_zero; eauto|exact Hm]).
    split; [eapply same_trans; [exact I1|]; now apply blend_zero|].
    intros Z0. eapply same_trans; [exact (I2 Z0)|]. pose proof (same_zero _ _ I1 Z0) as Zv. apply blend_zero; [exact Hh6|exact Zv| | |];
      cbn [half_way whole_way k_v]; (eapply same_zero; [|exact Zv]; apply add_zero; try apply div_zero; now apply mul_zero_r). }
  apply G. lia.
Qed.

Lemma no_generators (w : world T) y b d : y_gens y = [] -> no_force w y b d.
Proof. intros E K h. exists (fun _ _ => cofZ 0). split; [now apply pushes_none|eexists; reflexivity]. Qed.
Lemma weight_down (w : world T) y b d g gr : y_gens y = [g] -> g_kind (w_gen w g) = GGravity gr -> d <> 1 -> no_force w y b d.
Proof.
  intros E1 E2 Hd K h. eexists. split; [eapply gravity_pushes; eassumption|]. cbn beta.
  destruct d as [|[|d]]; [|congruence|]; eexists; reflexivity.
Qed.
End S.
