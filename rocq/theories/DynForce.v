(** * The force the generators of a system put on its bodies. *)

From Coq Require Import Reals Lra.
From Verif Require Import Base Targets State Ode Forces Constraints System Logic
  SpecState StateFacts StateReal SpecOde OdeFacts SpecForces ForceFacts ForceReal SpecSys RegFacts SysFrame SysInv
  SpecDyn DynState DynReact DynRound DynStep.
Local Open Scope nat_scope.

Section S.
Context {tg : target}.
Notation st := (sstate tg).
Implicit Types (w : world tg) (y : sys tg).

(** generator g turns the forces f into E f *)
Definition effect w y K h (g : gkind tg) (E : (nat -> nat -> cell tg) -> nat -> nat -> cell tg) : Prop :=
  forall (s : st) f, presents w y K h s -> forced w y f s -> wp (gen_apply g (w_body w) s) (fun s' => forced w y (E f) s').

Lemma reset_forced w y K h (s : st) : presents w y K h s ->
  wp (for_ (body_count y) (fun i s =>
    let* s := sto s Ffx (Z.of_nat i) (cofZ 0) in
    let* s := sto s Ffy (Z.of_nat i) (cofZ 0) in
    sto s Ft (Z.of_nat i) (cofZ 0)) s) (fun s' => alters isF s s' /\ forced w y (fun _ _ => cofZ 0) s').
Proof.
  intros (P1 & P2 & P3 & P4 & P5).
  assert (SH : shows_st s (s_n s) (ldc s)).
  { split; [reflexivity|]. intros f i Hf Hi. apply (looks_ld _ _ _ _ _ _ _ (looks_sized s P1)). unfold room. now rewrite Hf. }
  set (y0 := with_regs y (y_bodies y) (y_cons y) []).
  destruct (forces_reset w y0 s (s_n s) (ldc s) SH P2 eq_refl) as (s' & E & (S1 & S2) & _).
  pose proof (pc_elim _ _ _ E (process_forces_alters w y0 s (fun g H => match H with end))) as A.
  unfold process_forces in E. change (gen_count y0) with 0 in E. change (body_count y0) with (body_count y) in *.
  match type of E with (let* x := ?a in _) = _ => assert (Ea : a = Ok s') by (destruct a; cbn in E; congruence) end.
  rewrite Ea. cbn [wp]. split; [exact A|]. intros i b d Eb Hd. pose proof (nth_error_lt _ _ _ Eb) as Hi. fold (body_count y) in Hi.
  rewrite S2 by (lia || now destruct d as [|[|]]). replace (is_force (frcf d)) with true by (now destruct d as [|[|]]).
  destruct (Nat.ltb_spec i (body_count y)); [reflexivity|lia].
Qed.

Lemma pushes_effects w y K h (E : nat -> (nat -> nat -> cell tg) -> nat -> nat -> cell tg) : all_gentle w y ->
  (forall g, In g (y_gens y) -> effect w y K h (g_kind (w_gen w g)) (E g)) ->
  pushes w y K h (fold_left (fun f g => E g f) (y_gens y) (fun _ _ => cofZ 0)).
Proof.
  intros HG HE s HP. unfold process_forces.
  assert (G : wp (let* s := for_ (body_count y) (fun i s =>
    let* s := sto s Ffx (Z.of_nat i) (cofZ 0) in
    let* s := sto s Ffy (Z.of_nat i) (cofZ 0) in
    sto s Ft (Z.of_nat i) (cofZ 0)) s in
   for_ (gen_count y) (fun i s =>
    let* g := lift_opt (nth_error (y_gens y) i) in
    gen_apply (g_kind (w_gen w g)) (w_body w) s) s) (fun s' => forced w y (fold_left (fun f g => E g f) (y_gens y) (fun _ _ => cofZ 0)) s')).
  2:{ apply wp_ok in G. exact G. }
  eapply wp_seq; [apply (reset_forced w y K h s HP)|]. intros s1 [A1 F1].
  apply (for_inv _ (fun i s' => presents w y K h s' /\ forced w y (fold_left (fun f g => E g f) (firstn i (y_gens y)) (fun _ _ => cofZ 0)) s')).
  - split; [eapply presents_forces; eauto|exact F1].
  - intros i t Hi [Pt Ft]. destruct (nth_error_ex (y_gens y) i Hi) as [g Eg]. rewrite Eg. cbn [lift_opt bind].
    pose proof (nth_error_In _ _ Eg) as Ig. specialize (HE g Ig t _ Pt Ft). apply wp_ok in HE. destruct HE as (t' & E' & F').
    eapply wp_eq; [exact E'|]. split.
    + eapply presents_forces; [|exact Pt]. apply (pc_elim _ _ _ E'), gen_apply_alters, HG, Ig.
    + rewrite (firstn_snoc _ _ _ Eg), fold_left_app. exact F'.
  - intros t [_ Ft]. unfold gen_count in Ft. now rewrite firstn_all in Ft.
Qed.
Lemma pushes_none w y K h : y_gens y = [] -> pushes w y K h (fun _ _ => cofZ 0).
Proof.
  intros E. pose proof (pushes_effects w y K h (fun _ f => f)) as G. rewrite E in G. apply G.
  - intros g Hg. rewrite E in Hg. contradiction.
  - intros g [].
Qed.

(** ** gravity *)
Definition add_weight w (gr : cell tg) (f : nat -> nat -> cell tg) (b d : nat) : cell tg :=
  match d with 1 => cadd (f b 1) (cmul (copp (b_f (w_body w b) Bm)) gr) | _ => f b d end.
Lemma gravity_effect w y K h gr : effect w y K h (GGravity gr) (add_weight w gr).
Proof.
  intros s f HP HF. cbn [gen_apply]. pose proof HP as (P1 & P2 & P3 & P4 & P5).
  assert (SH : shows_st s (s_n s) (ldc s)).
  { split; [reflexivity|]. intros f' i Hf Hi. apply (looks_ld _ _ _ _ _ _ _ (looks_sized s P1)). unfold room. now rewrite Hf. }
  destruct (gravity_steps s (s_n s) (ldc s) gr SH) as (s' & E & (S1 & S2) & _). eapply wp_eq; [exact E|].
  intros i b d Eb Hd. pose proof (nth_error_lt _ _ _ Eb) as Hi. fold (body_count y) in Hi.
  assert (C : forall fl x, ld s fl (Z.of_nat i) = Ok x -> ldc s fl i = x) by (intros fl x X; unfold ldc; now rewrite X).
  rewrite S2 by (lia || now destruct d as [|[|]]). f_equal. pose proof (C _ _ (HF i b d Eb Hd)) as X. pose proof (C _ _ (proj1 (P5 i b Eb))) as XM.
  unfold add_weight. destruct d as [|[|[|]]]; try lia; cbn [frcf] in *; rewrite ?X, ?XM; reflexivity.
Qed.

(** ** a static force on a body of the system *)
Definition add_point (K : kin tg) (p : static_force tg) (b0 : nat) (f : nat -> nat -> cell tg) (b d : nat) : cell tg :=
  if Nat.eqb b b0 then
    let c := ccos (k_q K b 2) in let sn := csin (k_q K b 2) in
    let wx := cadd (csub (cmul c (sf_px p)) (cmul sn (sf_py p))) (k_q K b 0) in
    let wy := cadd (cadd (cmul sn (sf_px p)) (cmul c (sf_py p))) (k_q K b 1) in
    match d with 0 => cadd (f b 0) (sf_fx p) | 1 => cadd (f b 1) (sf_fy p)
    | _ => cadd (f b 2) (cadd (cmul (csub wy (k_q K b 1)) (copp (sf_fx p))) (cmul (csub wx (k_q K b 0)) (sf_fy p))) end
  else f b d.
Lemma static_force_effect w y K h p b0 : listed w y -> sf_body p = Some b0 -> In b0 (y_bodies y) ->
  effect w y K h (GStatic p) (add_point K p b0).
Proof.
  intros HL Ep Hb s f HP HF. apply In_nth_error in Hb. destruct Hb as [i0 E0]. cbn [gen_apply]. unfold static_apply. rewrite Ep. cbn [deref bind].
  rewrite (proj1 HL i0 b0 E0). pose proof HP as (P1 & P2 & P3 & P4 & P5). destruct (P5 i0 b0 E0) as [_ Q].
  destruct (apply_force_spec s (sf_px p) (sf_py p) (sf_fx p) (sf_fy p) (Z.of_nat i0) _ _ _ _ _ _
    (proj1 (Q 0 ltac:(lia))) (proj1 (Q 1 ltac:(lia))) (proj1 (Q 2 ltac:(lia)))
    (HF i0 b0 0 E0 ltac:(lia)) (HF i0 b0 1 E0 ltac:(lia)) (HF i0 b0 2 E0 ltac:(lia))) as (s' & wx & wy & W & E & L & _).
  eapply wp_eq; [exact E|]. intros i b d Eb Hd. rewrite L.
  unfold st_local_to_world in W. rewrite (proj1 (Q 0 ltac:(lia)) : ld s Fpx _ = _), (proj1 (Q 1 ltac:(lia)) : ld s Fpy _ = _), (proj1 (Q 2 ltac:(lia)) : ld s Ftheta _ = _) in W.
  cbn [bind] in W. injection W as <- <-. unfold add_point.
  destruct (Z.eqb_spec (Z.of_nat i) (Z.of_nat i0)) as [Ei|Ni].
  - apply Nat2Z.inj in Ei. subst i. rewrite E0 in Eb. injection Eb as <-. rewrite Nat.eqb_refl.
    destruct d as [|[|[|]]]; try lia; reflexivity.
  - destruct (Nat.eqb_spec b b0); [|now apply HF]. subst b. exfalso. apply Ni. rewrite <- (proj1 HL _ _ Eb), <- (proj1 HL _ _ E0). reflexivity.
Qed.
End S.
