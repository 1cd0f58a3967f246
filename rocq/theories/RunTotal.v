(** * Calls of several sub-steps that are known to succeed. *)

From Coq Require Import Reals.
From Verif Require Import Base Targets Matrix Sparse Sle State Ode Forces Constraints System Logic
  MatrixFacts MatrixOps SpecMatrix MatrixHist SparseFacts SpecSparse SparseHist SpecSle SleHist
  SpecState StateFacts SpecOde OdeFacts SpecSys RegFacts SysFrame SysInv SysColumn SpecDyn DynState DynReact DynRound DynStep DynGather DynRight DynReady.
Local Open Scope nat_scope.

Section S.
Context {tg : target}.
Notation st := (sstate tg).
Implicit Types (hp : heap tg) (w : world tg) (y : sys tg).
Variable priv : nat -> bool.

(** the constraint evaluation of class k *)
Definition evaluates (k : flavour) w y (h : cell tg) hp (s : st) : res (heap tg * st) :=
  match k with Optimized => opt_process_constraints w y h hp s | Generic => gen_process_constraints w y hp s end.
(** what P says about the motion makes the next sub-step succeed *)
Definition advances (k : flavour) z w y (h : cell tg) (P : kin tg -> Prop) (Q : kin tg -> (nat -> nat -> cell tg) -> (nat -> nat -> nat -> nat -> cell tg) -> Prop) : Prop :=
  forall K, P K -> exists f, pushes w y K h f /\
    (forall hp s, hinv priv hp -> minv_ok w y (hm hp) -> presents w y K h s -> forced w y f s ->
       wp (evaluates k w y h hp s) (fun x => hinv priv (fst x) /\ minv_ok w y (hm (fst x)) /\
         presents w y (with_acc K (acc_of w y f (snd x))) h (snd x) /\ Q K f (reac w y (snd x)))) /\
    (forall F F', (forall d c j i, F d c j i = F' d c j i) -> Q K f F -> Q K f F') /\
    forall F K', Q K f F -> kicks z w y h f F K K' -> P K'.
(** the motion of n sub-steps *)
Definition runs_of z w y (h : cell tg) (P : kin tg -> Prop) (Q : kin tg -> (nat -> nat -> cell tg) -> (nat -> nat -> nat -> nat -> cell tg) -> Prop) (n : nat) (K0 K : kin tg) : Prop :=
  exists (Ks : nat -> kin tg), Ks 0 = K0 /\ Ks n = K /\ forall i, i < n -> P (Ks i) /\ exists f F, pushes w y (Ks i) h f /\ Q (Ks i) f F /\ kicks z w y h f F (Ks i) (Ks (S i)).
Lemma runs_S z w y h P Q n K0 K K' f F : runs_of z w y h P Q n K0 K -> P K -> pushes w y K h f -> Q K f F -> kicks z w y h f F K K' -> runs_of z w y h P Q (S n) K0 K'.
Proof.
  intros (Ks & E0 & En & H) HP Hf HQ HK. exists (fun i => if Nat.leb i n then Ks i else K'). split; [exact E0|]. split; [destruct (Nat.leb_spec (S n) n); [lia|reflexivity]|].
  intros i Hi. destruct (Nat.leb_spec i n); [|lia]. destruct (Nat.leb_spec (S i) n) as [L|L]; [apply H; lia|].
  replace i with n by lia. rewrite En. split; [exact HP|]. exists f, F. auto.
Qed.

Lemma steps_total k z w y y0 h1 dt n P Q hp (s : st) h0 : nice priv w y -> (exists s0, y0 = with_state y s0) ->
  let h := cdiv dt (cofZ (Z.of_nat n)) in
  advances k z w y h P Q -> P (kin_of w) -> presents w y (kin_of w) h0 s -> hinv priv hp -> minv_ok w y (hm hp) ->
  wp (ode_steps n dt w y0 (match k with Optimized => opt_process_constraints w y0 | Generic => fun _ => gen_process_constraints w y0 end) (ode_of z h1) hp s)
    (fun x => exists K h', runs_of z w y h P Q n (kin_of w) K /\ P K /\ presents w y K h' (snd x)).
Proof.
  intros HN [s0 ->] h HA HP0 PR Hh Hm. unfold ode_steps. fold h.
  eapply (for_inv _ (fun i x => (exists h', fst (fst x) = ode_of z h') /\ hinv priv (snd (fst x)) /\ minv_ok w y (hm (snd (fst x))) /\
    exists K h', runs_of z w y h P Q i (kin_of w) K /\ P K /\ presents w y K h' (snd x))).
  - cbn [fst snd]. split; [eauto|]. split; [exact Hh|]. split; [exact Hm|]. exists (kin_of w), h0. split; [|auto].
    exists (fun _ => kin_of w). split; [reflexivity|]. split; [reflexivity|]. intros i Hi. lia.
  - intros i [[o hp1] s1] Hi ((h' & Eo) & H1 & M1 & K & h2 & RU & PK & PR1). cbn [fst snd] in *. subst o.
    assert (E1 : ode_start (ode_of z h') s1 h = Ok (ode_of z h)) by (destruct z; reflexivity). rewrite E1. cbn [bind].
    destruct (HA K PK) as (f & PF & EV & EX & NX).
    pose proof (round_total priv z w (with_state y s0) (match k with Optimized => opt_process_constraints w (with_state y s0) | Generic => fun _ => gen_process_constraints w (with_state y s0) end h) h K h2 hp1 s1 f 7
      (fun F _ => Q K f F) HN PF) as G.
    eapply wp_seq; [apply G|].
    + intros s2 P2 F2. specialize (EV hp1 s2 H1 M1 P2 F2). destruct k; exact EV.
    + intros F F' _ EF. now apply EX.
    + exact PR1.
    + intros [[o2 hp2] s2] (O2 & H2 & M2 & K' & KK & P2 & Q2). cbn [fst snd wp] in *. subst o2.
      split; [exists h; destruct z; reflexivity|]. split; [exact H2|]. split; [exact M2|].
      exists K', h. split; [eapply runs_S; eauto|]. split; [eapply NX; eauto|exact P2].
  - intros x (_ & _ & _ & X). exact X.
Qed.

(** a whole call *)
Lemma process_total k z m dt n t w y P Q : yreach k priv m w y -> attached w y -> shaped w y -> all_gentle w y -> uses k z y ->
  let h := cdiv dt (cofZ (Z.of_nat n)) in
  advances k z w y h P Q -> P (kin_of w) -> 0 < n ->
  exists w' y' K, process k dt n t w y = Ok (w', y') /\ runs_of z w y h P Q n (kin_of w) K /\ P K /\ arrives w' y K.
Proof.
  intros Hy HA HS HG HU h AD P0 Hn. pose proof (yreach_inv priv _ m w y Hy) as (H & Hs & _ & Hk).
  pose proof (reach_nice priv _ _ _ _ Hy HA HS HG) as HN. pose proof HN as (_ & HL & _). pose proof (proj1 (profiling _ _ _ _ _ Hy)) as Hf.
  assert (Eo : exists h1, y_ode y = Some (ode_of z h1)).
  { destruct k; cbn [uses] in HU; [|exact HU]. subst z. destruct (Hk eq_refl) as (o & Eo & No).
    destruct o as [| |h1|]; try contradiction. exists h1. exact Eo. }
  destruct Eo as [h1 Eo].
  pose proof (populate_state_presents w y Hs HS) as X. apply wp_ok in X. destruct X as (s0 & E0 & h0 & PR0).
  set (y0 := with_state y s0).
  pose proof (populate_mass_spec false w y0 (hm (y_heap y0)) ltac:(eapply wf_weaken; apply H) ltac:(eapply wf_weaken; apply H)) as X. apply wp_ok in X.
  destruct X as (ms & Em & _ & _ & Mm).
  pose proof (pc_elim _ _ _ Em (populate_mass_wfs priv w y0 _ (proj1 H))) as Wm.
  assert (Hm : hinv priv (with_hm (y_heap y0) ms)) by (split; [exact Wm|apply H]).
  pose proof (steps_total k z w y y0 h1 dt n P Q (with_hm (y_heap y0) ms) s0 h0 HN (ex_intro _ s0 eq_refl) AD P0 PR0 Hm Mm) as G. apply wp_ok in G.
  destruct G as ([[o1 hp1] s1] & E1 & K & h2 & RU & PK & P1). cbn [snd] in P1.
  destruct k; cbn [process].
  - unfold opt_process. rewrite E0. cbn [bind]. fold y0. rewrite Em. cbn [bind]. change (the_ode y0) with (the_ode y). unfold the_ode. rewrite Eo. cbn [bind]. rewrite E1. cbn [bind]. set (y1 := with_ode _ _).
    pose proof (propagate_tells w y1 K h2 s1 (fun i k => i * 2 + k) (reac w y s1) HL HS P1) as X. apply wp_ok in X.
    + destruct X as (w2 & E2 & B2 & T2). unfold opt_propagate. rewrite E2. cbn [bind].
      destruct (record_ok y1 t Hf) as [y2 E3]. rewrite E3. cbn [bind]. do 3 eexists. split; [reflexivity|]. split; [exact RU|]. split; [exact PK|exact B2].
    + intros c j k Hc Hj Hk'. split; [|reflexivity]. destruct P1 as (Q1 & Q2 & Q3 & _). apply In_nth_error in Hc. destruct Hc as [i Ei].
      rewrite (row0_at w y1 i c HL Ei). pose proof (row_lt w y1 i c j Ei Hj). destruct (HS c (nth_error_In _ _ Ei)) as [_ B2].
      change (full_count w y1) with (full_count w y0) in *. change (full_count w y) with (full_count w y0) in *. lia.
  - unfold gen_process. rewrite E0. cbn [bind]. fold y0. rewrite Em. destruct n as [|n]; [lia|]. cbn [bind]. change (the_ode y0) with (the_ode y). unfold the_ode. rewrite Eo. cbn [bind]. rewrite E1. cbn [bind]. set (y1 := with_ode _ _).
    pose proof (propagate_tells w y1 K h2 s1 (fun i _ => i) (fun d c j k => ldc s1 (reaf d) (row0 w y c + j)) HL HS P1) as X. apply wp_ok in X.
    + destruct X as (w2 & E2 & B2 & T2). unfold gen_propagate. rewrite E2. cbn [bind].
      destruct (record_ok y1 t Hf) as [y2 E3]. rewrite E3. cbn [bind]. do 3 eexists. split; [reflexivity|]. split; [exact RU|]. split; [exact PK|exact B2].
    + intros c j k Hc Hj Hk'. split; [|reflexivity]. destruct P1 as (Q1 & Q2 & Q3 & _). apply In_nth_error in Hc. destruct Hc as [i Ei].
      rewrite (row0_at w y1 i c HL Ei). pose proof (row_lt w y1 i c j Ei Hj).
      change (full_count w y1) with (full_count w y0) in *. change (full_count w y) with (full_count w y0) in *. lia.
Qed.
End S.
