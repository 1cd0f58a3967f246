(** * Concrete runs for the examples and refutations of C39 - C43. *)

From Coq Require Import Reals Lra.
From Coq Require Import Floats.SpecFloat.
From Verif Require Import Base Targets State Ode Logic SpecState StateFacts StateReal StateWit SpecOde OdeFacts OdeReal.
Local Open Scope nat_scope.

Lemma stN_sized {tg} (gs : list (fld -> cell tg)) : sized (stN gs).
Proof. split; [|reflexivity]. intros f. unfold room. cbn. destruct (is_reaction f); [reflexivity|apply map_length]. Qed.
Lemma stN_shows {tg} (gs : list (fld -> cell tg)) :
  shows_st (stN gs) (length gs) (fun f i => nth i (map (fun g => g f) gs) None).
Proof.
  split; [reflexivity|]. intros f i Hf Hi. unfold ld. rewrite aget_nat. cbn [stN s_arr]. rewrite Hf.
  rewrite (nth_error_nth' (map (fun g => g f) gs) None) by now rewrite map_length. reflexivity.
Qed.

(** two bodies in binary64 *)
Definition st2W : sstate (F64 true) :=
  stN [(fun f => match f with Fvx => cofZ 3 | Fax => cofZ (-2) | _ => cofZ 1 end); (fun f => match f with Fvx => cofZ 5 | _ => cofZ 0 end)].

Lemma new_fits {tg} (s : sstate tg) : 0 < s_n s -> rk_fits rk4_new s.
Proof. intros H. split; (split; [apply sized_new|left; exact H]). Qed.
Lemma idle_keeps {tg} : keeps_size (fun s : sstate tg => Ok s).
Proof. intros s H. eauto. Qed.

(** the rounds of a driver loop *)
Lemma drive_rounds {tg} (ev : sstate tg -> res (sstate tg)) fuel : forall r s c r' s', rk_drive fuel ev r s = Ok (c, (r', s')) ->
  exists bs, rounds r bs r' /\ length bs = c.
Proof.
  induction fuel as [|k IH]; cbn [rk_drive]; intros r s c r' s' E; [discriminate|].
  destruct (rk4_step r s) as [[[r1 s1] b]| | |] eqn:E1; try discriminate. cbn [bind] in E.
  destruct (ev s1) as [s1'| | |]; try discriminate. cbn [bind] in E.
  destruct (rk4_solve r1 s1') as [[r2 s2]| | |] eqn:E2; try discriminate. cbn [bind] in E. destruct b.
  - inversion E; subst. exists [true]. split; [|reflexivity]. eapply rounds_cons; [exact E1|exact E2|apply rounds_nil].
  - destruct (rk_drive k ev r2 s2) as [[c' [r3 s3]]| | |] eqn:E3; try discriminate. inversion E; subst.
    destruct (IH _ _ _ _ _ E3) as (bs & B1 & B2). exists (false :: bs). split; [eapply rounds_cons; eauto|cbn; congruence].
Qed.
Lemma four_rounds : exists r bs r', rk4_start rk4_new st2W (cofZ 1) = Ok r /\ rounds r bs r' /\ length bs = 4.
Proof.
  destruct (drive_four (fun s => Ok s) rk4_new st2W (cofZ 1) 4 idle_keeps) as (r1 & r2 & s2 & E1 & E2 & _).
  - apply new_fits. exact (le_S _ _ (le_n 1)).
  - apply stN_sized.
  - exact (le_S _ _ (le_n 1)).
  - exact (le_n 4).
  - destruct (drive_rounds _ _ _ _ _ _ _ E2) as (bs & B1 & B2). eauto 6.
Qed.
Lemma two_rounds : exists bs r', rounds (rk4_end rk4_new : rk4 (F64 true)) bs r' /\ bs = [false; false].
Proof.
  do 2 eexists. split; [|reflexivity].
  eapply (rounds_cons _ (@st_new (F64 true)) _ _ _ (@st_new (F64 true))); [reflexivity|reflexivity|].
  eapply (rounds_cons _ (@st_new (F64 true)) _ _ _ (@st_new (F64 true))); [reflexivity|reflexivity|]. apply rounds_nil.
Qed.

(** one body, a_x = ax p_x v_x, the other accelerations zero *)
Definition zc {b} : cell (RT b) := Some 0%R.
Definition ev1 {b} (ax : R -> R -> R) (s : sstate (RT b)) : res (sstate (RT b)) :=
  let* p := ld s Fpx 0 in
  let* v := ld s Fvx 0 in
  let* s := sto s Fax 0 (lift2 (ax : num (RT b) -> num (RT b) -> num (RT b)) p v) in
  let* s := sto s Fay 0 zc in
  sto s Fatheta 0 zc.
Definition law1 (ax : R -> R -> R) (g : fld -> nat -> R) (f : fld) (i : nat) : R :=
  match f with Fax => ax (g Fpx 0) (g Fvx 0) | _ => 0%R end.
Lemma ev1_obeys {b} ax : obeys (@ev1 b ax) 1 (law1 ax).
Proof.
  intros s g Hs [Hn Hm]. pose proof (sized_shows s Hs) as H. rewrite Hn in H. unfold ev1.
  change 0%Z with (Z.of_nat 0). rewrite (Hm Fpx 0) by (first [discriminate|lia]). cbn [bind]. rewrite (Hm Fvx 0) by (first [discriminate|lia]). cbn [bind].
  destruct (sto_shows s 1 _ Fax 0 (lift2 (ax : num (RT b) -> num (RT b) -> num (RT b)) (Some (g Fpx 0)) (Some (g Fvx 0))) H eq_refl) as (s1 & E1 & K1); [lia|].
  rewrite E1. cbn [bind].
  destruct (sto_shows s1 1 _ Fay 0 zc (proj1 K1) eq_refl) as (s2 & E2 & K2); [lia|]. rewrite E2. cbn [bind].
  destruct (sto_shows s2 1 _ Fatheta 0 zc (proj1 K2) eq_refl) as (s3 & E3 & K3); [lia|]. exists s3. split; [exact E3|].
  split; [eapply sto_sized; [exact E3|]; eapply sto_sized; [exact E2|]; eapply sto_sized; eauto|].
  destruct K1 as (_ & (A1 & A2 & _) & _), K2 as (_ & (B1 & B2 & _) & _), K3 as (K3 & (C1 & C2 & _) & _).
  split; [congruence|]. split; [split; [congruence|]|].
  - intros f i Hf Hi. assert (i = 0) by lia. subst. rewrite (ld_shows s3 1 _ f 0 K3); [|destruct f; try reflexivity; now destruct Hf|lia].
    unfold tset. assert (E : ldc s f 0 = Some (g f 0)) by (unfold ldc; now rewrite Hm).
    destruct f; cbn [rate] in Hf; try (now destruct Hf); cbn [fld_eqb andb]; now rewrite E.
  - intros f i Hf Hi. assert (i = 0) by lia. subst. rewrite (ld_shows s3 1 _ f 0 K3); [|destruct Hf as [->|[->| ->]]; reflexivity|lia].
    destruct Hf as [->|[->| ->]]; reflexivity.
Qed.

(** a body at x = 1, at rest *)
Definition y1 (f : fld) (i : nat) : R := match f with Fpx => 1 | _ => 0 end%R.
Definition s1W : sstate (RT true) := @stN (RT true) [fun f => Some (y1 f 0)].
Lemma s1W_motion : shows_motion s1W 1 y1.
Proof. split; [reflexivity|]. intros f i Hf Hi. assert (i = 0) by lia. subst. destruct f; try reflexivity; now destruct Hf. Qed.
Lemma drag_law : velocity_law 1 (law1 (fun p v => - v)%R).
Proof. intros g g' H f i. unfold law1. destruct f; try reflexivity. now rewrite (H Fvx 0) by auto. Qed.

Lemma oscillator_differs : coded (law1 (fun p v => - p)%R) 1 y1 Fpx 0 <> classical (law1 (fun p v => - p)%R) 1 y1 Fpx 0.
Proof. unfold coded, classical, rhs, stage, law1, y1. cbn [rate]. lra. Qed.
Lemma oscillator_run : exists r' s', rk_run (ev1 (fun p v => - p)%R) (Some 1%R : cell (RT true)) (rk4_new, s1W) = Ok (r', s') /\
  forall g, shows_motion s' 1 g -> g Fpx 0 <> classical (law1 (fun p v => - p)%R) 1 y1 Fpx 0.
Proof.
  destruct (rk_run_R 1 _ (ev1 (fun p v => - p)%R) 1%R y1 rk4_new s1W (ev1_obeys _)) as (r' & s' & E & M & _).
  - apply new_fits. exact (le_n 1).
  - apply stN_sized.
  - lia.
  - exact s1W_motion.
  - exists r', s'. split; [exact E|]. intros g Hg D. apply oscillator_differs. rewrite <- D.
    pose proof (proj2 M Fpx 0 ltac:(discriminate) ltac:(lia)) as X. pose proof (proj2 Hg Fpx 0 ltac:(discriminate) ltac:(lia)) as Y.
    rewrite X in Y. now inversion Y.
Qed.
Lemma s1W_table : exists c, shows_st s1W 1 c /\
  (forall f i, (rate f <> None \/ f = Fax \/ f = Fay \/ f = Fatheta) -> i < 1 -> c f i = (Some (y1 f i) : cell (RT true))).
Proof.
  eexists. split; [apply (stN_shows (tg := RT true))|]. intros f i Hf Hi. assert (i = 0) by lia. subst. reflexivity.
Qed.
