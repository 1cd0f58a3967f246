(** * The integrators in exact arithmetic (C40, C42, C43). *)

From Coq Require Import Reals Lra.
From Verif Require Import Base Targets State Ode Logic SpecState StateFacts StateReal SpecOde OdeFacts.
Local Open Scope nat_scope.

Section S.
Context {dbg : bool}.
Notation tg := (RT dbg).
Notation cl := (cell tg).

(** ** C40, k steps *)
Lemma nsv_closed_form k : forall (s : sstate tg) n c (g : fld -> nat -> R) (dt : R),
  shows_st s n c ->
  (forall f i, (rate f <> None \/ f = Fax \/ f = Fay \/ f = Fatheta) -> i < n -> c f i = (Some (g f i) : cl)) ->
  exists s', repeated k (nsv_solve (Some dt : cl)) s = Ok s' /\ shows_st s' n (nsv_closed k dt g c) /\ same_beyond s s' n.
Proof.
  induction k as [|k IH]; intros s n c g dt Hs Hc.
  - exists s. split; [reflexivity|]. split; [|apply same_beyond_refl]. destruct Hs as [H1 H2]. split; [exact H1|].
    intros f i Hf Hi. rewrite H2 by auto. f_equal. unfold nsv_closed. cbn [INR].
    destruct (rate f) as [r|] eqn:E; [|reflexivity]. rewrite Hc; [|left; congruence|exact Hi].
    destruct (rate r); f_equal; field.
  - cbn [repeated]. destruct (nsv_steps s n c (Some dt : cl) Hs) as (s1 & -> & S1 & B1 & _). cbn [bind].
    set (g1 := fun f i => match rate f with
             | Some r => match rate r with Some a => g f i + (g r i + g a i * dt) * dt | None => g f i + g r i * dt end
             | None => g f i end%R).
    destruct (IH s1 n (nsv_table (Some dt : cl) c) g1 dt S1) as (s' & E & S2 & B2).
    { intros f i Hf Hi. unfold nsv_table, g1. destruct f; cbn [rate] in *; repeat rewrite Hc; auto; try (left; discriminate);
        try reflexivity; destruct Hf as [Hf|[Hf|[Hf|Hf]]]; try discriminate; try contradiction. }
    exists s'. split; [exact E|]. split; [|eapply same_beyond_trans; eauto].
    destruct S2 as [N2 S2]. split; [exact N2|]. intros f i Hf Hi. rewrite S2 by auto. f_equal.
    unfold nsv_closed, g1, nsv_table. rewrite S_INR. destruct f; cbn [rate]; try reflexivity; f_equal; field.
Qed.

(** ** RK4 *)
Definition mot (n : nat) (c : fld -> nat -> cl) (g : fld -> nat -> R) : Prop :=
  forall f i, rate f <> None -> i < n -> c f i = (Some (g f i) : cl).
Definition accs (n : nat) (c : fld -> nat -> cl) (a : fld -> nat -> R) : Prop :=
  forall f i, (f = Fax \/ f = Fay \/ f = Fatheta) -> i < n -> c f i = (Some (a f i) : cl).
Lemma shows_mot s n c g : shows_st s n c -> mot n c g -> shows_motion s n g.
Proof.
  intros [H1 H2] M. split; [exact H1|]. intros f i Hf Hi. rewrite H2, M; auto. destruct f; try reflexivity; now destruct Hf.
Qed.
Lemma mot_of s n g : sized s -> shows_motion s n g -> exists c, shows_st s n c /\ mot n c g.
Proof.
  intros Hs [H1 H2]. exists (ldc s). split; [rewrite <- H1; now apply sized_shows|].
  intros f i Hf Hi. unfold ldc. now rewrite H2.
Qed.

Section Run.
Variables (n : nat) (A : (fld -> nat -> R) -> fld -> nat -> R) (ev : sstate tg -> res (sstate tg)) (h : R) (y : fld -> nat -> R) (I : sstate tg) (nc : nat).
Hypothesis Hev : obeys ev n A.
Hypothesis HI : exists c0, shows_st I n c0 /\ mot n c0 y.

Record rinv (T : rk_stage) (r : rk4 tg) (s : sstate tg) (z a : fld -> nat -> R) : Prop := {
  ri_st : rk_st r = T;
  ri_dt : rk_dt r = (Some h : cl);
  ri_init : rk_init r = I;
  ri_acc : exists ca, shows_st (rk_acc r) n ca /\ mot n ca a;
  ri_sacc : sized (rk_acc r);
  ri_nacc : s_nc (rk_acc r) = nc;
  ri_s : sized s;
  ri_nc : s_nc s = nc;
  ri_shows : exists c, shows_st s n c /\ mot n c z /\ (T <> Stage1 -> accs n c (A z)) }.

Definition weight (T : rk_stage) : R := match T with Stage1 | Stage4 => 1 | Stage2 | Stage3 => 2 | _ => 0 end%R.
Definition zstep (T : rk_stage) (z : fld -> nat -> R) : fld -> nat -> R :=
  match T with Stage2 | Stage3 => stage (h / 2) y (rhs A z) | Stage4 => stage h y (rhs A z) | _ => z end.
Definition astep (T : rk_stage) (z1 a : fld -> nat -> R) : fld -> nat -> R := fun f i => (a f i + h / 6 * rhs A z1 f i * weight T)%R.

Lemma R_div2 x : R_div x 2 = Some (x / 2)%R.
Proof. apply Rdiv_some. lra. Qed.
Lemma R_div6 x : R_div x 6 = Some (x / 6)%R.
Proof. apply Rdiv_some. lra. Qed.

Lemma step_mot r c0 c z T : rk_st r = T -> rk_dt r = (Some h : cl) -> mot n c0 y -> mot n c z -> (T <> Stage1 -> accs n c (A z)) ->
  T <> Complete -> T <> Undefined -> mot n (step_table r c0 c) (zstep T z).
Proof.
  intros ET Ed M0 M HA N1 N2 f i Hf Hi. unfold step_table, zstep. rewrite ET.
  assert (Q : T <> Stage1 -> c Fax i = (Some (A z Fax i) : cl) /\ c Fay i = (Some (A z Fay i) : cl) /\ c Fatheta i = (Some (A z Fatheta i) : cl)).
  { intros N. repeat split; apply HA; auto. }
  destruct T; try contradiction; [now apply M| | | ]; destruct (Q ltac:(discriminate)) as (Q1 & Q2 & Q3);
    (destruct f; cbn [rate] in Hf; try (now destruct Hf)); cbn [runcol rk_fs fld_eqb]; unfold half_col, full_col; cbn [fld_eqb];
    rewrite ?Ed, ?Q1, ?Q2, ?Q3, ?(M0 Fvx i), ?(M0 Fvy i), ?(M0 Fvtheta i), ?(M0 Fpx i), ?(M0 Fpy i), ?(M0 Ftheta i) by (auto; discriminate);
    unfold stage, rhs, cofZ; cbn [rate]; rt_unfold; cbn [n_ofZ RT]; rewrite ?R_div2; f_equal; field.
Qed.
Lemma acc_mot r ca c z1 a T : rk_st r = T -> rk_dt r = (Some h : cl) -> mot n ca a -> mot n c z1 -> accs n c (A z1) ->
  mot n (acc_table r ca c) (astep T z1 a).
Proof.
  intros ET Ed Ma M HA f i Hf Hi. unfold acc_table, astep. rewrite ET.
  assert (W : stage_weight T = (Some (weight T) : cl)) by now destruct T.
  rewrite W, Ed.
  pose proof (HA Fax i ltac:(auto) Hi) as Q1. pose proof (HA Fay i ltac:(auto) Hi) as Q2. pose proof (HA Fatheta i ltac:(auto) Hi) as Q3.
  (destruct f; cbn [rate] in Hf; try (now destruct Hf)); cbn [runcol rk_fs fld_eqb]; unfold acc_col; cbn [fld_eqb];
    rewrite ?Q1, ?Q2, ?Q3, ?(M Fvx i), ?(M Fvy i), ?(M Fvtheta i), ?(Ma Fvx i), ?(Ma Fvy i), ?(Ma Fvtheta i), ?(Ma Fpx i), ?(Ma Fpy i), ?(Ma Ftheta i) by (auto; discriminate);
    unfold rhs, cofZ; cbn [rate]; rt_unfold; cbn [n_ofZ RT]; rewrite ?R_div6; f_equal; field.
Qed.
Lemma emit_mot r ca c T a' : rk_st r = T -> T = Stage4 -> mot n (acc_table r ca c) a' -> mot n (emit_table r ca c) a'.
Proof.
  intros E1 E2 M f i Hf Hi. unfold emit_table. rewrite E1, E2. rewrite <- (M f i Hf Hi).
  destruct f; cbn [rate] in Hf; try (now destruct Hf); reflexivity.
Qed.

Lemma round_R T r s z a : rinv T r s z a -> T <> Complete -> T <> Undefined ->
  let z1 := zstep T z in let a1 := astep T z1 a in
  exists s1 s1' r2 s2, rk4_step r s = Ok (with_next r, s1, match T with Stage4 => true | _ => false end) /\ ev s1 = Ok s1' /\
    rk4_solve (with_next r) s1' = Ok (r2, s2) /\
    (T <> Stage4 -> rinv (next_stage T) r2 s2 z1 a1) /\
    (T = Stage4 -> shows_motion s2 n a1) /\
    sized s2 /\ s_n s2 = n /\ s_nc s2 = nc /\ rk_init r2 = I /\ sized (rk_acc r2) /\ s_n (rk_acc r2) = n /\ s_nc (rk_acc r2) = nc.
Proof.
  intros [ET Ed Ei (ca & SA & MA) ZA NA Zs Ns (c & SC & MC & AC)] N1 N2 z1 a1.
  destruct HI as (c0 & S0 & M0).
  destruct (rk4_step_spec r s n c0 c) as (s1 & E1 & S1 & Z1 & C1); [now rewrite Ei|exact SC|exact Zs|].
  rewrite ET in E1.
  pose proof (step_mot r c0 c z T ET Ed M0 MC AC N1 N2) as M1. fold z1 in M1.
  destruct (Hev s1 z1 Z1 (shows_mot _ _ _ _ S1 M1)) as (s1' & E2 & Z2 & C2 & S2 & A2).
  pose proof (sized_shows s1' Z2) as SH. rewrite (proj1 S2) in SH.
  assert (M2 : mot n (ldc s1') z1). { intros f i Hf Hi. unfold ldc. now rewrite (proj2 S2). }
  assert (A2' : accs n (ldc s1') (A z1)). { intros f i Hf Hi. unfold ldc. now rewrite A2. }
  destruct (rk4_solve_spec (with_next r) s1' n ca (ldc s1') SA ZA ltac:(cbn; congruence) SH Z2)
      as (r2 & s2 & Q1 & Q2 & Q3 & Q4 & Q5 & Q6 & Q7 & Q8 & Q9 & Q10).
  assert (MA2 : mot n (acc_table (with_next r) ca (ldc s1')) a1).
  { apply acc_mot; auto. }
  exists s1, s1', r2, s2. split; [exact E1|]. split; [exact E2|]. split; [exact Q1|].
  refine (conj _ (conj _ (conj Q9 (conj (proj1 Q8) (conj _ (conj _ (conj Q6 (conj (proj1 Q5) _)))))))).
  - intros N4. constructor.
    + rewrite Q3. cbn. now rewrite ET.
    + rewrite Q2. exact Ed.
    + rewrite Q4. exact Ei.
    + eauto.
    + exact Q6.
    + congruence.
    + exact Q9.
    + congruence.
    + exists (ldc s1'). assert (X : emit_table (with_next r) ca (ldc s1') = ldc s1').
      { unfold emit_table. cbn. rewrite ET. now destruct T. }
      rewrite X in Q8. split; [exact Q8|]. auto.
  - intros E4. apply (shows_mot _ _ _ _ Q8). eapply emit_mot; [cbn; exact ET|exact E4|exact MA2].
  - congruence.
  - rewrite Q4. exact Ei.
  - congruence.
Qed.

Lemma drive_R r s : rinv Stage1 r s y y -> sized I -> s_n I = n -> s_nc I = nc ->
  exists r' s', rk_drive 4 ev r s = Ok (4, (r', s')) /\ shows_motion s' n (coded A h y) /\ sized s' /\ s_nc s' = nc /\ rk_fits (rk4_end r') s'.
Proof.
  intros H1 ZI NI CI.
  destruct (round_R _ _ _ _ _ H1) as (sa & sa' & r2 & s2 & A1 & A2 & A3 & A4 & _ & _); try discriminate.
  specialize (A4 ltac:(discriminate)). cbn [next_stage] in A4.
  destruct (round_R _ _ _ _ _ A4) as (sb & sb' & r3 & s3 & B1 & B2 & B3 & B4 & _ & _); try discriminate.
  specialize (B4 ltac:(discriminate)). cbn [next_stage] in B4.
  destruct (round_R _ _ _ _ _ B4) as (sc & sc' & r4 & s4 & C1 & C2 & C3 & C4 & _ & _); try discriminate.
  specialize (C4 ltac:(discriminate)). cbn [next_stage] in C4.
  destruct (round_R _ _ _ _ _ C4) as (sd & sd' & r5 & s5 & D1 & D2 & D3 & _ & D4 & D5 & D6 & D7 & D8 & D9 & D10 & D11); try discriminate.
  specialize (D4 eq_refl). exists r5, s5.
  cbn [rk_drive]. rewrite A1. cbn [bind]. rewrite A2. cbn [bind]. rewrite A3. cbn [bind].
  rewrite B1. cbn [bind]. rewrite B2. cbn [bind]. rewrite B3. cbn [bind].
  rewrite C1. cbn [bind]. rewrite C2. cbn [bind]. rewrite C3. cbn [bind].
  rewrite D1. cbn [bind]. rewrite D2. cbn [bind]. rewrite D3. cbn [bind].
  split; [reflexivity|]. split; [|split; [exact D5|split; [exact D7|]]].
  - destruct D4 as [N4 D4]. split; [exact N4|]. intros f i Hf Hi. rewrite D4 by auto. do 2 f_equal.
    unfold astep, coded. cbn [zstep weight]. field.
  - split; (split; [cbn; first [rewrite D8; exact ZI|exact D9]|right; right; cbn]).
    + rewrite D8, NI, CI. auto.
    + rewrite D10, D11. auto.
Qed.
End Run.

Lemma rk_run_R n A (ev : sstate tg -> res (sstate tg)) (h : R) (y : fld -> nat -> R) r s :
  obeys ev n A -> rk_fits r s -> sized s -> 0 < n -> shows_motion s n y ->
  exists r' s', rk_run ev (Some h : cl) (r, s) = Ok (r', s') /\ shows_motion s' n (coded A h y) /\ sized s' /\ rk_fits r' s'.
Proof.
  intros He Hf Hs Hn Hm. destruct (mot_of s n y Hs Hm) as (c & SC & MC).
  destruct (rk4_start_spec r s n c (Some h : cl) Hf Hs Hn SC) as (r1 & E & D & T & I1 & A1 & ZI & ZA & NI & NA).
  destruct (drive_R n A ev h y (rk_init r1) (s_nc s) He) with (r := r1) (s := s) as (r2 & s2 & E2 & S2 & Z2 & N2 & F2); auto.
  - eauto.
  - constructor; auto; eauto. exists c. split; [exact SC|]. split; [exact MC|]. congruence.
  - apply I1.
  - unfold rk_run. cbn [fst snd]. rewrite E. cbn [bind]. rewrite E2. cbn [bind]. exists (rk4_end r2), s2. auto.
Qed.

(** C42 *)
Lemma coded_constant (a : fld -> nat -> R) h y f i : coded (fun _ => a) h y f i = closed_form a h y f i.
Proof. unfold coded, closed_form, rhs, stage. destruct f; cbn [rate]; field. Qed.
Lemma shows_motion_ext (s : sstate tg) n g g' : (forall f i, g f i = g' f i) -> shows_motion s n g -> shows_motion s n g'.
Proof. intros E [H1 H2]. split; [exact H1|]. intros f i Hf Hi. rewrite <- E. auto. Qed.
Lemma rk_constant n (a : fld -> nat -> R) (ev : sstate tg -> res (sstate tg)) (hs : list R) : forall y r s,
  obeys ev n (fun _ => a) -> rk_fits r s -> sized s -> 0 < n -> shows_motion s n y ->
  exists r' s', rk_runs ev (map (fun h => Some h : cl) hs) (r, s) = Ok (r', s') /\
    shows_motion s' n (closed_form a (fold_right Rplus 0%R hs) y) /\ sized s' /\ rk_fits r' s'.
Proof.
  induction hs as [|h hs IH]; intros y r s He Hf Hs Hn Hm.
  - exists r, s. split; [reflexivity|]. split; [|auto]. eapply shows_motion_ext; [|exact Hm].
    intros f i. unfold closed_form. cbn [fold_right]. destruct f; cbn [rate]; field.
  - cbn [map rk_runs]. destruct (rk_run_R n _ ev h y r s He Hf Hs Hn Hm) as (r1 & s1 & E1 & M1 & Z1 & F1).
    match goal with |- context [rk_run ev ?x (r, s)] => replace (rk_run ev x (r, s)) with (Ok (r1, s1)) by (symmetry; exact E1) end. cbn [bind].
    destruct (IH _ r1 s1 He F1 Z1 Hn M1) as (r2 & s2 & E2 & M2 & Z2 & F2). exists r2, s2. split; [exact E2|]. split; [|auto].
    eapply shows_motion_ext; [|exact M2]. intros f i. cbn [fold_right].
    generalize (fold_right Rplus 0%R hs). intros T. unfold closed_form. destruct f; cbn [rate]; rewrite !coded_constant; unfold closed_form; cbn [rate]; field.
Qed.

(** C43 *)
Lemma coded_classical n A h y f i : velocity_law n A -> coded A h y f i = classical A h y f i.
Proof.
  intros HA. unfold coded, classical. cbv zeta.
  assert (V : forall h k k', (forall f i, (f = Fvx \/ f = Fvy \/ f = Fvtheta) -> k f i = k' f i) ->
     forall f i, (f = Fvx \/ f = Fvy \/ f = Fvtheta) -> stage h y k f i = (y f i + h * k' f i)%R).
  { intros h' k k' E f' i' [->|[->| ->]]; unfold stage; cbn [rate]; rewrite E; auto. }
  assert (K : forall h k k', (forall f i, (f = Fvx \/ f = Fvy \/ f = Fvtheta) -> k f i = k' f i) ->
     forall f i, rhs A (stage h y k) f i = rhs A (fun f i => y f i + h * k' f i)%R f i).
  { intros h' k k' E f' i'. pose proof (V h' k k' E) as V'. unfold rhs. destruct f'; cbn [rate]; auto;
      apply HA; intros f0 i0 H0 _; now apply V'. }
  set (k1 := rhs A y).
  pose proof (K (h / 2)%R k1 k1 (fun _ _ _ => eq_refl)) as K2.
  pose proof (K (h / 2)%R _ _ (fun f i _ => K2 f i)) as K3.
  pose proof (K h _ _ (fun f i _ => K3 f i)) as K4.
  now rewrite K2, K3, K4.
Qed.
Lemma rk_velocity_law n A (ev : sstate tg -> res (sstate tg)) (h : R) (y : fld -> nat -> R) r s :
  velocity_law n A -> obeys ev n A -> rk_fits r s -> sized s -> 0 < n -> shows_motion s n y ->
  exists r' s', rk_run ev (Some h : cl) (r, s) = Ok (r', s') /\ shows_motion s' n (classical A h y) /\ sized s' /\ rk_fits r' s'.
Proof.
  intros HA He Hf Hs Hn Hm. destruct (rk_run_R n A ev h y r s He Hf Hs Hn Hm) as (r' & s' & E & M & Z).
  exists r', s'. split; [exact E|]. split; [|exact Z]. eapply shows_motion_ext; [|exact M]. intros f i. now apply coded_classical with n.
Qed.
End S.
