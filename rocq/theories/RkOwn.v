(** * A fourth-order solver of its own never copies a state of another size. *)

From Verif Require Import Base Matrix Sparse Sle State Ode Forces Constraints System Logic
  MatrixFacts MatrixOps SpecMatrix MatrixHist SparseFacts SpecSparse SparseHist SpecSle SleHist SleGe SleGs
  SpecState StateFacts SpecOde OdeFacts SpecForces SpecSys RegFacts SysFrame SysInv SpecDyn SpecRk.
Local Open Scope nat_scope.

Section S.
Context {tg : target}.
Notation st := (sstate tg).
Implicit Types (w : world tg) (y : sys tg).
Variable priv : nat -> bool.

Definition like (d s : st) : Prop := sized d /\ s_n d = s_n s /\ s_nc d = s_nc s.
Definition new_st (d : st) : Prop := sized d /\ s_n d = 0 /\ s_nc d = 0.
Definition tuned (s : st) (o : ode tg) : Prop := match o with OdeRk4 r => like (rk_init r) s /\ like (rk_acc r) s | _ => True end.
Definition unused (o : ode tg) : Prop := match o with OdeRk4 r => new_st (rk_init r) /\ new_st (rk_acc r) | _ => True end.
Definition ready (s : st) (o : ode tg) : Prop := match o with OdeRk4 r => fits (rk_init r) s /\ fits (rk_acc r) s | _ => True end.
Lemma tuned_ready (s : st) o : tuned s o -> ready s o.
Proof. destruct o; cbn; auto. intros [(A & B & C) (D & E & F)]. split; (split; [assumption|right; right; now split]). Qed.
Lemma like_resized (d s s' : st) : resized s s' -> like d s -> like d s'.
Proof. intros (A & B & _) (C & D & E). split; [exact C|]. split; congruence. Qed.
Lemma tuned_resized (s s' : st) o : resized s s' -> tuned s o -> tuned s' o.
Proof. intros R. destruct o; cbn; auto. intros [A B]. split; eapply like_resized; eauto. Qed.

Lemma new_sized : sized (@st_new tg).
Proof. split; [intros []; reflexivity|reflexivity]. Qed.
Lemma copy_like (d s : st) : sized s -> fits d s -> wp (st_copy d s) (fun d' => like d' s).
Proof.
  intros Hs F. pose proof (proj1 F) as Zd.
  destruct (Nat.eq_dec (s_n s) 0) as [E|E].
  - rewrite st_copy_eq. cbv zeta. rewrite E. change (Nat.eqb 0 0) with true. cbn [wp].
    destruct (resize_cases d 0 (s_nc s) Zd) as [(A1 & A2 & A3)|(_ & A1 & A2 & A3)].
    + rewrite A3. split; [exact Zd|]. destruct F as [_ F]. lia.
    + split; [now apply sized_resize|]. rewrite A1, A2, E. auto.
  - destruct (copy_fits d s F Hs ltac:(lia)) as (d' & -> & (R1 & R2 & _) & Z & _). cbn. split; [exact Z|]. split; congruence.
Qed.
Lemma start_tuned o (s : st) h : sized s -> ready s o -> wp (ode_start o s h) (tuned s).
Proof.
  intros Hs Ho. destruct o; cbn [ode_start]; try exact I. destruct Ho as [A B]. unfold rk4_start.
  eapply wp_seq; [|intros r' H; exact H]. eapply wp_seq; [apply copy_like, A; exact Hs|]. intros i Hi.
  eapply wp_seq; [apply copy_like, B; exact Hs|]. intros c Hc. cbn. auto.
Qed.
Lemma step_tuned o (s : st) s0 : tuned s0 o -> pc (ode_step o s) (fun x => tuned s0 (fst (fst x))).
Proof.
  intros H. destruct o; cbn [ode_step]; try exact I. eapply (pc_seq _ _ (fun x => tuned s0 (OdeRk4 (fst (fst x))))); [|intros [[r' s'] b]; auto].
  unfold rk4_step. apply pc_any. intros s1. exact H.
Qed.
Lemma accum_resized dt v (s : st) f g i (a0 acc : st) : resized a0 acc -> pc (rk_accum dt v s f g i acc) (resized a0).
Proof. intros H. unfold rk_accum. apply pc_any. intros ?. now apply sto_add_resized. Qed.
Lemma solve_tuned o (s : st) s0 : tuned s0 o -> pc (ode_solve o s) (fun x => tuned s0 (fst x)).
Proof.
  intros H. destruct o; cbn [ode_solve]; try exact I; try (apply pc_any; intros ?; exact I).
  eapply (pc_seq _ _ (fun x => tuned s0 (OdeRk4 (fst x)))); [|intros [r' s']; auto].
  unfold rk4_solve. destruct H as [(A1 & A2 & A3) (B1 & B2 & B3)].
  eapply (pc_seq _ _ (resized (rk_acc r))).
  { apply for_pc; [|apply resized_refl]. intros i u R. repeat (eapply pc_seq; [apply accum_resized; eassumption|]; intros). now apply accum_resized. }
  intros c1 R1. eapply (pc_seq _ _ (resized (rk_acc r))).
  { apply for_pc; [|exact R1]. intros i u R. repeat (eapply pc_seq; [apply accum_resized; eassumption|]; intros). now apply accum_resized. }
  intros c2 R2. apply pc_any. intros s1. cbn [pc fst tuned rk_init rk_acc]. split; [now split|].
  split; [eapply resized_sized; eauto|]. destruct R2 as (C1 & C2 & _). split; congruence.
Qed.
Lemma end_tuned o (s : st) : tuned s o -> tuned s (ode_end o).
Proof. destruct o; exact (fun H => H). Qed.

Definition run_tuned hp0 (s0 : st) (x : ode tg * heap tg * st) : Prop :=
  hinv priv (snd (fst x)) /\ hm (snd (fst x)) iMinv = hm hp0 iMinv /\ resized s0 (snd x).
Lemma rounds_tuned w y hp0 s0 pcf : all_orderly w y -> pc_ok priv hp0 pcf ->
  forall fuel o hp s, tuned s0 o -> run_tuned hp0 s0 (o, hp, s) -> pc (ode_rounds fuel w y pcf o hp s) (fun x => tuned s0 (fst (fst x)) /\ run_tuned hp0 s0 x).
Proof.
  intros Ho Hp. induction fuel as [|fuel IH]; intros o hp s N (H & M & R); cbn [ode_rounds]; [exact I|]. cbn [fst snd] in *.
  eapply pc_seq; [apply pc_and; [apply (step_tuned o s s0 N)|apply (ode_step_resized o s)]|]. intros [[o1 s1] done] [N1 R1]. cbn [fst snd] in *.
  eapply pc_seq; [apply process_forces_resized, Ho|]. intros s2 R2.
  eapply pc_seq; [apply Hp; [exact H|exact M]|]. intros [hp3 s3] (H3 & A3 & M3). cbn [fst snd] in *.
  assert (R3 : resized s0 s3). { eapply resized_trans; [exact R|]. eapply resized_trans; [exact R1|]. eapply resized_trans; [exact R2|]. eapply alters_resized; exact A3. }
  eapply pc_seq; [apply pc_and; [apply (solve_tuned o1 s3 s0 N1)|apply (ode_solve_resized o1 s3)]|]. intros [o4 s4] [N4 R4]. cbn [fst snd] in *.
  pose proof (resized_trans _ _ _ R3 R4) as R5.
  destruct done; [split; [exact N4|]|apply IH; [exact N4|]]; (split; [exact H3|]; split; [exact M3|exact R5]).
Qed.
Lemma steps_tuned n dt w y hp0 s0 pcf o : 0 < n -> sized s0 -> all_orderly w y -> (forall h, pc_ok priv hp0 (pcf h)) -> ready s0 o -> hinv priv hp0 ->
  pc (ode_steps n dt w y pcf o hp0 s0) (fun x => tuned (snd x) (fst (fst x)) /\ sized (snd x)).
Proof.
  intros Hn Zs Ho Hp H Hh. unfold ode_steps. cbv zeta. set (f := fun (_ : nat) '(o, hp, s) => _).
  assert (S : forall i x, ready s0 (fst (fst x)) -> run_tuned hp0 s0 x -> pc (f i x) (fun x => tuned s0 (fst (fst x)) /\ run_tuned hp0 s0 x)).
  { intros i [[o1 hp1] s1] U (X1 & X2 & X3). cbn [fst snd] in *. unfold f.
    assert (Z1 : sized s1) by (eapply resized_sized; eauto).
    assert (U1 : ready s1 o1) by (destruct o1; auto; destruct U as [[Q1 Q2] [Q3 Q4]], X3 as (R1 & R2 & _); split; (split; [assumption|rewrite R1, R2; assumption])).
    eapply pc_seq; [apply wp_pc, (start_tuned o1 s1 _ Z1 U1)|]. intros o2 T2.
    assert (T0 : tuned s0 o2) by (eapply tuned_resized; [|exact T2]; destruct X3 as (a & b & c & d); repeat split; try congruence; intros g; symmetry; apply c).
    eapply pc_seq; [apply (rounds_tuned w y hp0 s0 _ Ho (Hp _) 8 o2 hp1 s1 T0); split; [exact X1|]; split; [exact X2|exact X3]|].
    intros [[o3 hp3] s3] [T3 R3]. cbn [pc fst snd]. split; [now apply end_tuned|exact R3]. }
  destruct n as [|n]; [lia|]. unfold for_. cbn [for_from].
  eapply pc_seq; [apply S; [exact H|]; split; [exact Hh|]; split; [reflexivity|apply resized_refl]|]. intros x1 [T1 R1].
  eapply pc_mono; [apply (for_from_pc f (fun x => tuned s0 (fst (fst x)) /\ run_tuned hp0 s0 x)); [|split; [exact T1|exact R1]]; intros i x [T R]; apply S; [now apply tuned_ready|exact R]|].
  intros x [T R]. destruct R as (_ & _ & R). split; [eapply tuned_resized; eauto|eapply resized_sized; eauto].
Qed.

Lemma populate_resized w y : pc (populate_state w y) (resized (st_resize (y_state y) (body_count y) (full_count w y))).
Proof.
  unfold populate_state. set (s0 := st_resize (y_state y) (body_count y) (full_count w y)).
  eapply (pc_seq _ _ (resized s0)).
  - apply for_pc; [|apply resized_refl]. intros i t R. apply pc_any; intros b.
    repeat (eapply pc_seq; [apply sto_resized; eassumption|]; intros). now apply sto_resized.
  - intros s1 R1. eapply (pc_seq _ _ (fun x => resized s0 (fst x))); [|intros [s2 jf] R2; exact R2].
    apply for_pc; [|exact R1]. intros i [t jf] R. cbn [fst] in R. apply pc_any; intros c.
    eapply pc_seq; [apply aset_len|]. intros im L. cbn [pc fst].
    destruct R as (A1 & A2 & A3 & A4). repeat split; auto. cbn. congruence.
Qed.

(** ** histories *)
Definition at_home y : Prop := forall o, y_ode y = Some o -> unused o \/ tuned (y_state y) o.
Lemma home_ready w y s0 o : sized (y_state y) -> at_home y -> y_ode y = Some o -> populate_state w y = Ok s0 -> ready s0 o.
Proof.
  intros Zs HH Eo E0. pose proof (pc_elim _ _ _ E0 (populate_resized w y)) as (N & C & _). specialize (HH o Eo).
  destruct o; try exact I. cbn [ready].
  assert (G : forall d : st, new_st d \/ like d (y_state y) -> fits d s0).
  { intros d [(A & B1 & B2)|(A & B1 & B2)]; (split; [exact A|]); destruct (resize_cases (y_state y) (body_count y) (full_count w y) Zs) as [(R1 & R2 & R3)|(R1 & R2 & R3 & _)];
    rewrite ?R3, ?R2 in N; rewrite ?R3 in C; lia. }
  destruct HH as [[U1 U2]|[U1 U2]]; split; apply G; auto.
Qed.
Lemma lone_home y : lone priv y -> at_home y.
Proof.
  induction 1 as [|y l o y' H IH Ho E|m w y dt n t w' y' H IH HR HO Hn E|y y' H IH E1 E2].
  - intros o [=].
  - cbn [initialize] in E. unfold gen_initialize in E. cbv zeta in E.
    destruct (minit0 _ ilambda 0 0) as [ms| | |]; try discriminate. cbn [bind] in E. injection E as <-.
    intros o' [= <-]. destruct o; try (left; exact I). left. rewrite (Ho r eq_refl).
    split; (split; [exact new_sized|split; reflexivity]).
  - destruct (yreach_inv priv _ _ _ _ HR) as (Hh & Hs & Hl & _). cbn [process] in E. unfold gen_process in E.
    destruct (populate_state w y) as [s0| | |] eqn:E0; try discriminate. cbn [bind] in E.
    pose proof (pc_elim _ _ _ E0 (populate_state_sized w y Hs)) as (Z0 & _).
    destruct (populate_mass _ _ _) as [ms| | |] eqn:Em; try discriminate. cbn [bind] in E.
    pose proof (pc_elim _ _ _ Em (populate_mass_wfs priv w _ _ (proj1 Hh))) as Wm.
    match type of E with bind ?x _ = _ => destruct x as [[y1 s1]| | |] eqn:E1 end; try discriminate. cbn [bind] in E.
    destruct (gen_propagate y1 s1 w) as [w2| | |]; try discriminate. cbn [bind] in E.
    destruct (record_profile y1 t) as [y2| | |] eqn:E3; try discriminate. cbn [bind] in E. injection E as <- <-.
    pose proof (pc_elim _ _ _ E3 (record_profile_core y1 t)) as (_ & B & _ & D). intros o Eo. rewrite D in Eo. rewrite B.
    destruct n as [|n']; [lia|].
    unfold the_ode in E1. cbn [with_state y_ode] in E1. destruct (y_ode y) as [o0|] eqn:Eo0; try discriminate. cbn [bind lift_opt] in E1.
    destruct (ode_steps _ _ _ _ _ _ _ _) as [[[o1 hp1] s1']| | |] eqn:E2; try discriminate. cbn [bind] in E1. injection E1 as <- <-.
    cbn [with_ode with_heap with_state y_ode y_state] in *. injection Eo as <-. right.
    pose proof (home_ready w y s0 o0 Hs IH Eo0 E0) as RD.
    exact (proj1 (pc_elim _ _ _ E2 (steps_tuned (S n') dt w (with_state y s0) (with_hm (y_heap y) ms) s0 _ o0 Hn Z0 HO
      (fun h => gen_constraints_ok priv w (with_state y s0) _ Hl) RD ltac:(split; [exact Wm|apply Hh])))).
  - intros o Eo. rewrite E2. apply IH. congruence.
Qed.
(** its copies are always possible *)
Lemma lone_copies m w y s r h : yreach Generic priv m w y -> lone priv y -> y_ode y = Some (OdeRk4 r) -> populate_state w y = Ok s ->
  exists r', rk4_start r s h = Ok r' /\ s_n (rk_init r') = s_n s /\ s_nc (rk_init r') = s_nc s /\ s_n (rk_acc r') = s_n s /\ s_nc (rk_acc r') = s_nc s.
Proof.
  intros HR HL Eo E0. destruct (yreach_inv priv _ _ _ _ HR) as (_ & Hs & _).
  pose proof (home_ready w y s _ Hs (lone_home y HL) Eo E0) as RD. pose proof (pc_elim _ _ _ E0 (populate_state_sized w y Hs)) as (Z0 & _).
  pose proof (start_tuned _ s h Z0 RD) as G. cbn [ode_start] in G. destruct (rk4_start r s h) as [r'| | |]; try contradiction.
  exists r'. destruct G as [(_ & A & B) (_ & C & D)]. auto.
Qed.
Lemma lone_rk m w y r : yreach Generic priv m w y -> lone priv y -> y_ode y = Some (OdeRk4 r) -> sized (rk_init r) /\ sized (rk_acc r) /\
  forall s, populate_state w y = Ok s -> rk_fits r s.
Proof.
  intros HR HL Eo. destruct (yreach_inv priv _ _ _ _ HR) as (_ & Hs & _). pose proof (lone_home y HL _ Eo) as HH.
  split; [destruct HH as [[[A _] _]|[[A _] _]]; exact A|]. split; [destruct HH as [[_ [A _]]|[_ [A _]]]; exact A|].
  intros s E0. exact (home_ready w y s _ Hs (lone_home y HL) Eo E0).
Qed.
End S.
