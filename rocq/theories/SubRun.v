(** * process(dt, n) and n calls process(dt / n, 1) end in the same scene. *)

From Coq Require Import Reals FunctionalExtensionality.
From Verif Require Import Base Targets Matrix Sparse Sle State Ode Forces Constraints System Logic
  MatrixFacts MatrixOps SpecMatrix MatrixHist SparseFacts SpecSparse SparseHist SpecSle SleHist SleGe
  SpecState StateFacts OdeFacts SpecSys RegFacts SysFrame SysInv SpecDyn DynState DynReact DynRound DynReady SpecSub SubSim SubOde SubPop SubStep.
Local Open Scope nat_scope.

Section S.
Context {tg : target}.
Notation st := (sstate tg).
Implicit Types (hp : heap tg) (ms : mats tg) (w : world tg) (y : sys tg) (o : ode tg).

Definition put y (x : trip) : sys tg := with_ode (with_heap (with_state y (snd x)) (snd (fst x))) (Some (fst (fst x))).
Definition ticked (k : flavour) (dt : cell tg) y : sys tg :=
  match k with
  | Optimized => {| y_bodies := y_bodies y; y_cons := y_cons y; y_gens := y_gens y;
            y_state := y_state y; y_heap := y_heap y; y_sle := y_sle y; y_ode := y_ode y;
            y_bias := y_bias y; y_t := cadd (y_t y) dt; y_prof := y_prof y; y_frame := y_frame y |}
  | Generic => y
  end.
Definition loop k (n : nat) (h : cell tg) w y (x : trip) : res trip := for_ n (fun _ => substep w y (pcf k w y h) h) x.
Lemma steps_loop k n dt w y s0 o hp s :
  ode_steps n dt w (with_state y s0) (match k with Optimized => opt_process_constraints w (with_state y s0) | Generic => fun _ => gen_process_constraints w (with_state y s0) end) o hp s =
  loop k n (cdiv dt (cofZ (Z.of_nat n))) w y (o, hp, s).
Proof.
  unfold ode_steps, loop. cbv zeta. apply for_ext. intros i [[o1 hp1] s1]. unfold substep. apply bind_ext. intros o2.
  assert (E : forall fuel o hp s, ode_rounds fuel w (with_state y s0) ((match k with Optimized => opt_process_constraints w (with_state y s0) | Generic => fun _ => gen_process_constraints w (with_state y s0) end) (cdiv dt (cofZ (Z.of_nat n)))) o hp s
     = ode_rounds fuel w y (pcf k w y (cdiv dt (cofZ (Z.of_nat n)))) o hp s).
  { clear. induction fuel as [|fuel IH]; intros o hp s; cbn [ode_rounds]; [reflexivity|]. apply bind_ext. intros [[o1 s1] d].
    change (process_forces w (with_state y s0) s1) with (process_forces w y s1). apply bind_ext. intros s2.
    replace (match k with Optimized => opt_process_constraints w (with_state y s0) | Generic => fun _ => gen_process_constraints w (with_state y s0) end (cdiv dt (cofZ (Z.of_nat n))) hp s2)
      with (pcf k w y (cdiv dt (cofZ (Z.of_nat n))) hp s2) by (destruct k; reflexivity).
    apply bind_ext. intros [hp3 s3]. apply bind_ext. intros [o4 s4]. destruct d; [reflexivity|apply IH]. }
  now rewrite E.
Qed.
Lemma process_unfold k dt n t w y :
  process k dt (S n) t w y =
    let* s := populate_state w y in
    let* ms := populate_mass w y (hm (y_heap y)) in
    let* o := the_ode y in
    let* x := loop k (S n) (cdiv dt (cofZ (Z.of_nat (S n)))) w y (o, with_hm (y_heap y) ms, s) in
    let* w1 := propagate k y (snd x) w in
    let* y1 := record_profile (put y x) t in
    Ok (w1, ticked k dt y1).
Proof.
  destruct k; cbn [process]; [unfold opt_process|unfold gen_process].
  - apply bind_ext. intros s. change (populate_mass w (with_state y s) (hm (y_heap (with_state y s)))) with (populate_mass w y (hm (y_heap y))).
    apply bind_ext. intros ms. change (the_ode (with_state y s)) with (the_ode y). apply bind_ext. intros o.
    rewrite (steps_loop Optimized). apply bind_ext. intros [[o1 hp1] s1]. reflexivity.
  - apply bind_ext. intros s. change (populate_mass w (with_state y s) (hm (y_heap (with_state y s)))) with (populate_mass w y (hm (y_heap y))).
    apply bind_ext. intros ms. change (the_ode (with_state y s)) with (the_ode y). destruct (the_ode y) as [o| | |]; try reflexivity. cbn [bind].
    rewrite (steps_loop Generic). destruct (loop Generic (S n) _ w y _) as [[[o1 hp1] s1]| | |]; reflexivity.
Qed.

(** ** one call against one sub-step *)
Section Run.
Variables (k : flavour) (priv : nat -> bool) (h : cell tg) (w0 : world tg) (y0 : sys tg).
Hypothesis h1 : cdiv h (cofZ 1) = h.
Hypothesis gens : all_heedless w0 y0.
Hypothesis cons : cons_heedless w0 y0.
Notation N := (body_count y0).
Notation sub := (substep w0 y0 (pcf k w0 y0 h) h).

Record ready (x : trip) (w : world tg) (y : sys tg) : Prop := {
  rd_reach : exists m, yreach k priv m w y;
  rd_twins : twins w0 y0 w y;
  rd_outside : outside y0 w0 w;
  rd_pop : exists s1, populate_state w y = Ok s1 /\ agree (but_accel N) (snd x) s1;
  rd_mass : populate_mass w y (hm (y_heap y)) = Ok (hm (snd (fst x)));
  rd_hs : hs (y_heap y) = hs (snd (fst x));
  rd_ode : exists o', y_ode y = Some o' /\ ode_alike (fst (fst x)) o' }.

Lemma heedless_orderly (g : gkind tg) : heedless g -> orderly g.
Proof. intros H. apply gentle_orderly. destruct g; cbn in *; auto; try contradiction. apply H. Qed.
Lemma twins_gens w y : twins w0 y0 w y -> all_heedless w y /\ all_orderly w y.
Proof.
  intros (_ & _ & E & _ & _ & G & _). split; intros g Hg; [|apply heedless_orderly]; rewrite G; apply gens; now rewrite <- E.
Qed.
Lemma loop_one w y x h' : loop k 1 h' w y x = substep w y (pcf k w y h') h' x.
Proof. unfold loop, for_. cbn [for_from]. now destruct (substep _ _ _ _ _). Qed.
Lemma outside_twins w y w' y' : y_bodies y' = y_bodies y /\ y_cons y' = y_cons y /\ y_gens y' = y_gens y /\ y_sle y' = y_sle y /\ y_bias y' = y_bias y ->
  listed w y -> outside y w w' -> twins w y w' y'.
Proof.
  intros (A1 & A2 & A3 & A4 & A5) HL (B & C & D). do 5 (split; [assumption|]). split; [extensionality g; apply D|]. split.
  - intros b. destruct (B b) as (B1 & B2 & B3 & B4). split; [exact B1|]. intros E f. rewrite B4; [reflexivity|].
    intros I. apply In_nth_error in I. destruct I as [i I]. apply (proj1 HL) in I. lia.
  - intros c. destruct (C c) as (C1 & C2 & C3 & C4 & C5 & _). now repeat split.
Qed.
Lemma twins_trans w1 y1 w2 y2 w3 y3 : twins w1 y1 w2 y2 -> twins w2 y2 w3 y3 -> twins w1 y1 w3 y3.
Proof.
  intros (A1 & A2 & A3 & A4 & A5 & A6 & A7 & A8) (B1 & B2 & B3 & B4 & B5 & B6 & B7 & B8). do 6 (split; [congruence|]). split.
  - intros b. destruct (A7 b) as [X1 X2], (B7 b) as [Y1 Y2]. split; [congruence|]. intros E f. rewrite Y2 by congruence. now apply X2.
  - intros c. destruct (A8 c) as (X1 & X2 & X3 & X4), (B8 c) as (Y1 & Y2 & Y3 & Y4). repeat split; congruence.
Qed.
Lemma kept_in_place w y w' y' (s s' : st) : y_bodies y' = y_bodies y -> y_cons y' = y_cons y -> same_masses w w' y -> (forall c, c_count (w_con w' c) = c_count (w_con w c)) ->
  kept s s' -> resized s s' -> in_place w y s -> in_place w' y' s'.
Proof.
  intros E1 E2 M C [K1 K2] R (P1 & P2 & P3 & P4 & P5).
  assert (O : forall i, offset w' y' i = offset w y i).
  { intros i. unfold offset. rewrite E2. induction (firstn i (y_cons y)) as [|c l IH]; cbn; [reflexivity|]. now rewrite C, IH. }
  assert (F : full_count w' y' = full_count w y).
  { unfold full_count. rewrite E2. generalize 0. generalize (y_cons y). induction l as [|c l IH]; intros a; cbn; [reflexivity|]. rewrite C. apply IH. }
  split; [eapply resized_sized; eauto|]. destruct R as (R1 & R2 & _). unfold body_count, con_count. rewrite E1, E2, R1, R2, F, K1.
  split; [exact P2|]. split; [exact P3|]. split.
  - intros i b E. unfold ld. rewrite K2. rewrite (proj1 (M b ltac:(eapply nth_error_In; eauto))). now apply P4.
  - intros i Hi. rewrite O. now apply P5.
Qed.

Lemma call_step x w y t : ready x w y ->
  match sub x with
  | Ok x1 =>
      match propagate k y0 (snd x1) w0 with
      | Ok W => exists w' y', process k h 1 t w y = Ok (w', y') /\ ready x1 w' y' /\ same_scene W w'
      | _ => forall p, process k h 1 t w y <> Ok p
      end
  | _ => forall p, process k h 1 t w y <> Ok p
  end.
Proof.
  intros [(m & HR) HT HO (s1 & Ep & HA) Em Eh (o' & Eo & HO')]. destruct x as [[o hp] s]. cbn [fst snd] in *.
  pose proof (yreach_inv _ _ _ _ _ HR) as (Iv & Is & Il & _).
  pose proof (reg_listed _ _ _ (yreach_reg _ _ _ _ _ HR)) as HL.
  destruct (twins_gens w y HT) as [Gy Oy].
  rewrite process_unfold, Ep. cbn [bind]. rewrite Em. cbn [bind]. unfold the_ode. rewrite Eo. cbn [bind].
  change (Z.of_nat 1) with 1%Z. rewrite h1, loop_one.
  assert (Ehp : with_hm (y_heap y) (hm hp) = hp). { unfold with_hm. rewrite Eh. now destruct hp. }
  rewrite Ehp.
  assert (Ihp : hinv priv hp). { split; [exact (pc_elim _ _ _ Em (populate_mass_wfs priv w y _ (proj1 Iv)))|]. rewrite <- Eh. apply Iv. }
  pose proof (substep_agree w0 y0 w y (pcf k w0 y0 h) (pcf k w y h) h (o, hp, s) (o', hp, s1) HT gens (pcf_alike k _ _ _ _ h HT cons)
    (conj HO' (conj eq_refl HA))) as RR.
  destruct (sub (o, hp, s)) as [x1| | |]; destruct (substep w y (pcf k w y h) h (o', hp, s1)) as [x1'| | |] eqn:E1; try contradiction; try discriminate.
  destruct RR as (T1 & T2 & T3). cbn [bind].
  assert (Hh : holds priv hp s1 x1').
  { refine (pc_elim _ _ _ E1 (substep_holds priv k w y h hp s1 _ Gy Oy Il _)). split; [exact Ihp|]. split; [now split|]. split; [apply kept_refl|apply resized_refl]. }
  pose proof HT as (B1 & B2 & B3 & B4 & B5 & _).
  assert (RP : rel (propagate k y0 (snd x1) w0) (propagate k y (snd x1') w) (fun v v' => True -> same_scene v v')).
  { apply (propagate_two True); auto. apply T3. }
  destruct (propagate k y0 (snd x1) w0) as [W| | |]; destruct (propagate k y (snd x1') w) as [w2| | |] eqn:E2; try contradiction; try discriminate.
  specialize (RP I). cbn [bind].
  destruct (profiling k priv m w y HR) as [Fr _].
  destruct (record_ok (put y x1') t Fr) as [y2 E3]. rewrite E3. cbn [bind]. exists w2, (ticked k h y2). split; [reflexivity|]. split; [|exact RP].
  pose proof (pc_elim _ _ _ E3 (record_profile_reg (put y x1') t)) as ((D1 & D2 & D3 & D4 & D5) & D6 & D7 & D8 & _).
  assert (PE : process k h 1 t w y = Ok (w2, ticked k h y2)).
  { rewrite process_unfold, Ep. cbn [bind]. rewrite Em. cbn [bind]. unfold the_ode. rewrite Eo. cbn [bind].
    change (Z.of_nat 1) with 1%Z. rewrite h1, loop_one, Ehp, E1. cbn [bind]. rewrite E2. cbn [bind]. now rewrite E3. }
  pose proof (pc_elim _ _ _ E2 (propagate_outside k y (snd x1') w)) as O2.
  assert (SR : y_bodies (ticked k h y2) = y_bodies y /\ y_cons (ticked k h y2) = y_cons y /\ y_gens (ticked k h y2) = y_gens y /\
    y_sle (ticked k h y2) = y_sle y /\ y_bias (ticked k h y2) = y_bias y) by (destruct k; cbn [ticked y_bodies y_cons y_gens y_sle y_bias]; now rewrite D1, D2, D3, D4, D5).
  assert (SC : y_state (ticked k h y2) = snd x1' /\ y_heap (ticked k h y2) = snd (fst x1') /\ y_ode (ticked k h y2) = Some (fst (fst x1')))
    by (destruct k; cbn [ticked y_state y_heap y_ode]; now rewrite D6, D7, D8).
  pose proof (outside_twins w y w2 _ SR HL O2) as T'. destruct SC as (SC1 & SC2 & SC3).
  assert (SM : same_masses w w2 y) by (intros b _; destruct O2 as (O2 & _); destruct (O2 b) as (_ & X & Y & _); now split).
  destruct Hh as (H1 & (H2 & H3) & H4 & H5).
  constructor.
  - exists (mkBooks (in_body m) (in_con m) (in_gen m) ((h, t) :: calls m)). eapply y_process; eauto.
  - eapply twins_trans; eauto.
  - eapply outside_trans; [exact HO|]. destruct O2 as (X & Y & Z). split; [now rewrite <- B1|]. split; [now rewrite <- B2|exact Z].
  - assert (IP : in_place w2 (ticked k h y2) (snd x1')).
    { eapply (kept_in_place w y); [apply SR|apply SR|exact SM|intros c; apply T'|exact H4|exact H5|].
      exact (pc_elim _ _ _ Ep (populate_in_place w y Is)). }
    assert (SH : shown w2 (ticked k h y2) (snd x1')).
    { unfold propagate in E2. destruct (bodies_back y (snd x1') w) as [w1| | |] eqn:E4; try discriminate. cbn [bind] in E2.
      pose proof (pc_elim _ _ _ E4 (bodies_back_shown w y (snd x1') HL)) as S1.
      pose proof (pc_elim _ _ _ E2 (forces_back_alone _ y (snd x1') w1)) as (_ & F1 & _).
      intros i b E. rewrite F1. apply S1. now rewrite <- (proj1 SR). }
    destruct (proj1 (wp_ok _ _) (repopulate w2 (ticked k h y2) (snd x1') SC1 IP SH)) as (s2 & Es & A2). exists s2. split; [exact Es|].
    eapply agree_trans; [|].
    + eapply agree_mono; [|exact T3]. reflexivity.
    + replace N with (body_count (ticked k h y2)); [exact A2|]. unfold body_count. rewrite (proj1 SR), B1. reflexivity.
  - rewrite SC2, <- T2. apply (mass_again (priv iM) (priv iMinv) w y w2 (ticked k h y2) (hm (y_heap y)) (hm hp)); auto; try apply Iv. apply SR.
  - now rewrite SC2, <- T2.
  - exists (fst (fst x1')). split; [exact SC3|exact T1].
Qed.

(** ** all of them *)
Lemma prop_len (s s' : st) : (forall f, length (s_arr s' f) = length (s_arr s f)) -> forall W, propagate k y0 s w0 = Ok W -> exists W', propagate k y0 s' w0 = Ok W'.
Proof.
  intros L W E. pose proof (propagate_two False s s' L (fun x => match x with end) k y0 y0 w0 w0 eq_refl eq_refl (outside_refl y0 w0)) as R.
  rewrite E in R. destruct (propagate k y0 s' w0); try contradiction. eauto.
Qed.
Lemma sub_len (x : trip) : pc (sub x) (fun x1 => resized (snd x) (snd x1)).
Proof.
  destruct x as [[o hp] s]. destruct (twins_gens w0 y0) as [Gy Oy]; [now repeat split|]. unfold substep. apply pc_any; intros o1.
  eapply (pc_seq _ _ (fun x1 => resized s (snd x1))); [|intros [[o2 hp2] s2] X; exact X]. cbn [snd].
  assert (K : forall fuel o1 hp s0 s, resized s0 s -> pc (ode_rounds fuel w0 y0 (pcf k w0 y0 h) o1 hp s) (fun x1 => resized s0 (snd x1)));
    [|apply K, resized_refl]. clear o hp s o1. induction fuel as [|fuel IH]; intros o1 hp s0 s R; cbn [ode_rounds]; [exact I|].
  eapply (pc_seq _ _ (fun x => resized s0 (snd (fst x)))).
  { eapply pc_mono; [apply ode_step_resized|]. intros x X. eapply resized_trans; [exact R|exact X]. }
  intros [[o2 s2] d] R2. cbn [fst snd] in R2.
  eapply (pc_seq _ _ (resized s0)). { eapply pc_mono; [apply process_forces_resized, Oy|]. intros x X. eapply resized_trans; [exact R2|exact X]. }
  intros s3 R3. eapply (pc_seq _ _ (fun x => resized s0 (snd x))).
  { eapply (pc_mono _ (fun x => alters reacts s3 (snd x))); [|intros x X; eapply resized_trans; [exact R3|eapply alters_resized; exact X]].
    destruct k; cbn [pcf]; [unfold opt_process_constraints|unfold gen_process_constraints].
    - do 3 (apply pc_any; intros ?). apply pc_any; intros [hp4 ok]. do 3 (apply pc_any; intros ?). eapply pc_seq; [apply apply_reactions_alters|]. intros u U. exact U.
    - do 3 (apply pc_any; intros ?). apply pc_any; intros [hp4 ok]. do 2 (apply pc_any; intros ?). eapply pc_seq; [apply apply_reactions_alters|]. intros u U. exact U. }
  intros [hp4 s4] R4. cbn [snd] in R4. eapply (pc_seq _ _ (fun x => resized s0 (snd x))).
  { eapply pc_mono; [apply ode_solve_resized|]. intros x X. eapply resized_trans; [exact R4|exact X]. }
  intros [o5 s5] R5. cbn [snd] in R5. destruct d; [exact R5|now apply IH].
Qed.
Lemma calls_loop ts : forall i x w y, ready x w y -> ts <> [] ->
  match for_from (length ts) i (fun _ => sub) x with
  | Ok xn =>
      match propagate k y0 (snd xn) w0 with
      | Ok W => exists w' y', calls_of k h ts w y = Ok (w', y') /\ same_scene W w'
      | _ => forall p, calls_of k h ts w y <> Ok p
      end
  | _ => forall p, calls_of k h ts w y <> Ok p
  end.
Proof.
  induction ts as [|t ts IH]; intros i x w y R Nz; [congruence|]. clear Nz. cbn [length for_from calls_of].
  pose proof (call_step x w y t R) as CS. destruct (sub x) as [x1| | |] eqn:Ex; cbn [bind];
    try (intros p E; destruct (process k h 1 t w y) as [[w1 y1]| | |] eqn:Ep; try discriminate; now elim (CS (w1, y1))).
  destruct ts as [|t' ts].
  { cbn [length for_from]. destruct (propagate k y0 (snd x1) w0) as [W| | |]; cbn [calls_of];
      try (intros p E; destruct (process k h 1 t w y) as [[w1 y1]| | |] eqn:Ep; try discriminate; now elim (CS (w1, y1))).
    destruct CS as (w' & y' & E & _ & S). rewrite E. cbn [bind]. eauto. }
  destruct (propagate k y0 (snd x1) w0) as [W| | |] eqn:EW.
  { destruct CS as (w1 & y1 & E & R1 & _). rewrite E. cbn [bind]. apply (IH (S i) x1 w1 y1 R1). discriminate. }
  all: assert (NO : forall p, (let* (w, y) := process k h 1 t w y in calls_of k h (t' :: ts) w y) <> Ok p)
      by (intros p E; destruct (process k h 1 t w y) as [[w1 y1]| | |] eqn:Ep; try discriminate; now elim (CS (w1, y1))).
  all: destruct (for_from _ _ _ x1) as [xn| | |] eqn:En; try exact NO.
  all: destruct (propagate k y0 (snd xn) w0) as [W| | |] eqn:EWn; try exact NO.
  all: exfalso; assert (Rn : resized (snd x1) (snd xn)); [|destruct Rn as (_ & _ & L & _); destruct (prop_len (snd xn) (snd x1) (fun f => eq_sym (L f)) W EWn) as [W' E']; congruence].
  all: refine (pc_elim _ (fun x => resized (snd x1) (snd x)) _ En _); apply for_from_pc; [|apply resized_refl]; intros j u U;
    (eapply pc_mono; [apply sub_len|]); intros v V; eapply resized_trans; [exact U|exact V].
Qed.
End Run.

Lemma sub_stepping k priv dt t ts m w y : let h := cdiv dt (cofZ (Z.of_nat (length ts))) in
  yreach k priv m w y -> ts <> [] -> cdiv h (cofZ 1) = h -> all_heedless w y -> cons_heedless w y ->
  (forall w1 y1, process k dt (length ts) t w y = Ok (w1, y1) -> exists w2 y2, calls_of k h ts w y = Ok (w2, y2) /\ same_scene w1 w2) /\
  (forall w2 y2, calls_of k h ts w y = Ok (w2, y2) -> exists w1 y1, process k dt (length ts) t w y = Ok (w1, y1) /\ same_scene w1 w2).
Proof.
  intros h HR Nz h1 Hg Hc.
  assert (X : match process k dt (length ts) t w y with
    | Ok (w1, _) => exists w2 y2, calls_of k h ts w y = Ok (w2, y2) /\ same_scene w1 w2
    | _ => forall p, calls_of k h ts w y <> Ok p end).
  { assert (El : exists n, length ts = S n) by (destruct ts; [congruence|cbn; eauto]). destruct El as [n El].
    rewrite El, process_unfold, <- El. fold h.
    assert (G : forall r, (forall t, exists e, process k h 1 t w y = e /\ forall p, e <> Ok p) -> r = calls_of k h ts w y -> forall p, r <> Ok p).
    { intros r H -> p. destruct ts as [|t0 ts]; [congruence|]. cbn [calls_of]. destruct (H t0) as (e & -> & Ne). destruct e as [[w1 y1]| | |]; try discriminate.
      now elim (Ne (w1, y1)). }
    destruct (populate_state w y) as [s| | |] eqn:Ep; cbn [bind];
      try (refine (G _ _ eq_refl); intros t0; eexists; split; [rewrite process_unfold, Ep; reflexivity|discriminate]).
    destruct (populate_mass w y (hm (y_heap y))) as [ms| | |] eqn:Em; cbn [bind];
      try (refine (G _ _ eq_refl); intros t0; eexists; split; [rewrite process_unfold, Ep; cbn [bind]; rewrite Em; reflexivity|discriminate]).
    unfold the_ode. destruct (y_ode y) as [o|] eqn:Eo; cbn [bind];
      [|refine (G _ _ eq_refl); intros t0; eexists; split; [rewrite process_unfold, Ep; cbn [bind]; rewrite Em; cbn [bind]; unfold the_ode; rewrite Eo; reflexivity|discriminate]].
    set (x := (o, with_hm (y_heap y) ms, s)).
    assert (R : ready k priv w y x w y).
    { constructor; cbn [x fst snd]; eauto using agree_refl, ode_alike_refl, outside_refl. now repeat split. }
    pose proof (calls_loop k priv h w y h1 Hg Hc ts 0 x w y R Nz) as CL. unfold loop, for_.
    destruct (for_from (length ts) 0 (fun _ => substep w y (pcf k w y h) h) x) as [xn| | |]; cbn [bind]; try exact CL.
    destruct (propagate k y (snd xn) w) as [W| | |]; cbn [bind]; try exact CL.
    destruct (profiling k priv m w y HR) as [Fr _]. destruct (record_ok (put y xn) t Fr) as [y2 E3]. rewrite E3. cbn [bind]. exact CL. }
  split.
  - intros w1 y1 E. rewrite E in X. exact X.
  - intros w2 y2 E. destruct (process k dt (length ts) t w y) as [[w1 y1]| | |]; try (now elim (X (w2, y2))).
    destruct X as (w3 & y3 & E' & S). rewrite E in E'. injection E' as <- <-. eauto.
Qed.
End S.
