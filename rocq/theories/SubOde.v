(** * Integrators and rounds on states that agree but for accelerations. *)

From Coq Require Import Reals FunctionalExtensionality.
From Verif Require Import Base Targets Matrix Sparse Sle State Ode Forces Constraints System Logic
  SpecSle SpecState SpecSys SpecDyn SpecSub StateFacts SubSim.
Local Open Scope nat_scope.

Section S.
Context {tg : target}.
Notation st := (sstate tg).
Implicit Types (hp : heap tg) (w : world tg) (y : sys tg) (p q : fld -> nat -> bool) (o : ode tg).

(** ** copying *)
Lemma firstn_nth {A} k (l : list A) i : nth_error (firstn k l) i = if Nat.ltb i k then nth_error l i else None.
Proof.
  revert k i. induction l as [|a l IH]; intros [|k] [|i]; try reflexivity; cbn [firstn nth_error].
  - now destruct (Nat.ltb (S i) (S k)).
  - rewrite IH. reflexivity.
Qed.
Lemma skipn_nth {A} k (l : list A) i : k <= i -> nth_error (skipn k l) (i - k) = nth_error l i.
Proof.
  revert k l. induction i as [|i IH]; intros k l Hi.
  - now replace k with 0 by lia.
  - destruct k as [|k]; [reflexivity|]. destruct l as [|a l]; [now destruct (S i - S k)|]. cbn [skipn Nat.sub nth_error]. apply IH. lia.
Qed.
Lemma copy_arr_agree p (d d' s s' : st) f : calm p -> agree quiet d d' -> agree p s s' ->
  rel (copy_arr s f d) (copy_arr s' f d') (agree quiet).
Proof.
  intros C D H. pose proof D as (D1 & D2 & D3 & D4 & D5 & D6). pose proof H as (H1 & H2 & H3 & H4 & H5 & H6).
  unfold copy_arr. rewrite D1, D2. set (k := if is_reaction f then _ else _). unfold memcpy. rewrite D5, H5.
  destruct (_ || _) eqn:E; [exact I|]. apply Bool.orb_false_iff in E. destruct E as [E1 E2]. apply Nat.ltb_ge in E1, E2.
  cbn [bind rel]. apply (agree_arr quiet); auto.
  - rewrite !app_length, !firstn_length, !skipn_length, D5, H5. reflexivity.
  - intros i Hq. assert (L : length (firstn k (s_arr s' f)) = k) by (rewrite firstn_length, H5; lia).
    assert (L' : length (firstn k (s_arr s f)) = k) by (rewrite firstn_length; lia).
    destruct (Nat.lt_ge_cases i k) as [Hi|Hi].
    + rewrite !nth_error_app1, !firstn_nth by lia. destruct (Nat.ltb i k); [|reflexivity]. apply H6, C.
      unfold quiet in Hq. now apply Bool.negb_true_iff in Hq.
    + rewrite !nth_error_app2 by lia. rewrite L, L'.
      rewrite !skipn_nth by exact Hi. now apply D6.
Qed.
Lemma resize_agree (d d' : st) b c : agree quiet d d' -> agree quiet (st_resize d b c) (st_resize d' b c).
Proof.
  intros D. pose proof D as (D1 & D2 & D3 & D4 & D5 & D6). unfold st_resize. rewrite D1, D2.
  destruct (_ && _); [exact D|]. repeat split; cbn; auto.
Qed.
Lemma copy_agree p (d d' s s' : st) : calm p -> agree quiet d d' -> agree p s s' -> rel (st_copy d s) (st_copy d' s') (agree quiet).
Proof.
  intros C D H. pose proof H as (H1 & H2 & H3 & _). unfold st_copy. rewrite H1, H2, H3.
  pose proof (resize_agree d d' (s_n s) (s_nc s) D) as R. set (e := st_resize d _ _) in *. set (e' := st_resize d' _ _) in *.
  destruct (Nat.eqb _ _); [exact R|]. pose proof R as (_ & R2 & R3 & _). rewrite R2, R3.
  apply rel_any; intros im. cbv zeta.
  do 15 (eapply rel_bind; [apply (copy_arr_agree p _ _ s s'); [exact C| |exact H]; first [eassumption|now apply agree_imap]|]; intros ? ? ?).
  eapply copy_arr_agree; eauto.
Qed.

(** ** integrators *)
Definition ode_alike o (o' : ode tg) : Prop :=
  match o, o' with
  | OdeBase d, OdeBase d' => d' = d
  | OdeEuler d, OdeEuler d' => d' = d
  | OdeNsv d, OdeNsv d' => d' = d
  | OdeRk4 r, OdeRk4 r' => rk_dt r' = rk_dt r /\ rk_st r' = rk_st r /\ rk_next r' = rk_next r /\
      agree quiet (rk_init r) (rk_init r') /\ agree quiet (rk_acc r) (rk_acc r')
  | _, _ => False
  end.
Definition fresh o : Prop := match o with OdeRk4 r => rk_st r = Stage1 | _ => True end.
Lemma ode_alike_refl o : ode_alike o o.
Proof. destruct o; cbn; auto. repeat split; auto using agree_refl. Qed.
Lemma ode_alike_end o (o' : ode tg) : ode_alike o o' -> ode_alike (ode_end o) (ode_end o').
Proof. destruct o, o'; cbn; auto. intros (A & B & C & D & E). repeat split; auto; try apply D; apply E. Qed.
Lemma start_agree p o (o' : ode tg) (s s' : st) h : calm p -> ode_alike o o' -> agree p s s' ->
  rel (ode_start o s h) (ode_start o' s' h) (fun a a' => ode_alike a a' /\ fresh a).
Proof.
  intros C O H. destruct o as [|d|d|r], o' as [|d'|d'|r']; try contradiction; cbn [ode_start]; try (now split).
  destruct O as (O1 & O2 & O3 & O4 & O5). unfold rk4_start.
  eapply (rel_bind _ _ _ _ (fun a a' => ode_alike (OdeRk4 a) (OdeRk4 a') /\ rk_st a = Stage1)); [|intros a a' X; exact X].
  eapply rel_bind; [apply (copy_agree p); eassumption|]. intros i i' Hi.
  eapply rel_bind; [apply (copy_agree p); eassumption|]. intros a a' Ha.
  exact (conj (conj eq_refl (conj eq_refl (conj O3 (conj Hi Ha)))) eq_refl).
Qed.
Lemma half_agree r (r' : rk4 tg) (s s' : st) f g i : rk_dt r' = rk_dt r -> agree quiet (rk_init r) (rk_init r') -> agree allover s s' -> is_accel f = false ->
  rel (rk_half r s f g i) (rk_half r' s' f g i) (agree allover).
Proof.
  intros E I H F. unfold rk_half. rewrite (agree_ld quiet _ _ f _ I) by (now apply calm_quiet). rewrite (agree_ld _ _ _ g _ H eq_refl), E.
  do 2 (apply rel_any; intros ?). now apply sto_agree.
Qed.
Lemma full_agree r (r' : rk4 tg) (s s' : st) f g i : rk_dt r' = rk_dt r -> agree quiet (rk_init r) (rk_init r') -> agree allover s s' -> is_accel f = false ->
  rel (rk_full r s f g i) (rk_full r' s' f g i) (agree allover).
Proof.
  intros E I H F. unfold rk_full. rewrite (agree_ld quiet _ _ f _ I) by (now apply calm_quiet). rewrite (agree_ld _ _ _ g _ H eq_refl), E.
  do 2 (apply rel_any; intros ?). now apply sto_agree.
Qed.
Lemma step_agree n o (o' : ode tg) (s s' : st) : n = 0 \/ fresh o -> ode_alike o o' -> agree (but_accel n) s s' ->
  rel (ode_step o s) (ode_step o' s') (fun x x' => ode_alike (fst (fst x)) (fst (fst x')) /\ agree (but_accel n) (snd (fst x)) (snd (fst x')) /\ snd x' = snd x).
Proof.
  intros N O H. destruct o as [|d|d|r], o' as [|d'|d'|r']; try contradiction; cbn [ode_step]; try (cbn in O; subst; split; [reflexivity|]; split; [|reflexivity]; first [exact H|now apply agree_dt]).
  pose proof O as (O1 & O2 & O3 & O4 & O5). unfold rk4_step. rewrite O1, O2.
  eapply (rel_bind _ _ _ _ (fun x x' => ode_alike (OdeRk4 (fst (fst x))) (OdeRk4 (fst (fst x'))) /\ agree (but_accel n) (snd (fst x)) (snd (fst x')) /\ snd x' = snd x));
    [|intros [[a b] c] [[a' b'] c'] X; exact X].
  eapply (rel_bind _ _ _ _ (agree (but_accel n))); [|intros t t' Ht; cbn; repeat split; auto; try apply O4; try apply O5; apply Ht].
  assert (N' : rk_st r <> Stage1 -> n = 0) by (intros X; destruct N as [N|N]; [exact N|contradiction]).
  assert (K : forall dt dt' (f g : nat -> st -> res st), dt' = dt -> rk_st r <> Stage1 ->
    (forall i (t t' : st), agree allover t t' -> rel (f i t) (g i t') (agree allover)) ->
    rel (let* s := for_ (s_n s) f s in Ok (st_with_dt s dt)) (let* s := for_ (s_n s') g s' in Ok (st_with_dt s dt')) (agree (but_accel n))).
  { intros dt dt' f g -> X HF. rewrite (N' X) in *. pose proof H as (E & _). rewrite E.
    eapply rel_bind; [apply (for_rel _ _ (fun _ => agree allover)); [now apply but_accel_0|]; intros; now apply HF|].
    intros t t' Ht. cbn. now apply agree_dt, but_accel_0. }
  destruct (rk_st r) eqn:Er; try (apply K; [reflexivity|discriminate|]; intros i t t' Ht).
  - cbn. now apply agree_dt.
  - do 5 (eapply rel_bind; [apply half_agree; eauto|]; intros ? ? ?). now apply half_agree.
  - do 5 (eapply rel_bind; [apply half_agree; eauto|]; intros ? ? ?). now apply half_agree.
  - do 5 (eapply rel_bind; [apply full_agree; eauto|]; intros ? ? ?). now apply full_agree.
  - exact H.
  - exact H.
Qed.
Lemma integrate_agree (s s' : st) f g i dt : agree allover s s' -> rel (integrate s f g i dt) (integrate s' f g i dt) (agree allover).
Proof. intros H. unfold integrate. rewrite (agree_ld _ _ _ g _ H eq_refl). apply rel_any; intros v. now apply sto_add_agree. Qed.
Lemma accum_agree dt wt (s s' : st) f g i (a a' : st) : agree allover s s' -> is_accel f = false -> agree quiet a a' ->
  rel (rk_accum dt wt s f g i a) (rk_accum dt wt s' f g i a') (agree quiet).
Proof.
  intros H F A. unfold rk_accum. rewrite (agree_ld _ _ _ g _ H eq_refl). apply rel_any; intros v. apply sto_add_agree; [exact A|now apply calm_quiet].
Qed.
Lemma emit_agree (a a' : st) f i (s s' : st) : agree quiet a a' -> is_accel f = false -> agree allover s s' ->
  rel (rk_emit a f i s) (rk_emit a' f i s') (agree allover).
Proof.
  intros A F H. unfold rk_emit. rewrite (agree_ld quiet _ _ f _ A) by (now apply calm_quiet). apply rel_any; intros x. now apply sto_agree.
Qed.
Lemma solve_agree o (o' : ode tg) (s s' : st) : ode_alike o o' -> agree allover s s' ->
  rel (ode_solve o s) (ode_solve o' s') (fun x x' => ode_alike (fst x) (fst x') /\ agree allover (snd x) (snd x')).
Proof.
  intros O H. destruct o as [d|d|d|r], o' as [d'|d'|d'|r']; try contradiction; cbn [ode_solve].
  - now split.
  - cbn in O. subst d'. eapply (rel_bind _ _ _ _ (agree allover)); [|intros t t' Ht; now split].
    unfold euler_solve. cbn [st_with_dt s_n]. pose proof H as (E & _). rewrite E.
    apply (for_rel _ _ (fun _ => agree allover)); [now apply agree_dt|]. intros i t t' _ Ht.
    do 5 (eapply rel_bind; [apply integrate_agree; eassumption|]; intros ? ? ?). now apply integrate_agree.
  - cbn in O. subst d'. eapply (rel_bind _ _ _ _ (agree allover)); [|intros t t' Ht; now split].
    unfold nsv_solve. cbn [st_with_dt s_n]. pose proof H as (E & _). rewrite E.
    apply (for_rel _ _ (fun _ => agree allover)); [now apply agree_dt|]. intros i t t' _ Ht.
    do 5 (eapply rel_bind; [apply integrate_agree; eassumption|]; intros ? ? ?). now apply integrate_agree.
  - pose proof O as (O1 & O2 & O3 & O4 & O5). unfold rk4_solve. rewrite O1, O2. pose proof H as (E1 & E2 & _). rewrite E1, E2. cbv zeta.
    eapply (rel_bind _ _ _ _ (fun x x' => ode_alike (OdeRk4 (fst x)) (OdeRk4 (fst x')) /\ agree allover (snd x) (snd x'))); [|intros [a b] [a' b'] X; exact X].
    eapply (rel_bind _ _ _ _ (agree quiet)).
    { apply (for_rel _ _ (fun _ => agree quiet)); [exact O5|]. intros i a a' _ Ha.
      do 5 (eapply rel_bind; [apply accum_agree; [exact H|reflexivity|eassumption]|]; intros ? ? ?). now apply accum_agree. }
    intros a a' Ha. eapply (rel_bind _ _ _ _ (agree quiet)).
    { apply (for_rel _ _ (fun _ => agree quiet)); [exact Ha|]. intros i b b' _ Hb.
      do 2 (eapply rel_bind; [apply accum_agree; [exact H|reflexivity|eassumption]|]; intros ? ? ?). now apply accum_agree. }
    intros b b' Hb. eapply (rel_bind _ _ _ _ (agree allover)).
    { destruct (rk_st r); try exact H. eapply (rel_bind _ _ _ _ (agree allover)).
      - apply (for_rel _ _ (fun _ => agree allover)); [exact H|]. intros i t t' _ Ht.
        do 5 (eapply rel_bind; [apply emit_agree; [exact Hb|reflexivity|eassumption]|]; intros ? ? ?). now apply emit_agree.
      - intros t t' Ht. pose proof Ht as (_ & E & _). rewrite E. apply (for_rel _ _ (fun _ => agree allover)); [exact Ht|]. intros i u u' _ Hu.
        do 2 (eapply rel_bind; [apply emit_agree; [exact Hb|reflexivity|eassumption]|]; intros ? ? ?). now apply emit_agree. }
    intros t t' Ht. cbn. repeat split; auto; try apply O4; try apply Hb; apply Ht.
Qed.

(** ** rounds *)
Definition trip := (ode tg * heap tg * st)%type.
Definition trips (x x' : trip) : Prop :=
  ode_alike (fst (fst x)) (fst (fst x')) /\ snd (fst x') = snd (fst x) /\ agree allover (snd x) (snd x').
Definition runs_alike (n : nat) (pcf pcf' : heap tg -> st -> res (heap tg * st)) : Prop :=
  forall hp s s', agree (but_accel n) s s' -> rel (pcf hp s) (pcf' hp s') run_alike.
Lemma rounds_agree w y w' y' pcf pcf' : twins w y w' y' -> all_heedless w y -> runs_alike (body_count y) pcf pcf' ->
  forall fuel n o o' hp s s', n <= body_count y -> n = 0 \/ fresh o -> ode_alike o o' -> agree (but_accel n) s s' ->
  rel (ode_rounds fuel w y pcf o hp s) (ode_rounds fuel w' y' pcf' o' hp s') trips.
Proof.
  intros T G P. induction fuel as [|fuel IH]; intros n o o' hp s s' Hn N O H; cbn [ode_rounds]; [exact I|].
  eapply rel_bind; [apply (step_agree n); eassumption|]. intros [[o1 s1] d] [[o1' s1'] d'] (O1 & H1 & Ed). cbn [fst snd] in *. subst d'.
  eapply rel_bind. { apply (forces_agree n w w' y y'); try apply T; eassumption. }
  intros s2 s2' H2. eapply rel_bind.
  { apply P. eapply agree_mono; [|exact H2]. intros f i. unfold but_accel. rewrite !Bool.orb_true_iff, !Nat.leb_le. intros [X|X]; [auto|right; lia]. }
  intros [hp3 s3] [hp3' s3'] [E3 H3]. cbn [fst snd] in *. subst hp3'.
  eapply rel_bind; [apply solve_agree; eassumption|]. intros [o4 s4] [o4' s4'] [O4 H4]. cbn [fst snd] in *.
  destruct d; [now split|]. apply (IH 0); auto; [lia|now apply but_accel_0].
Qed.
(** start, the rounds of one sub-step, end *)
Definition substep w y (pcf : heap tg -> st -> res (heap tg * st)) (h : cell tg) (x : trip) : res trip :=
  let '(o, hp, s) := x in
  let* o := ode_start o s h in
  let* (o, hp, s) := ode_rounds 8 w y pcf o hp s in
  Ok (ode_end o, hp, s).
Definition starts (n : nat) (x x' : trip) : Prop :=
  ode_alike (fst (fst x)) (fst (fst x')) /\ snd (fst x') = snd (fst x) /\ agree (but_accel n) (snd x) (snd x').
Lemma substep_agree w y w' y' pcf pcf' h x x' : twins w y w' y' -> all_heedless w y -> runs_alike (body_count y) pcf pcf' ->
  starts (body_count y) x x' -> rel (substep w y pcf h x) (substep w' y' pcf' h x') trips.
Proof.
  intros T G P. destruct x as [[o hp] s], x' as [[o' hp'] s']. intros (O & E & H). cbn [fst snd] in *. subst hp'. unfold substep.
  eapply rel_bind; [apply (start_agree (but_accel (body_count y))); [apply calm_but|exact O|exact H]|]. intros o1 o1' [O1 F1].
  eapply rel_bind; [apply (rounds_agree w y w' y' pcf pcf' T G P 8 (body_count y)); auto|].
  intros [[o2 hp2] s2] [[o2' hp2'] s2'] (O2 & E2 & H2). cbn [fst snd] in *. repeat split; auto; try apply H2. now apply ode_alike_end.
Qed.

(** ** what a sub-step keeps *)
Definition kept (s s' : st) : Prop := s_imap s' = s_imap s /\ s_arr s' Fm = s_arr s Fm.
Lemma kept_refl (s : st) : kept s s.
Proof. now split. Qed.
Lemma kept_trans (a b c : st) : kept a b -> kept b c -> kept a c.
Proof. intros [A B] [C D]. split; congruence. Qed.
Lemma sto_kept (s0 s : st) f z v : f <> Fm -> kept s0 s -> pc (sto s f z v) (kept s0).
Proof.
  intros N [A B]. unfold sto. apply pc_any. intros a. split; [exact A|]. cbn [st_with_arr s_arr]. destruct (fld_eqb Fm f) eqn:E; [|exact B].
  apply fld_eqb_eq in E. congruence.
Qed.
Lemma sto_add_kept (s0 s : st) f z v : f <> Fm -> kept s0 s -> pc (sto_add s f z v) (kept s0).
Proof. intros N H. unfold sto_add. apply pc_any. intros x. now apply sto_kept. Qed.
Ltac kp := repeat first
  [ assumption | apply kept_refl
  | apply sto_kept; [discriminate|assumption]
  | apply sto_add_kept; [discriminate|assumption]
  | match goal with
    | |- pc (bind (sto _ _ _ _) _) (kept ?s0) => apply (pc_seq _ _ (kept s0)); [apply sto_kept; [discriminate|assumption]|]; intros ? ?
    | |- pc (bind (sto_add _ _ _ _) _) (kept ?s0) => apply (pc_seq _ _ (kept s0)); [apply sto_add_kept; [discriminate|assumption]|]; intros ? ?
    | |- pc (for_ _ _ _) (kept ?s0) => apply (for_pc _ (kept s0)); [intros ? ? ?|]
    end
  | apply pc_any; intros ? ].
Lemma force_kept (s0 s : st) x yl fx fy z : kept s0 s -> pc (st_apply_force s x yl fx fy z) (kept s0).
Proof. intros H. unfold st_apply_force. apply pc_any. intros [a b]. kp. Qed.
Lemma gen_kept (g : gkind tg) bs (s0 s : st) : heedless g -> kept s0 s -> pc (gen_apply g bs s) (kept s0).
Proof.
  intros Hg H. destruct g as [g|f|sp|mo|f]; cbn [gen_apply].
  - unfold gravity_apply. kp.
  - unfold static_apply. apply pc_any; intros b. now apply force_kept.
  - unfold spring_apply. destruct (sp_b1 sp), (sp_b2 sp); try exact H. cbv zeta.
    apply pc_any; intros [[[? ?] ?] ?]. apply pc_any; intros [[[? ?] ?] ?]. apply pc_any; intros far.
    apply (pc_seq _ _ (kept s0)); [now apply force_kept|]. intros s1 H1. now apply force_kept.
  - contradiction.
  - apply pc_intro. intros s' E. destruct (proj1 Hg bs s s' E) as (_ & _ & A & _ & _ & B).
    eapply kept_trans; [exact H|]. split; [exact A|]. apply B; discriminate.
Qed.
Lemma forces_kept w y (s0 s : st) : all_heedless w y -> kept s0 s -> pc (process_forces w y s) (kept s0).
Proof.
  intros G H. unfold process_forces. apply (pc_seq _ _ (kept s0)); [kp|]. intros s1 H1.
  apply for_pc; [|exact H1]. intros i t Ht. destruct (nth_error (y_gens y) i) as [g|] eqn:E; cbn [lift_opt bind]; [|exact I].
  apply gen_kept; [|exact Ht]. apply G. eapply nth_error_In; eauto.
Qed.
Lemma integrate_kept (s0 s : st) f g i dt : f <> Fm -> kept s0 s -> pc (integrate s f g i dt) (kept s0).
Proof. intros N H. unfold integrate. apply pc_any; intros v. now apply sto_add_kept. Qed.
Lemma half_kept r (s0 s : st) f g i : f <> Fm -> kept s0 s -> pc (rk_half r s f g i) (kept s0).
Proof. intros N H. unfold rk_half. do 2 (apply pc_any; intros ?). now apply sto_kept. Qed.
Lemma full_kept r (s0 s : st) f g i : f <> Fm -> kept s0 s -> pc (rk_full r s f g i) (kept s0).
Proof. intros N H. unfold rk_full. do 2 (apply pc_any; intros ?). now apply sto_kept. Qed.
Lemma emit_kept acc (s0 s : st) f i : f <> Fm -> kept s0 s -> pc (rk_emit acc f i s) (kept s0).
Proof. intros N H. unfold rk_emit. apply pc_any; intros ?. now apply sto_kept. Qed.
Ltac seqk L := repeat (eapply pc_seq; [apply L; [discriminate|eassumption]|]; intros ? ?); apply L; [discriminate|assumption].
Lemma step_kept o (s0 s : st) : kept s0 s -> pc (ode_step o s) (fun x => kept s0 (snd (fst x))).
Proof.
  intros H. destruct o; cbn [ode_step]; try exact H. eapply (pc_seq _ _ (fun x => kept s0 (snd (fst x)))); [|intros [[? ?] ?] X; exact X].
  unfold rk4_step. eapply (pc_seq _ _ (kept s0)); [|intros s1 H1; exact H1].
  destruct (rk_st r); try exact H.
  - eapply (pc_seq _ _ (kept s0)); [|intros s1 H1; exact H1]. apply for_pc; [|exact H]. intros i t Ht. seqk half_kept.
  - eapply (pc_seq _ _ (kept s0)); [|intros s1 H1; exact H1]. apply for_pc; [|exact H]. intros i t Ht. seqk half_kept.
  - eapply (pc_seq _ _ (kept s0)); [|intros s1 H1; exact H1]. apply for_pc; [|exact H]. intros i t Ht. seqk full_kept.
Qed.
Lemma solve_kept o (s0 s : st) : kept s0 s -> pc (ode_solve o s) (fun x => kept s0 (snd x)).
Proof.
  intros H. destruct o; cbn [ode_solve]; try exact H.
  - eapply (pc_seq _ _ (kept s0)); [|intros s1 H1; exact H1]. unfold euler_solve. cbv zeta. apply for_pc; [|exact H]. intros i t Ht. seqk integrate_kept.
  - eapply (pc_seq _ _ (kept s0)); [|intros s1 H1; exact H1]. unfold nsv_solve. cbv zeta. apply for_pc; [|exact H]. intros i t Ht. seqk integrate_kept.
  - eapply (pc_seq _ _ (fun x => kept s0 (snd x))); [|intros [? ?] X; exact X]. unfold rk4_solve. do 2 (apply pc_any; intros ?).
    eapply (pc_seq _ _ (kept s0)); [|intros s1 H1; exact H1]. destruct (rk_st r); try exact H. eapply (pc_seq _ _ (kept s0)).
    + apply for_pc; [|exact H]. intros i t Ht. seqk emit_kept.
    + intros s1 H1. apply for_pc; [|exact H1]. intros i t Ht. seqk emit_kept.
Qed.
End S.
