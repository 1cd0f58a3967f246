(** * States that agree but for accelerations: forces, constraints, reactions
      and integrators run alike on them. *)

From Coq Require Import Reals FunctionalExtensionality.
From Verif Require Import Base Targets Matrix Sparse Sle State Ode Forces Constraints System Logic
  SpecSle SpecSys SpecDyn SpecSub StateFacts.
Local Open Scope nat_scope.

Section S.
Context {tg : target}.
Notation st := (sstate tg).
Implicit Types (hp : heap tg) (w : world tg) (y : sys tg) (p q : fld -> nat -> bool).

Lemma rel_any {A B B'} (r : res A) (k : A -> res B) (k' : A -> res B') R :
  (forall a, rel (k a) (k' a) R) -> rel (bind r k) (bind r k') R.
Proof. intros H. destruct r; cbn; auto. Qed.
Lemma rel_eq {A} (r r' : res A) : rel r r' eq -> r = r'.
Proof. destruct r, r'; cbn; intros H; try contradiction; congruence. Qed.
Lemma bind_ext {A B} (r : res A) (k k' : A -> res B) : (forall a, k a = k' a) -> bind r k = bind r k'.
Proof. intros H. destruct r; cbn; auto. Qed.
Lemma for_ext {A} n (f g : nat -> A -> res A) s : (forall i t, f i t = g i t) -> for_ n f s = for_ n g s.
Proof. intros H. f_equal. extensionality i. extensionality t. apply H. Qed.

(** ** agreement *)
Lemma agree_refl p (s : st) : agree p s s.
Proof. now repeat split. Qed.
Lemma agree_mono p q (s s' : st) : (forall f i, q f i = true -> p f i = true) -> agree p s s' -> agree q s s'.
Proof. intros H (A & B & C & D & E & F). repeat split; auto. Qed.
Lemma agree_trans p (a b c : st) : agree p a b -> agree p b c -> agree p a c.
Proof.
  intros (A1 & A2 & A3 & A4 & A5 & A6) (B1 & B2 & B3 & B4 & B5 & B6). do 4 (split; [congruence|]). split.
  - intros f. now rewrite B5.
  - intros f i H. now rewrite B6, A6.
Qed.
Lemma agree_sym p (a b : st) : agree p a b -> agree p b a.
Proof. intros (A1 & A2 & A3 & A4 & A5 & A6). repeat split; auto. intros f i H. symmetry. now apply A6. Qed.
Lemma agree_ld p (s s' : st) f z : agree p s s' -> p f (Z.to_nat z) = true -> ld s' f z = ld s f z.
Proof. intros (_ & _ & _ & _ & _ & H) Hp. unfold ld, aget. now rewrite H. Qed.
Lemma agree_dt p (s s' : st) d : agree p s s' -> agree p (st_with_dt s d) (st_with_dt s' d).
Proof. intros (A1 & A2 & A3 & A4 & A5 & A6). now repeat split. Qed.
Lemma agree_imap p (s s' : st) im : agree p s s' -> agree p (st_with_imap s im) (st_with_imap s' im).
Proof. intros (A1 & A2 & A3 & A4 & A5 & A6). now repeat split. Qed.

Definition also p (f : fld) (i : nat) : fld -> nat -> bool := fun g j => p g j || (fld_eqb g f && Nat.eqb j i).
Lemma also_sub p f i g j : p g j = true -> also p f i g j = true.
Proof. unfold also. now intros ->. Qed.
Lemma agree_arr p q (s s' : st) f a a' : agree p s s' -> length a' = length a ->
  (forall g i, q g i = true -> g <> f -> p g i = true) ->
  (forall i, q f i = true -> nth_error a' i = nth_error a i) -> agree q (st_with_arr s f a) (st_with_arr s' f a').
Proof.
  intros (A1 & A2 & A3 & A4 & A5 & A6) L Hq Ha. repeat split; auto; cbn; intros g; destruct (fld_eqb g f) eqn:E; auto.
  - apply fld_eqb_eq in E. subst g. exact Ha.
  - intros i H. apply A6. apply Hq; auto. intros ->. rewrite fld_eqb_refl in E. discriminate.
Qed.
Lemma sto_also p (s s' : st) f z v : agree p s s' -> rel (sto s f z v) (sto s' f z v) (agree (also p f (Z.to_nat z))).
Proof.
  intros H. pose proof H as (A1 & A2 & A3 & A4 & A5 & A6). unfold sto, aset. destruct (Z.ltb z 0); [exact I|].
  destruct (Nat.lt_ge_cases (Z.to_nat z) (length (s_arr s f))) as [Hl|Hl].
  - destruct (list_set_some (s_arr s f) (Z.to_nat z) v Hl) as (a & Ea & La & Na).
    destruct (list_set_some (s_arr s' f) (Z.to_nat z) v) as (a' & Ea' & La' & Na'); [now rewrite A5|].
    rewrite Ea, Ea'. cbn [lift_opt bind rel]. apply (agree_arr p); auto.
    + rewrite La, La'. apply A5.
    + intros g i Hg Ne. unfold also in Hg. rewrite (fld_eqb_neq g f Ne) in Hg. cbn in Hg. now rewrite Bool.orb_false_r in Hg.
    + intros i Hg. rewrite Na, Na'. destruct (Nat.eqb i (Z.to_nat z)) eqn:E; [reflexivity|].
      apply A6. unfold also in Hg. rewrite E, Bool.andb_false_r, Bool.orb_false_r in Hg. exact Hg.
  - rewrite !list_set_none by (rewrite ?A5; exact Hl). exact I.
Qed.
Lemma sto_agree p (s s' : st) f z v : agree p s s' -> rel (sto s f z v) (sto s' f z v) (agree p).
Proof. intros H. eapply rel_mono; [apply sto_also, H|]. intros a b. apply agree_mono. intros g i. apply also_sub. Qed.
Lemma sto_add_agree p (s s' : st) f z v : agree p s s' -> p f (Z.to_nat z) = true ->
  rel (sto_add s f z v) (sto_add s' f z v) (agree p).
Proof. intros H Hp. unfold sto_add. rewrite (agree_ld p s s' f z H Hp). apply rel_any. intros x. now apply sto_agree. Qed.

(** everywhere *)
Definition allover : fld -> nat -> bool := fun _ _ => true.
(** nowhere in the accelerations *)
Definition quiet : fld -> nat -> bool := fun f _ => negb (is_accel f).
Lemma but_accel_calm n f i : is_accel f = false -> but_accel n f i = true.
Proof. unfold but_accel. now intros ->. Qed.
Lemma but_accel_0 (s s' : st) : agree (but_accel 0) s s' <-> agree allover s s'.
Proof. split; apply agree_mono; intros f i _; [unfold but_accel; cbn; apply Bool.orb_true_r|reflexivity]. Qed.

(** p says nothing against the places outside the accelerations *)
Definition calm p : Prop := forall f i, is_accel f = false -> p f i = true.
Lemma calm_but n : calm (but_accel n).
Proof. intros f i H. now apply but_accel_calm. Qed.
Lemma calm_quiet : calm quiet.
Proof. intros f i H. unfold quiet. now rewrite H. Qed.
Lemma calm_allover : calm allover.
Proof. now intros f i. Qed.

Ltac lds H C := repeat match goal with
  | |- context [ld ?s' ?f ?z] =>
      match type of H with agree ?p ?s s' => rewrite (agree_ld p s s' f z H (C f (Z.to_nat z) eq_refl)) end
  end.

(** ** force generators *)
Lemma ltw_agree p (s s' : st) x (yl : cell tg) (z : Z) : calm p -> agree p s s' -> st_local_to_world s' x yl z = st_local_to_world s x yl z.
Proof. intros C H. unfold st_local_to_world. now lds H C. Qed.
Lemma vap_agree p (s s' : st) x (yl : cell tg) (z : Z) : calm p -> agree p s s' -> st_velocity_at_point s' x yl z = st_velocity_at_point s x yl z.
Proof. intros C H. unfold st_velocity_at_point. rewrite (ltw_agree p s s' x yl z C H). now lds H C. Qed.
Lemma force_agree p (s s' : st) x (yl fx fy : cell tg) (z : Z) : calm p -> agree p s s' ->
  rel (st_apply_force s x yl fx fy z) (st_apply_force s' x yl fx fy z) (agree p).
Proof.
  intros C H. unfold st_apply_force. rewrite (ltw_agree p s s' x yl z C H). apply rel_any. intros [wx wy].
  eapply rel_bind; [apply sto_add_agree; [exact H|now apply C]|]. intros s1 s1' H1.
  eapply rel_bind; [apply sto_add_agree; [exact H1|now apply C]|]. intros s2 s2' H2.
  lds H2 C. do 2 (apply rel_any; intros ?). apply sto_add_agree; [exact H2|now apply C].
Qed.
Lemma deref_alike (bs bs' : bodies tg) b : seen_alike bs bs' ->
  rel (deref bs b) (deref bs' b) (fun x x' => b_index x' = b_index x).
Proof. intros H. destruct b as [i|]; cbn; [apply H|exact I]. Qed.
Lemma end_agree p (s s' : st) (b b' : body tg) (x yl : cell tg) : calm p -> agree p s s' -> b_index b' = b_index b ->
  (b_index b = (-1)%Z -> forall f, b_f b' f = b_f b f) -> spring_end b' x yl s' = spring_end b x yl s.
Proof.
  intros C H Hi Hb. unfold spring_end. rewrite Hi. destruct (Z.eqb_spec (b_index b) (-1)) as [E|E]; cbn [negb].
  - unfold b_local_to_world. now rewrite !(Hb E).
  - now rewrite (ltw_agree p s s' _ _ _ C H), (vap_agree p s s' _ _ _ C H).
Qed.
Lemma gen_agree n (g : gkind tg) (bs bs' : bodies tg) (s s' : st) : heedless g -> seen_alike bs bs' -> agree (but_accel n) s s' ->
  rel (gen_apply g bs s) (gen_apply g bs' s') (agree (but_accel n)).
Proof.
  pose proof (calm_but n) as C. intros Hg Hb H. destruct g as [g|f|sp|mo|f]; cbn [gen_apply].
  - unfold gravity_apply. pose proof H as (A1 & _). rewrite A1.
    apply (for_rel _ _ (fun _ => agree (but_accel n))); [exact H|]. intros i t t' _ Ht. lds Ht C.
    apply rel_any; intros m. apply sto_add_agree; [exact Ht|now apply C].
  - unfold static_apply. eapply rel_bind; [apply deref_alike, Hb|]. intros b b' E. cbn beta in E. rewrite E. apply (force_agree _ _ _ _ _ _ _ _ C H).
  - unfold spring_apply. destruct (sp_b1 sp) as [b1|], (sp_b2 sp) as [b2|]; try exact H.
    cbv zeta. destruct (Hb b1) as [E1 F1], (Hb b2) as [E2 F2].
    rewrite (end_agree _ s s' _ _ _ _ C H E1 F1), (end_agree _ s s' _ _ _ _ C H E2 F2), E1, E2.
    apply rel_any. intros [[[x1 y1] vx1] vy1]. apply rel_any. intros [[[x2 y2] vx2] vy2]. apply rel_any. intros far.
    eapply rel_bind; [apply (force_agree _ _ _ _ _ _ _ _ C H)|]. intros s1 s1' H1. apply (force_agree _ _ _ _ _ _ _ _ C H1).
  - contradiction.
  - exact (proj2 Hg n bs bs' s s' Hb H).
Qed.
Definition all_heedless w y : Prop := forall g, In g (y_gens y) -> heedless (g_kind (w_gen w g)).
Lemma forces_agree n w w' y y' (s s' : st) : y_bodies y' = y_bodies y -> y_gens y' = y_gens y -> w_gen w' = w_gen w ->
  all_heedless w y -> seen_alike (w_body w) (w_body w') -> agree (but_accel n) s s' ->
  rel (process_forces w y s) (process_forces w' y' s') (agree (but_accel n)).
Proof.
  intros Eb Eg Ew Hg Hb H. unfold process_forces, body_count, gen_count. rewrite Eb, Eg, Ew.
  eapply rel_bind.
  - apply (for_rel _ _ (fun _ => agree (but_accel n))); [exact H|]. intros i t t' _ Ht.
    eapply rel_bind; [apply sto_agree, Ht|]. intros s1 s1' H1.
    eapply rel_bind; [apply sto_agree, H1|]. intros s2 s2' H2. now apply sto_agree.
  - intros s1 s1' H1. apply (for_rel _ _ (fun _ => agree (but_accel n))); [exact H1|]. intros i t t' _ Ht.
    destruct (nth_error (y_gens y) i) as [g|] eqn:E; cbn [lift_opt bind]; [|exact I].
    apply gen_agree; auto. apply Hg. eapply nth_error_In; eauto.
Qed.

(** ** constraints *)
Definition same_con (c c' : constraint tg) : Prop :=
  c_kind c' = c_kind c /\ c_bodycount c' = c_bodycount c /\ c_bodies c' = c_bodies c /\ c_count c' = c_count c.
Lemma index_alike (bs bs' : bodies tg) : seen_alike bs bs' -> con_body_index bs' = con_body_index bs.
Proof.
  intros H. extensionality cb. extensionality k. unfold con_body_index. destruct (cb k) as [b|]; cbn; [|reflexivity].
  now rewrite (proj1 (H b)).
Qed.
Lemma calculate_alike n (bs bs' : bodies tg) c c' o (s s' : st) : heedless_con (c_kind c) -> same_con c c' -> seen_alike bs bs' ->
  agree (but_accel n) s s' -> calculate bs' c' o s' = calculate bs c o s.
Proof.
  pose proof (calm_but n) as C. intros Hc (E1 & E2 & E3 & E4) Hb H. unfold calculate. rewrite E1, E3, (index_alike bs bs' Hb).
  destruct (c_kind c); try reflexivity.
  - apply bind_ext; intros b. unfold fp_calculate. now lds H C.
  - apply bind_ext; intros b. unfold line_calculate. now lds H C.
  - apply bind_ext; intros b. apply bind_ext; intros b'. unfold link_calculate. now lds H C.
  - apply bind_ext; intros b. apply bind_ext; intros b'. unfold rolling_calculate. now lds H C.
  - apply bind_ext; intros b. unfold fr_calculate. now lds H C.
  - exact (Hc n bs bs' _ _ s s' Hb H).
Qed.
Lemma set_blocks_alike w w' c c' : same_con c c' -> seen_alike (w_body w) (w_body w') -> set_blocks w' c' = set_blocks w c.
Proof. intros (E1 & E2 & E3 & E4) H. unfold set_blocks. now rewrite (index_alike _ _ H), E2, E3. Qed.
Lemma opt_rows_alike w w' c c' o dt jf hp : same_con c c' -> seen_alike (w_body w) (w_body w') ->
  opt_con_rows w' c' o dt jf hp = opt_con_rows w c o dt jf hp.
Proof.
  intros S H. unfold opt_con_rows. rewrite (index_alike _ _ H), (set_blocks_alike _ _ _ _ S H).
  destruct S as (E1 & E2 & E3 & E4). now rewrite E2, E3, E4.
Qed.
Lemma gen_rows_alike w w' c c' o jf hp : same_con c c' -> seen_alike (w_body w) (w_body w') ->
  gen_con_rows w' c' o jf hp = gen_con_rows w c o jf hp.
Proof.
  intros S H. unfold gen_con_rows. rewrite (index_alike _ _ H), (set_blocks_alike _ _ _ _ S H).
  destruct S as (E1 & E2 & E3 & E4). now rewrite E2, E3, E4.
Qed.

(** the same system in front of the same scene, motion and reported forces aside *)
Definition twins w y w' y' : Prop :=
  y_bodies y' = y_bodies y /\ y_cons y' = y_cons y /\ y_gens y' = y_gens y /\ y_sle y' = y_sle y /\ y_bias y' = y_bias y /\
  w_gen w' = w_gen w /\ seen_alike (w_body w) (w_body w') /\ forall c, same_con (w_con w c) (w_con w' c).
Definition cons_heedless w y : Prop := forall c, In c (y_cons y) -> heedless_con (c_kind (w_con w c)).
Lemma twins_full w y w' y' : twins w y w' y' -> full_count w' y' = full_count w y.
Proof.
  intros (_ & E & _ & _ & _ & _ & _ & H). unfold full_count. rewrite E. clear E. generalize 0. induction (y_cons y) as [|c l IH]; intros k; cbn; [reflexivity|].
  destruct (H c) as (_ & _ & _ & E'). rewrite E'. apply IH.
Qed.
Lemma twins_body_count w y w' y' : twins w y w' y' -> body_count y' = body_count y.
Proof. intros (E & _). unfold body_count. now rewrite E. Qed.
Lemma twins_con_count w y w' y' : twins w y w' y' -> con_count y' = con_count y.
Proof. intros (_ & E & _). unfold con_count. now rewrite E. Qed.

Lemma con_loop_alike n w y w' y' (s s' : st) (rows : world tg -> constraint tg -> output tg -> nat -> heap tg -> res (nat * heap tg)) x :
  (forall c c' o jf hp, same_con c c' -> rows w' c' o jf hp = rows w c o jf hp) ->
  twins w y w' y' -> cons_heedless w y -> agree (but_accel n) s s' ->
  for_ (con_count y') (fun j '(j_f, hp, o) =>
    let* c := nth_con w' y' j in
    let* o := calculate (w_body w') c o s' in
    let* (j_f, hp) := rows w' c o j_f hp in
    Ok (j_f, hp, o)) x =
  for_ (con_count y) (fun j '(j_f, hp, o) =>
    let* c := nth_con w y j in
    let* o := calculate (w_body w) c o s in
    let* (j_f, hp) := rows w c o j_f hp in
    Ok (j_f, hp, o)) x.
Proof.
  intros HR T Hc H. rewrite (twins_con_count _ _ _ _ T). destruct T as (T1 & T2 & T3 & T4 & T5 & T6 & T7 & T8).
  apply for_ext. intros j [[jf hp] o]. unfold nth_con. rewrite T2.
  destruct (nth_error (y_cons y) j) as [c|] eqn:E; cbn [lift_opt bind]; [|reflexivity].
  rewrite (calculate_alike n (w_body w) (w_body w') (w_con w c) (w_con w' c) o s s'); auto; [|apply Hc; eapply nth_error_In; eauto].
  apply bind_ext. intros o'. now rewrite (HR (w_con w c) (w_con w' c)).
Qed.
Lemma opt_gather_alike n w y w' y' dt hp (s s' : st) : twins w y w' y' -> cons_heedless w y -> agree (but_accel n) s s' ->
  opt_gather w' y' dt hp s' = opt_gather w y dt hp s.
Proof.
  intros T Hc H. unfold opt_gather. rewrite (twins_full _ _ _ _ T), (twins_body_count _ _ _ _ T). cbv zeta.
  do 4 (apply bind_ext; intros ?).
  rewrite (con_loop_alike n w y w' y' s s' (fun w c o jf hp => opt_con_rows w c o dt jf hp)); auto.
  intros. apply opt_rows_alike; auto. apply T.
Qed.
Lemma gather3_alike p n (s s' : st) fx fy ft id ms : calm p -> agree p s s' -> is_accel fx = false -> is_accel fy = false -> is_accel ft = false ->
  gather3 n s' fx fy ft id ms = gather3 n s fx fy ft id ms.
Proof.
  intros C H X Y T. unfold gather3. apply for_ext. intros i t.
  rewrite !(agree_ld p s s' _ _ H) by (apply C; assumption). reflexivity.
Qed.
Lemma opt_right_alike p w y w' y' dt hp (s s' : st) : calm p -> twins w y w' y' -> agree p s s' ->
  opt_right w' y' dt hp s' = opt_right w y dt hp s.
Proof.
  intros C T H. unfold opt_right. rewrite (twins_body_count _ _ _ _ T). destruct T as (T1 & T2 & T3 & T4 & T5 & _). rewrite T5. cbv zeta.
  apply bind_ext; intros ms. rewrite (gather3_alike p _ s s') by auto. apply bind_ext; intros ms1. apply bind_ext; intros ms2.
  now rewrite (gather3_alike p _ s s') by auto.
Qed.
Lemma gen_gather_alike n w y w' y' hp (s s' : st) : twins w y w' y' -> cons_heedless w y -> agree (but_accel n) s s' ->
  gen_gather w' y' hp s' = gen_gather w y hp s.
Proof.
  intros T Hc H. unfold gen_gather. rewrite (twins_full _ _ _ _ T), (twins_body_count _ _ _ _ T). cbv zeta.
  apply bind_ext; intros ms. rewrite (gather3_alike (but_accel n) _ s s') by (auto; apply calm_but).
  do 6 (apply bind_ext; intros ?).
  rewrite (con_loop_alike n w y w' y' s s' (fun w c o jf hp => gen_con_rows w c o jf hp)); auto.
  intros. apply gen_rows_alike; auto. apply T.
Qed.
Lemma gen_right_alike p w y w' y' hp (s s' : st) : calm p -> twins w y w' y' -> agree p s s' ->
  gen_right w' y' hp s' = gen_right w y hp s.
Proof.
  intros C T H. unfold gen_right. rewrite (twins_full _ _ _ _ T), (twins_body_count _ _ _ _ T). cbv zeta.
  do 3 (apply bind_ext; intros ?). now rewrite (gather3_alike p _ s s') by auto.
Qed.

(** ** reactions: the accelerations are written before they are read *)
Lemma reactions_agree w y w' y' hp (s s' : st) : twins w y w' y' -> agree (but_accel (body_count y)) s s' ->
  rel (apply_reactions w y hp s) (apply_reactions w' y' hp s') (agree allover).
Proof.
  intros T H. unfold apply_reactions. rewrite (twins_full _ _ _ _ T), (twins_body_count _ _ _ _ T), (twins_con_count _ _ _ _ T). cbv zeta.
  set (N := body_count y) in *. pose proof T as (T1 & T2 & T3 & T4 & T5 & T6 & T7 & T8).
  eapply rel_bind.
  { unfold for2. apply (for_rel _ _ (fun _ => agree (but_accel N))); [exact H|]. intros i t t' _ Ht.
    apply (for_rel _ _ (fun _ => agree (but_accel N))); [exact Ht|]. clear t t' Ht. intros j t t' _ Ht.
    apply rel_any; intros x. eapply rel_bind; [apply sto_agree, Ht|]. intros s1 s1' H1.
    apply rel_any; intros x1. eapply rel_bind; [apply sto_agree, H1|]. intros s2 s2' H2.
    apply rel_any; intros x2. now apply sto_agree. }
  intros s1 s1' H1. eapply rel_bind.
  { apply (for_rel _ _ (fun i => agree (fun f j => but_accel N f j || Nat.ltb j i))).
    - eapply agree_mono; [|exact H1]. intros f j. cbn. now rewrite Bool.orb_false_r.
    - intros i t t' _ Ht.
      apply rel_any; intros x. eapply rel_bind; [apply sto_also, Ht|]. intros s2 s2' H2.
      apply rel_any; intros x1. eapply rel_bind; [apply sto_also, H2|]. intros s3 s3' H3.
      apply rel_any; intros x2. eapply rel_mono; [apply sto_also, H3|]. intros s4 s4'. apply agree_mono.
      intros f j. rewrite !Nat2Z.id. unfold also. rewrite !Bool.orb_true_iff.
      intros [Hb|Hl]; [auto|]. rewrite Nat.ltb_lt in Hl. destruct (Nat.eq_dec j i) as [->|Ne].
      + rewrite Nat.eqb_refl. destruct f; cbn; auto.
      + left; left; left; right. rewrite Nat.ltb_lt. lia. }
  intros s2 s2' H2. assert (H2' : agree allover s2 s2').
  { eapply agree_mono; [|exact H2]. intros f j _. unfold but_accel. destruct (Nat.leb_spec N j); [now rewrite Bool.orb_true_r|].
    rewrite Bool.orb_true_iff. right. now apply Nat.ltb_lt. }
  clear H2. eapply (rel_bind _ _ _ _ (fun x x' => agree allover (fst x) (fst x') /\ snd x' = snd x)).
  { apply (for_rel _ _ (fun _ x x' => agree allover (fst x) (fst x') /\ snd x' = snd x)); [now split|].
    intros i [t jf] [t' jf'] _ [Ht Ej]. cbn [fst snd] in *. subst jf'. unfold nth_con. rewrite T2.
    destruct (nth_error (y_cons y) i) as [c|]; cbn [lift_opt bind]; [|exact I]. destruct (T8 c) as (C1 & C2 & C3 & C4). rewrite C2, C3, C4.
    rewrite (index_alike _ _ T7).
    apply (for_rel _ _ (fun _ x x' => agree allover (fst x) (fst x') /\ snd x' = snd x)); [now split|]. clear t t' jf Ht.
    intros j [t jf] [t' jf'] _ [Ht Ej]. cbn [fst snd] in *. subst jf'.
    eapply (rel_bind _ _ _ _ (agree allover)); [|intros t1 t1' Ht1; now split].
    apply (for_rel _ _ (fun _ => agree allover)); [exact Ht|]. clear t t' Ht. intros k t t' _ Ht.
    apply rel_any; intros b. rewrite (agree_ld _ t t' Frx _ Ht eq_refl). apply rel_any; intros r.
    eapply rel_bind; [apply sto_add_agree; [exact Ht|reflexivity]|]. intros t1 t1' Ht1.
    rewrite (agree_ld _ t1 t1' Fry _ Ht1 eq_refl). apply rel_any; intros r1.
    eapply rel_bind; [apply sto_add_agree; [exact Ht1|reflexivity]|]. intros t2 t2' Ht2.
    rewrite (agree_ld _ t2 t2' Frt _ Ht2 eq_refl). apply rel_any; intros r2. now apply sto_add_agree. }
  intros [s3 jf] [s3' jf'] [H3 _]. cbn [fst] in H3.
  apply (for_rel _ _ (fun _ => agree allover)); [exact H3|]. intros i t t' _ Ht.
  do 2 (apply rel_any; intros ?). rewrite (agree_ld _ t t' Fax _ Ht eq_refl). apply rel_any; intros r.
  eapply rel_bind; [apply sto_agree, Ht|]. intros t1 t1' Ht1. rewrite (agree_ld _ t1 t1' Fay _ Ht1 eq_refl). apply rel_any; intros r1.
  eapply rel_bind; [apply sto_agree, Ht1|]. intros t2 t2' Ht2. rewrite (agree_ld _ t2 t2' Fatheta _ Ht2 eq_refl). apply rel_any; intros r2.
  now apply sto_agree.
Qed.

(** ** processConstraints *)
Definition run_alike (x x' : heap tg * st) : Prop := fst x' = fst x /\ agree allover (snd x) (snd x').
Lemma opt_constraints_agree w y w' y' dt hp (s s' : st) : twins w y w' y' -> cons_heedless w y -> agree (but_accel (body_count y)) s s' ->
  rel (opt_process_constraints w y dt hp s) (opt_process_constraints w' y' dt hp s') run_alike.
Proof.
  intros T Hc H. unfold opt_process_constraints.
  rewrite (opt_gather_alike _ _ _ _ _ dt hp s s' T Hc H). apply rel_any; intros hp1.
  rewrite (opt_right_alike _ _ _ _ _ dt hp1 s s' (calm_but _) T H). apply rel_any; intros hp2.
  unfold the_sle. pose proof T as (_ & _ & _ & T4 & _). rewrite T4. destruct (y_sle y) as [l|]; [|exact I]. cbn [bind].
  apply rel_any; intros [hp3 ok]. apply rel_any; intros _. apply rel_any; intros ms. apply rel_any; intros ss. cbv zeta.
  eapply rel_bind; [apply reactions_agree; [exact T|exact H]|]. intros t t' Ht. now split.
Qed.
Lemma gen_constraints_agree w y w' y' hp (s s' : st) : twins w y w' y' -> cons_heedless w y -> agree (but_accel (body_count y)) s s' ->
  rel (gen_process_constraints w y hp s) (gen_process_constraints w' y' hp s') run_alike.
Proof.
  intros T Hc H. unfold gen_process_constraints.
  rewrite (gen_gather_alike _ _ _ _ _ hp s s' T Hc H). apply rel_any; intros hp1.
  rewrite (gen_right_alike _ _ _ _ _ hp1 s s' (calm_but _) T H). apply rel_any; intros hp2.
  unfold the_sle. pose proof T as (_ & _ & _ & T4 & _). rewrite T4. destruct (y_sle y) as [l|]; [|exact I]. cbn [bind].
  apply rel_any; intros [hp3 ok]. apply rel_any; intros _. apply rel_any; intros ss. cbv zeta.
  eapply rel_bind; [apply reactions_agree; [exact T|exact H]|]. intros t t' Ht. now split.
Qed.
End S.
