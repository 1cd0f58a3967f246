(** * What every operation of the Matrix model computes, for any arithmetic. *)

From Verif Require Import Base Matrix Logic MatrixFacts.

Section MatrixOps.
Context {tg : target}.
Local Open Scope cell_scope.
Implicit Types ms : mats tg.

(** an operand keeps its dimensions and contents when the target [t] is
    resized, unless it is the target and really changes size *)
Lemma resize_operand kt k ms ms1 t w h a wa ha fa :
  only t ms ms1 -> (exists f, is_mat kt (ms1 t) w h f) ->
  (w = m_w (ms t) -> h = m_h (ms t) -> ms1 t = ms t) ->
  is_mat k (ms a) wa ha fa -> (a = t -> wa = w /\ ha = h) ->
  is_mat k (ms1 a) wa ha fa.
Proof.
  intros Ho _ Hs Ha Ht. destruct (Nat.eq_dec a t) as [->|N]; [|now rewrite Ho].
  destruct (Ht eq_refl) as [-> ->]. rewrite Hs; [exact Ha| |].
  - symmetry; eapply is_mat_w; exact Ha.
  - symmetry; eapply is_mat_h; exact Ha.
Qed.

Lemma mset_rset k ms t w h f c r v :
  is_mat k (ms t) w h f -> c < w -> r < h -> mset ms t c r v = rset ms t r c v.
Proof.
  intros H Hc Hr. unfold mset, rset, mat_set.
  rewrite (is_mat_w _ _ _ _ _ H), (is_mat_h _ _ _ _ _ H).
  now rewrite !bind_massert by (now apply Nat.ltb_lt).
Qed.

(** filling [t] with [F], each body being one write of [F i j] *)
Lemma fill_rset kt ms t w h f0 F (body : nat -> nat -> mats tg -> res (mats tg)) :
  is_mat kt (ms t) w h f0 ->
  (forall i j ms', i < h -> j < w -> only t ms ms' ->
     is_mat kt (ms' t) w h (partial f0 F i j) -> body i j ms' = rset ms' t i j (F i j)) ->
  wp (for2 h w body ms) (fun ms' => only t ms ms' /\ is_mat kt (ms' t) w h F).
Proof.
  intros H0 Hb. eapply fill_spec; [exact H0|].
  intros i j ms' Hi Hj Ho Hm. rewrite Hb by assumption.
  eapply rset_spec; eassumption.
Qed.

(** reading operand [a] at a position not yet overwritten *)
Lemma read_during kt k ms ms' t w h f0 F i j a wa ha fa r c :
  only t ms ms' -> is_mat kt (ms' t) w h (partial f0 F i j) ->
  is_mat k (ms a) wa ha fa ->
  (a = t -> is_mat kt (ms t) w h f0 /\ (i < r \/ (r = i /\ j <= c))) ->
  r < ha -> c < wa -> rget ms' a r c = Ok (fa r c).
Proof.
  intros Ho Hm Ha Ht Hr Hc. destruct (Nat.eq_dec a t) as [->|N].
  - destruct (Ht eq_refl) as [H0 Hp].
    assert (wa = w) by (rewrite <- (is_mat_w _ _ _ _ _ Ha); eapply is_mat_w; exact H0).
    assert (ha = h) by (rewrite <- (is_mat_h _ _ _ _ _ Ha); eapply is_mat_h; exact H0).
    subst wa ha. rewrite (rget_spec _ _ _ _ _ _ _ _ Hm) by assumption.
    rewrite partial_not by exact Hp. f_equal.
    eapply is_mat_fun; [apply is_mat_weaken in H0; exact H0|apply is_mat_weaken in Ha; exact Ha|assumption|assumption].
  - unfold rget. rewrite Ho by assumption. eapply is_mat_get; eassumption.
Qed.

Ltac resize_step ms1 Ho Hf0 Hs :=
  eapply wp_seq; [apply mresize_spec; eassumption|];
  intros ms1 (Ho & Hf0 & Hs); cbn beta.

Ltac bump H := rewrite ?(is_mat_w _ _ _ _ _ H), ?(is_mat_h _ _ _ _ _ H).
Ltac dims H := rewrite (is_mat_w _ _ _ _ _ H), (is_mat_h _ _ _ _ _ H).

Definition post kt ms t w h F : mats tg -> Prop :=
  fun ms' => only t ms ms' /\ is_mat kt (ms' t) w h F.

(** *** one operand: scale, negate, copy *)
Lemma unary_spec kt ms this t w h f (g : cell tg -> cell tg) (F : nat -> nat -> cell tg) :
  is_mat false (ms this) w h f -> wf kt (ms t) ->
  (forall r c, F r c = g (f r c)) ->
  wp (let* ms := mresize ms t (m_w (ms this)) (m_h (ms this)) in
      for2 (m_h (ms this)) (m_w (ms this)) (fun i j ms =>
        let* x := rget ms this i j in rset ms t i j (g x)) ms)
     (post kt ms t w h F).
Proof.
  intros Ha Ht HF. dims Ha. resize_step ms1 Ho Hf0 Hs.
  assert (Ha1 : is_mat false (ms1 this) w h f) by (eapply resize_operand; eauto).
  destruct Hf0 as [f0 H0]. bump Ha1.
  eapply wp_mono.
  - eapply (fill_rset kt ms1 t w h f0 F); [exact H0|].
    intros i j ms' Hi Hj Ho' Hm.
    erewrite read_during; [|exact Ho'|exact Hm|exact Ha1| |exact Hi|exact Hj]; [|intros _; split; [exact H0|lia]].
    cbn [bind]. now rewrite HF.
  - intros ms' [H1 H2]. split; [eapply only_trans; eassumption|exact H2].
Qed.

Lemma mscale_spec kt ms this s t w h f :
  is_mat false (ms this) w h f -> wf kt (ms t) ->
  wp (mscale ms this s t) (post kt ms t w h (fun r c => s * f r c)).
Proof. intros; unfold mscale; eapply (unary_spec kt ms this t w h f (fun x => s * x)); eauto. Qed.
Lemma mnegate_spec kt ms this t w h f :
  is_mat false (ms this) w h f -> wf kt (ms t) ->
  wp (mnegate ms this t) (post kt ms t w h (fun r c => - f r c)).
Proof. intros; unfold mnegate; eapply (unary_spec kt ms this t w h f copp); eauto. Qed.
Lemma mset_ref_spec kt ms this ref w h f :
  is_mat false (ms ref) w h f -> wf kt (ms this) ->
  wp (mset_ref ms this ref) (post kt ms this w h f).
Proof. intros; unfold mset_ref; eapply (unary_spec kt ms ref this w h f (fun x => x)); eauto. Qed.

(** *** two operands: add, subtract, component product *)
Lemma binary_spec kt ms this b t w h f fb (g : cell tg -> cell tg -> cell tg) :
  is_mat false (ms this) w h f -> is_mat false (ms b) w h fb -> wf kt (ms t) ->
  wp (let* ms := mresize ms t (m_w (ms this)) (m_h (ms this)) in
      for2 (m_h (ms this)) (m_w (ms this)) (fun i j ms =>
        let* x := rget ms this i j in
        let* y := rget ms b i j in rset ms t i j (g x y)) ms)
     (post kt ms t w h (fun r c => g (f r c) (fb r c))).
Proof.
  intros Ha Hb Ht. dims Ha. resize_step ms1 Ho Hf0 Hs.
  assert (Ha1 : is_mat false (ms1 this) w h f) by (eapply resize_operand; eauto).
  assert (Hb1 : is_mat false (ms1 b) w h fb) by (eapply resize_operand; eauto).
  destruct Hf0 as [f0 H0]. bump Ha1.
  eapply wp_mono.
  - eapply (fill_rset kt ms1 t w h f0 (fun r c => g (f r c) (fb r c))); [exact H0|].
    intros i j ms' Hi Hj Ho' Hm.
    erewrite read_during; [|exact Ho'|exact Hm|exact Ha1| |exact Hi|exact Hj]; [|intros _; split; [exact H0|lia]].
    cbn [bind].
    erewrite read_during; [|exact Ho'|exact Hm|exact Hb1| |exact Hi|exact Hj]; [|intros _; split; [exact H0|lia]].
    reflexivity.
  - intros ms' [H1 H2]. split; [eapply only_trans; eassumption|exact H2].
Qed.

Lemma msubtract_spec kt ms this b t w h f fb :
  is_mat false (ms this) w h f -> is_mat false (ms b) w h fb -> wf kt (ms t) ->
  wp (msubtract ms this b t) (post kt ms t w h (fun r c => f r c - fb r c)).
Proof.
  intros Ha Hb Ht. unfold msubtract. rewrite !bind_massert
    by (bump Ha; bump Hb; apply Nat.eqb_refl).
  now apply (binary_spec kt ms this b t w h f fb csub).
Qed.
Lemma madd2_spec kt ms this b t w h f fb :
  is_mat false (ms this) w h f -> is_mat false (ms b) w h fb -> wf kt (ms t) ->
  wp (madd2 ms this b t) (post kt ms t w h (fun r c => f r c + fb r c)).
Proof.
  intros Ha Hb Ht. unfold madd2. rewrite !bind_massert
    by (bump Ha; bump Hb; apply Nat.eqb_refl).
  now apply (binary_spec kt ms this b t w h f fb cadd).
Qed.

Lemma mcomponent_spec kt ms this b t w h f fb :
  is_mat false (ms this) w h f -> is_mat false (ms b) w h fb -> wf kt (ms t) ->
  wp (mcomponent ms this b t) (post kt ms t w h (fun r c => f r c * fb r c)).
Proof.
  intros Ha Hb Ht. unfold mcomponent. rewrite !bind_massert
    by (bump Ha; bump Hb; apply Nat.eqb_refl).
  dims Ha. resize_step ms1 Ho Hf0 Hs.
  assert (Ha1 : is_mat false (ms1 this) w h f) by (eapply resize_operand; eauto).
  assert (Hb1 : is_mat false (ms1 b) w h fb) by (eapply resize_operand; eauto).
  destruct Hf0 as [f0 H0]. bump Ha1.
  eapply wp_mono.
  - eapply (fill_rset kt ms1 t w h f0 (fun r c => f r c * fb r c)); [exact H0|].
    intros i j ms' Hi Hj Ho' Hm.
    assert (Ga : forall a fa, is_mat false (ms1 a) w h fa -> mget ms' a j i = Ok (fa i j)).
    { intros a fa Hfa.
      assert (R : rget ms' a i j = Ok (fa i j)) by (eapply read_during;
        [exact Ho'|exact Hm|exact Hfa|intros _; split; [exact H0|lia]|exact Hi|exact Hj]).
      unfold mget, mat_get. destruct (Nat.eq_dec a t) as [->|N].
      - dims Hm. rewrite !bind_massert by (now apply Nat.ltb_lt). exact R.
      - unfold rget in R. rewrite Ho' in R |- * by assumption. dims Hfa.
        rewrite !bind_massert by (now apply Nat.ltb_lt). exact R. }
    rewrite (Ga _ _ Ha1), (Ga _ _ Hb1). cbn [bind]. eapply mset_rset; eassumption.
  - intros ms' [H1 H2]. split; [eapply only_trans; eassumption|exact H2].
Qed.

(** *** scaling by a column vector *)
Lemma mleft_scale_spec kt ms this sc t w h f s :
  is_mat false (ms this) w h f -> is_mat false (ms sc) 1 h s -> wf kt (ms t) ->
  (sc = t -> w = 1%nat) ->
  wp (mleft_scale ms this sc t) (post kt ms t w h (fun r c => s r 0%nat * f r c)).
Proof.
  intros Ha Hb Ht Hal. unfold mleft_scale. rewrite !bind_massert
    by (bump Ha; bump Hb; apply Nat.eqb_refl).
  dims Ha. resize_step ms1 Ho Hf0 Hs.
  assert (Ha1 : is_mat false (ms1 this) w h f) by (eapply resize_operand; eauto).
  assert (Hb1 : is_mat false (ms1 sc) 1 h s)
    by (eapply resize_operand; eauto; intros E; rewrite (Hal E); auto).
  destruct Hf0 as [f0 H0]. bump Ha1.
  eapply wp_mono.
  - eapply (fill_rset kt ms1 t w h f0 (fun r c => s r 0%nat * f r c)); [exact H0|].
    intros i j ms' Hi Hj Ho' Hm.
    erewrite read_during; [|exact Ho'|exact Hm|exact Hb1| |exact Hi|lia];
      [|intros E; specialize (Hal E); split; [exact H0|lia]].
    cbn [bind].
    erewrite read_during; [|exact Ho'|exact Hm|exact Ha1| |exact Hi|exact Hj]; [|intros _; split; [exact H0|lia]].
    reflexivity.
  - intros ms' [H1 H2]. split; [eapply only_trans; eassumption|exact H2].
Qed.

Lemma mright_scale_spec kt ms this sc t w h f s :
  is_mat false (ms this) w h f -> is_mat false (ms sc) 1 w s -> wf kt (ms t) ->
  (sc = t -> w = 1%nat /\ h = 1%nat) ->
  wp (mright_scale ms this sc t) (post kt ms t w h (fun r c => s c 0%nat * f r c)).
Proof.
  intros Ha Hb Ht Hal. unfold mright_scale. rewrite !bind_massert
    by (bump Ha; bump Hb; apply Nat.eqb_refl).
  dims Ha. resize_step ms1 Ho Hf0 Hs.
  assert (Ha1 : is_mat false (ms1 this) w h f) by (eapply resize_operand; eauto).
  assert (Hb1 : is_mat false (ms1 sc) 1 w s)
    by (eapply resize_operand; eauto; intros E; destruct (Hal E) as [-> ->]; auto).
  destruct Hf0 as [f0 H0]. bump Ha1.
  eapply wp_mono.
  - eapply (fill_rset kt ms1 t w h f0 (fun r c => s c 0%nat * f r c)); [exact H0|].
    intros i j ms' Hi Hj Ho' Hm.
    erewrite read_during; [|exact Ho'|exact Hm|exact Hb1| |exact Hj|lia];
      [|intros E; destruct (Hal E); split; [exact H0|lia]].
    cbn [bind].
    erewrite read_during; [|exact Ho'|exact Hm|exact Ha1| |exact Hi|exact Hj]; [|intros _; split; [exact H0|lia]].
    reflexivity.
  - intros ms' [H1 H2]. split; [eapply only_trans; eassumption|exact H2].
Qed.

(** *** accumulating into the object itself *)
Lemma accum_spec k ms this b w h f fb (g : cell tg -> cell tg -> cell tg) :
  is_mat k (ms this) w h f -> is_mat false (ms b) w h fb ->
  wp (for2 h w (fun i j ms =>
        let* x := rget ms this i j in
        let* y := rget ms b i j in rset ms this i j (g x y)) ms)
     (post k ms this w h (fun r c => g (f r c) (fb r c))).
Proof.
  intros Ha Hb.
  eapply (fill_rset k ms this w h f (fun r c => g (f r c) (fb r c))); [exact Ha|].
  intros i j ms' Hi Hj Ho' Hm.
  erewrite read_during; [|exact Ho'|exact Hm|exact Ha| |exact Hi|exact Hj]; [|intros _; split; [exact Ha|lia]].
  cbn [bind].
  erewrite read_during; [|exact Ho'|exact Hm|exact Hb| |exact Hi|exact Hj]; [|intros _; split; [exact Ha|lia]].
  reflexivity.
Qed.
Lemma mmadd_spec k ms this b s w h f fb :
  is_mat k (ms this) w h f -> is_mat false (ms b) w h fb ->
  wp (mmadd ms this b s) (post k ms this w h (fun r c => f r c + fb r c * s)).
Proof.
  intros Ha Hb. unfold mmadd. rewrite !bind_massert by (bump Ha; bump Hb; apply Nat.eqb_refl).
  dims Ha. now apply (accum_spec k ms this b w h f fb (fun x y => x + y * s)).
Qed.
Lemma mpmadd_spec k ms this b s w h f fb :
  is_mat k (ms this) w h f -> is_mat false (ms b) w h fb ->
  wp (mpmadd ms this b s) (post k ms this w h (fun r c => s * f r c + fb r c)).
Proof.
  intros Ha Hb. unfold mpmadd. rewrite !bind_massert by (bump Ha; bump Hb; apply Nat.eqb_refl).
  dims Ha. now apply (accum_spec k ms this b w h f fb (fun x y => s * x + y)).
Qed.

(** *** products and transpose, target distinct from the operands *)
Lemma mmultiply_spec kt ms this b t n w h f fb :
  is_mat false (ms this) n h f -> is_mat false (ms b) w n fb -> wf kt (ms t) ->
  this <> t -> b <> t ->
  wp (mmultiply ms this b t) (post kt ms t w h (fun r c => csum n (fun i => f r i * fb i c))).
Proof.
  intros Ha Hb Ht N1 N2. unfold mmultiply. rewrite !bind_massert
    by (bump Ha; bump Hb; apply Nat.eqb_refl).
  bump Ha; bump Hb. resize_step ms1 Ho Hf0 Hs.
  assert (Ha1 : is_mat false (ms1 this) n h f) by (now rewrite Ho).
  assert (Hb1 : is_mat false (ms1 b) w n fb) by (now rewrite Ho).
  destruct Hf0 as [f0 H0]. bump Ha1; bump Hb1.
  eapply wp_mono.
  - eapply (fill_rset kt ms1 t w h f0 (fun r c => csum n (fun i => f r i * fb i c))); [exact H0|].
    intros i j ms' Hi Hj Ho' Hm.
    assert (Ha2 : is_mat false (ms' this) n h f) by (now rewrite Ho').
    assert (Hb2 : is_mat false (ms' b) w n fb) by (now rewrite Ho').
    bump Ha2.
    rewrite (for_sum2 n _ _ (fun k => f i k) (fun k => fb k j)); [reflexivity| |];
      intros; eapply rget_spec; eassumption.
  - intros ms' [H1 H2]. split; [eapply only_trans; eassumption|exact H2].
Qed.

Lemma mtranspose_multiply_spec kt ms this b t n w h f fb :
  is_mat false (ms this) h n f -> is_mat false (ms b) w n fb -> wf kt (ms t) ->
  this <> t -> b <> t ->
  wp (mtranspose_multiply ms this b t) (post kt ms t w h (fun r c => csum n (fun i => f i r * fb i c))).
Proof.
  intros Ha Hb Ht N1 N2. unfold mtranspose_multiply. rewrite !bind_massert
    by (bump Ha; bump Hb; apply Nat.eqb_refl).
  bump Ha; bump Hb. resize_step ms1 Ho Hf0 Hs.
  assert (Ha1 : is_mat false (ms1 this) h n f) by (now rewrite Ho).
  assert (Hb1 : is_mat false (ms1 b) w n fb) by (now rewrite Ho).
  destruct Hf0 as [f0 H0]. bump Ha1; bump Hb1.
  eapply wp_mono.
  - eapply (fill_rset kt ms1 t w h f0 (fun r c => csum n (fun i => f i r * fb i c))); [exact H0|].
    intros i j ms' Hi Hj Ho' Hm.
    assert (Ha2 : is_mat false (ms' this) h n f) by (now rewrite Ho').
    assert (Hb2 : is_mat false (ms' b) w n fb) by (now rewrite Ho').
    bump Ha2.
    rewrite (for_sum2 n _ _ (fun k => f k i) (fun k => fb k j)); [reflexivity| |];
      intros; eapply rget_spec; eassumption.
  - intros ms' [H1 H2]. split; [eapply only_trans; eassumption|exact H2].
Qed.

Lemma mtranspose_spec kt ms this t w h f :
  is_mat false (ms this) w h f -> wf kt (ms t) -> this <> t ->
  wp (mtranspose ms this t) (post kt ms t h w (fun r c => f c r)).
Proof.
  intros Ha Ht N1. unfold mtranspose. bump Ha. resize_step ms1 Ho Hf0 Hs.
  assert (Ha1 : is_mat false (ms1 this) w h f) by (now rewrite Ho).
  destruct Hf0 as [f0 H0]. bump Ha1.
  eapply wp_mono.
  - eapply (fill_rset kt ms1 t h w f0 (fun r c => f c r)); [exact H0|].
    intros i j ms' Hi Hj Ho' Hm.
    assert (Ha2 : is_mat false (ms' this) w h f) by (now rewrite Ho').
    rewrite (rget_spec _ _ _ _ _ _ _ _ Ha2) by assumption. reflexivity.
  - intros ms' [H1 H2]. split; [eapply only_trans; eassumption|exact H2].
Qed.

(** *** reductions; these need the rows in order *)
Lemma linear_get0 (m : matrix tg) h f i :
  is_mat true m 1 h f -> i < h -> raw_get m 0 i = Ok (f i 0%nat).
Proof.
  intros Hm Hi. rewrite <- (is_mat_get _ _ _ _ _ i 0 Hm) by lia.
  destruct Hm as [[H1 H2 H3 H4 H5 [p [H6 [H7 H8]]]] [Hw [Hh Hf]]].
  unfold raw_get. rewrite Hh, Hw in *.
  destruct (H6 0%nat) as [E0 _]; [lia|]. destruct (H6 i Hi) as [Ei _]. rewrite E0, Ei.
  rewrite !H8 by (auto; lia). f_equal. f_equal. lia.
Qed.
Lemma mdot_spec ms a b h f fb :
  is_mat true (ms a) 1 h f -> is_mat true (ms b) 1 h fb ->
  mdot ms a b = Ok (csum h (fun i => f i 0%nat * fb i 0%nat)).
Proof.
  intros Ha Hb. unfold mdot. rewrite !bind_massert by (bump Ha; bump Hb; apply Nat.eqb_refl).
  bump Ha. apply for_sum2; intros; unfold rget; eapply linear_get0; eassumption.
Qed.
Lemma mvecmag2_spec ms a h f :
  is_mat true (ms a) 1 h f ->
  mvecmag2 ms a = Ok (csum h (fun i => f i 0%nat * f i 0%nat)).
Proof.
  intros Ha. unfold mvecmag2. rewrite !bind_massert by (bump Ha; apply Nat.eqb_refl).
  bump Ha. apply for_sum2; intros; unfold rget; eapply linear_get0; eassumption.
Qed.

Lemma nth_error_firstn' {A} (l : list A) k i : i < k -> nth_error (firstn k l) i = nth_error l i.
Proof. revert l i; induction k; intros [|x l] [|i] H; cbn; try lia; auto. apply IHk; lia. Qed.

Lemma mat_load_spec (m : matrix tg) w h f data :
  is_mat true m w h f -> w * h <= length data ->
  wp (mat_load m data) (fun m' => is_mat true m' w h
    (fun r c => match nth_error data (r * w + c) with Some x => x | None => None end)).
Proof.
  intros Hm Hd. unfold mat_load. bump Hm.
  destruct (Nat.ltb_spec (length data) (w * h)); [lia|].
  destruct Hm as [[H1 H2 H3 H4 H5 [p [H6 [H7 H8]]]] [Hw [Hh Hf]]].
  assert (Lf : length (firstn (w * h) data) = (w * h)%nat) by (rewrite firstn_length; lia).
  destruct (overwrite_spec (firstn (w * h) data) (m_data m)) as [d [E [L [N1 N2]]]].
  { rewrite Lf, H2. subst w h. nia. }
  rewrite E. cbn [lift_opt bind wp]. split.
  - constructor; cbn; auto; [lia|]. exists p; auto.
  - cbn. split; [exact Hw|]. split; [exact Hh|]. intros r c Hr Hc.
    unfold raw_get. cbn [with_data m_rows m_data].
    rewrite Hh in H6, H8. destruct (H6 r Hr) as [-> Hp]. rewrite H8 by auto. rewrite Hw.
    assert (r * w + c < w * h) by nia.
    rewrite N1 by lia. rewrite nth_error_firstn' by assumption.
    destruct (nth_error_ex data (r * w + c)) as [x ->]; [lia|reflexivity].
Qed.

(** loading: well-formedness only, for any row order *)
Lemma mat_load_wf k (m : matrix tg) data :
  wf k m -> m_w m * m_h m <= length data ->
  wp (mat_load m data) (fun m' => wf k m' /\ m_w m' = m_w m /\ m_h m' = m_h m).
Proof.
  intros [H1 H2 H3 H4 H5 H6] Hd. unfold mat_load.
  destruct (Nat.ltb_spec (length data) (m_w m * m_h m)); [lia|].
  assert (Lf : length (firstn (m_w m * m_h m) data) = (m_w m * m_h m)%nat) by (rewrite firstn_length; lia).
  destruct (overwrite_spec (firstn (m_w m * m_h m) data) (m_data m)) as [d [E [L [N1 N2]]]].
  { rewrite Lf, H2. nia. }
  rewrite E. cbn. split; [constructor; cbn; auto; lia|auto].
Qed.

End MatrixOps.

Ltac bump H := rewrite ?(is_mat_w _ _ _ _ _ H), ?(is_mat_h _ _ _ _ _ H).
