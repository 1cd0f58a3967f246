(** * Facts about the Matrix model: contents, frame and safety of every operation. *)

From Verif Require Import Base Matrix Logic.

Section MatrixFacts.
Context {tg : target}.
Local Open Scope cell_scope.

(** ** Well-formed matrices and their contents

    [wf k m]: the storage is consistent; row r starts at p r * width for an
    injective p; with k = true the rows are in order (p r = r). *)

Record wf (k : bool) (m : matrix tg) : Prop := {
  wf_rows : length (m_rows m) = m_ch m;
  wf_data : length (m_data m) = (m_cw m * m_ch m)%nat;
  wf_w : m_w m <= m_cw m;
  wf_h : m_h m <= m_ch m;
  wf_ptr : m_ptr m = false -> m_cw m = 0%nat /\ m_ch m = 0%nat;
  wf_map : exists p : nat -> nat,
    (forall r, r < m_h m -> nth_error (m_rows m) r = Some (Some (p r * m_w m)%nat) /\ p r < m_h m) /\
    (forall r r', r < m_h m -> r' < m_h m -> p r = p r' -> r = r') /\
    (k = true -> forall r, r < m_h m -> p r = r) }.

(** the matrix is w by h and element (row r, column c) holds f r c *)
Definition is_mat (k : bool) (m : matrix tg) (w h : nat) (f : nat -> nat -> cell tg) : Prop :=
  wf k m /\ m_w m = w /\ m_h m = h /\ forall r c, r < h -> c < w -> raw_get m r c = Ok (f r c).

Definition fset (f : nat -> nat -> cell tg) (r c : nat) (v : cell tg) : nat -> nat -> cell tg :=
  fun r' c' => if Nat.eqb r' r && Nat.eqb c' c then v else f r' c'.

Lemma is_mat_ext k m w h f g :
  is_mat k m w h f -> (forall r c, r < h -> c < w -> f r c = g r c) -> is_mat k m w h g.
Proof.
  intros [Hwf [Hw [Hh Hf]]] E. refine (conj Hwf (conj Hw (conj Hh _))). intros r c Hr Hc.
  rewrite <- E by assumption. now apply Hf.
Qed.
Lemma is_mat_wf k m w h f : is_mat k m w h f -> wf k m.
Proof. now intros [H _]. Qed.
Lemma is_mat_w k m w h f : is_mat k m w h f -> m_w m = w.
Proof. now intros [_ [H _]]. Qed.
Lemma is_mat_h k m w h f : is_mat k m w h f -> m_h m = h.
Proof. now intros [_ [_ [H _]]]. Qed.
Lemma is_mat_get k m w h f r c : is_mat k m w h f -> r < h -> c < w -> raw_get m r c = Ok (f r c).
Proof. intros [_ [_ [_ H]]]; apply H. Qed.
Lemma is_mat_fun k m w h f g :
  is_mat k m w h f -> is_mat k m w h g -> forall r c, r < h -> c < w -> f r c = g r c.
Proof.
  intros [_ [_ [_ H]]] [_ [_ [_ H']]] r c Hr Hc.
  specialize (H r c Hr Hc). specialize (H' r c Hr Hc). congruence.
Qed.
Lemma wf_weaken k m : wf k m -> wf false m.
Proof.
  intros [H1 H2 H3 H4 H5 [p [H6 [H7 _]]]]. constructor; auto.
  exists p; repeat split; auto; try (intros; apply H6; assumption); try discriminate.
Qed.
Lemma is_mat_weaken k m w h f : is_mat k m w h f -> is_mat false m w h f.
Proof. intros [H R]; split; [now apply wf_weaken in H|exact R]. Qed.
Lemma is_mat_strong k m w h f : is_mat true m w h f -> is_mat k m w h f.
Proof. destruct k; [auto|apply is_mat_weaken]. Qed.

(** every well-formed matrix has contents *)
Lemma wf_contents k m : wf k m -> exists f, is_mat k m (m_w m) (m_h m) f.
Proof.
  intros H. exists (fun r c => match raw_get m r c with Ok x => x | _ => None end).
  refine (conj H (conj eq_refl (conj eq_refl _))). intros r c Hr Hc.
  destruct H as [H1 H2 H3 H4 H5 [p [H6 [H7 H8]]]].
  unfold raw_get. destruct (H6 r Hr) as [-> Hp].
  destruct (nth_error_ex (m_data m) (p r * m_w m + c)) as [x ->]; [rewrite H2; nia|reflexivity].
Qed.

Lemma wf_new k : wf k mat_new.
Proof. constructor; cbn; auto. exists (fun r => r). repeat split; intros; lia. Qed.
Lemma is_mat_new k f : is_mat k mat_new 0 0 f.
Proof. split; [apply wf_new|]. repeat split; intros; lia. Qed.

Lemma raw_set_spec k m w h f r c v :
  is_mat k m w h f -> r < h -> c < w ->
  wp (raw_set m r c v) (fun m' => is_mat k m' w h (fset f r c v)).
Proof.
  intros [[H1 H2 H3 H4 H5 [p [H6 [H7 H8]]]] [Hw [Hh Hf]]] Hr Hc. subst w h.
  unfold raw_set. destruct (H6 r Hr) as [Er Hp]. rewrite Er.
  assert (Hlt : p r * m_w m + c < length (m_data m)) by (rewrite H2; nia).
  destruct (list_set_some (m_data m) (p r * m_w m + c) v Hlt) as [d [E [Hl Hn]]].
  rewrite E. cbn [lift_opt bind wp]. split.
  - constructor; cbn; auto; [lia|]. exists p; auto.
  - cbn. repeat split; auto. intros r' c' Hr' Hc'.
    specialize (Hf r' c' Hr' Hc'). unfold raw_get in Hf |- *. cbn [with_data m_rows m_data].
    destruct (H6 r' Hr') as [Er' Hp']. rewrite Er' in Hf |- *. rewrite Hn.
    unfold fset. destruct (Nat.eqb_spec (p r' * m_w m + c') (p r * m_w m + c)) as [Ea|Na].
    + assert (p r' = p r) by nia. assert (c' = c) by nia. subst c'.
      assert (r' = r) by (apply H7; auto). subst r'. now rewrite !Nat.eqb_refl.
    + destruct (Nat.eqb_spec r' r) as [->|]; [|exact Hf].
      destruct (Nat.eqb_spec c' c) as [->|]; [contradiction|exact Hf].
Qed.

(** ** Resizing *)

Lemma set_rows_spec (m : matrix tg) w :
  m_h m <= length (m_rows m) ->
  wp (for_ (m_h m) (set_row_ptr w) m) (fun m' =>
    m_ptr m' = m_ptr m /\ m_data m' = m_data m /\ m_w m' = m_w m /\ m_h m' = m_h m /\
    m_cw m' = m_cw m /\ m_ch m' = m_ch m /\ length (m_rows m') = length (m_rows m) /\
    forall r, r < m_h m -> nth_error (m_rows m') r = Some (Some (r * w)%nat)).
Proof.
  intros Hh.
  apply (for_inv _ (fun i m' =>
    m_ptr m' = m_ptr m /\ m_data m' = m_data m /\ m_w m' = m_w m /\ m_h m' = m_h m /\
    m_cw m' = m_cw m /\ m_ch m' = m_ch m /\ length (m_rows m') = length (m_rows m) /\
    forall r, r < i -> nth_error (m_rows m') r = Some (Some (r * w)%nat))).
  - repeat split; intros; lia.
  - intros i t Hi (E1 & E2 & E3 & E4 & E5 & E6 & E7 & E8).
    unfold set_row_ptr.
    destruct (list_set_some (m_rows t) i (Some (i * w)%nat)) as [l [E [L N]]]; [lia|].
    rewrite E. cbn. repeat split; auto; [lia|].
    intros r Hr. rewrite N. destruct (Nat.eqb_spec r i) as [->|]; [reflexivity|apply E8; lia].
  - intros t H; exact H.
Qed.

Lemma mat_resize_change k (m : matrix tg) w h :
  wf k m -> Nat.eqb w (m_w m) && Nat.eqb h (m_h m) = false ->
  wp (mat_resize m w h) (fun m' => wf true m' /\ m_w m' = w /\ m_h m' = h).
Proof.
  intros Hwf Hne. unfold mat_resize. rewrite Hne.
  match goal with |- wp (for_ _ _ ?m2) _ => set (m2' := m2) end.
  assert (Hm2 : length (m_rows m2') = m_ch m2' /\
    length (m_data m2') = (m_cw m2' * m_ch m2')%nat /\ w <= m_cw m2' /\ h <= m_ch m2' /\
    (m_ptr m2' = false -> m_cw m2' = 0%nat /\ m_ch m2' = 0%nat) /\ m_w m2' = w /\ m_h m2' = h).
  { subst m2'. cbn.
    assert (Hd : m_cw (mat_destroy m) = 0%nat /\ m_ch (mat_destroy m) = 0%nat).
    { unfold mat_destroy. destruct (m_ptr m) eqn:Ep; [auto|]. now apply (wf_ptr _ _ Hwf). }
    destruct Hd as [Hd1 Hd2]. rewrite Hd1, Hd2.
    destruct (Nat.ltb_spec (m_cw m) w) as [G|G]; cbn [orb];
    [|destruct (Nat.ltb_spec (m_ch m) h) as [G'|G']]; cbn;
    rewrite ?repeat_length;
    repeat match goal with |- context[if Nat.ltb ?a ?b then _ else _] =>
      destruct (Nat.ltb_spec a b) end;
    try solve [destruct Hwf; repeat split; auto; try discriminate; lia]. destruct Hwf; tauto. }
  destruct Hm2 as (E1 & E2 & E3 & E4 & E5 & E6 & E7).
  pose proof (set_rows_spec m2' w) as Hs. rewrite E7 in Hs.
  eapply wp_mono; [apply Hs; lia|].
  intros m' (F1 & F2 & F3 & F4 & F5 & F6 & F7 & F8).
  split; [|split; congruence].
  constructor; rewrite ?F1, ?F2, ?F3, ?F4, ?F5, ?F6, ?E6, ?E7; auto; try lia.
  exists (fun r => r). repeat split; auto.
Qed.

Lemma mat_resize_spec k m w h :
  wf k m ->
  wp (mat_resize m w h) (fun m' =>
    (exists f, is_mat k m' w h f) /\
    ((w = m_w m /\ h = m_h m /\ m' = m) \/ (~ (w = m_w m /\ h = m_h m) /\ wf true m'))).
Proof.
  intros Hwf. destruct (Nat.eqb w (m_w m) && Nat.eqb h (m_h m)) eqn:E.
  - unfold mat_resize. rewrite E. apply andb_true_iff in E. destruct E as [Ew Eh].
    apply Nat.eqb_eq in Ew, Eh. cbn [wp]. split; [|left; auto].
    rewrite Ew, Eh. now apply wf_contents.
  - eapply wp_mono; [eapply mat_resize_change; eassumption|]. intros m' [W [<- <-]]. split.
    + destruct (wf_contents true m' W) as [f Hf]. exists f. now apply is_mat_strong.
    + right. split; [|exact W]. intros [E1 E2]. rewrite E1, E2, !Nat.eqb_refl in E. discriminate.
Qed.

(** ** Overwriting and bulk initialisation *)

Lemma overwrite_spec (src d : list (cell tg)) :
  length src <= length d ->
  exists d', overwrite d src = Some d' /\ length d' = length d /\
    (forall i, i < length src -> nth_error d' i = nth_error src i) /\
    (forall i, length src <= i -> nth_error d' i = nth_error d i).
Proof.
  revert d; induction src as [|x src IH]; intros d Hl.
  - exists d; repeat split; [now destruct d|cbn; intros; lia].
  - destruct d as [|y d]; cbn in Hl; [lia|]. cbn [overwrite].
    destruct (IH d) as [d' [E [L [H1 H2]]]]; [lia|]. rewrite E.
    exists (x :: d'); repeat split; [cbn; lia| |].
    + intros [|i] Hi; cbn; [reflexivity|apply H1; cbn in Hi; lia].
    + intros [|i] Hi; cbn in *; [lia|apply H2; lia].
Qed.

Lemma mat_init0_spec k m w h :
  wf k m -> wp (mat_init0 m w h) (fun m' => is_mat k m' w h (fun _ _ => cofZ 0)).
Proof.
  intros Hwf. unfold mat_init0. eapply wp_seq; [apply mat_resize_spec; exact Hwf|].
  intros m1 [[f Hm] _]. destruct Hm as [[H1 H2 H3 H4 H5 [p [H6 [H7 H8]]]] [Hw [Hh Hf]]].
  destruct (overwrite_spec (repeat (cofZ 0) (w * h)%nat) (m_data m1)) as [d [E [L [N1 N2]]]].
  { rewrite repeat_length, H2. subst w h. nia. }
  rewrite E. cbn [lift_opt bind wp]. split.
  - constructor; cbn; auto; [lia|]. exists p; auto.
  - cbn. repeat split; auto. intros r c Hr Hc. unfold raw_get. cbn [with_data m_rows m_data].
    rewrite Hw, Hh in H6. destruct (H6 r Hr) as [-> Hp].
    assert (p r * w + c < w * h) by nia.
    rewrite N1 by (now rewrite repeat_length). rewrite nth_error_repeat' by assumption. reflexivity.
Qed.

(** cells written so far by a row-major loop standing before (i, j) *)
Definition partial (f0 F : nat -> nat -> cell tg) (i j : nat) : nat -> nat -> cell tg :=
  fun r c => if Nat.ltb r i || (Nat.eqb r i && Nat.ltb c j) then F r c else f0 r c.

Lemma partial_at f0 F i j r c :
  (r < i \/ (r = i /\ c < j)) -> partial f0 F i j r c = F r c.
Proof.
  intros H. unfold partial.
  destruct (Nat.ltb_spec r i), (Nat.eqb_spec r i), (Nat.ltb_spec c j); cbn; auto; lia.
Qed.
Lemma partial_not f0 F i j r c :
  (i < r \/ (r = i /\ j <= c)) -> partial f0 F i j r c = f0 r c.
Proof.
  intros H. unfold partial.
  destruct (Nat.ltb_spec r i), (Nat.eqb_spec r i), (Nat.ltb_spec c j); cbn; auto; lia.
Qed.
Lemma partial_step f0 F i j r c :
  partial f0 F i (S j) r c = fset (partial f0 F i j) i j (F i j) r c.
Proof.
  unfold fset. destruct (Nat.eqb_spec r i) as [->|Nr]; [destruct (Nat.eqb_spec c j) as [->|Nc]|]; cbn [andb].
  - apply partial_at; lia.
  - unfold partial. rewrite Nat.ltb_irrefl, Nat.eqb_refl; cbn.
    destruct (Nat.ltb_spec c (S j)), (Nat.ltb_spec c j); auto; lia.
  - unfold partial. destruct (Nat.ltb_spec r i), (Nat.eqb_spec r i); cbn; auto; lia.
Qed.
Lemma partial_row f0 F i w r c :
  c < w -> partial f0 F i w r c = partial f0 F (S i) 0 r c.
Proof.
  intros Hc. unfold partial.
  destruct (Nat.ltb_spec r i), (Nat.eqb_spec r i), (Nat.ltb_spec c w), (Nat.ltb_spec r (S i)),
    (Nat.eqb_spec r (S i)), (Nat.ltb_spec c 0); cbn; auto; lia.
Qed.

Lemma mat_init_val_spec k m w h v :
  wf k m -> wp (mat_init_val m w h v) (fun m' => is_mat k m' w h (fun _ _ => v)).
Proof.
  intros Hwf. unfold mat_init_val. eapply wp_seq; [apply mat_resize_spec; exact Hwf|].
  intros m1 [[f Hm] _].
  apply (for2_inv _ _ _ (fun i j t => is_mat k t w h (partial f (fun _ _ => v) i j))).
  - eapply is_mat_ext; [exact Hm|]. intros; rewrite partial_not; [reflexivity|lia].
  - intros i j t Hi Hj Ht. eapply wp_mono; [eapply raw_set_spec; eassumption|].
    intros t' Ht'. eapply is_mat_ext; [exact Ht'|]. intros; now rewrite partial_step.
  - intros i t Hi Ht. eapply is_mat_ext; [exact Ht|]. intros; now apply partial_row.
  - intros t Ht. eapply is_mat_ext; [exact Ht|]. intros; apply partial_at; lia.
Qed.

Lemma mat_destroy_spec k m : wf k m -> is_mat k (mat_destroy m) 0 0 (fun _ _ => None) /\ m_ptr (mat_destroy m) = false.
Proof.
  intros H. unfold mat_destroy. destruct (m_ptr m) eqn:E.
  - split; [apply is_mat_new|reflexivity].
  - split; [|exact E]. destruct (wf_ptr _ _ H E) as [E1 E2].
    pose proof (wf_w _ _ H); pose proof (wf_h _ _ H).
    split; [exact H|]. split; [lia|]. split; [lia|]. intros; lia.
Qed.

Lemma mat_get_spec k m w h f c r :
  is_mat k m w h f -> c < w -> r < h -> mat_get m c r = Ok (f r c).
Proof.
  intros H Hc Hr. unfold mat_get.
  rewrite (is_mat_w _ _ _ _ _ H), (is_mat_h _ _ _ _ _ H).
  rewrite !bind_massert by (now apply Nat.ltb_lt). eapply is_mat_get; eassumption.
Qed.
Lemma mat_set_spec k m w h f c r v :
  is_mat k m w h f -> c < w -> r < h ->
  wp (mat_set m c r v) (fun m' => is_mat k m' w h (fset f r c v)).
Proof.
  intros H Hc Hr. unfold mat_set.
  rewrite (is_mat_w _ _ _ _ _ H), (is_mat_h _ _ _ _ _ H).
  rewrite !bind_massert by (now apply Nat.ltb_lt). eapply raw_set_spec; eassumption.
Qed.
Lemma mat_addto_spec k m w h f c r v :
  is_mat k m w h f -> c < w -> r < h ->
  wp (mat_addto m c r v) (fun m' => is_mat k m' w h (fset f r c (f r c + v))).
Proof.
  intros H Hc Hr. unfold mat_addto.
  rewrite (is_mat_w _ _ _ _ _ H), (is_mat_h _ _ _ _ _ H).
  rewrite !bind_massert by (now apply Nat.ltb_lt).
  rewrite (is_mat_get _ _ _ _ _ r c H) by assumption. cbn [bind]. eapply raw_set_spec; eassumption.
Qed.

Definition swap_idx (a b r : nat) : nat :=
  if Nat.eqb r a then b else if Nat.eqb r b then a else r.

Lemma swap_idx_lt a b r h : a < h -> b < h -> r < h -> swap_idx a b r < h.
Proof. intros; unfold swap_idx; destruct (Nat.eqb r a), (Nat.eqb r b); auto. Qed.
Lemma swap_idx_inj a b r r' : swap_idx a b r = swap_idx a b r' -> r = r'.
Proof.
  unfold swap_idx; destruct (Nat.eqb_spec r a), (Nat.eqb_spec r b), (Nat.eqb_spec r' a),
    (Nat.eqb_spec r' b); lia.
Qed.

Lemma mat_row_swap_spec k m w h f a b :
  is_mat k m w h f -> a < h -> b < h ->
  wp (mat_row_swap m a b) (fun m' => is_mat false m' w h (fun r c => f (swap_idx a b r) c)).
Proof.
  intros [[H1 H2 H3 H4 H5 [p [H6 [H7 H8]]]] [Hw [Hh Hf]]] Ha Hb. subst w h.
  unfold mat_row_swap. destruct (H6 a Ha) as [Ea Pa], (H6 b Hb) as [Eb Pb]. rewrite Ea, Eb.
  destruct (list_set_some (m_rows m) a (Some (p b * m_w m)%nat)) as [l1 [E1 [L1 N1]]]; [lia|].
  rewrite E1. cbn [lift_opt bind].
  destruct (list_set_some l1 b (Some (p a * m_w m)%nat)) as [l2 [E2 [L2 N2]]]; [lia|].
  rewrite E2. cbn [lift_opt bind wp].
  assert (Hrow : forall r, r < m_h m ->
    nth_error l2 r = Some (Some (p (swap_idx a b r) * m_w m)%nat)).
  { intros r Hr. rewrite N2, N1. unfold swap_idx.
    destruct (Nat.eqb_spec r b) as [Erb|Nrb]; [|destruct (Nat.eqb_spec r a); [reflexivity|now apply H6]].
    destruct (Nat.eqb_spec r a) as [Era|Nra]; [|reflexivity].
    now rewrite <- Erb, Era. }
  split.
  - constructor; cbn; auto; [lia|]. exists (fun r => p (swap_idx a b r)). repeat split.
    + apply Hrow; assumption.
    + apply H6. now apply swap_idx_lt.
    + intros r r' Hr Hr' E. apply H7 in E; try now apply swap_idx_lt.
      now apply swap_idx_inj in E.
    + discriminate.
  - cbn. repeat split; auto. intros r c Hr Hc.
    rewrite <- (Hf (swap_idx a b r) c); [|now apply swap_idx_lt|assumption].
    unfold raw_get. cbn [with_rows m_rows m_data]. rewrite Hrow by assumption.
    destruct (H6 (swap_idx a b r)) as [-> _]; [now apply swap_idx_lt|]. reflexivity.
Qed.

(** ** Operations on stores *)

(** only matrix [t] may differ *)
Definition only (t : nat) (ms ms' : mats tg) : Prop := forall i, i <> t -> ms' i = ms i.
Lemma only_refl t ms : only t ms ms.
Proof. now intros i Hi. Qed.
Lemma only_trans t a b c : only t a b -> only t b c -> only t a c.
Proof. intros H1 H2 i Hi. rewrite H2, H1; auto. Qed.
Lemma only_upd t ms m : only t ms (upd ms t m).
Proof. intros i Hi; now rewrite upd_other. Qed.

Lemma mresize_spec k ms t w h :
  wf k (ms t) ->
  wp (mresize ms t w h) (fun ms' => only t ms ms' /\ (exists f, is_mat k (ms' t) w h f) /\
    (w = m_w (ms t) -> h = m_h (ms t) -> ms' t = ms t)).
Proof.
  intros H. unfold mresize. eapply wp_seq; [apply mat_resize_spec; exact H|].
  intros m' [Hm D]. cbn [wp]. split; [apply only_upd|]. rewrite upd_same. split; [exact Hm|].
  intros Ew Eh. destruct D as [[_ [_ D]]|[D _]]; [exact D|tauto].
Qed.
Lemma minit0_spec k ms t w h :
  wf k (ms t) ->
  wp (minit0 ms t w h) (fun ms' => only t ms ms' /\ is_mat k (ms' t) w h (fun _ _ => cofZ 0)).
Proof.
  intros H. unfold minit0. eapply wp_seq; [apply mat_init0_spec; exact H|].
  intros m' Hm. cbn [wp]. split; [apply only_upd|]. now rewrite upd_same.
Qed.
Lemma minit_val_spec k ms t w h v :
  wf k (ms t) ->
  wp (minit_val ms t w h v) (fun ms' => only t ms ms' /\ is_mat k (ms' t) w h (fun _ _ => v)).
Proof.
  intros H. unfold minit_val. eapply wp_seq; [apply mat_init_val_spec; exact H|].
  intros m' Hm. cbn [wp]. split; [apply only_upd|]. now rewrite upd_same.
Qed.
Lemma rset_spec k ms t w h f r c v :
  is_mat k (ms t) w h f -> r < h -> c < w ->
  wp (rset ms t r c v) (fun ms' => only t ms ms' /\ is_mat k (ms' t) w h (fset f r c v)).
Proof.
  intros H Hr Hc. unfold rset. eapply wp_seq; [eapply raw_set_spec; eassumption|].
  intros m' Hm. cbn [wp]. split; [apply only_upd|]. now rewrite upd_same.
Qed.
Lemma mset_spec k ms t w h f c r v :
  is_mat k (ms t) w h f -> c < w -> r < h ->
  wp (mset ms t c r v) (fun ms' => only t ms ms' /\ is_mat k (ms' t) w h (fset f r c v)).
Proof.
  intros H Hc Hr. unfold mset. eapply wp_seq; [eapply mat_set_spec; eassumption|].
  intros m' Hm. cbn [wp]. split; [apply only_upd|]. now rewrite upd_same.
Qed.
Lemma maddto_spec k ms t w h f c r v :
  is_mat k (ms t) w h f -> c < w -> r < h ->
  wp (maddto ms t c r v) (fun ms' => only t ms ms' /\ is_mat k (ms' t) w h (fset f r c (f r c + v))).
Proof.
  intros H Hc Hr. unfold maddto. eapply wp_seq; [eapply mat_addto_spec; eassumption|].
  intros m' Hm. cbn [wp]. split; [apply only_upd|]. now rewrite upd_same.
Qed.
Lemma rget_spec k ms t w h f r c :
  is_mat k (ms t) w h f -> r < h -> c < w -> rget ms t r c = Ok (f r c).
Proof. intros; unfold rget; eapply is_mat_get; eassumption. Qed.
Lemma mget_spec k ms t w h f c r :
  is_mat k (ms t) w h f -> c < w -> r < h -> mget ms t c r = Ok (f r c).
Proof. intros; unfold mget; eapply mat_get_spec; eassumption. Qed.

(** The filling loop: every body (i, j) writes [F i j] into cell (i, j) of [t],
    reading a store in which the cells of [t] before (i, j) already hold [F]
    and the others still hold [f0]. *)
Lemma fill_spec k ms t w h f0 F (body : nat -> nat -> mats tg -> res (mats tg)) :
  is_mat k (ms t) w h f0 ->
  (forall i j ms', i < h -> j < w -> only t ms ms' ->
     is_mat k (ms' t) w h (partial f0 F i j) ->
     wp (body i j ms') (fun ms'' => only t ms' ms'' /\
        is_mat k (ms'' t) w h (fset (partial f0 F i j) i j (F i j)))) ->
  wp (for2 h w body ms) (fun ms' => only t ms ms' /\ is_mat k (ms' t) w h F).
Proof.
  intros H0 Hb.
  apply (for2_inv _ _ _ (fun i j ms' => only t ms ms' /\ is_mat k (ms' t) w h (partial f0 F i j))).
  - split; [apply only_refl|]. eapply is_mat_ext; [exact H0|].
    intros; rewrite partial_not; [reflexivity|lia].
  - intros i j ms' Hi Hj [Ho Hm]. eapply wp_mono; [apply Hb; assumption|].
    intros ms'' [Ho' Hm']. split; [eapply only_trans; eassumption|].
    eapply is_mat_ext; [exact Hm'|]. intros; now rewrite partial_step.
  - intros i ms' Hi [Ho Hm]. split; [exact Ho|].
    eapply is_mat_ext; [exact Hm|]. intros; now apply partial_row.
  - intros ms' [Ho Hm]. split; [exact Ho|].
    eapply is_mat_ext; [exact Hm|]. intros; apply partial_at; lia.
Qed.

(** what a matrix reads as during a fill of [t] from state [f0]: untouched
    unless it is [t] itself *)
Lemma during k ms ms' t w h f0 F i j a wa ha fa :
  only t ms ms' -> is_mat k (ms' t) w h (partial f0 F i j) ->
  is_mat k (ms a) wa ha fa ->
  (a = t -> wa = w /\ ha = h /\ forall r c, r < h -> c < w -> f0 r c = fa r c) ->
  is_mat k (ms' a) wa ha (if Nat.eqb a t then partial fa F i j else fa).
Proof.
  intros Ho Hm Ha Ht. destruct (Nat.eqb_spec a t) as [->|N].
  - destruct (Ht eq_refl) as [-> [-> E]]. eapply is_mat_ext; [exact Hm|].
    intros r c Hr Hc. unfold partial. destruct (_ || _); auto.
  - now rewrite Ho.
Qed.

(** left-to-right sum of products, started from 0.0 *)
Fixpoint csum (n : nat) (f : nat -> cell tg) : cell tg :=
  match n with O => cofZ 0 | S n' => csum n' f + f n' end.
Lemma csum_ext n f g : (forall i, i < n -> f i = g i) -> csum n f = csum n g.
Proof. induction n; intros H; cbn; [reflexivity|]. rewrite IHn, H; auto. Qed.

Lemma for_sum n (g : nat -> res (cell tg)) f :
  (forall i, i < n -> g i = Ok (f i)) ->
  for_ n (fun i v => let* x := g i in Ok (v + x)) (cofZ 0) = Ok (csum n f).
Proof.
  intros Hg.
  assert (W : wp (for_ n (fun i v => let* x := g i in Ok (v + x)) (cofZ 0)) (fun v => v = csum n f)).
  { apply (for_inv _ (fun i v => v = csum i f)); [reflexivity| |auto].
    intros i t Hi ->. rewrite Hg by assumption. cbn. reflexivity. }
  apply wp_ok in W. destruct W as [a [-> ->]]. reflexivity.
Qed.
Lemma for_sum2 n (gx gy : nat -> res (cell tg)) fx fy :
  (forall i, i < n -> gx i = Ok (fx i)) -> (forall i, i < n -> gy i = Ok (fy i)) ->
  for_ n (fun i v => let* x := gx i in let* y := gy i in Ok (v + x * y)) (cofZ 0)
  = Ok (csum n (fun i => fx i * fy i)).
Proof.
  intros Hx Hy.
  assert (W : wp (for_ n (fun i v => let* x := gx i in let* y := gy i in Ok (v + x * y)) (cofZ 0))
                (fun v => v = csum n (fun i => fx i * fy i))).
  { apply (for_inv _ (fun i v => v = csum i (fun i => fx i * fy i))); [reflexivity| |auto].
    intros i t Hi ->. rewrite Hx, Hy by assumption. cbn. reflexivity. }
  apply wp_ok in W. destruct W as [a [-> ->]]. reflexivity.
Qed.

End MatrixFacts.
