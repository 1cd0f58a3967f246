(** * Facts about the SparseMatrix model. *)

From Verif Require Import Base Matrix Sparse Logic MatrixFacts MatrixOps.

Section SparseFacts.
Context {tg : target}.
Variables st en : nat.
Local Open Scope cell_scope.
Implicit Types s : sparse tg.

(** storage consistent with the recorded sizes (this is what [destroy] breaks) *)
Record swf s : Prop := {
  swf_rows : length (s_rows s) = s_ch s;
  swf_data : length (s_data s) = (st * en * s_ch s)%nat;
  swf_blocks : length (s_blocks s) = (s_ch s * en)%nat;
  swf_h : s_h s <= s_ch s;
  swf_ptr : s_ptr s = false -> s_ch s = 0%nat;
  swf_map : forall r, r < s_h s -> nth_error (s_rows s) r = Some (Some (r * en * st)%nat) }.

(** w by h; entry e of row r lies in block [blk r e] and holds [v r e 0..st-1] *)
Definition is_sp s (w h : nat) (blk : nat -> nat -> Z) (v : nat -> nat -> nat -> cell tg) : Prop :=
  swf s /\ s_w s = w /\ s_h s = h /\
  (forall r e, r < h -> e < en -> sp_block en s r e = Ok (blk r e)) /\
  (forall r e k, r < h -> e < en -> k < st -> sp_raw_get s r (e * st + k) = Ok (v r e k)).

Lemma swf_new : swf sp_new.
Proof. constructor; cbn; auto; try lia. Qed.

Lemma is_sp_ext s w h blk v blk' v' :
  is_sp s w h blk v ->
  (forall r e, r < h -> e < en -> blk r e = blk' r e) ->
  (forall r e k, r < h -> e < en -> k < st -> v r e k = v' r e k) -> is_sp s w h blk' v'.
Proof.
  intros (H & Ew & Eh & Hb & Hv) Eb Ev. refine (conj H (conj Ew (conj Eh (conj _ _)))); intros.
  - rewrite <- Eb by assumption; auto.
  - rewrite <- Ev by assumption; auto.
Qed.
Lemma is_sp_w s w h blk v : is_sp s w h blk v -> s_w s = w.
Proof. intros H; apply H. Qed.
Lemma is_sp_h s w h blk v : is_sp s w h blk v -> s_h s = h.
Proof. intros H; apply H. Qed.
Lemma is_sp_block s w h blk v r e : is_sp s w h blk v -> r < h -> e < en -> sp_block en s r e = Ok (blk r e).
Proof. intros H; apply H. Qed.
Lemma is_sp_get s w h blk v r e k :
  is_sp s w h blk v -> r < h -> e < en -> k < st -> sp_raw_get s r (e * st + k) = Ok (v r e k).
Proof. intros H; apply H. Qed.

(** the entries of a well-formed object are readable *)
Lemma swf_values s : swf s -> exists v,
  forall r e k, r < s_h s -> e < en -> k < st -> sp_raw_get s r (e * st + k) = Ok (v r e k).
Proof.
  intros H. exists (fun r e k => match sp_raw_get s r (e * st + k) with Ok x => x | _ => None end).
  intros r e k Hr He Hk. unfold sp_raw_get. rewrite (swf_map _ H r Hr).
  destruct (nth_error_ex (s_data s) (r * en * st + (e * st + k))) as [x ->]; [|reflexivity].
  rewrite (swf_data _ H). pose proof (swf_h _ H).
  assert (r * en * st + (e * st + k) < (r * en + en) * st) by nia.
  assert ((r * en + en) * st <= (s_ch s * en) * st) by nia. nia.
Qed.

(** ** setting blocks and values *)

Definition bset (blk : nat -> nat -> Z) (r e : nat) (b : Z) : nat -> nat -> Z :=
  fun r' e' => if Nat.eqb r' r && Nat.eqb e' e then b else blk r' e'.
Definition vset (v : nat -> nat -> nat -> cell tg) (r e k : nat) (x : cell tg) : nat -> nat -> nat -> cell tg :=
  fun r' e' k' => if Nat.eqb r' r && Nat.eqb e' e && Nat.eqb k' k then x else v r' e' k'.

Lemma swf_with_blocks s b : swf s -> length b = length (s_blocks s) -> swf (sp_with_blocks s b).
Proof. intros [H1 H2 H3 H4 H5 H6] E. constructor; cbn; auto. congruence. Qed.
Lemma swf_with_data s d : swf s -> length d = length (s_data s) -> swf (sp_with_data s d).
Proof. intros [H1 H2 H3 H4 H5 H6] E. constructor; cbn; auto. congruence. Qed.

Lemma put_block_spec s w h blk v r e b :
  is_sp s w h blk v -> r < h -> e < en ->
  wp (let* l := lift_opt (list_set (s_blocks s) (r * en + e) (Some b)) in Ok (sp_with_blocks s l))
     (fun s' => is_sp s' w h (bset blk r e b) v).
Proof.
  intros (H & Ew & Eh & Hb & Hv) Hr He.
  assert (L : r * en + e < length (s_blocks s)).
  { rewrite (swf_blocks _ H). pose proof (swf_h _ H). nia. }
  destruct (list_set_some (s_blocks s) (r * en + e) (Some b) L) as [l [E [Hl Hn]]]. rewrite E.
  cbn [lift_opt bind wp]. refine (conj (swf_with_blocks _ _ H Hl) (conj Ew (conj Eh (conj _ Hv)))).
  intros r' e' Hr' He'. specialize (Hb r' e' Hr' He'). unfold sp_block in Hb |- *. cbn [s_blocks sp_with_blocks].
  rewrite Hn. unfold bset. destruct (Nat.eqb_spec (r' * en + e') (r * en + e)) as [Ea|Na].
  - destruct (mix_inj _ _ _ _ _ He' He Ea) as [-> ->]. now rewrite !Nat.eqb_refl.
  - destruct (Nat.eqb_spec r' r) as [->|]; cbn [andb]; [|exact Hb].
    destruct (Nat.eqb_spec e' e) as [->|]; [lia|exact Hb].
Qed.

Lemma sp_set_block_spec s w h blk v r e b :
  is_sp s w h blk v -> r < h -> e < en -> (b < Z.of_nat w)%Z ->
  wp (sp_set_block en s r e b) (fun s' => is_sp s' w h (bset blk r e b) v).
Proof.
  intros H Hr He Hb. unfold sp_set_block.
  rewrite (is_sp_w _ _ _ _ _ H), (is_sp_h _ _ _ _ _ H).
  rewrite !bind_massert by (first [now apply Nat.ltb_lt|now apply Z.ltb_lt]).
  eapply put_block_spec; eassumption.
Qed.

Lemma sp_raw_set_spec s w h blk v r e k x :
  is_sp s w h blk v -> r < h -> e < en -> k < st ->
  wp (sp_raw_set s r (e * st + k) x) (fun s' => is_sp s' w h blk (vset v r e k x)).
Proof.
  intros (H & Ew & Eh & Hb & Hv) Hr He Hk. subst h.
  unfold sp_raw_set. rewrite (swf_map _ H r Hr).
  assert (L : r * en * st + (e * st + k) < length (s_data s)).
  { rewrite (swf_data _ H). pose proof (swf_h _ H).
    assert (r * en * st + (e * st + k) < (r * en + en) * st) by nia.
    assert ((r * en + en) * st <= (s_ch s * en) * st) by nia. nia. }
  destruct (list_set_some _ _ x L) as [d [E [Hl Hn]]]. rewrite E. cbn [lift_opt bind wp].
  refine (conj (swf_with_data _ _ H Hl) (conj Ew (conj eq_refl (conj Hb _)))).
  intros r' e' k' Hr' He' Hk'. specialize (Hv r' e' k' Hr' He' Hk').
  unfold sp_raw_get in Hv |- *. cbn [s_rows s_data sp_with_data]. cbn [s_h sp_with_data] in Hr'.
  rewrite (swf_map _ H r' Hr') in Hv |- *. rewrite Hn. unfold vset.
  destruct (Nat.eqb_spec (r' * en * st + (e' * st + k')) (r * en * st + (e * st + k))) as [Ea|Na].
  - assert (E1 : ((r' * en + e') * st + k' = (r * en + e) * st + k)%nat) by nia.
    destruct (mix_inj _ _ _ _ _ Hk' Hk E1) as [E2 ->].
    destruct (mix_inj _ _ _ _ _ He' He E2) as [-> ->]. now rewrite !Nat.eqb_refl.
  - destruct (Nat.eqb_spec r' r) as [->|]; cbn [andb]; [|exact Hv].
    destruct (Nat.eqb_spec e' e) as [->|]; cbn [andb]; [|exact Hv].
    destruct (Nat.eqb_spec k' k) as [->|]; [lia|exact Hv].
Qed.
Lemma sp_set_spec s w h blk v r e k x :
  is_sp s w h blk v -> r < h -> e < en -> k < st ->
  wp (sp_set st en s r e k x) (fun s' => is_sp s' w h blk (vset v r e k x)).
Proof.
  intros H Hr He Hk. unfold sp_set. rewrite (is_sp_h _ _ _ _ _ H).
  rewrite !bind_massert by (now apply Nat.ltb_lt). eapply sp_raw_set_spec; eassumption.
Qed.
Lemma sp_get_spec s w h blk v r e k :
  is_sp s w h blk v -> r < h -> e < en -> k < st -> sp_get st en s r e k = Ok (v r e k).
Proof.
  intros H Hr He Hk. unfold sp_get. rewrite (is_sp_h _ _ _ _ _ H).
  rewrite !bind_massert by (now apply Nat.ltb_lt). eapply is_sp_get; eassumption.
Qed.
Lemma sp_set_empty_spec s w h blk v r e :
  is_sp s w h blk v -> r < h -> e < en ->
  wp (sp_set_empty st en s r e) (fun s' => is_sp s' w h (bset blk r e 255)
    (fun r' e' k => if Nat.eqb r' r && Nat.eqb e' e then cofZ 0 else v r' e' k)).
Proof.
  intros H Hr He. unfold sp_set_empty. rewrite (is_sp_h _ _ _ _ _ H).
  rewrite !bind_massert by (now apply Nat.ltb_lt).
  pose proof (put_block_spec s w h blk v r e 255%Z H Hr He) as Hp.
  destruct (list_set (s_blocks s) (r * en + e) (Some 255%Z)) as [l|]; cbn [lift_opt bind wp] in Hp |- *; [|easy].
  apply (for_inv _ (fun i s' => is_sp s' w h (bset blk r e 255)
    (fun r' e' k => if Nat.eqb r' r && Nat.eqb e' e && Nat.ltb k i then cofZ 0 else v r' e' k))).
  - eapply is_sp_ext; [exact Hp|reflexivity|]. intros r' e' k _ _ _.
    destruct (Nat.ltb_spec k 0); [lia|]. now rewrite andb_false_r.
  - intros i t Hi Ht. eapply wp_mono; [eapply sp_raw_set_spec; eassumption|].
    intros t' Ht'. eapply is_sp_ext; [exact Ht'|reflexivity|]. intros r' e' k _ _ _. unfold vset.
    destruct (Nat.eqb r' r), (Nat.eqb e' e), (Nat.eqb_spec k i), (Nat.ltb_spec k i), (Nat.ltb_spec k (S i)); cbn; auto; lia.
  - intros t Ht. eapply is_sp_ext; [exact Ht|reflexivity|]. intros r' e' k _ _ Hk.
    cbn beta. destruct (Nat.eqb r' r), (Nat.eqb e' e), (Nat.ltb_spec k st); cbn; auto; lia.
Qed.

(** ** resizing and initialising *)

Lemma sp_set_rows_spec s :
  s_h s <= length (s_rows s) ->
  wp (for_ (s_h s) (sp_set_row_ptr st en) s) (fun s' =>
    s_ptr s' = s_ptr s /\ s_data s' = s_data s /\ s_blocks s' = s_blocks s /\
    s_w s' = s_w s /\ s_h s' = s_h s /\ s_ch s' = s_ch s /\ length (s_rows s') = length (s_rows s) /\
    forall r, r < s_h s -> nth_error (s_rows s') r = Some (Some (r * en * st)%nat)).
Proof.
  intros Hh.
  apply (for_inv _ (fun i s' =>
    s_ptr s' = s_ptr s /\ s_data s' = s_data s /\ s_blocks s' = s_blocks s /\
    s_w s' = s_w s /\ s_h s' = s_h s /\ s_ch s' = s_ch s /\ length (s_rows s') = length (s_rows s) /\
    forall r, r < i -> nth_error (s_rows s') r = Some (Some (r * en * st)%nat))).
  - repeat split; intros; lia.
  - intros i t Hi (E1 & E2 & E3 & E4 & E5 & E6 & E7 & E8). unfold sp_set_row_ptr.
    destruct (list_set_some (s_rows t) i (Some (i * en * st)%nat)) as [l [E [L N]]]; [lia|].
    rewrite E. cbn. repeat split; auto; [lia|].
    intros r Hr. rewrite N. destruct (Nat.eqb_spec r i) as [->|]; [reflexivity|apply E8; lia].
  - intros t H; exact H.
Qed.

Lemma sp_resize_spec s w h :
  swf s -> wp (sp_resize st en s w h) (fun s' => swf s' /\ s_w s' = w /\ s_h s' = h).
Proof.
  intros H. unfold sp_resize.
  destruct (Nat.eqb w (s_w s) && Nat.eqb h (s_h s)) eqn:E.
  { apply andb_true_iff in E. destruct E as [E1 E2]. apply Nat.eqb_eq in E1, E2. cbn. auto. }
  match goal with |- wp (for_ _ _ ?m2) _ => set (s2 := m2) end.
  assert (H2 : length (s_rows s2) = s_ch s2 /\ length (s_data s2) = (st * en * s_ch s2)%nat /\
    length (s_blocks s2) = (s_ch s2 * en)%nat /\ h <= s_ch s2 /\
    (s_ptr s2 = false -> s_ch s2 = 0%nat) /\ s_w s2 = w /\ s_h s2 = h).
  { subst s2. cbn. destruct (Nat.ltb_spec (s_ch s) h) as [L|L]; cbn.
    - rewrite !repeat_length.
      destruct (Nat.ltb_spec (s_ch (sp_destroy s)) h); repeat split; auto; discriminate.
    - destruct H; tauto. }
  destruct H2 as (E1 & E2 & E3 & E4 & E5 & E6 & E7).
  pose proof (sp_set_rows_spec s2) as Hs. rewrite E7 in Hs.
  eapply wp_mono; [apply Hs; lia|].
  intros s' (F1 & F2 & F3 & F4 & F5 & F6 & F7 & F8).
  split; [|split; congruence].
  constructor; rewrite ?F1, ?F2, ?F3, ?F4, ?F5, ?F6, ?E7; auto; lia.
Qed.

Lemma fill_blocks_spec k (b : list (option Z)) :
  k <= length b ->
  exists b', fill_blocks k b = Some b' /\ length b' = length b /\
    (forall i, i < k -> nth_error b' i = Some (Some 255%Z)).
Proof.
  revert b; induction k as [|k IH]; intros b Hk; cbn [fill_blocks].
  - exists b. destruct b; repeat split; intros; lia.
  - destruct b as [|x b]; cbn in Hk; [lia|].
    destruct (IH b) as [b' [E [L N]]]; [lia|]. rewrite E.
    exists (Some 255%Z :: b'). split; [reflexivity|]. split; [cbn; lia|].
    intros [|i] Hi; cbn; [reflexivity|apply N; lia].
Qed.

Lemma sp_init_spec s w h :
  swf s -> wp (sp_init st en s w h) (fun s' => exists v, is_sp s' w h (fun _ _ => 255%Z) v).
Proof.
  intros H. unfold sp_init. eapply wp_seq; [apply sp_resize_spec; exact H|].
  intros s1 (H1 & Ew & Eh).
  destruct (fill_blocks_spec (en * s_h s1) (s_blocks s1)) as [b [E [L N]]].
  { rewrite (swf_blocks _ H1). pose proof (swf_h _ H1). nia. }
  rewrite E. cbn [lift_opt bind wp].
  destruct (swf_values s1 H1) as [v Hv]. exists v.
  refine (conj (swf_with_blocks _ _ H1 L) (conj Ew (conj Eh (conj _ _)))).
  - intros r e Hr He. unfold sp_block. cbn [s_blocks sp_with_blocks]. rewrite N; [reflexivity|]. nia.
  - intros r e k Hr. rewrite <- Eh in Hr. now apply Hv.
Qed.

(** ** the table described by the entries; a later entry overrides an earlier one *)

Definition hit (z : Z) (c : nat) : bool :=
  negb (Z.eqb z 255) && Nat.leb (Z.to_nat z * st) c && Nat.ltb c (Z.to_nat z * st + st).
Fixpoint lookup (n : nat) (blk : nat -> Z) (v : nat -> nat -> cell tg) (c : nat) : cell tg :=
  match n with
  | O => cofZ 0
  | S e => if hit (blk e) c then v e (c - Z.to_nat (blk e) * st)%nat else lookup e blk v c
  end.
(** a block index in use must lie inside the width *)
Definition inside (w : nat) (z : Z) : Prop := z = 255%Z \/ ((0 <= z)%Z /\ (Z.to_nat z * st + st <= w)%nat).

Lemma inside_bcol w z k : inside w z -> z <> 255%Z -> k < st -> bcol st z k < w.
Proof. intros [->|[_ H]] N Hk; [contradiction|]. unfold bcol. lia. Qed.

Lemma hit_bcol z k : z <> 255%Z -> k < st -> hit z (bcol st z k) = true.
Proof.
  intros N Hk. unfold hit, bcol. destruct (Z.eqb_spec z 255); [contradiction|].
  cbn [negb andb]. apply andb_true_iff. split; [apply Nat.leb_le; lia|apply Nat.ltb_lt; lia].
Qed.
Lemma hit_spec z c : hit z c = true <-> z <> 255%Z /\ Z.to_nat z * st <= c < Z.to_nat z * st + st.
Proof.
  unfold hit. rewrite !andb_true_iff, negb_true_iff, Z.eqb_neq, Nat.leb_le, Nat.ltb_lt. tauto.
Qed.

(** *** expand *)
Lemma sp_expand_spec kt s ms t w h blk v :
  is_sp s w h blk v -> wf kt (ms t) ->
  (forall r e, r < h -> e < en -> inside w (blk r e)) ->
  wp (sp_expand st en s ms t)
     (post kt ms t w h (fun r c => lookup en (blk r) (v r) c)).
Proof.
  intros Hs Ht Hin. unfold sp_expand.
  rewrite (is_sp_w _ _ _ _ _ Hs), (is_sp_h _ _ _ _ _ Hs).
  eapply wp_seq; [apply minit0_spec; exact Ht|]. intros ms1 [Ho1 Hm1].
  set (G i j r c := if Nat.ltb r i then lookup en (blk r) (v r) c
                    else if Nat.eqb r i then lookup j (blk r) (v r) c else cofZ 0).
  apply (for2_inv _ _ _ (fun i j ms' => only t ms ms' /\ is_mat kt (ms' t) w h (G i j))).
  - split; [exact Ho1|]. eapply is_mat_ext; [exact Hm1|]. intros r c _ _. unfold G.
    destruct (Nat.ltb_spec r 0); [lia|]. now destruct (Nat.eqb r 0).
  - intros i j ms' Hi Hj [Ho Hm]. rewrite (is_sp_block _ _ _ _ _ _ _ Hs) by assumption. cbn [bind].
    destruct (Z.eqb_spec (blk i j) 255) as [E|N].
    { cbn [wp]. split; [exact Ho|]. eapply is_mat_ext; [exact Hm|]. intros r c _ _. unfold G.
      destruct (Nat.ltb_spec r i); [reflexivity|]. destruct (Nat.eqb_spec r i) as [->|]; [|reflexivity].
      cbn [lookup]. unfold hit. now rewrite E. }
    apply (for_inv _ (fun k ms' => only t ms ms' /\ is_mat kt (ms' t) w h (fun r c =>
      if Nat.eqb r i && hit (blk i j) c && Nat.ltb (c - Z.to_nat (blk i j) * st) k
      then v i j (c - Z.to_nat (blk i j) * st)%nat else G i j r c))).
    + split; [exact Ho|]. eapply is_mat_ext; [exact Hm|]. intros r c _ _.
      destruct (Nat.ltb_spec (c - Z.to_nat (blk i j) * st) 0); [lia|]. now rewrite andb_false_r.
    + intros k ms2 Hk [Ho2 Hm2]. rewrite (is_sp_get _ _ _ _ _ _ _ _ Hs) by assumption. cbn [bind].
      assert (Hc : bcol st (blk i j) k < w) by (apply inside_bcol; auto).
      eapply wp_mono; [eapply mset_spec; eassumption|]. intros ms3 [Ho3 Hm3].
      split; [eapply only_trans; eassumption|]. eapply is_mat_ext; [exact Hm3|].
      intros r c Hr Hcw. unfold fset. destruct (Nat.eqb_spec r i) as [->|]; cbn [andb]; [|reflexivity].
      destruct (Nat.eqb_spec c (bcol st (blk i j) k)) as [->|Nc].
      * rewrite hit_bcol by assumption. cbn [andb].
        replace (bcol st (blk i j) k - Z.to_nat (blk i j) * st)%nat with k by (unfold bcol; lia).
        destruct (Nat.ltb_spec k (S k)); [reflexivity|lia].
      * destruct (hit (blk i j) c) eqn:Eh; cbn [andb]; [|reflexivity].
        apply hit_spec in Eh. unfold bcol in Nc.
        destruct (Nat.ltb_spec (c - Z.to_nat (blk i j) * st) k),
          (Nat.ltb_spec (c - Z.to_nat (blk i j) * st) (S k)); auto; lia.
    + intros ms2 [Ho2 Hm2]. split; [exact Ho2|]. eapply is_mat_ext; [exact Hm2|].
      intros r c Hr Hcw. unfold G. destruct (Nat.eqb_spec r i) as [->|]; cbn [andb]; [|reflexivity].
      destruct (Nat.ltb_spec i i); [lia|]. cbn [lookup].
      destruct (hit (blk i j) c) eqn:Eh; cbn [andb]; [|reflexivity].
      apply hit_spec in Eh. destruct (Nat.ltb_spec (c - Z.to_nat (blk i j) * st) st); [reflexivity|lia].
  - intros i ms' Hi [Ho Hm]. split; [exact Ho|]. eapply is_mat_ext; [exact Hm|].
    intros r c Hr Hc. unfold G.
    destruct (Nat.ltb_spec r i), (Nat.ltb_spec r (S i)); auto; try lia.
    + destruct (Nat.eqb_spec r i); [subst; reflexivity|lia].
    + destruct (Nat.eqb_spec r i); [lia|]. now destruct (Nat.eqb r (S i)).
  - intros ms' [Ho Hm]. split; [exact Ho|]. eapply is_mat_ext; [exact Hm|].
    intros r c Hr Hc. unfold G. destruct (Nat.ltb_spec r h); [reflexivity|lia].
Qed.

Lemma sp_expand_transposed_spec kt s ms t w h blk v :
  is_sp s w h blk v -> wf kt (ms t) ->
  (forall r e, r < h -> e < en -> inside w (blk r e)) ->
  wp (sp_expand_transposed st en s ms t)
     (post kt ms t h w (fun c r => lookup en (blk r) (v r) c)).
Proof.
  intros Hs Ht Hin. unfold sp_expand_transposed.
  rewrite (is_sp_w _ _ _ _ _ Hs), (is_sp_h _ _ _ _ _ Hs).
  eapply wp_seq; [apply minit0_spec; exact Ht|]. intros ms1 [Ho1 Hm1].
  set (G i j c r := if Nat.ltb r i then lookup en (blk r) (v r) c
                    else if Nat.eqb r i then lookup j (blk r) (v r) c else cofZ 0).
  apply (for2_inv _ _ _ (fun i j ms' => only t ms ms' /\ is_mat kt (ms' t) h w (G i j))).
  - split; [exact Ho1|]. eapply is_mat_ext; [exact Hm1|]. intros c r _ _. unfold G.
    destruct (Nat.ltb_spec r 0); [lia|]. now destruct (Nat.eqb r 0).
  - intros i j ms' Hi Hj [Ho Hm]. rewrite (is_sp_block _ _ _ _ _ _ _ Hs) by assumption. cbn [bind].
    destruct (Z.eqb_spec (blk i j) 255) as [E|N].
    { cbn [wp]. split; [exact Ho|]. eapply is_mat_ext; [exact Hm|]. intros c r _ _. unfold G.
      destruct (Nat.ltb_spec r i); [reflexivity|]. destruct (Nat.eqb_spec r i) as [->|]; [|reflexivity].
      cbn [lookup]. unfold hit. now rewrite E. }
    apply (for_inv _ (fun k ms' => only t ms ms' /\ is_mat kt (ms' t) h w (fun c r =>
      if Nat.eqb r i && hit (blk i j) c && Nat.ltb (c - Z.to_nat (blk i j) * st) k
      then v i j (c - Z.to_nat (blk i j) * st)%nat else G i j c r))).
    + split; [exact Ho|]. eapply is_mat_ext; [exact Hm|]. intros c r _ _.
      destruct (Nat.ltb_spec (c - Z.to_nat (blk i j) * st) 0); [lia|]. now rewrite andb_false_r.
    + intros k ms2 Hk [Ho2 Hm2]. rewrite (is_sp_get _ _ _ _ _ _ _ _ Hs) by assumption. cbn [bind].
      assert (Hc : bcol st (blk i j) k < w) by (apply inside_bcol; auto).
      eapply wp_mono; [eapply mset_spec; eassumption|]. intros ms3 [Ho3 Hm3].
      split; [eapply only_trans; eassumption|]. eapply is_mat_ext; [exact Hm3|].
      intros c r Hcw Hr. unfold fset.
      destruct (Nat.eqb_spec r i) as [->|]; cbn [andb]; [|now rewrite andb_false_r].
      rewrite andb_true_r.
      destruct (Nat.eqb_spec c (bcol st (blk i j) k)) as [->|Nc].
      * rewrite hit_bcol by assumption. cbn [andb].
        replace (bcol st (blk i j) k - Z.to_nat (blk i j) * st)%nat with k by (unfold bcol; lia).
        destruct (Nat.ltb_spec k (S k)); [reflexivity|lia].
      * destruct (hit (blk i j) c) eqn:Eh; cbn [andb]; [|reflexivity].
        apply hit_spec in Eh. unfold bcol in Nc.
        destruct (Nat.ltb_spec (c - Z.to_nat (blk i j) * st) k),
          (Nat.ltb_spec (c - Z.to_nat (blk i j) * st) (S k)); auto; lia.
    + intros ms2 [Ho2 Hm2]. split; [exact Ho2|]. eapply is_mat_ext; [exact Hm2|].
      intros c r Hcw Hr. unfold G. destruct (Nat.eqb_spec r i) as [->|]; cbn [andb]; [|reflexivity].
      destruct (Nat.ltb_spec i i); [lia|]. cbn [lookup].
      destruct (hit (blk i j) c) eqn:Eh; cbn [andb]; [|reflexivity].
      apply hit_spec in Eh. destruct (Nat.ltb_spec (c - Z.to_nat (blk i j) * st) st); [reflexivity|lia].
  - intros i ms' Hi [Ho Hm]. split; [exact Ho|]. eapply is_mat_ext; [exact Hm|].
    intros c r Hc Hr. unfold G.
    destruct (Nat.ltb_spec r i), (Nat.ltb_spec r (S i)); auto; try lia.
    + destruct (Nat.eqb_spec r i); [subst; reflexivity|lia].
    + destruct (Nat.eqb_spec r i); [lia|]. now destruct (Nat.eqb r (S i)).
  - intros ms' [Ho Hm]. split; [exact Ho|]. eapply is_mat_ext; [exact Hm|].
    intros c r Hc Hr. unfold G. destruct (Nat.ltb_spec r h); [reflexivity|lia].
Qed.

(** *** products: the exact order of evaluation *)

(** one row against a column [y] *)
Definition srow (blk : nat -> Z) (v : nat -> nat -> cell tg) (y : nat -> cell tg) : cell tg :=
  iter en (fun e a => if Z.eqb (blk e) 255 then a
                      else iter st (fun k a => a + v e k * y (bcol st (blk e) k)) a) (cofZ 0).
(** one row against another *)
Definition srowrow (blk : nat -> Z) (v : nat -> nat -> cell tg) (blk' : nat -> Z) (v' : nat -> nat -> cell tg) : cell tg :=
  iter en (fun e a => if Z.eqb (blk e) 255 then a
    else iter en (fun l a => if Z.eqb (blk e) (blk' l)
                             then iter st (fun k a => a + v e k * v' l k) a else a) a) (cofZ 0).
(** component [c] of the transposed product *)
Definition stcol (h : nat) (blk : nat -> nat -> Z) (v : nat -> nat -> nat -> cell tg) (y : nat -> cell tg) (c : nat) : cell tg :=
  iter h (fun i a => iter en (fun e a => if Z.eqb (blk i e) 255 then a
    else iter st (fun k a => if Nat.eqb c (bcol st (blk i e) k) then a + v i e k * y i else a) a) a) (cofZ 0).

Lemma sp_multiply_spec kt s ms b t w h n blk v y :
  is_sp s n h blk v -> is_mat false (ms b) w n y -> wf kt (ms t) -> b <> t ->
  (forall r e, r < h -> e < en -> inside n (blk r e)) ->
  wp (sp_multiply st en s ms b t)
     (post kt ms t w h (fun r c => srow (blk r) (v r) (fun i => y i c))).
Proof.
  intros Hs Hb Ht N Hin. unfold sp_multiply.
  rewrite !bind_massert by (rewrite (is_sp_w _ _ _ _ _ Hs), (is_mat_h _ _ _ _ _ Hb); apply Nat.eqb_refl).
  rewrite (is_sp_h _ _ _ _ _ Hs), (is_mat_w _ _ _ _ _ Hb).
  eapply wp_seq; [apply minit0_spec; exact Ht|]. intros ms1 [Ho1 Hm1].
  eapply wp_mono.
  - eapply (fill_rset kt ms1 t w h _ (fun r c => srow (blk r) (v r) (fun i => y i c))); [exact Hm1|].
    intros i j ms' Hi Hj Ho Hm.
    assert (Hb' : is_mat false (ms' b) w n y) by (rewrite Ho, Ho1; auto).
    rewrite (for_det en _ (fun e a => if Z.eqb (blk i e) 255 then a
       else iter st (fun k a => a + v i e k * y (bcol st (blk i e) k) j) a)).
    + cbn [bind]. eapply mset_rset; eassumption.
    + intros e a He. rewrite (is_sp_block _ _ _ _ _ _ _ Hs) by assumption. cbn [bind].
      destruct (Z.eqb_spec (blk i e) 255) as [|Nb]; [reflexivity|].
      apply for_det. intros k x Hk. rewrite (is_sp_get _ _ _ _ _ _ _ _ Hs) by assumption. cbn [bind].
      rewrite (mget_spec _ _ _ _ _ _ _ _ Hb'); [reflexivity|assumption|apply inside_bcol; auto].
  - intros ms' [H1 H2]. split; [eapply only_trans; eassumption|exact H2].
Qed.

Lemma sp_multiply_transpose_spec kt s s' ms t n h h' blk v blk' v' :
  is_sp s n h blk v -> is_sp s' n h' blk' v' -> wf kt (ms t) ->
  wp (sp_multiply_transpose st en s s' ms t)
     (post kt ms t h' h (fun r c => srowrow (blk r) (v r) (blk' c) (v' c))).
Proof.
  intros Hs Hs' Ht. unfold sp_multiply_transpose.
  rewrite !bind_massert by (rewrite (is_sp_w _ _ _ _ _ Hs), (is_sp_w _ _ _ _ _ Hs'); apply Nat.eqb_refl).
  rewrite (is_sp_h _ _ _ _ _ Hs), (is_sp_h _ _ _ _ _ Hs').
  eapply wp_seq; [apply minit0_spec; exact Ht|]. intros ms1 [Ho1 Hm1].
  eapply wp_mono.
  - eapply (fill_rset kt ms1 t h' h _ (fun r c => srowrow (blk r) (v r) (blk' c) (v' c))); [exact Hm1|].
    intros i j ms' Hi Hj Ho Hm. unfold sp_row_dot.
    rewrite (for_det en _ (fun e a => if Z.eqb (blk i e) 255 then a
       else iter en (fun l a => if Z.eqb (blk i e) (blk' j l)
                             then iter st (fun k a => a + v i e k * v' j l k) a else a) a)).
    + cbn [bind]. eapply mset_rset; eassumption.
    + intros e a He. rewrite (is_sp_block _ _ _ _ _ _ _ Hs) by assumption. cbn [bind].
      destruct (Z.eqb_spec (blk i e) 255) as [|Nb]; [reflexivity|].
      apply for_det. intros l x Hl. rewrite (is_sp_block _ _ _ _ _ _ _ Hs') by assumption. cbn [bind].
      destruct (Z.eqb (blk i e) (blk' j l)); [|reflexivity].
      apply for_det. intros k x' Hk.
      rewrite (is_sp_get _ _ _ _ _ _ _ _ Hs) by assumption. cbn [bind].
      rewrite (is_sp_get _ _ _ _ _ _ _ _ Hs') by assumption. reflexivity.
  - intros ms' [H1 H2]. split; [eapply only_trans; eassumption|exact H2].
Qed.

Lemma sp_transpose_multiply_vector_spec kt s ms b t n h blk v y :
  is_sp s n h blk v -> is_mat false (ms b) 1 h y -> wf kt (ms t) -> b <> t ->
  (forall r e, r < h -> e < en -> inside n (blk r e)) ->
  wp (sp_transpose_multiply_vector st en s ms b t)
     (post kt ms t 1 n (fun r _ => stcol h blk v (fun i => y i 0%nat) r)).
Proof.
  intros Hs Hb Ht N Hin. unfold sp_transpose_multiply_vector.
  rewrite !bind_massert by (rewrite ?(is_sp_h _ _ _ _ _ Hs), ?(is_mat_h _ _ _ _ _ Hb), ?(is_mat_w _ _ _ _ _ Hb); apply Nat.eqb_refl).
  rewrite (is_sp_h _ _ _ _ _ Hs), (is_sp_w _ _ _ _ _ Hs).
  eapply wp_seq; [apply minit0_spec; exact Ht|]. intros ms1 [Ho1 Hm1].
  set (inner i e c a := if Z.eqb (blk i e) 255 then a
    else iter st (fun k a => if Nat.eqb c (bcol st (blk i e) k) then a + v i e k * y i 0%nat else a) a).
  set (G i j c := iter j (fun e a => inner i e c a)
                    (iter i (fun i a => iter en (fun e a => inner i e c a) a) (cofZ 0))).
  apply (for2_inv _ _ _ (fun i j ms' => only t ms ms' /\ is_mat kt (ms' t) 1 n (fun r _ => G i j r))).
  - split; [exact Ho1|exact Hm1].
  - intros i j ms' Hi Hj [Ho Hm]. rewrite (is_sp_block _ _ _ _ _ _ _ Hs) by assumption. cbn [bind].
    destruct (Z.eqb_spec (blk i j) 255) as [E|Nb].
    { cbn [wp]. split; [exact Ho|]. eapply is_mat_ext; [exact Hm|]. intros r c _ _.
      change (G i (S j) r) with (inner i j r (G i j r)). unfold inner. now rewrite E. }
    apply (for_inv _ (fun k ms' => only t ms ms' /\ is_mat kt (ms' t) 1 n (fun r _ =>
      iter k (fun k a => if Nat.eqb r (bcol st (blk i j) k) then a + v i j k * y i 0%nat else a) (G i j r)))).
    + split; [exact Ho|exact Hm].
    + intros k ms2 Hk [Ho2 Hm2]. rewrite (is_sp_get _ _ _ _ _ _ _ _ Hs) by assumption. cbn [bind].
      assert (Hb2 : is_mat false (ms2 b) 1 h y) by (now rewrite Ho2).
      rewrite (mget_spec _ _ _ _ _ _ _ _ Hb2) by (auto; lia). cbn [bind].
      assert (Hc : bcol st (blk i j) k < n) by (apply inside_bcol; auto).
      eapply wp_mono; [eapply maddto_spec; [exact Hm2|lia|exact Hc]|]. intros ms3 [Ho3 Hm3].
      split; [eapply only_trans; eassumption|]. eapply is_mat_ext; [exact Hm3|].
      intros r c Hr Hcw. unfold fset. assert (c = 0%nat) by lia. subst c. cbn [iter].
      rewrite Nat.eqb_refl, andb_true_r.
      destruct (Nat.eqb_spec r (bcol st (blk i j) k)) as [->|]; reflexivity.
    + intros ms2 [Ho2 Hm2]. split; [exact Ho2|]. eapply is_mat_ext; [exact Hm2|].
      intros r c Hr Hcw. change (G i (S j) r) with (inner i j r (G i j r)). unfold inner.
      destruct (Z.eqb_spec (blk i j) 255); [contradiction|reflexivity].
  - intros i ms' Hi [Ho Hm]. split; [exact Ho|]. eapply is_mat_ext; [exact Hm|].
    intros r c Hr Hc. reflexivity.
  - intros ms' [Ho Hm]. split; [exact Ho|exact Hm].
Qed.

(** *** scaling *)
Definition sonly (t : nat) (ss ss' : sps tg) : Prop := forall i, i <> t -> ss' i = ss i.

Definition scale_done (ss : sps tg) (t w h : nat) (blk : nat -> nat -> Z)
   (v : nat -> nat -> nat -> cell tg) (ss' : sps tg) : Prop :=
  sonly t ss ss' /\ exists v', is_sp (ss' t) w h blk v' /\
    forall r e k, r < h -> e < en -> k < st -> blk r e <> 255%Z -> v' r e k = v r e k.

Lemma scale_loop (ss : sps tg) this t w h blk v (f : Z -> nat -> nat -> nat -> res (cell tg)) (F : nat -> nat -> nat -> cell tg) :
  this <> t -> is_sp (ss this) w h blk v ->
  (forall r e, r < h -> e < en -> (blk r e < Z.of_nat w)%Z \/ blk r e = 255%Z) ->
  (forall r e k, r < h -> e < en -> k < st -> blk r e <> 255%Z -> f (blk r e) r e k = Ok (F r e k)) ->
  swf (ss t) ->
  wp (let* t0 := sp_init st en (ss t) w h in
      for2 h en (fun i j ss =>
        let* index := sp_block en (ss this) i j in
        if Z.eqb index 255 then Ok ss
        else
          let* t1 := sp_set_block en (ss t) i j index in
          for_ st (fun k ss =>
            let* sc := f index i j k in
            let* x := sp_raw_get (ss this) i (j * st + k) in
            let* t2 := sp_set st en (ss t) i j k (sc * x) in
            Ok (upd ss t t2)) (upd ss t t1)) (upd ss t t0))
     (scale_done ss t w h blk (fun r e k => F r e k * v r e k)).
Proof.
  intros N Hs Hw Hf Ht.
  eapply wp_seq; [apply sp_init_spec; exact Ht|]. intros t0 [v0 Ht0].
  set (B i j r e := if Nat.ltb r i || (Nat.eqb r i && Nat.ltb e j) then blk r e else 255%Z).
  set (Inv i j ss' := sonly t ss ss' /\ exists v', is_sp (ss' t) w h (B i j) v' /\
    forall r e k, r < h -> e < en -> k < st -> (r < i \/ (r = i /\ e < j)) -> blk r e <> 255%Z ->
      v' r e k = F r e k * v r e k).
  apply (for2_inv _ _ _ Inv).
  - split; [intros i Hi; now rewrite upd_other|]. exists v0. rewrite upd_same. split.
    + eapply is_sp_ext; [exact Ht0| |reflexivity]. intros r e _ _. unfold B.
      destruct (Nat.ltb_spec r 0), (Nat.eqb_spec r 0), (Nat.ltb_spec e 0); cbn; auto; lia.
    + intros; lia.
  - intros i j ss1 Hi Hj (Ho & v1 & Hv1 & Hval).
    assert (Hs1 : is_sp (ss1 this) w h blk v) by (now rewrite Ho).
    rewrite (is_sp_block _ _ _ _ _ _ _ Hs1) by assumption. cbn [bind].
    destruct (Z.eqb_spec (blk i j) 255) as [E|Nb].
    { cbn [wp]. split; [exact Ho|]. exists v1. split.
      - eapply is_sp_ext; [exact Hv1| |reflexivity]. intros r e _ _. unfold B.
        destruct (Nat.ltb_spec r i), (Nat.eqb_spec r i), (Nat.ltb_spec e j), (Nat.ltb_spec e (S j)); cbn; auto; try lia.
        assert (e = j) by lia. subst. auto.
      - intros r e k Hr He Hk L Nb. apply Hval; auto.
        destruct (Nat.eq_dec e j) as [->|]; [|lia]. destruct (Nat.eq_dec r i) as [->|]; [contradiction|lia]. }
    eapply wp_seq.
    { eapply sp_set_block_spec; [exact Hv1|exact Hi|exact Hj|]. destruct (Hw i j Hi Hj); [assumption|contradiction]. }
    intros t1 Ht1.
    assert (EB : forall r e, r < h -> e < en -> bset (B i j) i j (blk i j) r e = B i (S j) r e).
    { intros r e _ _. unfold bset, B.
      destruct (Nat.ltb_spec r i), (Nat.eqb_spec r i), (Nat.eqb_spec e j), (Nat.ltb_spec e j), (Nat.ltb_spec e (S j));
        cbn; subst; auto; lia. }
    apply (for_inv _ (fun k ss' => sonly t ss ss' /\ exists v', is_sp (ss' t) w h (B i (S j)) v' /\
      (forall r e k', r < h -> e < en -> k' < st -> (r < i \/ (r = i /\ e < j)) -> blk r e <> 255%Z ->
         v' r e k' = F r e k' * v r e k') /\
      (forall k', k' < k -> v' i j k' = F i j k' * v i j k'))).
    + split; [intros x Hx; rewrite upd_other; auto|]. exists v1. rewrite upd_same. split; [|split].
      * eapply is_sp_ext; [exact Ht1|exact EB|reflexivity].
      * intros r e k' Hr He Hk L Nb'. now apply Hval.
      * intros; lia.
    + intros k ss2 Hk (Ho2 & v2 & Hv2 & Ha & Hb). rewrite Hf by assumption. cbn [bind].
      assert (Hs2 : is_sp (ss2 this) w h blk v) by (now rewrite Ho2).
      rewrite (is_sp_get _ _ _ _ _ _ _ _ Hs2) by assumption. cbn [bind].
      eapply wp_seq; [eapply sp_set_spec; eassumption|]. intros t2 Ht2. cbn [wp].
      split; [intros x Hx; rewrite upd_other; auto|].
      exists (vset v2 i j k (F i j k * v i j k)). rewrite upd_same. split; [exact Ht2|]. unfold vset. split.
      * intros r e k' Hr He Hk' L Nb'.
        destruct (Nat.eqb_spec r i), (Nat.eqb_spec e j); cbn [andb]; try (apply Ha; auto). lia.
      * intros k' Hk'. rewrite !Nat.eqb_refl. cbn [andb]. destruct (Nat.eqb_spec k' k) as [->|]; [reflexivity|].
        apply Hb. lia.
    + intros ss2 (Ho2 & v2 & Hv2 & Ha & Hb). split; [exact Ho2|]. exists v2. split; [exact Hv2|].
      intros r e k Hr He Hk L Nb'. destruct (Nat.eq_dec r i) as [->|]; [|apply Ha; auto; lia].
      destruct (Nat.eq_dec e j) as [->|]; [now apply Hb|apply Ha; auto; lia].
  - intros i ss1 Hi (Ho & v1 & Hv1 & Hval). split; [exact Ho|]. exists v1. split.
    + eapply is_sp_ext; [exact Hv1| |reflexivity]. intros r e Hr He. unfold B.
      destruct (Nat.ltb_spec r i), (Nat.eqb_spec r i), (Nat.ltb_spec e en), (Nat.ltb_spec r (S i)), (Nat.eqb_spec r (S i)), (Nat.ltb_spec e 0); cbn; auto; lia.
    + intros r e k Hr He Hk L. apply Hval; auto. lia.
  - intros ss1 (Ho & v1 & Hv1 & Hval). split; [exact Ho|]. exists v1. split.
    + eapply is_sp_ext; [exact Hv1| |reflexivity]. intros r e Hr He. unfold B.
      destruct (Nat.ltb_spec r h); [reflexivity|lia].
    + intros r e k Hr He Hk. apply Hval; auto.
Qed.

Lemma sp_left_scale_spec (ss : sps tg) ms this sc t w h blk v y :
  this <> t -> is_sp (ss this) w h blk v -> swf (ss t) ->
  (forall r e, r < h -> e < en -> (blk r e < Z.of_nat w)%Z \/ blk r e = 255%Z) ->
  m_w (ms sc) = 1%nat \/ h = 0%nat -> m_h (ms sc) = h ->
  (forall r, r < h -> mget ms sc 0 r = Ok (y r)) ->
  wp (sp_left_scale st en ss ms this sc t)
     (scale_done ss t w h blk (fun r e k => y r * v r e k)).
Proof.
  intros N Hs Ht Hw Hw1 Hh1 Hy. unfold sp_left_scale.
  rewrite bind_massert; cycle 1.
  { rewrite (is_sp_h _ _ _ _ _ Hs). destruct Hw1 as [->| ->]; rewrite Nat.eqb_refl; [reflexivity|apply orb_true_r]. }
  rewrite bind_massert by (rewrite (is_sp_h _ _ _ _ _ Hs), Hh1; apply Nat.eqb_refl).
  rewrite (is_sp_h _ _ _ _ _ Hs), (is_sp_w _ _ _ _ _ Hs).
  apply (scale_loop ss this t w h blk v (fun z i j k => mget ms sc 0 i) (fun r e k => y r)); auto.
Qed.
Lemma sp_right_scale_spec (ss : sps tg) ms this sc t w h blk v y :
  this <> t -> is_sp (ss this) w h blk v -> swf (ss t) ->
  (forall r e, r < h -> e < en -> (blk r e < Z.of_nat w)%Z \/ blk r e = 255%Z) ->
  (forall r e, r < h -> e < en -> inside w (blk r e)) ->
  is_mat false (ms sc) 1 w y ->
  wp (sp_right_scale st en ss ms this sc t)
     (scale_done ss t w h blk (fun r e k => y (bcol st (blk r e) k) 0%nat * v r e k)).
Proof.
  intros N Hs Ht Hw Hin Hy. unfold sp_right_scale.
  rewrite bind_massert by (rewrite (is_mat_w _ _ _ _ _ Hy); apply Nat.eqb_refl).
  rewrite bind_massert by (rewrite (is_mat_h _ _ _ _ _ Hy), (is_sp_w _ _ _ _ _ Hs); apply Nat.eqb_refl).
  rewrite (is_sp_h _ _ _ _ _ Hs), (is_sp_w _ _ _ _ _ Hs).
  apply (scale_loop ss this t w h blk v (fun z i j k => mget ms sc 0 (bcol st z k)) (fun r e k => y (bcol st (blk r e) k) 0%nat)); auto.
  intros r e k Hr He Hk Nb. eapply mget_spec; [exact Hy|lia|apply inside_bcol; auto].
Qed.

End SparseFacts.
