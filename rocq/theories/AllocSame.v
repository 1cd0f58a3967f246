(** * Lemmas: the model of contents and the model of arrays agree. *)

From Verif Require Import Base Logic Matrix MatrixFacts Sparse SparseFacts State Alloc SpecAlloc AllocFacts AllocHist.

Section Same.
Context {tg : target}.
Lemma len_sized p a len : sized p a len -> len_at p a = len.
Proof. destruct a as [b|]; [|intros []]. cbn. intros ->. reflexivity. Qed.
Lemma same_destroy_mat p (m : matrix tg) a : ordered p -> wf (OMat a) p -> same_matrix p m (OMat a) ->
  exists a' p', am_destroy a p = Fine (a', p') /\ same_matrix p' (mat_destroy m) (OMat a').
Proof.
  intros O W S0. destruct (destroy_mat a p O W) as (a' & p' & D & _ & _ & E1 & E2 & E3 & E4 & E5 & E6). exists a', p'. split; [exact D|].
  cbn [same_matrix] in S0 |- *. destruct S0 as (P & S1 & S2 & S3 & S4 & S5 & S6). unfold mat_destroy. rewrite E1, E2, E3, E4, E5, E6. rewrite P.
  destruct (am_matrix a) as [b|] eqn:Em; cbn [null negb].
  - cbn. auto 10.
  - unfold am_destroy in D. rewrite Em in D. injection D as -> ->. cbn [len_at] in *. rewrite E1 in S1. rewrite E2 in S2. rewrite E3 in S3. rewrite E4 in S4. rewrite E6 in S6. cbn in S6. auto 10.
Qed.
Lemma same_resize_mat p (m : matrix tg) a w h : ordered p -> wf (OMat a) p -> same_matrix p m (OMat a) ->
  exists m' a' p', mat_resize m w h = Ok m' /\ am_resize a w h p = Fine (a', p') /\ same_matrix p' m' (OMat a').
Proof.
  intros O W S0. pose proof S0 as (P & S1 & S2 & S3 & S4 & S5 & S6). unfold mat_resize, am_resize. rewrite S1, S2, S3, S4.
  destruct (Nat.eqb w (am_w a) && Nat.eqb h (am_h a)) eqn:E0; [exists m, a, p; auto|].
  destruct (Nat.ltb (am_cw a) w || Nat.ltb (am_ch a) h) eqn:E1.
  - destruct (destroy_mat a p O W) as (a1 & p1 & D & St1 & B1 & W1 & H1 & CW & CH & _). destruct (same_destroy_mat p m a O W S0) as (a1' & p1' & D' & T). rewrite D in D'. injection D' as <- <-.
    destruct T as (_ & T1 & T2 & T3 & T4 & _). rewrite D. cbn [obind]. rewrite T1, T2, T3, T4, CW, CH, W1, H1.
    set (cw := if Nat.ltb 0 w then w else 0). set (ch := if Nat.ltb 0 h then h else 0).
    assert (Lw : w <= cw) by (unfold cw; destruct (Nat.ltb_spec 0 w); lia). assert (Lh : h <= ch) by (unfold ch; destruct (Nat.ltb_spec 0 h); lia).
    destruct (mat_new_step a1 w h cw ch p1 (proj1 (proj2 St1)) Lw Lh B1) as (p2 & EN & St2). cbn [new_array p_next p_live] in EN |- *. apply (f_equal snd) in EN. cbn [snd] in EN. rewrite EN. cbn [obind am_matrix am_data am_cw am_ch].
    destruct St2 as (_ & _ & (_ & _ & [X|(X1 & X2 & _)]) & _); [destruct X as [X _]; discriminate X|]. cbn [am_matrix am_data am_cw am_ch] in X1, X2.
    rewrite (write_sized _ h p2 ch X1 Lh). cbn [obind].
    match goal with |- context [for_ h (set_row_ptr w) ?q] => set (mm := q) end.
    destruct (proj1 (wp_ok _ _) (set_rows_spec mm w ltac:(cbn [mm m_h m_rows]; rewrite repeat_length; exact Lh))) as (m' & Em & R1 & R2 & R3 & R4 & R5 & R6 & R7 & _).
    change (m_h mm) with h in Em. exists m'. eexists _, p2. split; [exact Em|]. split; [reflexivity|]. cbn [same_matrix am_matrix am_data am_w am_h am_cw am_ch null negb].
    rewrite R1, R2, R3, R4, R5, R6, R7. cbn [mm m_ptr m_data m_w m_h m_cw m_ch m_rows]. rewrite !repeat_length, (len_sized _ _ _ X1), (len_sized _ _ _ X2). auto 10.
  - apply orb_false_iff in E1. destruct E1 as [E1 E2]. apply Nat.ltb_ge in E1. apply Nat.ltb_ge in E2. cbn [obind].
    pose proof W as (ND & HL & [(F1 & F2 & F3 & F4 & F5 & F6)|(X1 & X2 & X3 & X4)]).
    + exfalso. rewrite F5 in E1. rewrite F6 in E2. rewrite F3, F4 in E0. destruct w, h; [discriminate E0|lia|lia|lia].
    + rewrite (write_sized _ h p _ X1 E2). cbn [obind]. rewrite (len_sized _ _ _ X1) in S5.
      match goal with |- context [for_ h (set_row_ptr w) ?q] => set (mm := q) end.
      destruct (proj1 (wp_ok _ _) (set_rows_spec mm w ltac:(cbn [mm m_h m_rows]; rewrite S5; exact E2))) as (m' & Em & R1 & R2 & R3 & R4 & R5 & R6 & R7 & _).
      change (m_h mm) with h in Em. exists m'. eexists _, p. split; [exact Em|]. split; [reflexivity|]. cbn [same_matrix am_matrix am_data am_w am_h am_cw am_ch].
      rewrite R1, R2, R3, R4, R5, R6, R7. cbn [mm m_ptr m_data m_w m_h m_cw m_ch m_rows]. rewrite (len_sized _ _ _ X1). auto 10.
Qed.
Lemma same_destroy_sp p (m : sparse tg) a : ordered p -> wf (OSp a) p -> same_sparse p m (OSp a) ->
  exists a' p', ap_destroy a p = Fine (a', p') /\ same_sparse p' (sp_destroy m) (OSp a').
Proof.
  intros O W S0. destruct (destroy_sp a p O W) as (a' & p' & D & _ & _ & E1 & E2 & E3 & E4 & E5). exists a', p'. split; [exact D|].
  cbn [same_sparse] in S0 |- *. destruct S0 as (P & S1 & S2 & S3 & S4 & S5 & S6). unfold sp_destroy. rewrite E1, E2, E3, E4, E5. rewrite P. cbn [len_at null negb].
  unfold ap_destroy in D. destruct (ap_matrix a) as [b|] eqn:Em; cbn [null negb].
  - cbn [s_ptr s_w s_h s_ch s_rows s_data s_blocks length]. destruct (delete_arrays _ p); cbn [obind] in D; try discriminate D. injection D as <- _. cbn [ap_w]. auto 10.
  - injection D as -> ->. cbn [null negb] in P. rewrite E5 in S2. rewrite E2 in S5. rewrite E3 in S6. cbn in S4, S5, S6. auto 10.
Qed.
Lemma row_ptr_null (m : sparse tg) h : s_rows m = [] -> 0 < h -> for_ h (sp_set_row_ptr 3 2) m = UB.
Proof. intros E H. destruct h; [lia|]. unfold for_. cbn [for_from]. unfold sp_set_row_ptr. rewrite E. reflexivity. Qed.
Lemma same_resize_sp p (m : sparse tg) a w h : ordered p -> wf (OSp a) p -> same_sparse p m (OSp a) ->
  match sp_resize 3 2 m w h, ap_resize a w h p with
  | Ok m', Fine (a', p') => same_sparse p' m' (OSp a')
  | UB, BadAccess => True
  | _, _ => False
  end.
Proof.
  intros O W S0. pose proof S0 as (P & S1 & S2 & S3 & S4 & S5 & S6). unfold sp_resize, ap_resize. rewrite S1, S2, S3.
  destruct (Nat.eqb w (ap_w a) && Nat.eqb h (ap_h a)) eqn:E0; [exact S0|].
  destruct (Nat.ltb (ap_ch a) h) eqn:E1.
  - destruct (destroy_sp a p O W) as (a1 & p1 & D & St1 & B1 & _ & _ & _ & CH & _). destruct (same_destroy_sp p m a O W S0) as (a1' & p1' & D' & T). rewrite D in D'. injection D' as <- <-.
    destruct T as (_ & T1 & T2 & T3 & _). rewrite D. cbn [obind]. rewrite T3, CH, E1.
    destruct (sp_new_step w h h p1 (proj1 (proj2 St1)) (Nat.le_refl h)) as (p2 & EN & St2). cbn [new_array p_next p_live] in EN |- *. apply (f_equal snd) in EN. cbn [snd] in EN. rewrite EN. cbn [obind ap_matrix ap_data ap_block ap_ch].
    destruct St2 as (_ & _ & (_ & _ & [X|(X1 & X2 & X3 & _)]) & _); [destruct X as [X _]; discriminate X|]. cbn [ap_matrix ap_data ap_block ap_ch] in X1, X2, X3.
    rewrite (write_sized _ h p2 h X1 (Nat.le_refl h)). cbn [obind].
    match goal with |- context [for_ h _ ?q] => set (mm := q) end.
    destruct (proj1 (wp_ok _ _) (sp_set_rows_spec 3 2 mm ltac:(cbn [mm s_h s_rows]; rewrite repeat_length; lia))) as (m' & Em & R1 & R2 & R3 & R4 & R5 & R6 & R7 & _).
    change (s_h mm) with h in Em. rewrite Em. cbn [same_sparse ap_matrix ap_data ap_block ap_w ap_h ap_ch null negb].
    rewrite R1, R2, R3, R4, R5, R6, R7. cbn [mm s_ptr s_data s_blocks s_w s_h s_ch s_rows]. rewrite !repeat_length, (len_sized _ _ _ X1), (len_sized _ _ _ X2), (len_sized _ _ _ X3).
    repeat split; lia.
  - apply Nat.ltb_ge in E1. cbn [obind]. match goal with |- context [for_ h _ ?q] => set (mm := q) end.
    pose proof W as (ND & HL & [(F1 & F2 & F3 & F4)|(X1 & X2 & X3 & X4)]).
    + destruct h as [|h].
      * cbn [write_first obind]. change (for_ 0 (sp_set_row_ptr 3 2) mm) with (Ok mm). cbn [same_sparse ap_matrix ap_data ap_block ap_w ap_h ap_ch mm s_ptr s_data s_blocks s_w s_h s_ch s_rows]. auto 10.
      * rewrite F1. cbn [write_first obind]. rewrite row_ptr_null; [exact Logic.I| |lia]. rewrite F1 in S4. cbn in S4. cbn [mm s_rows]. now destruct (s_rows m).
    + rewrite (write_sized _ h p _ X1 E1). cbn [obind]. rewrite (len_sized _ _ _ X1) in S4.
      destruct (proj1 (wp_ok _ _) (sp_set_rows_spec 3 2 mm ltac:(cbn [mm s_h s_rows]; rewrite S4; exact E1))) as (m' & Em & R1 & R2 & R3 & R4 & R5 & R6 & R7 & _).
      change (s_h mm) with h in Em. rewrite Em. cbn [same_sparse ap_matrix ap_data ap_block ap_w ap_h ap_ch].
      rewrite R1, R2, R3, R4, R5, R6, R7. cbn [mm s_ptr s_data s_blocks s_w s_h s_ch s_rows]. rewrite (len_sized _ _ _ X1). auto 10.
Qed.
Lemma map_len_none p n : map (len_at p) (repeat None n) = repeat 0 n.
Proof. induction n as [|n IH]; [reflexivity|]. cbn. now rewrite IH. Qed.
Lemma map_len_zero p l : (forall b, In (Some b) l -> p_live p b = Some 0) -> map (len_at p) l = repeat 0 (length l).
Proof.
  induction l as [|a l IH]; intros H; [reflexivity|]. cbn [map length repeat]. f_equal; [|apply IH; intros b Hb; apply H; now right].
  destruct a as [b|]; [|reflexivity]. cbn. rewrite H; [reflexivity|now left].
Qed.
Lemma same_destroy_st p (m : sstate tg) a : ordered p -> wf (OSt a) p -> same_state p m (OSt a) ->
  exists a' p', as_destroy a p = Fine (a', p') /\ same_state p' (st_destroy m) (OSt a').
Proof.
  intros O W S0. destruct (destroy_st a p O W) as (a' & p' & D & St & E1 & E2 & Z0). exists a', p'. split; [exact D|].
  pose proof S0 as (S1 & S2 & S3 & S4). pose proof W as (_ & _ & W1 & W2 & W3 & W4). destruct St as (_ & _ & (_ & _ & V1 & V2 & _) & _).
  cbn [same_state]. rewrite E1, E2. split; [reflexivity|]. split; [reflexivity|].
  rewrite !map_len_zero by (intros b Hb; apply Z0, in_blocks; cbn [pointers]; apply in_or_app; auto). rewrite V1, V2.
  unfold st_destroy; cbn [s_arr s_imap is_reaction map]. rewrite S1, S2.
  assert (B : map (fun f => length (if Nat.ltb 0 (as_n a) then [] else s_arr m f)) [Fatheta; Fvtheta; Ftheta; Fax; Fay; Fvx; Fvy; Fpx; Fpy; Ffx; Ffy; Ft; Fm] = repeat 0 13).
  { destruct (Nat.ltb_spec 0 (as_n a)) as [L|L]; [reflexivity|]. rewrite <- S3. rewrite map_len_zero; [now rewrite W1|]. intros b Hb. rewrite (W3 b Hb). f_equal. lia. }
  assert (C : (length (if Nat.ltb 0 (as_nc a) then [] else s_imap m)) :: map (fun f => length (if Nat.ltb 0 (as_nc a) then [] else s_arr m f)) [Frx; Fry; Frt] = repeat 0 4).
  { destruct (Nat.ltb_spec 0 (as_nc a)) as [L|L]; [reflexivity|]. rewrite <- S4. rewrite map_len_zero; [now rewrite W2|]. apply W4. lia. }
  split; [symmetry; exact B|symmetry; exact C].
Qed.
Lemma same_resize_st p (m : sstate tg) a n nc : ordered p -> wf (OSt a) p -> same_state p m (OSt a) ->
  exists a' p', as_resize a n nc p = Fine (a', p') /\ same_state p' (st_resize m n nc) (OSt a').
Proof.
  intros O W S0. pose proof S0 as (S1 & S2 & _). unfold as_resize, st_resize. rewrite S1, S2.
  destruct (Nat.leb n (as_n a) && Nat.leb nc (as_nc a)) eqn:E0; [exists a, p; auto|].
  destruct (destroy_st a p O W) as (a1 & p1 & D & St1 & _). rewrite D. cbn [obind]. pose proof (proj1 (proj2 St1)) as O1.
  pose proof (new_spec (repeat n 13) p1 O1) as N. destruct (new_arrays (repeat n 13) p1) as [lb p2]. destruct N as (O2 & N2 & N3 & N4 & N5).
  pose proof (new_spec [nc; nc * 2; nc * 2; nc * 2] p2 O2) as N. destruct (new_arrays [nc; nc * 2; nc * 2; nc * 2] p2) as [lc p3]. destruct N as (O3 & M2 & M3 & M4 & M5).
  eexists _, p3. split; [reflexivity|]. cbn [same_state as_n as_nc as_body as_con s_n s_nc s_arr s_imap is_reaction]. split; [reflexivity|]. split; [reflexivity|].
  rewrite repeat_length in N2, N3. split.
  - transitivity (repeat n 13); [|cbn [map is_reaction]; rewrite !repeat_length; reflexivity].
    rewrite N3, map_map. cbn [len_at]. clear N3. assert (L : forall k, k < 13 -> p_live p3 (p_next p1 + k) = Some n).
    { intros k Hk. rewrite M4 by lia. apply N5. now apply nth_error_repeat. }
    transitivity (map (fun _ => n) (seq (p_next p1) 13)); [|reflexivity]. apply map_ext_in. intros b Hb. apply in_seq in Hb. replace b with (p_next p1 + (b - p_next p1)) by lia. rewrite L by lia. reflexivity.
  - rewrite M3. cbn [length seq map len_at is_reaction]. rewrite !repeat_length.
    pose proof (M5 0 _ eq_refl) as L0. pose proof (M5 1 _ eq_refl) as L1. pose proof (M5 2 _ eq_refl) as L2. pose proof (M5 3 _ eq_refl) as L3.
    rewrite Nat.add_0_r in L0. rewrite Nat.add_1_r in L1. replace (p_next p2 + 2) with (S (S (p_next p2))) in L2 by lia. replace (p_next p2 + 3) with (S (S (S (p_next p2)))) in L3 by lia.
    now rewrite L0, L1, L2, L3.
Qed.
(** ** sequences of calls *)
Lemma act_at dbg s p i o x : Inv s p -> s i = Some o -> forall o' p', match x with Some (w, h) => resize_obj o w h p | None => destroy_obj o p end = Fine (o', p') ->
  let y := match x with Some (w, h) => Resize i w h | None => Destroy i end in do_act dbg y s p = Fine (upd s i (Some o'), p') /\ Inv (upd s i (Some o')) p'.
Proof.
  intros HI E o' p' D y. assert (F : do_act dbg y s p = Fine (upd s i (Some o'), p')) by (unfold y; destruct x as [[w h]|]; cbn [do_act]; rewrite E, D; reflexivity).
  split; [exact F|]. pose proof (act_step dbg y s p HI) as A. rewrite F in A. apply A. unfold y. destruct x as [[w h]|]; intros [].
Qed.
Lemma at_upd (s : place) i o : upd s i (Some o) i = Some o.
Proof. unfold upd. now rewrite Nat.eqb_refl. Qed.
Lemma calls_mat dbg l : forall s p i o (m : matrix tg), Inv s p -> s i = Some o -> same_matrix p m o ->
  exists m' s' p' o', calls_matrix l m = Ok m' /\ do_acts dbg (calls_at i l) s p = Fine (s', p') /\ s' i = Some o' /\ same_matrix p' m' o'.
Proof.
  induction l as [|[[w h]|] l IH]; intros s p i o m HI E S0; cbn [calls_matrix calls_at map do_acts].
  - exists m, s, p, o. auto.
  - destruct o as [a| | |]; try contradiction. destruct (same_resize_mat p m a w h (proj1 HI) (proj1 (proj2 HI) i _ E) S0) as (m' & a' & p' & D1 & D2 & S1). rewrite D1. cbn [bind].
    destruct (act_at dbg s p i (OMat a) (Some (w, h)) HI E (OMat a') p') as [F I']; [cbn [resize_obj]; rewrite D2; reflexivity|]. cbn [do_act] in F |- *. rewrite F. cbn [obind]. exact (IH _ p' i (OMat a') m' I' (at_upd s i _) S1).
  - destruct o as [a| | |]; try contradiction. destruct (same_destroy_mat p m a (proj1 HI) (proj1 (proj2 HI) i _ E) S0) as (a' & p' & D2 & S1).
    destruct (act_at dbg s p i (OMat a) None HI E (OMat a') p') as [F I']; [cbn [destroy_obj]; rewrite D2; reflexivity|]. cbn [do_act] in F |- *. rewrite F. cbn [obind]. exact (IH _ p' i (OMat a') _ I' (at_upd s i _) S1).
Qed.
Lemma calls_st dbg l : forall s p i o (m : sstate tg), Inv s p -> s i = Some o -> same_state p m o ->
  exists s' p' o', do_acts dbg (calls_at i l) s p = Fine (s', p') /\ s' i = Some o' /\ same_state p' (calls_state l m) o'.
Proof.
  induction l as [|[[w h]|] l IH]; intros s p i o m HI E S0; cbn [calls_state calls_at map do_acts].
  - exists s, p, o. auto.
  - destruct o as [| |a|]; try contradiction. destruct (same_resize_st p m a w h (proj1 HI) (proj1 (proj2 HI) i _ E) S0) as (a' & p' & D2 & S1).
    destruct (act_at dbg s p i (OSt a) (Some (w, h)) HI E (OSt a') p') as [F I']; [cbn [resize_obj]; rewrite D2; reflexivity|]. cbn [do_act] in F |- *. rewrite F. cbn [obind]. exact (IH _ p' i (OSt a') _ I' (at_upd s i _) S1).
  - destruct o as [| |a|]; try contradiction. destruct (same_destroy_st p m a (proj1 HI) (proj1 (proj2 HI) i _ E) S0) as (a' & p' & D2 & S1).
    destruct (act_at dbg s p i (OSt a) None HI E (OSt a') p') as [F I']; [cbn [destroy_obj]; rewrite D2; reflexivity|]. cbn [do_act] in F |- *. rewrite F. cbn [obind]. exact (IH _ p' i (OSt a') _ I' (at_upd s i _) S1).
Qed.
Lemma calls_sp dbg l : forall s p i o (m : sparse tg), Inv s p -> s i = Some o -> same_sparse p m o ->
  match calls_sparse l m, do_acts dbg (calls_at i l) s p with
  | Ok m', Fine (s', p') => exists o', s' i = Some o' /\ same_sparse p' m' o'
  | UB, BadAccess => True
  | _, _ => False
  end.
Proof.
  induction l as [|[[w h]|] l IH]; intros s p i o m HI E S0; cbn [calls_sparse calls_at map do_acts].
  - exists o. auto.
  - destruct o as [|a| |]; try contradiction. pose proof (same_resize_sp p m a w h (proj1 HI) (proj1 (proj2 HI) i _ E) S0) as D.
    destruct (sp_resize 3 2 m w h) as [m'| | |]; try (now destruct (ap_resize a w h p)); cbn [bind].
    + destruct (ap_resize a w h p) as [[a' p']| | |] eqn:D2; try contradiction.
      destruct (act_at dbg s p i (OSp a) (Some (w, h)) HI E (OSp a') p') as [F I']; [cbn [resize_obj]; rewrite D2; reflexivity|]. cbn [do_act] in F |- *. rewrite F. cbn [obind]. exact (IH _ p' i (OSp a') _ I' (at_upd s i _) D).
    + destruct (ap_resize a w h p) as [[a' p']| | |] eqn:D2; try contradiction. cbn [do_act]. rewrite E. cbn [resize_obj]. rewrite D2. exact Logic.I.
  - destruct o as [|a| |]; try contradiction. destruct (same_destroy_sp p m a (proj1 HI) (proj1 (proj2 HI) i _ E) S0) as (a' & p' & D2 & S1).
    destruct (act_at dbg s p i (OSp a) None HI E (OSp a') p') as [F I']; [cbn [destroy_obj]; rewrite D2; reflexivity|]. cbn [do_act] in F |- *. rewrite F. cbn [obind]. exact (IH _ p' i (OSp a') _ I' (at_upd s i _) S1).
Qed.
Lemma inv_one k : k <> BuffersK -> Inv (upd nowhere 0 (Some (fst (construct k pool_new)))) pool_new.
Proof.
  intros N. pose proof (inv_step nowhere pool_new 0 [] (fst (construct k pool_new)) (snd (construct k pool_new)) false inv_start eq_refl (construct_step k pool_new (proj1 inv_start))) as H.
  destruct k; try exact H. congruence.
Qed.
Lemma agree_mat dbg l : exists (m : matrix tg) s p o, calls_matrix l mat_new = Ok m /\ do_acts dbg (New MatrixK 0 :: calls_at 0 l) nowhere pool_new = Fine (s, p) /\ s 0 = Some o /\ same_matrix p m o.
Proof. apply (calls_mat dbg l _ pool_new 0 (OMat am_new)); [apply (inv_one MatrixK); discriminate|reflexivity|]. cbn. auto 10. Qed.
Lemma agree_st dbg l : exists s p o, do_acts dbg (New StateK 0 :: calls_at 0 l) nowhere pool_new = Fine (s, p) /\ s 0 = Some o /\ same_state p (calls_state l (@st_new tg)) o.
Proof. apply (calls_st dbg l _ pool_new 0 (OSt as_new)); [apply (inv_one StateK); discriminate|reflexivity|]. cbn. auto 10. Qed.
Lemma agree_sp dbg l : match calls_sparse l (@sp_new tg), do_acts dbg (New SparseK 0 :: calls_at 0 l) nowhere pool_new with
  | Ok m, Fine (s, p) => exists o, s 0 = Some o /\ same_sparse p m o
  | UB, BadAccess => True
  | _, _ => False
  end.
Proof. apply (calls_sp dbg l _ pool_new 0 (OSp ap_new)); [apply (inv_one SparseK); discriminate|reflexivity|]. cbn. auto 10. Qed.
End Same.
