(** * Lemmas: where the ints overflow, and what a refused allocation leaves. *)

From Coq Require Import Lia.
From Verif Require Import Base Logic Matrix Sparse Ints IntSys SpecInts IntsFacts.
Local Open Scope Z_scope.

Lemma forz_over {A} (Inv : A -> Prop) (f : Z -> A -> out A) j : forall k i s, Inv s -> i <= j < i + Z.of_nat k ->
  (forall x s, i <= x < j -> Inv s -> exists s', f x s = IOk s' /\ Inv s') -> (forall s, Inv s -> f j s = IOver) -> forz k i f s = IOver.
Proof.
  induction k as [|k IH]; intros i s Hs Hj F O; [lia|]. cbn [forz]. destruct (Z.eq_dec i j) as [->|N]; [rewrite O by assumption; reflexivity|].
  destruct (F i s ltac:(lia) Hs) as (s' & -> & Hs'). cbn. apply IH; auto; [lia|]. intros x t Hx. apply F. lia.
Qed.
Lemma forz_ok {A} (Inv : A -> Prop) (f : Z -> A -> out A) : forall k i s, Inv s -> (forall x s, i <= x < i + Z.of_nat k -> Inv s -> exists s', f x s = IOk s' /\ Inv s') -> exists s', forz k i f s = IOk s' /\ Inv s'.
Proof.
  induction k as [|k IH]; intros i s Hs F; [eexists; split; [reflexivity|exact Hs]|]. cbn [forz].
  destruct (F i s ltac:(lia) Hs) as (s' & -> & Hs'). cbn. apply IH; auto. intros x t Hx. apply F. lia.
Qed.
(* the size is one that fits; caps are ints; there are arrays unless all is 0 *)
Definition settled (m : imat) : Prop :=
  size_ok (i_w m) (i_h m) /\ 0 <= i_cw m <= int_max /\ 0 <= i_ch m <= int_max /\ (i_rows m = None -> m = im_new).
Definition shaped (w h cw ch l : Z) (k : nat) (m : imat) : Prop :=
  i_w m = w /\ i_h m = h /\ i_cw m = cw /\ i_ch m = ch /\ i_data m = Some l /\ exists r, i_rows m = Some r /\ length r = k.
Lemma row_ok w h cw ch l k i m : shaped w h cw ch l k m -> 0 <= i < Z.of_nat k -> 0 <= i * w <= l -> i * w <= int_max -> exists m', im_row w i m = IOk m' /\ shaped w h cw ch l k m'.
Proof.
  intros (E1 & E2 & E3 & E4 & E5 & r & E6 & E7) Hi Hl Hm. unfold im_row. rewrite imul_pos by lia. unfold i_len. rewrite E5, E6. replace (0 <=? i * w) with true by (symmetry; apply Z.leb_le; lia). replace (i * w <=? l) with true by (symmetry; apply Z.leb_le; lia). cbn [andb].
  destruct (list_set_some r (Z.to_nat i) (Some (i * w))) as (r' & E & Lr & _); [lia|]. rewrite E. eexists. split; [reflexivity|]. unfold shaped. cbn. repeat split; auto. exists r'. split; [reflexivity|lia].
Qed.
Lemma row_over w i m : int_max < i * w -> im_row w i m = IOver.
Proof. intros H. unfold im_row. now rewrite imul_over. Qed.
Lemma rows_over w h cw ch l m : shaped w h cw ch l (Z.to_nat ch) m -> 0 <= w <= cw -> 0 <= h <= ch -> l = cw * ch -> int_max < (h - 1) * w -> for_int h (im_row w) m = IOver.
Proof.
  intros M W H -> O. assert (w0 : 0 < w) by (destruct (Z.eq_dec w 0) as [->|]; unfold int_max in *; lia). assert (h1 : 1 < h) by (unfold int_max in *; nia).
  pose (j := int_max / w + 1). assert (D := Z.div_mod int_max w ltac:(lia)). assert (B := Z.mod_pos_bound int_max w w0).
  unfold for_int. apply (forz_over (shaped w h cw ch (cw * ch) (Z.to_nat ch)) _ j); [exact M| | |].
  - split; [apply Z.add_nonneg_nonneg; [apply Z.div_pos; unfold int_max; lia|lia]|]. rewrite Z2Nat.id by lia. unfold j. assert (int_max / w < h - 1) by (apply Z.div_lt_upper_bound; [exact w0|lia]). lia.
  - intros x s Hx Hs. apply row_ok; auto.
    + rewrite Z2Nat.id by lia. assert (int_max / w < h - 1) by (apply Z.div_lt_upper_bound; [exact w0|lia]). unfold j in Hx. lia.
    + split; [lia|]. assert (int_max / w < h - 1) by (apply Z.div_lt_upper_bound; [exact w0|lia]). unfold j in Hx. rewrite (Z.mul_comm cw). apply Z.mul_le_mono_nonneg; lia.
    + unfold j in Hx. apply Z.le_trans with (int_max / w * w); [apply Z.mul_le_mono_nonneg_r; lia|lia].
  - intros s _. apply row_over. unfold j. rewrite Z.mul_add_distr_r. lia.
Qed.
Lemma rows_fine w h cw ch l m : shaped w h cw ch l (Z.to_nat ch) m -> 0 <= w <= cw -> 0 <= h <= ch -> l = cw * ch -> (h - 1) * w <= int_max -> exists m', for_int h (im_row w) m = IOk m' /\ shaped w h cw ch l (Z.to_nat ch) m'.
Proof.
  intros M W H -> O. unfold for_int. apply forz_ok; [exact M|]. rewrite Z2Nat.id by lia. intros x s Hx Hs. apply row_ok; auto.
  - rewrite Z2Nat.id by lia. lia.
  - split; [lia|]. rewrite (Z.mul_comm cw). apply Z.mul_le_mono_nonneg; lia.
  - apply Z.le_trans with ((h - 1) * w); [apply Z.mul_le_mono_nonneg_r; lia|exact O].
Qed.
Lemma size_mod w h : 0 <= w <= int_max -> 0 <= h <= int_max -> to_size w = w /\ to_size h = h /\ (to_size w * to_size h) mod 2 ^ 64 = w * h /\ 0 <= w * h.
Proof.
  intros W H. unfold int_max in *. rewrite !to_size_pos by lia. repeat split; [|lia]. apply Z.mod_small. split; [lia|]. apply Z.le_lt_trans with (2147483647 * 2147483647); [apply Z.mul_le_mono_nonneg; lia|reflexivity].
Qed.
Lemma over_resize room w h m : plenty room -> settled m -> (forall l, i_rows m <> None -> i_data m = Some l -> l = i_cw m * i_ch m) -> (i_rows m <> None -> i_data m <> None /\ exists r, i_rows m = Some r /\ length r = Z.to_nat (i_ch m)) ->
  0 <= w <= int_max -> 0 <= h <= int_max -> int_max < (h - 1) * w -> im_resize room w h m = IOver.
Proof.
  intros P (S0 & S1 & S2 & S3) LD LR W H O. unfold im_resize. replace ((w =? i_w m) && (h =? i_h m)) with false.
  2:{ symmetry. apply andb_false_iff. destruct (Z.eqb_spec w (i_w m)) as [Ew|]; [|auto]. destruct (Z.eqb_spec h (i_h m)) as [Eh|]; [|auto]. exfalso. subst. destruct S0 as (_ & _ & S0). lia. }
  destruct ((i_cw m <? w) || (i_ch m <? h)) eqn:C.
  - assert (D : im_destroy m = im_new) by (unfold im_destroy; destruct (i_rows m) eqn:R; [reflexivity|auto]). rewrite D. cbn [i_cw i_ch i_w i_h im_new i_data i_rows].
    replace (if 0 <? w then w else 0) with w by (destruct (Z.ltb_spec 0 w); lia). replace (if 0 <? h then h else 0) with h by (destruct (Z.ltb_spec 0 h); lia).
    destruct (size_mod w h W H) as (_ & _ & -> & Q). unfold grants. rewrite !P. replace (0 <=? w * h) with true by (symmetry; apply Z.leb_le; lia). replace (0 <=? h) with true by (symmetry; apply Z.leb_le; lia). cbn [andb ibind]. cbv zeta. cbn [i_cw i_ch i_w i_h i_data i_rows].
    apply (rows_over w h w h (w * h)); try lia. unfold shaped. cbn. repeat split. eexists. split; [reflexivity|]. apply repeat_length.
  - apply orb_false_iff in C. destruct C as [C1 C2]. apply Z.ltb_ge in C1. apply Z.ltb_ge in C2. cbn [ibind]. cbv zeta.
    destruct (i_rows m) as [r|] eqn:R.
    + destruct (LR ltac:(discriminate)) as (Dn & r' & E1 & E2). destruct (i_data m) as [l|] eqn:Dl; [|congruence].
      apply (rows_over w h (i_cw m) (i_ch m) l); [|lia|lia|apply LD; [discriminate|reflexivity]|exact O]. unfold shaped. cbn. repeat split; auto. exists r'. auto.
    + exfalso. rewrite (S3 eq_refl) in C1, C2. cbn in C1, C2. unfold int_max in O. assert (w = 0) by lia. subst w. lia.
Qed.

(** the invariant of histories *)
Definition whole (m : imat) : Prop :=
  settled m /\ (i_rows m <> None -> i_data m = Some (i_cw m * i_ch m) /\ (exists r, i_rows m = Some r /\ length r = Z.to_nat (i_ch m)) /\ i_w m <= i_cw m /\ i_h m <= i_ch m).
Lemma whole_destroy m : whole m -> im_destroy m = im_new.
Proof. intros [(_ & _ & _ & S3) _]. unfold im_destroy. destruct (i_rows m); auto. Qed.
Lemma whole_new : whole im_new.
Proof. split; [|intros H; elim H; reflexivity]. unfold settled, size_ok, int_max. cbn. repeat split; auto; lia. Qed.
Lemma resize_whole room w h m : size_ok w h -> whole m -> match im_resize room w h m with
  | IOk m' => whole m' /\ i_w m' = w /\ i_h m' = h
  | IThrow m' => i_rows m' = None /\ i_w m' = 0 /\ i_h m' = 0 /\ i_cw m' = w /\ i_ch m' = h /\ (room (w * h) = false \/ room h = false) | _ => False end.
Proof.
  intros (W & H & O) M. pose proof M as [(S0 & S1 & S2 & S3) LW]. unfold im_resize. destruct ((w =? i_w m) && (h =? i_h m)) eqn:E0.
  { apply andb_prop in E0. destruct E0 as [E1 E2]. apply Z.eqb_eq in E1, E2. auto. }
  assert (FIN : forall cw ch m2, shaped w h cw ch (cw * ch) (Z.to_nat ch) m2 -> 0 <= w <= cw -> 0 <= h <= ch -> cw <= int_max -> ch <= int_max -> match for_int h (im_row w) m2 with IOk m' => whole m' /\ i_w m' = w /\ i_h m' = h
    | IThrow m' => i_rows m' = None /\ i_w m' = 0 /\ i_h m' = 0 /\ i_cw m' = w /\ i_ch m' = h /\ (room (w * h) = false \/ room h = false) | _ => False end).
  { intros cw ch m2 M2 Hw Hh Cw Ch. destruct (rows_fine w h cw ch (cw * ch) m2 M2 Hw Hh eq_refl O) as (m' & -> & E1 & E2 & E3 & E4 & E5 & r & E6 & E7). split; [|auto]. unfold whole, settled. rewrite E1, E2, E3, E4, E5, E6.
    repeat split; try lia; try discriminate; eauto; apply W || apply H. }
  destruct ((i_cw m <? w) || (i_ch m <? h)) eqn:C.
  - rewrite (whole_destroy m M). cbn [i_cw i_ch i_w i_h im_new i_data i_rows].
    replace (if 0 <? w then w else 0) with w by (destruct (Z.ltb_spec 0 w); lia). replace (if 0 <? h then h else 0) with h by (destruct (Z.ltb_spec 0 h); lia).
    destruct (size_mod w h W H) as (_ & _ & -> & Q). unfold grants. replace (0 <=? w * h) with true by (symmetry; apply Z.leb_le; lia). replace (0 <=? h) with true by (symmetry; apply Z.leb_le; lia). cbn [andb].
    destruct (room (w * h)) eqn:R1; [|cbn; auto 10]. destruct (room h) eqn:R2; [|cbn; auto 10]. cbn [ibind]. cbv zeta. cbn [i_cw i_ch i_w i_h i_data i_rows].
    apply (FIN w h); try lia. unfold shaped. cbn. repeat split. eexists. split; [reflexivity|]. apply repeat_length.
  - apply orb_false_iff in C. destruct C as [C1 C2]. apply Z.ltb_ge in C1. apply Z.ltb_ge in C2. cbn [ibind]. cbv zeta.
    destruct (i_rows m) as [r|] eqn:R.
    + destruct (LW ltac:(discriminate)) as (Dl & (r' & E1 & E2) & _). injection E1 as <-. apply (FIN (i_cw m) (i_ch m)); try lia. unfold shaped. cbn. repeat split; auto. exists r. auto.
    + exfalso. rewrite (S3 eq_refl) in C1, C2, E0. cbn in C1, C2, E0. replace w with 0 in E0 by lia. replace h with 0 in E0 by lia. discriminate E0.
Qed.
Lemma at_same row col m m' : im_at row col m = IOk m' -> m' = m.
Proof. unfold im_at. destruct (row <? 0); [discriminate|]. destruct (i_rows m) as [r|]; [|discriminate]. destruct (nth_error r (Z.to_nat row)) as [[o|]|]; try discriminate. destruct (_ && _); [|discriminate]. congruence. Qed.
Lemma forz_keep {A} (Q : A -> Prop) f : (forall i s s', Q s -> f i s = IOk s' -> Q s') -> forall k i s s', Q s -> forz k i f s = IOk s' -> Q s'.
Proof. intros F. induction k as [|k IH]; intros i s s' Hs E; cbn in E; [congruence|]. destruct (f i s) eqn:Ef; cbn in E; try discriminate E. eauto. Qed.
Lemma step_whole room dbg c m m' : sane c -> whole m -> on_ints room dbg c m = IOk m' -> whole m'.
Proof.
  intros S0 M E. destruct c as [w h|w h|w h|c r|a b|]; cbn [on_ints sane] in *.
  - pose proof (resize_whole room w h m S0 M) as R. rewrite E in R. apply R.
  - unfold im_init0 in E. pose proof (resize_whole room w h m S0 M) as R. destruct (im_resize room w h m); cbn in E; try discriminate E. destruct (_ <=? _) in E; [|discriminate E]. injection E as <-. apply R.
  - unfold im_init_val in E. pose proof (resize_whole room w h m S0 M) as R. destruct (im_resize room w h m) as [a| | | |]; cbn in E; try discriminate E. destruct R as [R _]. revert E. apply forz_keep; [|exact R]. intros i s s' Hs. apply forz_keep; [|exact Hs]. intros j t t' Ht Et. apply at_same in Et. now subst.
  - unfold im_elem in E. destruct (_ && _) in E; [discriminate E|]. apply at_same in E. now subst.
  - unfold im_swap in E. destruct (_ || _) in E; [discriminate E|]. destruct M as [(A1 & A2 & A3 & A4) LW]. destruct (i_rows m) as [r|] eqn:R; [|discriminate E]. destruct (nth_error r (Z.to_nat a)) as [[x|]|]; try discriminate E. destruct (nth_error r (Z.to_nat b)) as [[y|]|]; try discriminate E.
    destruct (list_set r (Z.to_nat a) (Some y)) as [r1|] eqn:E1; [|discriminate E]. destruct (list_set r1 (Z.to_nat b) (Some x)) as [r2|] eqn:E2; [|discriminate E]. injection E as <-. destruct (LW ltac:(discriminate)) as (L1 & (r' & L2 & L3) & L4). injection L2 as <-.
    split; [unfold settled; cbn; repeat split; try apply A1; try apply A2; try apply A3; discriminate|]. intros _. cbn. split; [exact L1|]. split; [|exact L4]. exists r2. split; [reflexivity|]. now rewrite (set_length _ _ _ _ E2), (set_length _ _ _ _ E1).
  - injection E as <-. rewrite (whole_destroy m M). apply whole_new.
Qed.
Lemma calls_whole room dbg l : Forall sane l -> forall m m', whole m -> int_calls room dbg l m = IOk m' -> whole m'.
Proof.
  intros S0. induction S0 as [|c l Hc _ IH]; intros m m' M E; cbn [int_calls] in E; [congruence|]. destruct (on_ints room dbg c m) as [a| | | |] eqn:Ec; cbn in E; try discriminate E. eapply IH; [|exact E]. eapply step_whole; eauto.
Qed.
Lemma over_iff room w h m : plenty room -> whole m -> 0 <= w <= int_max -> 0 <= h <= int_max -> (im_resize room w h m = IOver <-> int_max < (h - 1) * w).
Proof.
  intros P M W H. split.
  - intros E. destruct (Z_lt_ge_dec int_max ((h - 1) * w)) as [L|G]; [exact L|exfalso]. assert (SO : size_ok w h) by (split; [exact W|split; [exact H|lia]]). pose proof (resize_whole room w h m SO M) as R. now rewrite E in R.
  - intros O. destruct M as [S0 LW]. apply over_resize; auto; intros; destruct (LW ltac:(assumption)) as (L1 & L2 & _); [congruence|]. split; [congruence|exact L2].
Qed.
(** after a throw *)
Lemma after_throw room room' w h m m' w2 h2 : size_ok w h -> whole m -> im_resize room w h m = IThrow m' -> plenty room' -> size_ok w2 h2 ->
  if (w2 <=? w) && (h2 <=? h) then (0 < h2 -> im_resize room' w2 h2 m' = IBad)
  else exists m2, im_resize room' w2 h2 m' = IOk m2 /\ i_w m2 = w2 /\ i_h m2 = h2 /\ i_data m2 = Some (Z.max w w2 * Z.max h h2).
Proof.
  intros SO M E P (W2 & H2 & O2). pose proof (resize_whole room w h m SO M) as R. rewrite E in R. destruct R as (R1 & R2 & R3 & R4 & R5 & _). destruct SO as (W & H & O).
  unfold im_resize. rewrite R2, R3, R4, R5.
  destruct ((w2 <=? w) && (h2 <=? h)) eqn:C.
  - intros Hp. apply andb_prop in C. destruct C as [C1 C2]. apply Z.leb_le in C1, C2. replace ((w2 =? 0) && (h2 =? 0)) with false by (symmetry; apply andb_false_iff; right; apply Z.eqb_neq; lia).
    replace (w <? w2) with false by (symmetry; apply Z.ltb_ge; lia). replace (h <? h2) with false by (symmetry; apply Z.ltb_ge; lia). cbn [orb ibind]. cbv zeta. unfold for_int. destruct (Z.to_nat h2) as [|k] eqn:K; [lia|]. cbn [forz].
    unfold im_row at 1. cbn [Z.mul]. rewrite imul_pos by (unfold int_max; lia). unfold i_len. cbn [i_data i_rows Z.mul]. rewrite R1. destruct (_ && _); reflexivity.
  - assert (C' : (w <? w2) || (h <? h2) = true). { apply andb_false_iff in C. apply orb_true_iff. destruct C as [C|C]; apply Z.leb_gt in C; [left|right]; apply Z.ltb_lt; lia. }
    replace ((w2 =? 0) && (h2 =? 0)) with false. 2:{ symmetry. apply andb_false_iff. apply orb_true_iff in C'. destruct C' as [C'|C']; apply Z.ltb_lt in C'; [left|right]; apply Z.eqb_neq; lia. }
    rewrite C'. unfold im_destroy. rewrite R1. rewrite R4, R5. replace (if w <? w2 then w2 else w) with (Z.max w w2) by (destruct (Z.ltb_spec w w2); lia). replace (if h <? h2 then h2 else h) with (Z.max h h2) by (destruct (Z.ltb_spec h h2); lia).
    destruct (size_mod (Z.max w w2) (Z.max h h2) ltac:(lia) ltac:(lia)) as (_ & _ & -> & Q). unfold grants. rewrite !P. replace (0 <=? Z.max w w2 * Z.max h h2) with true by (symmetry; apply Z.leb_le; lia). replace (0 <=? Z.max h h2) with true by (symmetry; apply Z.leb_le; lia). cbn [andb ibind]. cbv zeta. cbn [i_cw i_ch i_w i_h i_data i_rows].
    edestruct (rows_fine w2 h2 (Z.max w w2) (Z.max h h2) (Z.max w w2 * Z.max h h2)) as (m2 & E2 & F1 & F2 & F3 & F4 & F5 & _); try lia; [|rewrite E2; eauto 10]. unfold shaped. cbn. repeat split. eexists. split; [reflexivity|]. apply repeat_length.
Qed.

(** ** sparse matrices *)
Definition pwhole (m : isp) : Prop :=
  0 <= p_ch m /\ 6 * (p_ch m - 1) <= int_max /\ 0 <= p_h m <= p_ch m /\
  match p_rows m with None => p_data m = None /\ p_blocks m = None | Some r => length r = Z.to_nat (p_ch m) /\ p_data m = Some (6 * p_ch m) /\ p_blocks m = Some (2 * p_ch m) end.
Definition pshaped (w h ch : Z) (m : isp) : Prop :=
  p_w m = w /\ p_h m = h /\ p_ch m = ch /\ p_data m = Some (6 * ch) /\ p_blocks m = Some (2 * ch) /\ exists r, p_rows m = Some r /\ length r = Z.to_nat ch.
Lemma prow_ok w h ch i m : pshaped w h ch m -> 0 <= i < ch -> 6 * i <= int_max -> exists m', ip_row i m = IOk m' /\ pshaped w h ch m'.
Proof.
  intros (E1 & E2 & E3 & E4 & E5 & r & E6 & E7) Hi Hm. unfold ip_row. rewrite !imul_pos by lia. unfold p_len. rewrite E4, E6. replace (0 <=? i * 2 * 3) with true by (symmetry; apply Z.leb_le; lia). replace (i * 2 * 3 <=? 6 * ch) with true by (symmetry; apply Z.leb_le; lia). cbn [andb].
  destruct (list_set_some r (Z.to_nat i) (Some (i * 2 * 3))) as (r' & E & Lr & _); [lia|]. rewrite E. eexists. split; [reflexivity|]. unfold pshaped. cbn [p_w p_h p_ch p_data p_rows p_blocks]. repeat split; auto. exists r'. split; [reflexivity|lia].
Qed.
Lemma prow_over i m : 0 <= i -> int_max < 6 * i -> ip_row i m = IOver.
Proof. intros H0 H. unfold ip_row. destruct (imul i 2) as [o|] eqn:E; [|reflexivity]. unfold imul in E. destruct (fits (i * 2)); [|discriminate E]. injection E as <-. now rewrite imul_over by lia. Qed.
Lemma prows_over w h ch m : pshaped w h ch m -> 0 <= h <= ch -> int_max < 6 * (h - 1) -> for_int h ip_row m = IOver.
Proof.
  intros M H O. unfold for_int. apply (forz_over (pshaped w h ch) _ (int_max / 6 + 1)); [exact M| | |].
  - rewrite Z2Nat.id by lia. change (int_max / 6) with 357913941. unfold int_max in O. lia.
  - intros x s Hx Hs. change (int_max / 6) with 357913941 in Hx. unfold int_max in *. apply (prow_ok w h ch); auto; unfold int_max; lia.
  - intros s _. apply prow_over; vm_compute; congruence.
Qed.
Lemma prows_fine w h ch m : pshaped w h ch m -> 0 <= h <= ch -> 6 * (h - 1) <= int_max -> exists m', for_int h ip_row m = IOk m' /\ pshaped w h ch m'.
Proof. intros M H O. unfold for_int. apply forz_ok; [exact M|]. rewrite Z2Nat.id by lia. intros x s Hx Hs. apply (prow_ok w h ch); auto; lia. Qed.
Lemma pdestroy_whole m : pwhole m -> pwhole (ip_destroy m) /\ p_ch (ip_destroy m) = p_ch m.
Proof. intros (A & B & C & D). unfold ip_destroy. destruct (p_rows m) eqn:R; [|split; [|reflexivity]; unfold pwhole; rewrite R; auto]. split; [|reflexivity]. unfold pwhole. cbn. repeat split; auto; lia. Qed.
Lemma presize_over room w h m : plenty room -> pwhole m -> 0 <= h <= int_max -> int_max < 6 * (h - 1) -> ip_resize room w h m = IOver.
Proof.
  intros P M H O. pose proof M as (A & B & C & D). unfold ip_resize. replace (h =? p_h m) with false by (symmetry; apply Z.eqb_neq; lia). rewrite andb_false_r. replace (p_ch m <? h) with true by (symmetry; apply Z.ltb_lt; lia).
  destruct (pdestroy_whole m M) as [_ Ec]. rewrite Ec. replace (p_ch m <? h) with true by (symmetry; apply Z.ltb_lt; lia). unfold int_max in *. rewrite to_size_pos by lia. rewrite !Z.mod_small by lia.
  unfold grants. rewrite !P. replace (0 <=? 6 * h) with true by (symmetry; apply Z.leb_le; lia). replace (0 <=? h) with true by (symmetry; apply Z.leb_le; lia). replace (0 <=? h * 2) with true by (symmetry; apply Z.leb_le; lia). cbn [andb ibind]. cbv zeta. cbn [p_w p_h p_ch p_data p_rows p_blocks].
  apply (prows_over w h h); [|lia|exact O]. unfold pshaped. cbn [p_w p_h p_ch p_data p_rows p_blocks]. repeat split; [f_equal; lia|]. eexists. split; [reflexivity|]. apply repeat_length.
Qed.
Lemma presize_whole room w h m m' : 0 <= h -> 6 * (h - 1) <= int_max -> pwhole m -> ip_resize room w h m = IOk m' -> pwhole m' /\ p_h m' = h.
Proof.
  intros H O M. pose proof M as (A & B & C & D). unfold ip_resize. destruct ((w =? p_w m) && (h =? p_h m)) eqn:E0. { apply andb_prop in E0. destruct E0 as [_ E0]. apply Z.eqb_eq in E0. intros [= <-]. auto. }
  assert (FIN : forall ch m2, pshaped w h ch m2 -> h <= ch -> 6 * (ch - 1) <= int_max -> for_int h ip_row m2 = IOk m' -> pwhole m' /\ p_h m' = h).
  { intros ch m2 M2 HC CM E. destruct (prows_fine w h ch m2 M2 ltac:(lia) O) as (m3 & E3 & F1 & F2 & F3 & F4 & F5 & r & F6 & F7). rewrite E3 in E. injection E as <-. split; [|exact F2]. unfold pwhole. rewrite F2, F3, F4, F5, F6. repeat split; auto; lia. }
  destruct (p_ch m <? h) eqn:L.
  - destruct (pdestroy_whole m M) as [_ Ec]. rewrite Ec, L. apply Z.ltb_lt in L. unfold int_max in *. rewrite to_size_pos by lia. rewrite !Z.mod_small by lia.
    destruct (grants room (6 * h)); [|discriminate]. destruct (grants room h); [|discriminate]. destruct (grants room (h * 2)); [|discriminate]. cbn [ibind]. cbv zeta. cbn [p_w p_h p_ch p_data p_rows p_blocks]. apply (FIN h); [|lia|exact O].
    unfold pshaped. cbn [p_w p_h p_ch p_data p_rows p_blocks]. repeat split; [f_equal; lia|]. eexists. split; [reflexivity|]. apply repeat_length.
  - apply Z.ltb_ge in L. cbn [ibind]. cbv zeta. destruct (p_rows m) as [r|] eqn:R.
    + destruct D as (D1 & D2 & D3). apply (FIN (p_ch m)); [|exact L|exact B]. unfold pshaped. cbn [p_w p_h p_ch p_data p_rows p_blocks]. repeat split; auto. exists r. auto.
    + destruct D as [D1 D2]. unfold for_int. destruct (Z.to_nat h) as [|k] eqn:K; cbn [forz].
      * intros [= <-]. cbn [p_h]. split; [|lia]. unfold pwhole. cbn [p_w p_h p_ch p_data p_rows p_blocks]. repeat split; auto; lia.
      * unfold ip_row at 1. cbn [Z.mul]. rewrite !imul_pos by (unfold int_max; lia). cbn [p_rows]. intros X; match type of X with ibind (if ?c then _ else _) _ = _ => destruct c end; discriminate X.
Qed.
Lemma pcalls_whole room l : Forall psane l -> forall m m', pwhole m -> pint_calls room l m = IOk m' -> pwhole m'.
Proof.
  intros S0. induction S0 as [|c l Hc _ IH]; intros m m' M E; cbn [pint_calls] in E; [congruence|]. destruct (p_ints room c m) as [a| | | |] eqn:Ec; cbn in E; try discriminate E. eapply IH; [|exact E].
  destruct c as [w h|w h|]; cbn [p_ints psane] in *.
  - destruct Hc as (_ & H1 & H2). eapply presize_whole; eauto.
  - destruct Hc as (_ & H1 & H2). unfold ip_init in Ec. destruct (ip_resize room w h m) as [b| | | |] eqn:Er; cbn in Ec; try discriminate Ec. destruct (_ <=? _) in Ec; [|discriminate Ec]. injection Ec as <-. eapply presize_whole; eauto.
  - injection Ec as <-. now apply pdestroy_whole.
Qed.
Lemma pwhole_new : pwhole ip_new.
Proof. unfold pwhole, int_max. cbn. repeat split; auto; lia. Qed.

(** ** the state *)
Lemma new_all_plenty room len l : plenty room -> 0 <= len -> new_all room len l = (true, repeat (Some len) (length l)).
Proof. intros P H. induction l as [|x l IH]; [reflexivity|]. cbn [new_all length repeat]. unfold grants. rewrite P. replace (0 <=? len) with true by (symmetry; apply Z.leb_le; lia). cbn [andb]. now rewrite IH. Qed.
Lemma new_all_length room len l : length (snd (new_all room len l)) = length l.
Proof. induction l as [|x l IH]; [reflexivity|]. cbn [new_all]. destruct (grants room len); [|reflexivity]. destruct (new_all room len l) as [b l']. cbn in *. congruence. Qed.
Lemma new_all_false room len l l' : new_all room len l = (false, l') -> Forall (fun x => x = None) l -> In None l'.
Proof.
  revert l'. induction l as [|x l IH]; intros l' E F; [discriminate E|]. cbn [new_all] in E. inversion F as [|? ? Hx Fl]; subst. destruct (grants room len); [|injection E as <-; left; reflexivity].
  destruct (new_all room len l) as [b l2]. injection E as -> <-. right. apply IH; auto.
Qed.
Lemma it_throw room bc cc s s' : it_resize room bc cc s = IThrow s' -> t_n s' = bc /\ t_nc s' = cc /\ length (t_body s') = length (t_body (it_destroy s)) /\ length (t_re s') = length (t_re (it_destroy s)) /\
  (t_map (it_destroy s) = None -> Forall (fun x => x = None) (t_body (it_destroy s)) -> Forall (fun x => x = None) (t_re (it_destroy s)) -> lacks s').
Proof.
  unfold it_resize. destruct (_ && _); [discriminate|]. set (d := it_destroy s). destruct (grants room cc); [|intros [= <-]; cbn [t_n t_nc t_body t_re t_map]; unfold lacks; cbn [t_n t_nc t_body t_re t_map]; repeat split; intros X _ _; left; exact X].
  pose proof (new_all_length room bc (t_body d)) as L1. destruct (new_all room bc (t_body d)) as [b bo] eqn:E1. cbn in L1. destruct b.
  - pose proof (new_all_length room ((to_size cc * 2) mod 2 ^ 64) (t_re d)) as L2. destruct (new_all room _ (t_re d)) as [b re] eqn:E2. cbn in L2. destruct b; [discriminate|]. intros [= <-]. unfold lacks. cbn [t_n t_nc t_body t_re t_map]. repeat split; auto. intros _ _ F. right. apply in_or_app. right. eapply new_all_false; eauto.
  - intros [= <-]. unfold lacks. cbn [t_n t_nc t_body t_re t_map]. repeat split; auto. intros _ F _. right. apply in_or_app. left. eapply new_all_false; eauto.
Qed.
Lemma all_none k : Forall (fun x : option Z => x = None) (repeat None k).
Proof. induction k; cbn; auto. Qed.
Lemma it_after_throw room bc cc s s' : s = it_new \/ 0 < t_n s /\ 0 < t_nc s -> it_resize room bc cc s = IThrow s' ->
  lacks s' /\ (forall room' b c, b <= bc -> c <= cc -> it_resize room' b c s' = IOk s') /\
  (forall room' b c, plenty room' -> 0 <= b <= int_max -> 0 <= c <= int_max -> bc < b \/ cc < c -> exists s2, it_resize room' b c s' = IOk s2 /\ provided b c s2).
Proof.
  intros Hs E. destruct (it_throw _ _ _ _ _ E) as (E1 & E2 & L1 & L2 & K).
  assert (D : t_map (it_destroy s) = None /\ t_body (it_destroy s) = repeat None 13 /\ t_re (it_destroy s) = repeat None 3).
  { destruct Hs as [->|[H1 H2]]; [repeat split|]. unfold it_destroy. cbn [t_map t_body t_re]. replace (0 <? t_n s) with true by (symmetry; apply Z.ltb_lt; lia). replace (0 <? t_nc s) with true by (symmetry; apply Z.ltb_lt; lia). auto. }
  destruct D as (D1 & D2 & D3). rewrite D2, D3 in *. split; [apply K; auto using all_none|]. split.
  - intros room' b c Hb Hc. unfold it_resize. rewrite E1, E2. replace (b <=? bc) with true by (symmetry; apply Z.leb_le; lia). replace (c <=? cc) with true by (symmetry; apply Z.leb_le; lia). reflexivity.
  - intros room' b c P Hb Hc Hx. unfold it_resize. rewrite E1, E2. replace ((b <=? bc) && (c <=? cc)) with false by (symmetry; apply andb_false_iff; destruct Hx; [left|right]; apply Z.leb_gt; lia).
    unfold grants at 1. rewrite P. replace (0 <=? c) with true by (symmetry; apply Z.leb_le; lia). cbn [andb]. rewrite !new_all_plenty; [|exact P|apply Z.mod_pos_bound; lia|exact P|lia].
    assert (B1 : length (t_body (it_destroy s')) = 13%nat) by (unfold it_destroy; cbn [t_body]; destruct (0 <? t_n s'); [reflexivity|exact L1]). assert (B2 : length (t_re (it_destroy s')) = 3%nat) by (unfold it_destroy; cbn [t_re]; destruct (0 <? t_nc s'); [reflexivity|exact L2]).
    rewrite B1, B2. eexists. split; [reflexivity|]. unfold provided. cbn [t_n t_nc t_map t_body t_re]. unfold int_max in *. rewrite to_size_pos by lia. rewrite Z.mod_small by lia. repeat split. f_equal. f_equal. lia.
Qed.

(** ** the ints of process *)
Lemma fits_iff z : fits z = true <-> - int_max - 1 <= z <= int_max.
Proof. unfold fits. rewrite andb_true_iff, !Z.leb_le. lia. Qed.
Lemma limits_exact k n mf : 0 <= n -> 0 <= mf -> ((forall e, evaluates k n mf e -> ieval e <> None) <-> 3 * n <= int_max /\ mf <= row_limit k).
Proof.
  intros N M. split.
  - intros F. split.
    + specialize (F _ (ev_size k n mf)). cbn in F. destruct (fits n); [|now elim F]. unfold imul in F. destruct (fits (3 * n)) eqn:E; [|now elim F]. apply fits_iff in E. lia.
    + destruct (Z_le_gt_dec mf (row_limit k)) as [L|G]; [exact L|exfalso]. destruct k; cbn [row_limit] in G.
      * specialize (F _ (ev_augmented KGauss n mf 46340 eq_refl ltac:(lia))). cbn in F. destruct (fits mf); [|now elim F]. unfold iadd in F. destruct (fits (mf + 1)); [|now elim F]. apply F. apply imul_over. unfold int_max. lia.
      * specialize (F _ (ev_square KSeidel n mf 46341 ltac:(discriminate) ltac:(lia))). cbn in F. destruct (fits mf); [|now elim F]. apply F. apply imul_over. unfold int_max. lia.
      * specialize (F _ (ev_sparse KGradient n mf 357913942 ltac:(lia))). vm_compute in F. now elim F.
  - intros [H1 H2] e He.
    assert (ML : mf <= 357913942) by (destruct k; cbn in H2; lia). unfold int_max in *.
    assert (FT : forall z, 0 <= z <= 2147483647 -> fits z = true) by (intros z Hz; apply fits_iff; unfold int_max; lia).
    assert (IM : forall x y, 0 <= x * y <= 2147483647 -> imul x y = Some (x * y)) by (intros x y Hz; apply imul_pos; exact Hz).
    assert (IA : forall x y, 0 <= x + y <= 2147483647 -> iadd x y = Some (x + y)) by (intros x y Hz; unfold iadd; now rewrite FT).
    assert (SQ : k <> KGradient -> mf <= 46341) by (destruct k; cbn in H2; try lia; intros K; now elim K).
    destruct He as [|i c Hi Hc|a b Ha Hb Hab|i Hi|i Hi|i Hi|i Hi|i e Hi He|b l Hb Hl|i Hk Hi|Hk|i Hk Hi]; cbn [ieval].
    + rewrite !FT by lia. now rewrite IM by lia.
    + rewrite !FT by lia. rewrite IM by lia. now rewrite IA by lia.
    + rewrite !FT by lia. now rewrite IA by lia.
    + rewrite !FT by lia. now rewrite IM by lia.
    + rewrite !FT by lia. now rewrite IM by lia.
    + rewrite !FT by lia. now rewrite IM by lia.
    + rewrite !FT by lia. rewrite IM by lia. now rewrite IM by lia.
    + rewrite !FT by lia. rewrite IM by lia. now rewrite IA by lia.
    + rewrite !FT by lia. rewrite IM by lia. now rewrite IA by lia.
    + specialize (SQ Hk). rewrite !FT by lia. rewrite IM; [discriminate|]. split; [lia|]. apply Z.le_trans with (46340 * 46341); [apply Z.mul_le_mono_nonneg; lia|lia].
    + subst k. cbn in H2. rewrite !FT by lia. now rewrite IA by lia.
    + subst k. cbn in H2. rewrite !FT by lia. rewrite IA by lia. rewrite IM; [discriminate|]. split; [lia|]. apply Z.le_trans with (46339 * 46341); [apply Z.mul_le_mono_nonneg; lia|lia].
Qed.
