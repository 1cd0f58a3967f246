(** * Lemmas: within the ints, the two models of a matrix agree. *)

From Coq Require Import Lia.
From Verif Require Import Base Logic Matrix Sparse State Ints SpecInts.
Local Open Scope Z_scope.

Lemma fits_pos z : 0 <= z <= int_max -> fits z = true.
Proof. unfold fits, int_max. intros H. apply andb_true_intro. split; apply Z.leb_le; lia. Qed.
Lemma imul_pos x y : 0 <= x * y <= int_max -> imul x y = Some (x * y).
Proof. intros H. unfold imul. now rewrite fits_pos. Qed.
Lemma imul_over x y : int_max < x * y -> imul x y = None.
Proof. intros H. unfold imul, fits. replace (x * y <=? int_max) with false by (symmetry; apply Z.leb_gt; lia). now rewrite andb_false_r. Qed.
Lemma to_size_pos z : 0 <= z < 2 ^ 64 -> to_size z = z.
Proof. apply Z.mod_small. Qed.
Lemma map_set {A B} (f : A -> B) l i v : list_set (map f l) i (f v) = option_map (map f) (list_set l i v).
Proof. revert i. induction l as [|x l IH]; intros [|i]; cbn; auto. rewrite IH. now destruct (list_set l i v). Qed.
Lemma set_length {A} (l l' : list A) i v : list_set l i v = Some l' -> length l' = length l.
Proof. revert i l'. induction l as [|x l IH]; intros [|i] l'; cbn; try discriminate; [intros [= <-]; reflexivity|]. destruct (list_set l i v) eqn:E; [|discriminate]. intros [= <-]. cbn. f_equal. eauto. Qed.
Lemma overwrite_iff {tg} (src d : list (cell tg)) : match overwrite d src with Some r => length r = length d /\ (length src <= length d)%nat | None => (length d < length src)%nat end.
Proof.
  revert d. induction src as [|x src IH]; intros [|y d]; cbn [overwrite length]; try (split; lia); try lia.
  specialize (IH d). destruct (overwrite d src); cbn [length]; lia.
Qed.

Lemma map_repeat' {A B} (f : A -> B) x n : map f (repeat x n) = repeat (f x) n.
Proof. induction n; cbn; congruence. Qed.

Section S.
Context {tg : target}.
Implicit Types (n : matrix tg) (m : imat).
Definition inv n : Prop :=
  (if m_ptr n then length (m_data n) = (m_cw n * m_ch n)%nat /\ length (m_rows n) = m_ch n /\ (m_w n <= m_cw n)%nat /\ (m_h n <= m_ch n)%nat
   else m_rows n = [] /\ m_data n = [] /\ m_w n = 0%nat /\ m_h n = 0%nat /\ m_cw n = 0%nat /\ m_ch n = 0%nat) /\
  Z.of_nat (m_cw n) <= int_max /\ Z.of_nat (m_ch n) <= int_max.
Definition agree (R : imat -> matrix tg -> Prop) (room : Z -> bool) (x : out imat) (y : res (matrix tg)) : Prop :=
  match x with IOk a => exists b, y = Ok b /\ R a b | IThrow _ => exists z, 0 <= z /\ room z = false | IOver => False | IBad => y = UB | IAssert => y = AssertFail end.
Definition like m n : Prop := alike m n /\ inv n.
Lemma agree_bind (R R' : imat -> matrix tg -> Prop) room x y f g : agree R room x y -> (forall a b, R a b -> agree R' room (f a) (g b)) -> agree R' room (ibind x f) (bind y g).
Proof. intros H F. destruct x; cbn in *; [destruct H as (b & -> & H); cbn; auto|exact H|exact H|subst; reflexivity|subst; reflexivity]. Qed.
Lemma agree_for (R : imat -> matrix tg -> Prop) room f g : forall k i a b, R a b ->
  (forall j a b, (i <= j < i + k)%nat -> R a b -> agree R room (f (Z.of_nat j) a) (g j b)) -> agree R room (forz k (Z.of_nat i) f a) (for_from k i g b).
Proof.
  induction k as [|k IH]; intros i a b H F; cbn [forz for_from]; [exists b; auto|].
  apply (agree_bind R R); [apply F; [lia|exact H]|]. intros a' b' H'. replace (Z.of_nat i + 1) with (Z.of_nat (S i)) by lia. apply IH; [exact H'|]. intros j x y Hj. apply F. lia.
Qed.
Lemma alike_len m n : inv n -> alike m n -> i_len m = Z.of_nat (length (m_data n)).
Proof. intros [H _] (_ & _ & _ & _ & E & _). unfold i_len. rewrite E. destruct (m_ptr n); [reflexivity|]. destruct H as (_ & -> & _). reflexivity. Qed.
Lemma like_destroy m n : like m n -> like (im_destroy m) (mat_destroy n).
Proof.
  intros [A I0]. pose proof A as (A1 & A2 & A3 & A4 & A5 & A6). unfold im_destroy, mat_destroy. rewrite A6. destruct (m_ptr n) eqn:P; [|split; assumption].
  split; [repeat split|]. unfold inv, int_max. cbn. repeat split; lia.
Qed.
Lemma mat_row_agree room (w : nat) (i : nat) m n : like m n -> m_ptr n = true -> (i * w <= m_cw n * m_ch n)%nat -> (i < m_ch n)%nat -> Z.of_nat (i * w) <= int_max ->
  agree (fun a b => like a b /\ m_ptr b = true /\ m_cw b = m_cw n /\ m_ch b = m_ch n) room (im_row (Z.of_nat w) (Z.of_nat i) m) (set_row_ptr w i n).
Proof.
  intros [A I0] P HL Hi HM. pose proof A as (A1 & A2 & A3 & A4 & A5 & A6). pose proof I0 as [I1 I2]. rewrite P in I1, A5, A6. destruct I1 as (L1 & L2 & L3 & L4).
  unfold im_row, set_row_ptr. rewrite imul_pos by lia. rewrite (alike_len m n I0 A), L1.
  replace (0 <=? Z.of_nat i * Z.of_nat w) with true by (symmetry; apply Z.leb_le; lia). replace (Z.of_nat i * Z.of_nat w <=? Z.of_nat (m_cw n * m_ch n)) with true by (symmetry; apply Z.leb_le; lia). cbn [andb].
  rewrite A6, Nat2Z.id. rewrite <- Nat2Z.inj_mul. change (Some (Z.of_nat (i * w))) with (option_map Z.of_nat (Some (i * w)%nat)). rewrite map_set.
  destruct (list_set_some (m_rows n) i (Some (i * w)%nat)) as (r & E & Lr & _); [lia|]. rewrite E. cbn. eexists. split; [reflexivity|]. cbn [with_rows m_ptr m_cw m_ch]. repeat split; auto; cbn.
  - now rewrite P, A5.
  - now rewrite P.
  - rewrite P. repeat split; auto; lia.
  - apply I2.
  - apply I2.
Qed.
Lemma resize_agree room w h m n : size_ok w h -> like m n -> agree (fun a b => like a b /\ Z.of_nat (m_w b) = w /\ Z.of_nat (m_h b) = h) room (im_resize room w h m) (mat_resize n (Z.to_nat w) (Z.to_nat h)).
Proof.
  intros (W & H & HM) L. pose proof L as [A I0]. pose proof A as (A1 & A2 & A3 & A4 & A5 & A6). unfold im_resize, mat_resize. rewrite A1, A2, A3, A4.
  assert (Ew : w = Z.of_nat (Z.to_nat w)) by lia. assert (Eh : h = Z.of_nat (Z.to_nat h)) by lia. set (w' := Z.to_nat w) in *. set (h' := Z.to_nat h) in *.
  assert (Q : ((w =? Z.of_nat (m_w n)) && (h =? Z.of_nat (m_h n))) = (Nat.eqb w' (m_w n) && Nat.eqb h' (m_h n))%bool).
  { f_equal; [destruct (Nat.eqb_spec w' (m_w n)), (Z.eqb_spec w (Z.of_nat (m_w n)))|destruct (Nat.eqb_spec h' (m_h n)), (Z.eqb_spec h (Z.of_nat (m_h n)))]; auto; lia. }
  rewrite Q. destruct (Nat.eqb w' (m_w n) && Nat.eqb h' (m_h n)) eqn:E0.
  { apply andb_prop in E0. destruct E0 as [E1 E2]. apply Nat.eqb_eq in E1. apply Nat.eqb_eq in E2. cbn. exists n. repeat split; try exact (proj1 L); try apply I0; auto; lia. }
  assert (Q2 : ((Z.of_nat (m_cw n) <? w) || (Z.of_nat (m_ch n) <? h)) = (Nat.ltb (m_cw n) w' || Nat.ltb (m_ch n) h')%bool).
  { f_equal; [destruct (Nat.ltb_spec (m_cw n) w'), (Z.ltb_spec (Z.of_nat (m_cw n)) w)|destruct (Nat.ltb_spec (m_ch n) h'), (Z.ltb_spec (Z.of_nat (m_ch n)) h)]; auto; lia. }
  rewrite Q2.
  assert (LOOP : forall a b, like a b -> m_ptr b = true -> (w' <= m_cw b)%nat -> (h' <= m_ch b)%nat ->
    agree (fun a b => like a b /\ Z.of_nat (m_w b) = w /\ Z.of_nat (m_h b) = h) room
      (for_int h (im_row w) {| i_w := w; i_h := h; i_cw := i_cw a; i_ch := i_ch a; i_data := i_data a; i_rows := i_rows a |})
      (for_ h' (set_row_ptr w') {| m_ptr := m_ptr b; m_rows := m_rows b; m_data := m_data b; m_w := w'; m_h := h'; m_cw := m_cw b; m_ch := m_ch b |})).
  { intros a b [B J] P LW LH. pose proof B as (B1 & B2 & B3 & B4 & B5 & B6). pose proof J as [J1 J2]. rewrite P in J1. destruct J1 as (K1 & K2 & _ & _).
    pose (R := fun a' b' => (like a' b' /\ m_ptr b' = true /\ m_cw b' = m_cw b /\ m_ch b' = m_ch b) /\ m_w b' = w' /\ m_h b' = h').
    assert (G : agree R room (for_int h (im_row w) {| i_w := w; i_h := h; i_cw := i_cw a; i_ch := i_ch a; i_data := i_data a; i_rows := i_rows a |})
      (for_ h' (set_row_ptr w') {| m_ptr := m_ptr b; m_rows := m_rows b; m_data := m_data b; m_w := w'; m_h := h'; m_cw := m_cw b; m_ch := m_ch b |})).
    { unfold for_int, for_. change (Z.to_nat h) with h'. apply (agree_for R room _ _ h' 0%nat).
      - unfold R, like, alike, inv. cbn. rewrite P. rewrite P in B5, B6. repeat split; auto; try lia; apply J2.
      - intros j x y Hj ((X1 & X2 & X3 & X4) & X5 & X6). cbn in Hj.
        assert (Y : agree (fun a b => like a b /\ m_ptr b = true /\ m_cw b = m_cw y /\ m_ch b = m_ch y) room (im_row (Z.of_nat w') (Z.of_nat j) x) (set_row_ptr w' j y)).
        { apply mat_row_agree; auto; [rewrite X3, X4; apply Nat.le_trans with (m_ch b * w')%nat; [apply Nat.mul_le_mono_r; lia|rewrite Nat.mul_comm; now apply Nat.mul_le_mono_r]|lia|].
          rewrite Nat2Z.inj_mul. apply Z.le_trans with ((h - 1) * w); [|exact HM]. rewrite <- Ew. apply Z.mul_le_mono_nonneg_r; lia. }
        rewrite <- Ew in Y. unfold agree in *. destruct (im_row w (Z.of_nat j) x); auto. destruct Y as (b' & E & Y1 & Y2 & Y3 & Y4). exists b'. split; [exact E|]. unfold R. rewrite Y3, Y4. split; [auto|].
        unfold set_row_ptr in E. destruct (list_set (m_rows y) j (Some (j * w')%nat)); cbn in E; [|discriminate E]. injection E as <-. cbn. auto. }
    unfold agree in *. destruct (for_int h (im_row w) _); auto. destruct G as (b' & E & ((X & _) & X5 & X6)). exists b'. split; [exact E|]. split; [exact X|]. rewrite X5, X6. lia. }
  destruct (Nat.ltb (m_cw n) w' || Nat.ltb (m_ch n) h') eqn:E1.
  - pose proof (like_destroy m n L) as [DA DI]. set (d := im_destroy m) in *. set (e := mat_destroy n) in *. pose proof DA as (D1 & D2 & D3 & D4 & D5 & D6). rewrite D3, D4.
    assert (DC : m_cw e = 0%nat /\ m_ch e = 0%nat /\ m_w e = 0%nat /\ m_h e = 0%nat).
    { unfold e, mat_destroy. destruct (m_ptr n) eqn:P; [cbn; auto|]. pose proof I0 as [I1 _]. rewrite P in I1. tauto. }
    destruct DC as (C1 & C2 & C3 & C4). rewrite C1, C2. change (Z.of_nat 0) with 0.
    replace (if 0 <? w then w else 0) with w by (destruct (Z.ltb_spec 0 w); lia). replace (if 0 <? h then h else 0) with h by (destruct (Z.ltb_spec 0 h); lia).
    replace (if Nat.ltb 0 w' then w' else 0%nat) with w' by (destruct (Nat.ltb_spec 0 w'); lia). replace (if Nat.ltb 0 h' then h' else 0%nat) with h' by (destruct (Nat.ltb_spec 0 h'); lia).
    assert (BW : 0 <= w < 2 ^ 64) by (unfold int_max in *; lia). assert (BH : 0 <= h < 2 ^ 64) by (unfold int_max in *; lia).
    assert (BP : 0 <= w * h < 2 ^ 64). { split; [lia|]. apply Z.le_lt_trans with (int_max * int_max); [apply Z.mul_le_mono_nonneg; lia|reflexivity]. }
    rewrite !to_size_pos by assumption. rewrite (Z.mod_small (w * h)) by assumption.
    unfold grants. replace (0 <=? w * h) with true by (symmetry; apply Z.leb_le; lia). replace (0 <=? h) with true by (symmetry; apply Z.leb_le; lia). cbn [andb].
    destruct (room (w * h)) eqn:R1; [|cbn; exists (w * h); split; [lia|exact R1]]. destruct (room h) eqn:R2; [|cbn; exists h; split; [lia|exact R2]]. cbn [ibind]. cbv zeta. cbn [i_w i_h i_cw i_ch i_data i_rows].
    refine (LOOP {| i_w := i_w d; i_h := i_h d; i_cw := w; i_ch := h; i_data := Some (w * h); i_rows := Some (repeat None (Z.to_nat h)) |} {| m_ptr := true; m_rows := repeat None h'; m_data := repeat None (w' * h')%nat; m_w := m_w e; m_h := m_h e; m_cw := w'; m_ch := h' |} _ eq_refl _ _); cbn; try lia.
    split; [unfold alike; cbn; repeat split; auto; [rewrite repeat_length; f_equal; lia|rewrite map_repeat'; reflexivity]|]. unfold inv. cbn. rewrite !repeat_length, C3, C4. repeat split; lia.
  - apply orb_false_iff in E1. destruct E1 as [E1 E2]. apply Nat.ltb_ge in E1. apply Nat.ltb_ge in E2. cbn [ibind]. cbv zeta.
    destruct (m_ptr n) eqn:P; [rewrite <- P; now apply LOOP|].
    exfalso. pose proof I0 as [I1 _]. rewrite P in I1. destruct I1 as (_ & _ & I3 & I4 & I5 & I6). rewrite I3, I4 in E0. replace w' with 0%nat in E0 by lia. replace h' with 0%nat in E0 by lia. discriminate E0.
Qed.
Lemma at_agree room row col m n (v : cell tg) : like m n -> agree like room (im_at (Z.of_nat row) (Z.of_nat col) m) (raw_set n row col v).
Proof.
  intros L. pose proof L as [A I0]. pose proof A as (A1 & A2 & A3 & A4 & A5 & A6). unfold im_at, raw_set. replace (Z.of_nat row <? 0) with false by (symmetry; apply Z.ltb_ge; lia).
  rewrite A6, Nat2Z.id. pose proof I0 as [I1 I2]. destruct (m_ptr n) eqn:P; [|destruct I1 as (-> & _); cbn; destruct row; reflexivity].
  rewrite nth_error_map. destruct (nth_error (m_rows n) row) as [[o|]|] eqn:E; cbn [option_map]; try reflexivity. rewrite (alike_len m n I0 A).
  replace (0 <=? Z.of_nat o + Z.of_nat col) with true by (symmetry; apply Z.leb_le; lia). cbn [andb].
  destruct (Z.ltb_spec (Z.of_nat o + Z.of_nat col) (Z.of_nat (length (m_data n)))) as [Lt|Ge].
  - destruct (list_set_some (m_data n) (o + col)%nat v) as (d & Ed & Ld & _); [lia|]. rewrite Ed. cbn. eexists. split; [reflexivity|]. split; [unfold alike; cbn; rewrite P in *; repeat split; auto; now rewrite Ld|].
    unfold inv. cbn. rewrite P. rewrite Ld. split; [exact I1|exact I2].
  - rewrite list_set_none by lia. reflexivity.
Qed.
Lemma step_agree room dbg (v : cell tg) c m n : asserts_on tg = dbg -> sane c -> like m n -> agree like room (on_ints room dbg c m) (on_nats v c n).
Proof.
  intros Ed S0 L. destruct c as [w h|w h|w h|c r|a b|]; cbn [on_ints on_nats sane] in *.
  - pose proof (resize_agree room w h m n S0 L) as H. unfold agree in *. destruct (im_resize room w h m); auto. destruct H as (b & E & H & _). eauto.
  - unfold im_init0, mat_init0. apply (agree_bind _ _ _ _ _ _ _ (resize_agree room w h m n S0 L)). intros a b (X & Ew & Eh). pose proof X as [XA XI]. destruct S0 as (W & H & HM). unfold int_max in *.
    rewrite !to_size_pos by lia. assert (B : 0 <= w * h <= 4294967295) by lia. rewrite (Z.mod_small (8 * w)) by lia. rewrite (Z.mod_small (8 * w * h)) by lia. rewrite (alike_len a b XI XA).
    pose proof (overwrite_iff (repeat (cofZ 0) (Z.to_nat w * Z.to_nat h)%nat) (m_data b)) as O. rewrite repeat_length in O.
    assert (Len : (Z.to_nat w * Z.to_nat h <= length (m_data b))%nat).
    { pose proof XI as [X1 _]. destruct (m_ptr b); [|destruct X1 as (_ & _ & X3 & X4 & _); rewrite X3 in Ew; subst w; cbn; lia]. destruct X1 as (X1 & _ & X3 & X4). rewrite X1. subst w h. rewrite !Nat2Z.id. now apply Nat.mul_le_mono. }
    replace (8 * w * h <=? 8 * Z.of_nat (length (m_data b))) with true by (symmetry; apply Z.leb_le; lia).
    destruct (overwrite (m_data b) _) as [d|]; [|lia]. destruct O as [O _]. cbn. eexists. split; [reflexivity|]. split.
    + destruct XA as (Y1 & Y2 & Y3 & Y4 & Y5 & Y6). unfold alike. cbn. rewrite O. auto 10.
    + destruct XI as [Y1 Y2]. unfold inv. cbn. split; [|exact Y2]. destruct (m_ptr b); rewrite ?O; [exact Y1|]. destruct Y1 as (Y3 & Y4 & Y5). rewrite Y4 in O. destruct d; [auto|discriminate O].
  - unfold im_init_val, mat_init_val. apply (agree_bind _ _ _ _ _ _ _ (resize_agree room w h m n S0 L)). intros a b (X & Ew & Eh). unfold for_int, for2, for_. destruct S0 as (W & H & _).
    apply (agree_for like room _ _ (Z.to_nat h) 0%nat); [exact X|]. intros i x y _ Hx. apply (agree_for like room _ _ (Z.to_nat w) 0%nat); [exact Hx|]. intros j x' y' _ Hx'. now apply at_agree.
  - destruct S0 as [H1 H2]. pose proof L as [(A1 & A2 & _) _]. unfold im_elem, mat_set. rewrite A1, A2. unfold massert. rewrite Ed.
    assert (Q : (0 <=? c) && (c <? Z.of_nat (m_w n)) && (0 <=? r) && (r <? Z.of_nat (m_h n)) = (Nat.ltb (Z.to_nat c) (m_w n) && Nat.ltb (Z.to_nat r) (m_h n))%bool).
    { replace (0 <=? c) with true by (symmetry; apply Z.leb_le; lia). replace (0 <=? r) with true by (symmetry; apply Z.leb_le; lia). cbn [andb]. rewrite andb_true_r.
      f_equal; [destruct (Z.ltb_spec c (Z.of_nat (m_w n))), (Nat.ltb_spec (Z.to_nat c) (m_w n))|destruct (Z.ltb_spec r (Z.of_nat (m_h n))), (Nat.ltb_spec (Z.to_nat r) (m_h n))]; auto; lia. }
    rewrite Q. pose proof (at_agree room (Z.to_nat r) (Z.to_nat c) m n v L) as AT. rewrite !Z2Nat.id in AT by lia.
    destruct dbg; cbn [andb]; [|destruct (Nat.ltb (Z.to_nat c) (m_w n)), (Nat.ltb (Z.to_nat r) (m_h n)); exact AT]. destruct (Nat.ltb (Z.to_nat c) (m_w n)); cbn; [|reflexivity]. destruct (Nat.ltb (Z.to_nat r) (m_h n)); cbn; [exact AT|reflexivity].
  - destruct S0 as [H1 H2]. pose proof L as [A I0]. pose proof A as (A1 & A2 & A3 & A4 & A5 & A6). pose proof I0 as [I1 I2]. unfold im_swap, mat_row_swap.
    replace (a <? 0) with false by (symmetry; apply Z.ltb_ge; lia). replace (b <? 0) with false by (symmetry; apply Z.ltb_ge; lia). cbn [orb]. rewrite A6.
    destruct (m_ptr n) eqn:P; [|destruct I1 as (-> & _); cbn; destruct (Z.to_nat a); reflexivity]. rewrite !nth_error_map.
    destruct (nth_error (m_rows n) (Z.to_nat a)) as [[x|]|] eqn:Ea; cbn [option_map]; try reflexivity. destruct (nth_error (m_rows n) (Z.to_nat b)) as [[y|]|] eqn:Eb; cbn [option_map]; try reflexivity.
    rewrite (map_set (option_map Z.of_nat) (m_rows n) (Z.to_nat a) (Some y) : list_set _ _ (Some (Z.of_nat y)) = _).
    destruct (list_set (m_rows n) (Z.to_nat a) (Some y)) as [r|] eqn:Er; cbn [option_map]; [|reflexivity]. rewrite (map_set (option_map Z.of_nat) r (Z.to_nat b) (Some x) : list_set _ _ (Some (Z.of_nat x)) = _). cbn [lift_opt bind]. destruct (list_set r (Z.to_nat b) (Some x)) as [r'|] eqn:Er'; cbn [option_map]; [|reflexivity].
    cbn. eexists. split; [reflexivity|]. split; [unfold alike; cbn; rewrite P; auto 10|]. unfold inv. cbn. rewrite P. rewrite (set_length _ _ _ _ Er'), (set_length _ _ _ _ Er). split; [exact I1|exact I2].
  - cbn. eexists. split; [reflexivity|]. now apply like_destroy.
Qed.
Lemma like_new : like im_new (mat_new (tg := tg)).
Proof. split; [repeat split|]. unfold inv, int_max. cbn. repeat split; lia. Qed.
Lemma calls_agree room dbg (v : cell tg) l : asserts_on tg = dbg -> Forall sane l -> forall m n, like m n -> agree like room (int_calls room dbg l m) (nat_calls v l n).
Proof.
  intros Ed S0. induction S0 as [|c l Hc _ IH]; intros m n L; cbn [int_calls nat_calls]; [exists n; auto|]. apply (agree_bind like like); [now apply step_agree|]. auto.
Qed.
End S.

(** ** sparse matrices *)
Section P.
Context {tg : target}.
Implicit Types (n : sparse tg) (m : isp).
Definition pinv n : Prop :=
  (if s_ptr n then length (s_data n) = (6 * s_ch n)%nat /\ length (s_rows n) = s_ch n /\ length (s_blocks n) = (2 * s_ch n)%nat /\ (s_h n <= s_ch n)%nat
   else s_rows n = [] /\ s_data n = [] /\ s_blocks n = [] /\ s_h n = 0%nat) /\ Z.of_nat (s_ch n) <= int_max.
Definition pagree (R : isp -> sparse tg -> Prop) (room : Z -> bool) (x : out isp) (y : res (sparse tg)) : Prop :=
  match x with IOk a => exists b, y = Ok b /\ R a b | IThrow _ => exists z, 0 <= z /\ room z = false | IOver => False | IBad => y = UB | IAssert => y = AssertFail end.
Definition plike m n : Prop := palike m n /\ pinv n.
Lemma pagree_bind (R R' : isp -> sparse tg -> Prop) room x y f g : pagree R room x y -> (forall a b, R a b -> pagree R' room (f a) (g b)) -> pagree R' room (ibind x f) (bind y g).
Proof. intros H F. destruct x; cbn in *; [destruct H as (b & -> & H); cbn; auto|exact H|exact H|subst; reflexivity|subst; reflexivity]. Qed.
Lemma pagree_for (R : isp -> sparse tg -> Prop) room f g : forall k i a b, R a b ->
  (forall j a b, (i <= j < i + k)%nat -> R a b -> pagree R room (f (Z.of_nat j) a) (g j b)) -> pagree R room (forz k (Z.of_nat i) f a) (for_from k i g b).
Proof.
  induction k as [|k IH]; intros i a b H F; cbn [forz for_from]; [exists b; auto|].
  apply (pagree_bind R R); [apply F; [lia|exact H]|]. intros a' b' H'. replace (Z.of_nat i + 1) with (Z.of_nat (S i)) by lia. apply IH; [exact H'|]. intros j x y Hj. apply F. lia.
Qed.
Lemma palike_len m n : pinv n -> palike m n -> p_len m = Z.of_nat (length (s_data n)) /\ p_blen m = Z.of_nat (length (s_blocks n)).
Proof. intros [H _] (_ & _ & _ & E & _ & F). unfold p_len, p_blen. rewrite E, F. destruct (s_ptr n); [auto|]. destruct H as (_ & -> & -> & _). auto. Qed.
Lemma plike_destroy m n : plike m n -> plike (ip_destroy m) (sp_destroy n).
Proof.
  intros [A I0]. pose proof A as (A1 & A2 & A3 & A4 & A5 & A6). pose proof I0 as [_ I2]. unfold ip_destroy, sp_destroy. rewrite A5. destruct (s_ptr n) eqn:P; [|split; assumption].
  split; [repeat split; exact A3|]. unfold pinv. cbn. repeat split; exact I2.
Qed.
(* the state between setting the size and setting the rows: the height may exceed what there is *)
Definition mid (w h c : nat) (p : bool) (m : isp) n : Prop :=
  palike m n /\ s_w n = w /\ s_h n = h /\ s_ch n = c /\ s_ptr n = p /\
  (if p then length (s_data n) = (6 * c)%nat /\ length (s_rows n) = c /\ length (s_blocks n) = (2 * c)%nat else s_rows n = [] /\ s_data n = [] /\ s_blocks n = []).
Lemma sp_row_agree room w h c p (i : nat) m n : mid w h c p m n -> (i < c)%nat -> 6 * Z.of_nat i <= int_max -> (p = false -> i = 0%nat) ->
  pagree (fun a b => mid w h c p a b /\ p = true) room (ip_row (Z.of_nat i) m) (sp_set_row_ptr 3 2 i n).
Proof.
  intros (A & Ew & Eh & Ec & Ep & I1) Hi HM H0. pose proof A as (A1 & A2 & A3 & A4 & A5 & A6). unfold ip_row, sp_set_row_ptr. rewrite !imul_pos by lia.
  assert (Lm : p_len m = Z.of_nat (length (s_data n))). { unfold p_len. rewrite A4, Ep. destruct p; [reflexivity|]. destruct I1 as (_ & -> & _). reflexivity. }
  rewrite Lm. replace (0 <=? Z.of_nat i * 2 * 3) with true by (symmetry; apply Z.leb_le; lia).
  replace (Z.of_nat i * 2 * 3 <=? Z.of_nat (length (s_data n))) with true by (symmetry; apply Z.leb_le; destruct p; [destruct I1 as (-> & _); lia|destruct I1 as (_ & -> & _); rewrite H0 by reflexivity; cbn; lia]). cbn [andb].
  rewrite A5, Nat2Z.id, Ep. destruct p; [|destruct I1 as (-> & _); destruct i; reflexivity]. destruct I1 as (L1 & L2 & L3).
  replace (Z.of_nat i * 2 * 3) with (Z.of_nat (i * 2 * 3)) by lia. rewrite (map_set (option_map Z.of_nat) (s_rows n) i (Some (i * 2 * 3)%nat) : list_set _ _ (Some (Z.of_nat (i * 2 * 3))) = _).
  destruct (list_set_some (s_rows n) i (Some (i * 2 * 3)%nat)) as (r & E & Lr & _); [lia|]. rewrite E. cbn. eexists. split; [reflexivity|]. split; [|reflexivity].
  rewrite Ep in *. unfold mid, palike. cbn. rewrite Ep. repeat split; auto; lia.
Qed.
Lemma rows_agree room w h c m n p : mid w h c p m n -> (h <= c)%nat -> 6 * (Z.of_nat h - 1) <= int_max -> Z.of_nat c <= int_max ->
  pagree plike room (for_int (Z.of_nat h) ip_row m) (for_ h (sp_set_row_ptr 3 2) n).
Proof.
  intros M HC HM C0. unfold for_int, for_. rewrite Nat2Z.id. destruct p.
  - assert (G : pagree (mid w h c true) room (forz h (Z.of_nat 0) ip_row m) (for_from h 0 (sp_set_row_ptr 3 2) n)).
    { apply pagree_for; [exact M|]. intros j a b Hj Hm. assert (Y : pagree (fun a b => mid w h c true a b /\ true = true) room (ip_row (Z.of_nat j) a) (sp_set_row_ptr 3 2 j b)) by (apply sp_row_agree; auto; [lia|lia|discriminate]).
      unfold pagree in *. destruct (ip_row (Z.of_nat j) a); auto. destruct Y as (b' & E & Y & _). eauto. }
    change (Z.of_nat 0) with 0 in G. unfold pagree in *. destruct (forz h 0 ip_row m); auto. destruct G as (b & E & A & Ew & Eh & Ec & Ep & L1 & L2 & L3). exists b. split; [exact E|]. split; [exact A|]. unfold pinv. rewrite Ep, Ec, Eh. auto.
  - destruct h as [|h]; cbn [forz for_from].
    + exists n. split; [reflexivity|]. destruct M as (A & Ew & Eh & Ec & Ep & I1). split; [exact A|]. unfold pinv. rewrite Ep, Eh, Ec. tauto.
    + change 0 with (Z.of_nat 0) at 1. assert (Y : pagree (fun a b => mid w (S h) c false a b /\ false = true) room (ip_row (Z.of_nat 0) m) (sp_set_row_ptr 3 2 0 n)) by (apply sp_row_agree; auto; lia).
      apply (pagree_bind _ _ _ _ _ _ _ Y). intros a b [_ F]. discriminate F.
Qed.
Lemma presize_agree room w h m n : 0 <= w <= int_max -> 0 <= h -> 6 * (h - 1) <= int_max -> plike m n -> pagree (fun a b => plike a b /\ s_h b = Z.to_nat h) room (ip_resize room w h m) (sp_resize 3 2 n (Z.to_nat w) (Z.to_nat h)).
Proof.
  intros W H HM L. pose proof L as [A I0]. pose proof A as (A1 & A2 & A3 & A4 & A5 & A6). unfold ip_resize, sp_resize. rewrite A1, A2, A3.
  assert (Ew : w = Z.of_nat (Z.to_nat w)) by lia. assert (Eh : h = Z.of_nat (Z.to_nat h)) by lia. set (w' := Z.to_nat w) in *. set (h' := Z.to_nat h) in *.
  assert (Q : ((w =? Z.of_nat (s_w n)) && (h =? Z.of_nat (s_h n))) = (Nat.eqb w' (s_w n) && Nat.eqb h' (s_h n))%bool).
  { f_equal; [destruct (Nat.eqb_spec w' (s_w n)), (Z.eqb_spec w (Z.of_nat (s_w n)))|destruct (Nat.eqb_spec h' (s_h n)), (Z.eqb_spec h (Z.of_nat (s_h n)))]; auto; lia. }
  rewrite Q. destruct (Nat.eqb w' (s_w n) && Nat.eqb h' (s_h n)) eqn:E0.
  { apply andb_prop in E0. destruct E0 as [E1 E2]. apply Nat.eqb_eq in E2. cbn. exists n. auto. }
  assert (Q2 : (Z.of_nat (s_ch n) <? h) = Nat.ltb (s_ch n) h') by (destruct (Nat.ltb_spec (s_ch n) h'), (Z.ltb_spec (Z.of_nat (s_ch n)) h); auto; lia).
  rewrite Q2.
  assert (FIN : forall a b c p, mid w' h' c p a b -> (h' <= c)%nat -> Z.of_nat c <= int_max -> pagree (fun a b => plike a b /\ s_h b = h') room (for_int h ip_row a) (for_ h' (sp_set_row_ptr 3 2) b)).
  { intros a b c p M HC C0. assert (G : pagree plike room (for_int (Z.of_nat h') ip_row a) (for_ h' (sp_set_row_ptr 3 2) b)) by (eapply rows_agree; eauto; rewrite <- Eh; exact HM).
    rewrite <- Eh in G. unfold pagree in *. destruct (for_int h ip_row a); auto. destruct G as (b' & E & G). exists b'. split; [exact E|]. split; [exact G|].
    enough (K : forall k i x y, s_h x = h' -> for_from k i (sp_set_row_ptr (tg := tg) 3 2) x = Ok y -> s_h y = h') by (refine (K h' 0%nat b b' _ E); apply M).
    induction k as [|k IH]; intros i x y Hx E2; cbn [for_from] in E2; [congruence|]. unfold sp_set_row_ptr at 1 in E2. destruct (list_set (s_rows x) i (Some (i * 2 * 3)%nat)); cbn [lift_opt bind] in E2; [|discriminate E2]. refine (IH _ _ _ _ E2). exact Hx. }
  destruct (Nat.ltb_spec (s_ch n) h') as [Lt|Ge].
  - pose proof (plike_destroy m n L) as [DA DI]. set (d := ip_destroy m) in *. set (e := sp_destroy n) in *. pose proof DA as (D1 & D2 & D3 & D4 & D5 & D6). rewrite D3.
    assert (DC : s_ch e = s_ch n) by (unfold e, sp_destroy; destruct (s_ptr n); reflexivity). rewrite DC, Q2. replace (Nat.ltb (s_ch n) h') with true by (symmetry; apply Nat.ltb_lt; exact Lt). cbn [andb].
    assert (BH : 0 <= h < 2 ^ 60) by (unfold int_max in *; lia). rewrite !to_size_pos by lia. rewrite (Z.mod_small (6 * h)) by lia. rewrite (Z.mod_small (h * 2)) by lia.
    unfold grants. replace (0 <=? 6 * h) with true by (symmetry; apply Z.leb_le; lia). replace (0 <=? h) with true by (symmetry; apply Z.leb_le; lia). replace (0 <=? h * 2) with true by (symmetry; apply Z.leb_le; lia). cbn [andb].
    destruct (room (6 * h)) eqn:R1; [|cbn; exists (6 * h); split; [lia|exact R1]]. destruct (room h) eqn:R2; [|cbn; exists h; split; [lia|exact R2]]. destruct (room (h * 2)) eqn:R3; [|cbn; exists (h * 2); split; [lia|exact R3]].
    cbn [ibind]. cbv zeta. cbn [p_w p_h p_ch p_data p_rows p_blocks]. apply (FIN _ _ h' true); [|lia|unfold int_max in *; lia].
    unfold mid, palike. cbn [p_w p_h p_ch p_data p_rows p_blocks s_w s_h s_ch s_ptr s_data s_rows s_blocks]. rewrite !repeat_length, map_repeat'. repeat split; auto; try (f_equal; lia); lia.
  - cbn [ibind]. cbv zeta. pose proof I0 as [I1 I2]. apply (FIN _ _ (s_ch n) (s_ptr n)); [|exact Ge|exact I2].
    unfold mid, palike. cbn. repeat split; auto. destruct (s_ptr n); tauto.
Qed.
Lemma fill_iff k (b : list (option Z)) : match fill_blocks k b with Some r => length r = length b /\ (k <= length b)%nat | None => (length b < k)%nat end.
Proof. revert b. induction k as [|k IH]; intros [|y b]; cbn [fill_blocks length]; try (split; lia); try lia. specialize (IH b). destruct (fill_blocks k b); cbn [option_map length]; lia. Qed.
Lemma pstep_agree room c m n : psane c -> plike m n -> pagree plike room (p_ints room c m) (p_nats c n).
Proof.
  intros S0 L. destruct c as [w h|w h|]; cbn [p_ints p_nats psane] in *.
  - destruct S0 as (W & H & HM). pose proof (presize_agree room w h m n W H HM L) as G. unfold pagree in *. destruct (ip_resize room w h m); auto. destruct G as (b & E & G & _). eauto.
  - destruct S0 as (W & H & HM). unfold ip_init, sp_init. apply (pagree_bind _ _ _ _ _ _ _ (presize_agree room w h m n W H HM L)). intros a b (X & Xh). pose proof X as [XA XI]. pose proof (palike_len a b XI XA) as [_ E]. rewrite E.
    pose proof XA as (Y1 & Y2 & Y3 & Y4 & Y5 & Y6). rewrite Y2, Xh. rewrite Z2Nat.id by lia. unfold int_max in *. rewrite to_size_pos by lia. rewrite Z.mod_small by lia.
    pose proof (fill_iff (2 * Z.to_nat h) (s_blocks b)) as F. destruct (fill_blocks (2 * Z.to_nat h) (s_blocks b)) as [r|] eqn:Er.
    + replace (2 * h <=? Z.of_nat (length (s_blocks b))) with true by (symmetry; apply Z.leb_le; lia). destruct F as [F _]. cbn. eexists. split; [reflexivity|]. split; [unfold palike; cbn; rewrite F; auto 10|].
      destruct XI as [X1 X2]. unfold pinv. cbn. split; [|exact X2]. destruct (s_ptr b); rewrite ?F; [exact X1|]. destruct X1 as (Z1 & Z2 & Z3 & Z4). rewrite Z3 in F. destruct r; [auto|discriminate F].
    + replace (2 * h <=? Z.of_nat (length (s_blocks b))) with false by (symmetry; apply Z.leb_gt; lia). reflexivity.
  - cbn. eexists. split; [reflexivity|]. now apply plike_destroy.
Qed.
Lemma plike_new : plike ip_new (sp_new (tg := tg)).
Proof. split; [repeat split|]. unfold pinv, int_max. cbn. repeat split; lia. Qed.
Lemma pcalls_agree room l : Forall psane l -> forall m n, plike m n -> pagree plike room (pint_calls room l m) (pnat_calls l n).
Proof.
  intros S0. induction S0 as [|c l Hc _ IH]; intros m n L; cbn [pint_calls pnat_calls]; [exists n; auto|]. apply (pagree_bind plike plike); [now apply pstep_agree|]. auto.
Qed.
End P.

(** ** states *)
Lemma new_all_true room len l l' : new_all room len l = (true, l') -> l' = repeat (Some len) (length l).
Proof.
  revert l'. induction l as [|x l IH]; intros l' E; cbn [new_all] in E; [injection E as <-; reflexivity|]. destruct (grants room len); [|discriminate E]. destruct (new_all room len l) as [b l2]. injection E as -> <-. cbn. f_equal. auto.
Qed.
Lemma new_all_refused room len l l' : new_all room len l = (false, l') -> grants room len = false.
Proof. revert l'. induction l as [|x l IH]; intros l' E; cbn [new_all] in E; [discriminate E|]. destruct (grants room len); [|reflexivity]. destruct (new_all room len l) as [b l2]. injection E as -> _. eauto. Qed.
Lemma tstep_agree {tg} room c (s : ist) (n : sstate tg) : tsane c -> talike s n -> matches talike room (t_ints room c s) (Ok (t_nats c n)).
Proof.
  intros S0 T. pose proof T as (A1 & A2 & A3 & A4 & A5 & A6).
  assert (LE : forall z k, 0 <= z -> (z <=? Z.of_nat k) = Nat.leb (Z.to_nat z) k) by (intros z k Hz; destruct (Z.leb_spec z (Z.of_nat k)), (Nat.leb_spec (Z.to_nat z) k); auto; lia).
  assert (PO : forall k, (0 <? Z.of_nat k) = Nat.ltb 0 k) by (intros k; destruct (Z.ltb_spec 0 (Z.of_nat k)), (Nat.ltb_spec 0 k); auto; lia).
  assert (D : talike (it_destroy s) (st_destroy n)).
  { unfold it_destroy, st_destroy. rewrite A1, A2, !PO. unfold talike. cbn [t_n t_nc t_map t_body t_re s_n s_nc s_imap s_arr]. repeat split; auto.
    - destruct (Nat.ltb 0 (s_nc n)); auto.
    - destruct (Nat.ltb 0 (s_n n)); auto.
    - destruct (Nat.ltb 0 (s_nc n)); auto.
    - intros f. specialize (A6 f). destruct (is_reaction f); intros x; [destruct (Nat.ltb 0 (s_nc n))|destruct (Nat.ltb 0 (s_n n))]; auto; intros H; apply repeat_spec in H; subst; reflexivity. }
  destruct c as [b c|]; cbn [t_ints t_nats tsane] in *; [|cbn; eexists; split; [reflexivity|exact D]]. destruct S0 as [B C].
  unfold it_resize, st_resize. rewrite A1, A2. rewrite !LE by lia. destruct (_ && _); [cbn; eexists; split; [reflexivity|exact T]|].
  destruct D as (_ & _ & _ & D4 & D5 & _). set (d := it_destroy s) in *.
  assert (CS : (to_size c * 2) mod 2 ^ 64 = c * 2) by (unfold int_max in *; rewrite to_size_pos by lia; apply Z.mod_small; lia). rewrite CS.
  assert (GR : forall z, 0 <= z -> grants room z = false -> exists z, 0 <= z /\ room z = false) by (intros z Hz E; exists z; split; [exact Hz|]; unfold grants in E; replace (0 <=? z) with true in E by (symmetry; apply Z.leb_le; lia); exact E).
  destruct (grants room c) eqn:G1; [|cbn; eapply GR; [|exact G1]; lia]. destruct (new_all room b (t_body d)) as [[] bo] eqn:E1; [|cbn; eapply GR; [|eapply new_all_refused; exact E1]; lia].
  destruct (new_all room (c * 2) (t_re d)) as [[] re] eqn:E2; [|cbn; eapply GR; [|eapply new_all_refused; exact E2]; lia].
  apply new_all_true in E1, E2. rewrite D4 in E1. rewrite D5 in E2. subst bo re. eexists. split; [reflexivity|]. unfold talike. cbn [t_n t_nc t_map t_body t_re s_n s_nc s_imap s_arr].
  repeat split; try lia; [cbn; rewrite repeat_length; lia|]. intros f. destruct (is_reaction f); intros x H; apply repeat_spec in H; subst; cbn [olen]; rewrite repeat_length; lia.
Qed.
Lemma tcalls_agree {tg} room l : Forall tsane l -> forall s (n : sstate tg), talike s n -> matches talike room (tint_calls room l s) (Ok (tnat_calls l n)).
Proof.
  intros S0. induction S0 as [|c l Hc _ IH]; intros s n T; cbn [tint_calls tnat_calls fold_left]; [exists n; auto|].
  pose proof (tstep_agree room c s n Hc T) as H. destruct (t_ints room c s); cbn in *; auto; [|discriminate H|discriminate H]. destruct H as (b & [= <-] & H). apply IH. exact H.
Qed.
Lemma talike_new {tg} : talike it_new (st_new (tg := tg)).
Proof. unfold talike. cbn. repeat split. intros f. destruct (is_reaction f); intros x H; [apply (repeat_spec 3 None) in H|apply (repeat_spec 13 None) in H]; subst; reflexivity. Qed.
