(** * Lemmas on the ownership of heap arrays. *)

From Verif Require Import Base Alloc SpecAlloc.

Definition blocks (l : list (option nat)) : list nat := flat_map (fun a => match a with Some b => [b] | None => [] end) l.
Lemma in_blocks l b : In b (blocks l) <-> In (Some b) l.
Proof.
  unfold blocks. rewrite in_flat_map. split.
  - intros (a & Ha & Hb). destruct a as [c|]; cbn in Hb; [destruct Hb as [->|[]]; exact Ha|contradiction].
  - intros H. exists (Some b). split; [exact H|]. cbn. auto.
Qed.
Lemma blocks_app l m : blocks (l ++ m) = blocks l ++ blocks m.
Proof. unfold blocks. now rewrite flat_map_app. Qed.
Lemma blocks_none n : blocks (repeat None n) = [].
Proof. induction n as [|n IH]; [reflexivity|exact IH]. Qed.
(** numbers are given out in order *)
Definition ordered (p : pool) : Prop := forall b, p_live p b <> None -> b < p_next p.

Lemma delete_spec l : forall p, NoDup (blocks l) -> (forall b, In b (blocks l) -> p_live p b <> None) ->
  exists p', delete_arrays l p = Fine p' /\ p_next p' = p_next p /\ forall b, p_live p' b = if in_dec Nat.eq_dec b (blocks l) then None else p_live p b.
Proof.
  induction l as [|[c|] l IH]; intros p ND HL.
  - exists p. split; [reflexivity|]. split; [reflexivity|]. intros b. reflexivity.
  - cbn [blocks flat_map app] in ND, HL. inversion ND as [|? ? N0 ND']; subst. cbn [delete_arrays delete_array].
    destruct (p_live p c) as [len|] eqn:E; [|exfalso; apply (HL c); [now left|exact E]]. cbn [obind].
    destruct (IH (mkPool (p_next p) (upd (p_live p) c None)) ND') as (p' & E' & N' & L').
    + intros b Hb. cbn [p_live]. unfold upd. destruct (Nat.eqb_spec b c) as [->|N]; [contradiction|]. apply HL. now right.
    + exists p'. split; [exact E'|]. split; [exact N'|]. intros b. rewrite L'. cbn [p_live]. unfold upd. fold (blocks l). change (blocks (Some c :: l)) with (c :: blocks l).
      destruct (in_dec Nat.eq_dec b (blocks l)) as [I1|I1], (in_dec Nat.eq_dec b (c :: blocks l)) as [I2|I2]; try reflexivity.
      * exfalso. apply I2. now right.
      * destruct I2 as [->|I2]; [now rewrite Nat.eqb_refl|contradiction].
      * destruct (Nat.eqb_spec b c) as [->|N]; [exfalso; apply I2; now left|reflexivity].
  - cbn [delete_arrays delete_array obind]. destruct (IH p ND HL) as (p' & X). exists p'. exact X.
Qed.
Lemma new_spec lens : forall p, ordered p -> let (l, p') := new_arrays lens p in
  ordered p' /\ p_next p' = p_next p + length lens /\ l = map Some (seq (p_next p) (length lens)) /\
  (forall b, b < p_next p -> p_live p' b = p_live p b) /\ forall j len, nth_error lens j = Some len -> p_live p' (p_next p + j) = Some len.
Proof.
  induction lens as [|len lens IH]; intros p O; cbn [new_arrays].
  - split; [exact O|]. split; [cbn; lia|]. split; [reflexivity|]. split; [reflexivity|]. intros [|j] len H; discriminate H.
  - cbn [new_array]. set (q := mkPool (S (p_next p)) (upd (p_live p) (p_next p) (Some len))).
    assert (Oq : ordered q). { intros b Hb. cbn [q p_live p_next] in *. unfold upd in Hb. destruct (Nat.eqb_spec b (p_next p)) as [Eb|N]; [lia|]. specialize (O b Hb). lia. }
    specialize (IH q Oq). destruct (new_arrays lens q) as [l p'] eqn:E. destruct IH as (I1 & I2 & I3 & I4 & I5). cbn [q p_next] in *. split; [exact I1|]. split; [cbn [length]; lia|].
    split; [rewrite I3; reflexivity|]. split.
    + intros b Hb. rewrite I4 by lia. unfold q. cbn [p_live]. unfold upd. destruct (Nat.eqb_spec b (p_next p)) as [->|N]; [lia|reflexivity].
    + intros [|j] len' H; cbn [nth_error] in H.
      * injection H as <-. rewrite Nat.add_0_r, I4 by lia. unfold q. cbn [p_live]. unfold upd. now rewrite Nat.eqb_refl.
      * rewrite <- (I5 j len' H). f_equal. lia.
Qed.

(** what an object is at all times *)
Definition sized (p : pool) (a : option nat) (len : nat) : Prop := match a with None => False | Some b => p_live p b = Some len end.
Definition wf (o : obj) (p : pool) : Prop :=
  NoDup (blocks (pointers o)) /\ (forall b, In b (blocks (pointers o)) -> p_live p b <> None) /\
  match o with
  | OMat a => (am_matrix a = None /\ am_data a = None /\ am_w a = 0 /\ am_h a = 0 /\ am_cw a = 0 /\ am_ch a = 0) \/
      (sized p (am_matrix a) (am_ch a) /\ sized p (am_data a) (am_cw a * am_ch a) /\ am_w a <= am_cw a /\ am_h a <= am_ch a)
  | OSp a => (ap_matrix a = None /\ ap_data a = None /\ ap_block a = None /\ ap_h a = 0) \/
      (sized p (ap_matrix a) (ap_ch a) /\ sized p (ap_data a) (6 * ap_ch a) /\ sized p (ap_block a) (2 * ap_ch a) /\ ap_h a <= ap_ch a)
  | OSt a => length (as_body a) = 13 /\ length (as_con a) = 4 /\ (forall b, In (Some b) (as_body a) -> p_live p b = Some (as_n a)) /\
      (as_nc a = 0 -> forall b, In (Some b) (as_con a) -> p_live p b = Some 0)
  | OBuf l => True
  end.
(** what happens to one object and the arrays *)
Definition step (o : list nat) (p : pool) (o' : obj) (p' : pool) (z : bool) : Prop :=
  p_next p <= p_next p' /\ ordered p' /\ wf o' p' /\
  (forall b, b < p_next p -> ~ In b o -> p_live p' b = p_live p b) /\
  (forall b, In b (blocks (pointers o')) -> In b o \/ p_next p <= b) /\
  forall b len, p_live p' b = Some len -> (In b o \/ p_next p <= b) -> In b (blocks (pointers o')) \/ (z = true /\ len = 0).
Lemma wf_change o p p' : wf o p -> (forall b, In b (blocks (pointers o)) -> p_live p' b = p_live p b) -> wf o p'.
Proof.
  intros (ND & HL & W) H. split; [exact ND|]. split; [intros b Hb; rewrite (H b Hb); now apply HL|].
  assert (S : forall a len, In a (pointers o) -> sized p a len -> sized p' a len).
  { intros [b|] len Hi Hs; [|exact Hs]. cbn in *. rewrite H; [exact Hs|]. now apply in_blocks. }
  destruct o as [a|a|a|l]; cbn [pointers] in *.
  - destruct W as [W|(W1 & W2 & W3)]; [now left|right]. split; [apply S; [cbn; auto|exact W1]|]. split; [apply S; [cbn; auto|exact W2]|exact W3].
  - destruct W as [W|(W1 & W2 & W3 & W4)]; [now left|right]. repeat split; try (apply S; [cbn; auto|]); assumption.
  - destruct W as (W1 & W2 & W3 & W4). split; [exact W1|]. split; [exact W2|]. split.
    + intros b Hb. rewrite H; [now apply W3|]. apply in_blocks, in_or_app. now left.
    + intros Hz b Hb. rewrite H; [now apply W4|]. apply in_blocks, in_or_app. now right.
  - exact Logic.I.
Qed.
Lemma step_refl o p : ordered p -> wf o p -> step (blocks (pointers o)) p o p false.
Proof. intros O W. split; [lia|]. split; [exact O|]. split; [exact W|]. split; [reflexivity|]. split; [now left|]. intros b len E [H|H]; [now left|]. exfalso. pose proof (O b). rewrite E in *. assert (b < p_next p) by (apply H0; discriminate). lia. Qed.
Lemma step_trans o p o1 p1 o2 p2 z1 z2 : step o p o1 p1 z1 -> step (blocks (pointers o1)) p1 o2 p2 z2 -> step o p o2 p2 (z1 || z2).
Proof.
  intros (A1 & A2 & A3 & A4 & A5 & A6) (B1 & B2 & B3 & B4 & B5 & B6). split; [lia|]. split; [exact B2|]. split; [exact B3|]. split; [|split].
  - intros b Hb Hn. rewrite B4; [now apply A4|lia|]. intros Hi. destruct (A5 b Hi); [contradiction|lia].
  - intros b Hb. destruct (B5 b Hb) as [H|H]; [now apply A5|right; lia].
  - intros b len E H. destruct (in_dec Nat.eq_dec b (blocks (pointers o1))) as [I1|I1].
    + destruct (B6 b len E (or_introl I1)) as [X|[X Y]]; [now left|right]. split; [rewrite X; apply orb_true_r|exact Y].
    + destruct (le_lt_dec (p_next p1) b) as [L|L].
      * destruct (B6 b len E (or_intror L)) as [X|[X Y]]; [now left|right]. split; [rewrite X; apply orb_true_r|exact Y].
      * rewrite (B4 b L I1) in E. destruct (A6 b len E H) as [X|[-> Y]]; [contradiction|right; auto].
Qed.
Lemma step_weak o p o' p' z : step o p o' p' false -> step o p o' p' z.
Proof. intros (A1 & A2 & A3 & A4 & A5 & A6). repeat (split; [assumption|]). intros b len E H. destruct (A6 b len E H) as [X|[X _]]; [now left|discriminate X]. Qed.
(** all pointers are deleted and made null *)
Lemma step_free l p o' : ordered p -> NoDup (blocks l) -> (forall b, In b (blocks l) -> p_live p b <> None) -> blocks (pointers o') = [] -> (forall p', wf o' p') ->
  exists p', delete_arrays l p = Fine p' /\ step (blocks l) p o' p' false.
Proof.
  intros O ND HL E W. destruct (delete_spec l p ND HL) as (p' & D & N & L). exists p'. split; [exact D|]. split; [lia|]. split.
  - intros b Hb. rewrite L in Hb. destruct (in_dec _ _ _); [contradiction|]. rewrite N. now apply O.
  - split; [apply W|]. split; [|split].
    + intros b _ Hn. rewrite L. destruct (in_dec _ _ _); [contradiction|reflexivity].
    + rewrite E. intros b [].
    + intros b len Eb H. exfalso. rewrite L in Eb. destruct (in_dec _ _ _); [discriminate Eb|]. destruct H as [H|H]; [contradiction|].
      assert (b < p_next p) by (apply O; rewrite Eb; discriminate). lia.
Qed.
Lemma destroy_mat a p : ordered p -> wf (OMat a) p -> exists a' p', am_destroy a p = Fine (a', p') /\ step (blocks (pointers (OMat a))) p (OMat a') p' false /\
  blocks (pointers (OMat a')) = [] /\ am_w a' = 0 /\ am_h a' = 0 /\ am_cw a' = 0 /\ am_ch a' = 0 /\ am_matrix a' = None /\ am_data a' = None.
Proof.
  intros O W. pose proof W as (ND & HL & [(E1 & E2 & E3 & E4 & E5 & E6)|(S1 & S2 & S3 & S4)]); unfold am_destroy.
  - rewrite E1. exists a, p. split; [reflexivity|]. split; [now apply step_refl|]. cbn [pointers]. rewrite E1, E2. auto 10.
  - destruct (am_matrix a) as [b|] eqn:E; [|contradiction]. rewrite <- E. assert (HW : forall p', wf (OMat am_new) p').
    { intros p'. split; [constructor|]. split; [intros ? []|]. left. auto 10. }
    cbn [pointers] in ND, HL. destruct (step_free [am_matrix a; am_data a] p (OMat am_new) O ND HL eq_refl HW) as (p' & D & St).
    rewrite D. cbn [obind]. exists am_new, p'. split; [reflexivity|]. split; [exact St|]. auto 10.
Qed.
Lemma destroy_sp a p : ordered p -> wf (OSp a) p -> exists a' p', ap_destroy a p = Fine (a', p') /\ step (blocks (pointers (OSp a))) p (OSp a') p' false /\
  blocks (pointers (OSp a')) = [] /\ ap_matrix a' = None /\ ap_data a' = None /\ ap_block a' = None /\ ap_ch a' = ap_ch a /\ ap_h a' = 0.
Proof.
  intros O W. pose proof W as (ND & HL & [(E1 & E2 & E3 & E4)|(S1 & S2 & S3 & S4)]); unfold ap_destroy.
  - rewrite E1. exists a, p. split; [reflexivity|]. split; [now apply step_refl|]. cbn [pointers]. rewrite E1, E2, E3. auto 10.
  - destruct (ap_matrix a) as [b|] eqn:E; [|contradiction]. rewrite <- E. assert (HW : forall p', wf (OSp (mkAsp None None None 0 0 (ap_ch a))) p').
    { intros p'. split; [constructor|]. split; [intros ? []|]. left. auto 10. }
    cbn [pointers] in ND, HL. destruct (step_free [ap_matrix a; ap_data a; ap_block a] p (OSp (mkAsp None None None 0 0 (ap_ch a))) O ND HL eq_refl HW) as (p' & D & St).
    rewrite D. cbn [obind]. eexists _, p'. split; [reflexivity|]. split; [exact St|]. auto 10.
Qed.
(** new arrays for an object whose old arrays are lost: they have no elements *)
Lemma step_new lens p l p' o o' z : ordered p -> new_arrays lens p = (l, p') -> (forall b, In b o -> z = true /\ p_live p b = Some 0) ->
  (forall b, In b (blocks (pointers o')) <-> In b (blocks l)) -> wf o' p' -> step o p o' p' z.
Proof.
  intros O E Ho B W. pose proof (new_spec lens p O) as N. rewrite E in N. destruct N as (N1 & N2 & N3 & N4 & N5). split; [lia|]. split; [exact N1|]. split; [exact W|]. split; [|split].
  - intros b Hb _. now apply N4.
  - intros b Hb. right. apply B, in_blocks in Hb. rewrite N3 in Hb. apply in_map_iff in Hb. destruct Hb as (c & X & Hc). injection X as <-. apply in_seq in Hc. lia.
  - intros b len Eb [H|H].
    + destruct (Ho b H) as [Z0 L]. right. split; [exact Z0|]. rewrite N4, L in Eb; [now injection Eb|]. apply O. rewrite L. discriminate.
    + left. apply B, in_blocks. rewrite N3. apply in_map, in_seq. split; [exact H|]. rewrite <- N2. apply N1. rewrite Eb. discriminate.
Qed.

Lemma nodup_some l : NoDup l -> NoDup (blocks (map Some l)).
Proof. intros H. replace (blocks (map Some l)) with l; [exact H|]. clear H. induction l as [|x l IH]; [reflexivity|]. cbn. f_equal. exact IH. Qed.
Lemma step_set o p o' o'' p' z : step o p o' p' z -> pointers o'' = pointers o' -> wf o'' p' -> step o p o'' p' z.
Proof. intros (A1 & A2 & A3 & A4 & A5 & A6) E W. split; [exact A1|]. split; [exact A2|]. split; [exact W|]. rewrite E. auto. Qed.
Lemma write_sized a k p len : sized p a len -> k <= len -> write_first a k p = Fine tt.
Proof.
  intros S0 L. destruct k as [|k]; [reflexivity|]. destruct a as [b|]; [|contradiction]. unfold sized in S0. unfold write_first. rewrite S0.
  destruct (Nat.ltb_spec k len); [reflexivity|lia].
Qed.
Lemma blocks_some l : blocks (map Some l) = l.
Proof. induction l as [|x l IH]; [reflexivity|]. cbn. f_equal. exact IH. Qed.
(** two new arrays for a Matrix *)
Lemma mat_new_step a w h cw ch p : ordered p -> w <= cw -> h <= ch -> blocks (pointers (OMat a)) = [] ->
  exists p', (let (d, p1) := new_array (cw * ch) p in let (m, p2) := new_array ch p1 in (m, d, p2)) = (Some (S (p_next p)), Some (p_next p), p') /\
  step [] p (OMat (mkAmat (Some (S (p_next p))) (Some (p_next p)) w h cw ch)) p' false.
Proof.
  intros O Lw Lh E. cbn [new_array]. eexists. split; [reflexivity|]. cbn [p_next p_live].
  set (p' := mkPool (S (S (p_next p))) (upd (upd (p_live p) (p_next p) (Some (cw * ch))) (S (p_next p)) (Some ch))).
  assert (EN : new_arrays [cw * ch; ch] p = ([Some (p_next p); Some (S (p_next p))], p')) by reflexivity.
  assert (L1 : p_live p' (S (p_next p)) = Some ch) by (unfold p', upd; cbn [p_live]; now rewrite Nat.eqb_refl).
  assert (L0 : p_live p' (p_next p) = Some (cw * ch)).
  { unfold p', upd; cbn [p_live]. destruct (Nat.eqb_spec (p_next p) (S (p_next p))); [lia|]. now rewrite Nat.eqb_refl. }
  apply (step_new [cw * ch; ch] p _ p' [] _ false O EN).
  - intros b [].
  - intros b. cbn. tauto.
  - split; [|split].
    + cbn. constructor; [intros [H|[]]; lia|]. constructor; [intros []|constructor].
    + cbn [pointers am_matrix am_data blocks flat_map app]. intros b [<-|[<-|[]]]; [rewrite L1|rewrite L0]; discriminate.
    + right. cbn. auto.
Qed.
Lemma resize_mat a w h p : ordered p -> wf (OMat a) p -> exists a' p', am_resize a w h p = Fine (a', p') /\ step (blocks (pointers (OMat a))) p (OMat a') p' false /\ am_w a' = w /\ am_h a' = h.
Proof.
  intros O W. unfold am_resize. destruct (Nat.eqb w (am_w a) && Nat.eqb h (am_h a)) eqn:E0.
  - apply andb_true_iff in E0. destruct E0 as [E1 E2]. apply Nat.eqb_eq in E1. apply Nat.eqb_eq in E2. exists a, p. split; [reflexivity|]. split; [now apply step_refl|auto].
  - destruct (Nat.ltb (am_cw a) w || Nat.ltb (am_ch a) h) eqn:E1.
    + destruct (destroy_mat a p O W) as (a1 & p1 & D & St1 & B1 & W1 & H1 & CW & CH & _). rewrite D. cbn [obind]. rewrite CW, CH, W1, H1.
      set (cw := if Nat.ltb 0 w then w else 0). set (ch := if Nat.ltb 0 h then h else 0).
      assert (Lw : w <= cw) by (unfold cw; destruct (Nat.ltb_spec 0 w); lia). assert (Lh : h <= ch) by (unfold ch; destruct (Nat.ltb_spec 0 h); lia).
      destruct (mat_new_step a1 w h cw ch p1 (proj1 (proj2 St1)) Lw Lh B1) as (p2 & EN & St2). cbn [new_array p_next p_live] in EN |- *. apply (f_equal snd) in EN. cbn [snd] in EN. rewrite EN. cbn [obind am_matrix am_data am_cw am_ch].
      assert (Ws : sized p2 (Some (S (p_next p1))) ch). { destruct St2 as (_ & _ & (_ & _ & [X|X]) & _); [destruct X as [X _]; discriminate X|exact (proj1 X)]. }
      cbn [p_next]. rewrite (write_sized _ h p2 ch Ws Lh). cbn [obind]. eexists _, p2. split; [reflexivity|]. split; [|auto].
      rewrite <- B1 in St2. exact (step_trans _ _ _ _ _ _ _ _ St1 St2).
    + apply orb_false_iff in E1. destruct E1 as [E1 E2]. apply Nat.ltb_ge in E1. apply Nat.ltb_ge in E2. cbn [obind].
      pose proof W as (ND & HL & [(F1 & F2 & F3 & F4 & F5 & F6)|(S1 & S2 & S3 & S4)]).
      * exfalso. rewrite F5 in E1. rewrite F6 in E2. rewrite F3, F4 in E0. destruct w, h; [discriminate E0|lia|lia|lia].
      * rewrite (write_sized _ h p _ S1 E2). cbn [obind]. eexists _, p. split; [reflexivity|]. split; [|auto].
        apply (step_set _ _ (OMat a)); [now apply step_refl|reflexivity|]. split; [exact ND|]. split; [exact HL|]. right. auto.
Qed.
Lemma sp_new_step w h ch p : ordered p -> h <= ch ->
  exists p', (let (d, p1) := new_array (3 * 2 * ch) p in let (m, p2) := new_array ch p1 in let (b, p3) := new_array (ch * 2) p2 in (m, d, b, p3)) =
    (Some (S (p_next p)), Some (p_next p), Some (S (S (p_next p))), p') /\
  step [] p (OSp (mkAsp (Some (S (p_next p))) (Some (p_next p)) (Some (S (S (p_next p)))) w h ch)) p' false.
Proof.
  intros O Lh. cbn [new_array]. eexists. split; [reflexivity|]. cbn [p_next p_live]. set (n := p_next p). set (D := (3 * 2 * ch)%nat).
  set (p' := mkPool (S (S (S n))) (upd (upd (upd (p_live p) n (Some D)) (S n) (Some ch)) (S (S n)) (Some (ch * 2)))).
  assert (EN : new_arrays [D; ch; ch * 2] p = ([Some n; Some (S n); Some (S (S n))], p')) by reflexivity.
  assert (L2 : p_live p' (S (S n)) = Some (ch * 2)) by (unfold p', upd; cbn [p_live]; now rewrite Nat.eqb_refl).
  assert (L1 : p_live p' (S n) = Some ch).
  { unfold p', upd; cbn [p_live]. destruct (Nat.eqb_spec (S n) (S (S n))); [lia|]. now rewrite Nat.eqb_refl. }
  assert (L0 : p_live p' n = Some D).
  { unfold p', upd; cbn [p_live]. destruct (Nat.eqb_spec n (S (S n))); [lia|]. destruct (Nat.eqb_spec n (S n)); [lia|]. now rewrite Nat.eqb_refl. }
  apply (step_new [D; ch; ch * 2] p _ p' [] _ false O EN).
  - intros b [].
  - intros b. cbn. tauto.
  - split; [|split].
    + cbn. constructor; [intros [H|[H|[]]]; lia|]. constructor; [intros [H|[]]; lia|]. constructor; [intros []|constructor].
    + cbn [pointers ap_matrix ap_data ap_block blocks flat_map app]. intros b [<-|[<-|[<-|[]]]]; [rewrite L1|rewrite L0|rewrite L2]; discriminate.
    + right. cbn [ap_matrix ap_data ap_block ap_ch ap_h sized]. split; [exact L1|]. split; [rewrite L0; unfold D; f_equal; lia|]. split; [rewrite L2; f_equal; lia|exact Lh].
Qed.
Lemma resize_sp a w h p : ordered p -> wf (OSp a) p ->
  (exists a' p', ap_resize a w h p = Fine (a', p') /\ step (blocks (pointers (OSp a))) p (OSp a') p' false /\ ap_w a' = w /\ ap_h a' = h) \/
  (ap_matrix a = None /\ 0 < h <= ap_ch a /\ ap_resize a w h p = BadAccess).
Proof.
  intros O W. unfold ap_resize. destruct (Nat.eqb w (ap_w a) && Nat.eqb h (ap_h a)) eqn:E0.
  - left. apply andb_true_iff in E0. destruct E0 as [E1 E2]. apply Nat.eqb_eq in E1. apply Nat.eqb_eq in E2. exists a, p. split; [reflexivity|]. split; [now apply step_refl|auto].
  - destruct (Nat.ltb (ap_ch a) h) eqn:E1.
    + left. destruct (destroy_sp a p O W) as (a1 & p1 & D & St1 & B1 & _ & _ & _ & CH & _). rewrite D. cbn [obind]. rewrite CH, E1.
      destruct (sp_new_step w h h p1 (proj1 (proj2 St1)) (Nat.le_refl h)) as (p2 & EN & St2). cbn [new_array p_next p_live] in EN |- *. apply (f_equal snd) in EN. cbn [snd] in EN. rewrite EN. cbn [obind ap_matrix ap_data ap_block ap_ch].
      assert (Ws : sized p2 (Some (S (p_next p1))) h). { destruct St2 as (_ & _ & (_ & _ & [X|X]) & _); [destruct X as [X _]; discriminate X|exact (proj1 X)]. }
      cbn [p_next]. rewrite (write_sized _ h p2 h Ws (Nat.le_refl h)). cbn [obind]. eexists _, p2. split; [reflexivity|]. split; [|auto].
      rewrite <- B1 in St2. exact (step_trans _ _ _ _ _ _ _ _ St1 St2).
    + apply Nat.ltb_ge in E1. cbn [obind]. pose proof W as (ND & HL & [(F1 & F2 & F3 & F4)|(S1 & S2 & S3 & S4)]).
      * destruct h as [|h].
        -- left. cbn [write_first obind]. eexists _, p. split; [reflexivity|]. split; [|auto].
           apply (step_set _ _ (OSp a)); [now apply step_refl|reflexivity|]. split; [exact ND|]. split; [exact HL|]. left. auto.
        -- right. split; [exact F1|]. split; [lia|]. rewrite F1. reflexivity.
      * left. rewrite (write_sized _ h p _ S1 E1). cbn [obind]. eexists _, p. split; [reflexivity|]. split; [|auto].
        apply (step_set _ _ (OSp a)); [now apply step_refl|reflexivity|]. split; [exact ND|]. split; [exact HL|]. right. auto.
Qed.
(** part of the arrays of an object is given back *)
Lemma step_part l p o o' : ordered p -> NoDup (blocks l) -> wf o p -> (forall b, In b (blocks l) -> In b (blocks (pointers o))) ->
  NoDup (blocks (pointers o')) -> (forall b, In b (blocks (pointers o')) <-> In b (blocks (pointers o)) /\ ~ In b (blocks l)) ->
  (forall p', (forall b, In b (blocks (pointers o')) -> p_live p' b = p_live p b) -> wf o' p') ->
  exists p', delete_arrays l p = Fine p' /\ step (blocks (pointers o)) p o' p' false.
Proof.
  intros O ND W Hl ND' Ho HW. destruct (delete_spec l p ND) as (p' & D & N & L).
  { intros b Hb. apply (proj1 (proj2 W)). now apply Hl. }
  exists p'. split; [exact D|]. split; [lia|]. split.
  - intros b Hb. rewrite L in Hb. destruct (in_dec _ _ _); [contradiction|]. rewrite N. now apply O.
  - split; [|split; [|split]].
    + apply HW. intros b Hb. apply Ho in Hb. rewrite L. destruct (in_dec _ _ _); [tauto|reflexivity].
    + intros b _ Hn. rewrite L. destruct (in_dec Nat.eq_dec b (blocks l)) as [I1|I1]; [elim Hn; now apply Hl|reflexivity].
    + intros b Hb. left. now apply Ho.
    + intros b len Eb H. left. rewrite L in Eb. destruct (in_dec Nat.eq_dec b (blocks l)) as [I1|I1]; [discriminate Eb|]. apply Ho. split; [|exact I1].
      destruct H as [H|H]; [exact H|]. exfalso. assert (b < p_next p) by (apply O; rewrite Eb; discriminate). lia.
Qed.
Lemma nodup_l {A : Type} (l m : list A) : NoDup (l ++ m) -> NoDup l.
Proof. induction l as [|x l IH]; intros H; [constructor|]. inversion H as [|? ? N0 H']; subst. constructor; [intros I1; apply N0, in_or_app; now left|now apply IH]. Qed.
Lemma nodup_r {A : Type} (l m : list A) : NoDup (l ++ m) -> NoDup m.
Proof. induction l as [|x l IH]; intros H; [exact H|]. inversion H; subst. now apply IH. Qed.
Lemma nodup_x {A : Type} (l m : list A) x : NoDup (l ++ m) -> In x l -> ~ In x m.
Proof. induction l as [|y l IH]; intros H I1 I2; [destruct I1|]. inversion H as [|? ? N0 H']; subst. destruct I1 as [->|I1]; [apply N0, in_or_app; now right|]. exact (IH H' I1 I2). Qed.
Lemma destroy_st a p : ordered p -> wf (OSt a) p -> exists a' p', as_destroy a p = Fine (a', p') /\ step (blocks (pointers (OSt a))) p (OSt a') p' false /\
  as_n a' = 0 /\ as_nc a' = 0 /\ forall b, In b (blocks (pointers (OSt a'))) -> p_live p' b = Some 0.
Proof.
  intros O W. unfold as_destroy.
  set (a1 := if Nat.ltb 0 (as_n a) then mkAst (repeat None 13) (as_con a) 0 (as_nc a) else a).
  assert (S1 : exists p1, (if Nat.ltb 0 (as_n a) then let! q := delete_arrays (as_body a) p in Fine (repeat None 13, q) else Fine (as_body a, p)) = Fine (as_body a1, p1) /\
    step (blocks (pointers (OSt a))) p (OSt a1) p1 false /\ as_n a1 = 0 /\ as_nc a1 = as_nc a /\ as_con a1 = as_con a).
  { unfold a1. destruct (Nat.ltb_spec 0 (as_n a)) as [L|L].
    - pose proof W as (ND & HL & W1 & W2 & W3 & W4). cbn [pointers] in ND. rewrite blocks_app in ND.
      destruct (step_part (as_body a) p (OSt a) (OSt (mkAst (repeat None 13) (as_con a) 0 (as_nc a))) O (nodup_l _ _ ND) W) as (p1 & D & St).
      + intros b Hb. cbn [pointers]. rewrite blocks_app. apply in_or_app. now left.
      + cbn [pointers as_body as_con]. rewrite blocks_app, blocks_none. exact (nodup_r _ _ ND).
      + intros b. cbn [pointers as_body as_con]. rewrite !blocks_app, blocks_none. cbn [app]. rewrite in_app_iff. split; [|tauto]. intros Hb. split; [now right|]. intros Hc. exact (nodup_x _ _ b ND Hc Hb).
      + intros p' Hp. cbn [pointers as_body as_con] in Hp. rewrite blocks_app, blocks_none in Hp. cbn [app] in Hp. split; [|split].
        * cbn [pointers as_body as_con]. rewrite blocks_app, blocks_none. exact (nodup_r _ _ ND).
        * cbn [pointers as_body as_con]. rewrite blocks_app, blocks_none. cbn [app]. intros b Hb. rewrite Hp by exact Hb. apply HL. cbn [pointers]. rewrite blocks_app. apply in_or_app. now right.
        * cbn [as_body as_con as_n as_nc]. split; [reflexivity|]. split; [exact W2|]. split; [intros b Hb; apply in_blocks in Hb; rewrite blocks_none in Hb; destruct Hb|].
          intros Z0 b Hb. rewrite Hp by (now apply in_blocks). now apply W4.
      + rewrite D. cbn [obind]. exists p1. split; [reflexivity|]. split; [exact St|]. auto.
    - exists p. split; [reflexivity|]. split; [now apply step_refl|]. split; [lia|auto]. }
  destruct S1 as (p1 & E1 & St1 & N1 & NC1 & C1). rewrite E1. cbn [obind]. rewrite <- NC1, <- C1. clear E1. pose proof (proj1 (proj2 St1)) as O1. pose proof (proj1 (proj2 (proj2 St1))) as Wa. clearbody a1.
  destruct (Nat.ltb_spec 0 (as_nc a1)) as [L|L].
  - pose proof Wa as (ND & HL & W1 & W2 & W3 & W4). cbn [pointers] in ND. rewrite blocks_app in ND.
    assert (HB : forall b, In b (blocks (as_body a1)) -> p_live p1 b = Some 0). { intros b Hb. rewrite <- N1. apply W3. now apply in_blocks. }
    destruct (step_part (as_con a1) p1 (OSt a1) (OSt (mkAst (as_body a1) (repeat None 4) 0 0)) O1 (nodup_r _ _ ND) Wa) as (p2 & D & St).
    + intros b Hb. cbn [pointers]. rewrite blocks_app. apply in_or_app. now right.
    + cbn [pointers as_body as_con]. rewrite blocks_app, blocks_none, app_nil_r. exact (nodup_l _ _ ND).
    + intros b. cbn [pointers as_body as_con]. rewrite !blocks_app, blocks_none, app_nil_r. rewrite in_app_iff. split; [|tauto]. intros Hb. split; [now left|]. intros Hc. exact (nodup_x _ _ b ND Hb Hc).
    + intros p' Hp. cbn [pointers as_body as_con] in Hp. rewrite blocks_app, blocks_none, app_nil_r in Hp. split; [|split].
      * cbn [pointers as_body as_con]. rewrite blocks_app, blocks_none, app_nil_r. exact (nodup_l _ _ ND).
      * cbn [pointers as_body as_con]. rewrite blocks_app, blocks_none, app_nil_r. intros b Hb. rewrite Hp, HB by exact Hb. discriminate.
      * cbn [as_body as_con as_n as_nc]. split; [exact W1|]. split; [reflexivity|]. split.
        -- intros b Hb. apply in_blocks in Hb. rewrite Hp by exact Hb. now apply HB.
        -- intros _ b Hb. apply in_blocks in Hb. rewrite blocks_none in Hb. destruct Hb.
    + rewrite D. cbn [obind]. eexists _, p2. split; [reflexivity|]. split; [exact (step_trans _ _ _ _ _ _ _ _ St1 St)|]. split; [reflexivity|]. split; [reflexivity|].
      cbn [pointers as_body as_con]. rewrite blocks_app, blocks_none, app_nil_r. intros b Hb. destruct St as (_ & _ & (_ & _ & _ & _ & X & _) & _). cbn [as_body as_n] in X. apply X. now apply in_blocks.
  - cbn [obind]. eexists _, p1. split; [reflexivity|]. pose proof Wa as (ND & HL & W1 & W2 & W3 & W4). assert (Z0 : as_nc a1 = 0) by lia. split.
    + apply (step_set _ _ (OSt a1)); [exact St1|reflexivity|]. split; [exact ND|]. split; [exact HL|]. cbn [as_body as_con as_n as_nc]. split; [exact W1|]. split; [exact W2|]. split; [intros b Hb; rewrite <- N1; now apply W3|intros _; exact (W4 Z0)].
    + split; [reflexivity|]. split; [reflexivity|]. cbn [pointers as_body as_con]. intros b Hb. apply in_blocks, in_app_or in Hb. destruct Hb as [Hb|Hb]; [rewrite <- N1; now apply W3|now apply W4].
Qed.

Lemma as_new_wf p : wf (OSt as_new) p.
Proof.
  split; [constructor|]. split; [intros b []|]. split; [reflexivity|]. split; [reflexivity|].
  split; [intros b Hb; apply in_blocks in Hb; destruct Hb|intros _ b Hb; apply in_blocks in Hb; destruct Hb].
Qed.
Lemma new_split l m p : new_arrays (l ++ m) p = let (a, p1) := new_arrays l p in let (b, p2) := new_arrays m p1 in (a ++ b, p2).
Proof.
  revert p. induction l as [|x l IH]; intros p; cbn [app new_arrays].
  - destruct (new_arrays m p); reflexivity.
  - cbn [new_array]. rewrite IH. destruct (new_arrays l _) as [a p1]. destruct (new_arrays m p1) as [b p2]. reflexivity.
Qed.
Lemma new_len l p : length (fst (new_arrays l p)) = length l.
Proof. revert p. induction l as [|x l IH]; intros p; [reflexivity|]. cbn [new_arrays new_array]. specialize (IH (mkPool (S (p_next p)) (upd (p_live p) (p_next p) (Some x)))). destruct (new_arrays l _) as [a q]. cbn [fst] in *. cbn [length]. now rewrite IH. Qed.
Lemma resize_st a n nc p : ordered p -> wf (OSt a) p -> exists a' p', as_resize a n nc p = Fine (a', p') /\ step (blocks (pointers (OSt a))) p (OSt a') p' true /\
  n <= as_n a' /\ nc <= as_nc a'.
Proof.
  intros O W. unfold as_resize. destruct (Nat.leb n (as_n a) && Nat.leb nc (as_nc a)) eqn:E0.
  - apply andb_true_iff in E0. destruct E0 as [E1 E2]. apply Nat.leb_le in E1. apply Nat.leb_le in E2. exists a, p. split; [reflexivity|]. split; [now apply step_weak, step_refl|auto].
  - destruct (destroy_st a p O W) as (a1 & p1 & D & St1 & _ & _ & Z0). rewrite D. cbn [obind]. pose proof (proj1 (proj2 St1)) as O1.
    pose proof (new_split (repeat n 13) [nc; nc * 2; nc * 2; nc * 2] p1) as E. pose proof (new_spec (repeat n 13) p1 O1) as N. pose proof (new_len (repeat n 13) p1) as LB.
    destruct (new_arrays (repeat n 13) p1) as [lb p2]. destruct N as (O2 & N2 & N3 & N4 & N5).
    pose proof (new_spec [nc; nc * 2; nc * 2; nc * 2] p2 O2) as N. pose proof (new_len [nc; nc * 2; nc * 2; nc * 2] p2) as LC.
    destruct (new_arrays [nc; nc * 2; nc * 2; nc * 2] p2) as [lc p3]. destruct N as (O3 & M2 & M3 & M4 & M5). cbn [fst] in LB, LC. rewrite repeat_length in N2, N3, LB.
    eexists _, p3. split; [reflexivity|]. split; [|cbn; auto]. change true with (false || true). apply (step_trans _ _ _ _ _ _ _ _ St1). apply (step_new _ p1 _ p3 _ _ true O1 E).
    + intros b Hb. split; [reflexivity|now apply Z0].
    + cbn [pointers as_body as_con]. reflexivity.
    + split; [|split].
      * cbn [pointers as_body as_con]. rewrite blocks_app, N3, M3, !blocks_some, N2. rewrite <- seq_app. apply seq_NoDup.
      * cbn [pointers as_body as_con]. rewrite blocks_app, N3, M3, !blocks_some. intros b Hb. apply in_app_or in Hb. destruct Hb as [Hb|Hb]; apply in_seq in Hb.
        -- rewrite M4 by lia. replace b with (p_next p1 + (b - p_next p1)) by lia. rewrite (N5 _ n); [discriminate|]. rewrite nth_error_repeat; [reflexivity|lia].
        -- destruct (nth_error [nc; nc * 2; nc * 2; nc * 2] (b - p_next p2)) as [x|] eqn:Ex.
           ++ replace b with (p_next p2 + (b - p_next p2)) by lia. rewrite (M5 _ x Ex). discriminate.
           ++ apply nth_error_None in Ex. cbn [length] in Hb, Ex. lia.
      * cbn [as_body as_con as_n as_nc]. split; [exact LB|]. split; [exact LC|]. split.
        -- intros b Hb. rewrite N3 in Hb. apply in_map_iff in Hb. destruct Hb as (c & X & Hb). injection X as ->. apply in_seq in Hb. rewrite M4 by lia. replace b with (p_next p1 + (b - p_next p1)) by lia. apply N5. apply nth_error_repeat. lia.
        -- intros -> b Hb. rewrite M3 in Hb. apply in_map_iff in Hb. destruct Hb as (c & X & Hb). injection X as ->. apply in_seq in Hb. cbn [length] in Hb. replace b with (p_next p2 + (b - p_next p2)) by lia. apply M5.
           destruct (b - p_next p2) as [|[|[|[|k]]]] eqn:Ek; try reflexivity. lia.
Qed.
(** ** one operation on an object *)
Definition is_state (o : obj) : bool := match o with OSt _ => true | _ => false end.
Definition is_sparse (o : obj) : bool := match o with OSp _ => true | _ => false end.
Lemma destroy_step o p : ordered p -> wf o p -> exists o' p', destroy_obj o p = Fine (o', p') /\ step (blocks (pointers o)) p o' p' false /\ is_state o' = is_state o /\ is_sparse o' = is_sparse o.
Proof.
  intros O W. destruct o as [a|a|a|l]; cbn [destroy_obj].
  - destruct (destroy_mat a p O W) as (a' & p' & D & St & _). rewrite D. eexists _, _. split; [reflexivity|auto].
  - destruct (destroy_sp a p O W) as (a' & p' & D & St & _). rewrite D. eexists _, _. split; [reflexivity|auto].
  - destruct (destroy_st a p O W) as (a' & p' & D & St & _). rewrite D. eexists _, _. split; [reflexivity|auto].
  - exists (OBuf l), p. split; [reflexivity|]. split; [now apply step_refl|auto].
Qed.
Lemma resize_step o x y p : ordered p -> wf o p ->
  (exists o' p', resize_obj o x y p = Fine (o', p') /\ step (blocks (pointers o)) p o' p' (is_state o) /\ is_state o' = is_state o /\ is_sparse o' = is_sparse o) \/
  (is_sparse o = true /\ resize_obj o x y p = BadAccess).
Proof.
  intros O W. destruct o as [a|a|a|l]; cbn [resize_obj is_state is_sparse].
  - destruct (resize_mat a x y p O W) as (a' & p' & D & St & _). rewrite D. left. eexists _, _. split; [reflexivity|auto].
  - destruct (resize_sp a x y p O W) as [(a' & p' & D & St & _)|(_ & _ & D)]; rewrite D; [left; eexists _, _; split; [reflexivity|auto]|right; auto].
  - destruct (resize_st a x y p O W) as (a' & p' & D & St & _). rewrite D. left. eexists _, _. split; [reflexivity|auto].
  - left. exists (OBuf l), p. split; [reflexivity|]. split; [now apply step_refl|auto].
Qed.
Lemma construct_step k p : ordered p -> step [] p (fst (construct k p)) (snd (construct k p)) false.
Proof.
  assert (R : forall o, blocks (pointers o) = [] -> ordered p -> wf o p -> step [] p o p false). { intros o E O W. rewrite <- E. now apply step_refl. }
  intros O. destruct k; cbn [construct fst snd].
  - apply R; [reflexivity|exact O|]. split; [constructor|]. split; [intros b []|]. left. auto 10.
  - apply R; [reflexivity|exact O|]. split; [constructor|]. split; [intros b []|]. left. auto 10.
  - apply R; [reflexivity|exact O|apply as_new_wf].
  - pose proof (new_spec (repeat (60 * 10) 4) p O) as N. destruct (new_arrays (repeat (60 * 10) 4) p) as [l p'] eqn:E. destruct N as (O' & N2 & N3 & N4 & N5). cbn [fst snd].
    apply (step_new _ p l p' [] (OBuf l) false O E); [intros b []|reflexivity|]. split; [|split; [|exact Logic.I]]; cbn [pointers]; rewrite N3, blocks_some.
    + apply seq_NoDup.
    + intros b Hb. apply in_seq in Hb. replace b with (p_next p + (b - p_next p)) by lia. rewrite (N5 _ (60 * 10)); [discriminate|]. rewrite repeat_length in Hb. apply nth_error_repeat. lia.
Qed.
(** ** histories *)
Definition Inv (s : place) (p : pool) : Prop :=
  ordered p /\ (forall i o, s i = Some o -> wf o p) /\
  forall i j o o' b, s i = Some o -> s j = Some o' -> In b (blocks (pointers o)) -> In b (blocks (pointers o')) -> i = j.
Definition Kept (z : bool) (s : place) (p : pool) : Prop :=
  (forall i o, s i = Some o -> is_state o = true -> z = true) /\
  forall b len, p_live p b = Some len -> (exists i, owns s i b) \/ (z = true /\ len = 0).
Lemma below o p : ordered p -> wf o p -> forall b, In b (blocks (pointers o)) -> b < p_next p.
Proof. intros O W b Hb. apply O. now apply (proj1 (proj2 W)). Qed.
(** a step of the object at place i, or a new object there *)
Lemma inv_step s p i old o' p' z : Inv s p -> match s i with Some o => old = blocks (pointers o) | None => old = [] end -> step old p o' p' z -> Inv (upd s i (Some o')) p'.
Proof.
  intros (O & W & X) Hi (A1 & A2 & A3 & A4 & A5 & A6).
  assert (Hn : forall j o b, s j = Some o -> j <> i -> In b (blocks (pointers o)) -> ~ In b old).
  { intros j o b Hj N Hb Ho. destruct (s i) as [oi|] eqn:E; subst old; [|destruct Ho]. apply N. exact (X j i o oi b Hj E Hb Ho). }
  assert (Hd : forall j o b, s j = Some o -> j <> i -> In b (blocks (pointers o)) -> ~ In b (blocks (pointers o'))).
  { intros j o b Hj N Hb Hc. destruct (A5 b Hc) as [Ho|Ho]; [exact (Hn j o b Hj N Hb Ho)|]. pose proof (below o p O (W j o Hj) b Hb). lia. }
  split; [exact A2|]. split.
  - intros j o. unfold upd. destruct (Nat.eqb_spec j i) as [E|N]; intros Hj; [injection Hj as <-; exact A3|].
    apply (wf_change o p p' (W j o Hj)). intros b Hb. apply A4; [exact (below o p O (W j o Hj) b Hb)|exact (Hn j o b Hj N Hb)].
  - intros j k o1 o2 b. unfold upd. destruct (Nat.eqb_spec j i) as [Ej|Nj], (Nat.eqb_spec k i) as [Ek|Nk]; intros Hj Hk H1 H2.
    + now subst.
    + injection Hj as <-. elim (Hd k o2 b Hk Nk H2 H1).
    + injection Hk as <-. elim (Hd j o1 b Hj Nj H1 H2).
    + exact (X j k o1 o2 b Hj Hk H1 H2).
Qed.
Lemma lk_step zz s p i old o' p' z : (forall b len, p_live p b = Some len -> (exists i, owns s i b) \/ (zz = true /\ len = 0)) ->
  match s i with Some o => old = blocks (pointers o) | None => old = [] end -> step old p o' p' z -> (z = true -> zz = true) ->
  forall b len, p_live p' b = Some len -> (exists j, owns (upd s i (Some o')) j b) \/ (zz = true /\ len = 0).
Proof.
  intros K2 Hi (A1 & A2 & A3 & A4 & A5 & A6) Hz b len E.
  assert (Own : In b (blocks (pointers o')) -> exists k, owns (upd s i (Some o')) k b).
  { intros Hb. exists i, o'. unfold upd. rewrite Nat.eqb_refl. split; [reflexivity|now apply in_blocks]. }
  destruct (le_lt_dec (p_next p) b) as [L|L].
  - destruct (A6 b len E (or_intror L)) as [H|[H1 H2]]; [left; exact (Own H)|right; auto].
  - destruct (in_dec Nat.eq_dec b old) as [I1|I1].
    + destruct (A6 b len E (or_introl I1)) as [H|[H1 H2]]; [left; exact (Own H)|right; auto].
    + rewrite (A4 b L I1) in E. destruct (K2 b len E) as [(j & o & Hj & Hb)|H]; [|right; exact H]. left. exists j, o. split; [|exact Hb]. unfold upd.
      destruct (Nat.eqb_spec j i) as [->|N]; [|exact Hj]. rewrite Hj in Hi. elim I1. rewrite Hi. now apply in_blocks.
Qed.
Lemma kept_step zz s p i old o' p' z : Kept zz s p -> match s i with Some o => old = blocks (pointers o) | None => old = [] end -> step old p o' p' z ->
  (z = true -> zz = true) -> (is_state o' = true -> zz = true) -> Kept zz (upd s i (Some o')) p'.
Proof.
  intros (K1 & K2) Hi St Hz Hs. split; [|exact (lk_step zz s p i old o' p' z K2 Hi St Hz)].
  intros j o. unfold upd. destruct (Nat.eqb_spec j i) as [E|N]; intros Hj; [injection Hj as <-; exact Hs|exact (K1 j o Hj)].
Qed.
(** the object at place i goes; what it owned is given back or lost *)
Lemma inv_gone s p i o p' : Inv s p -> s i = Some o -> p_next p' = p_next p -> (forall b, ~ In b (blocks (pointers o)) -> p_live p' b = p_live p b) ->
  (forall b, p_live p b = None -> p_live p' b = None) -> Inv (upd s i None) p'.
Proof.
  intros (O & W & X) Hi N L Nn. split; [|split].
  - intros b Hb. rewrite N. apply O. intros E. apply Hb. now apply Nn.
  - intros j o'. unfold upd. destruct (Nat.eqb_spec j i) as [E|N']; [discriminate|]. intros Hj. apply (wf_change o' p p' (W j o' Hj)). intros b Hb. apply L. intros Hc. apply N'. exact (X j i o' o b Hj Hi Hb Hc).
  - intros j k o1 o2 b. unfold upd. destruct (Nat.eqb_spec j i) as [Ej|Nj]; [discriminate|]. destruct (Nat.eqb_spec k i) as [Ek|Nk]; [discriminate|]. apply X.
Qed.
Lemma kept_gone zz s p i o p' : Kept zz s p -> s i = Some o -> (forall b len, p_live p' b = Some len -> p_live p b = Some len) ->
  (forall b len, In b (blocks (pointers o)) -> p_live p' b = Some len -> zz = true /\ len = 0) -> Kept zz (upd s i None) p'.
Proof.
  intros (K1 & K2) Hi L H. split.
  - intros j o'. unfold upd. destruct (Nat.eqb_spec j i); [discriminate|]. apply K1.
  - intros b len E. destruct (K2 b len (L b len E)) as [(j & o' & Hj & Hb)|X]; [|right; exact X]. destruct (Nat.eq_dec j i) as [->|N].
    + rewrite Hi in Hj. injection Hj as <-. right. apply (H b len); [now apply in_blocks|exact E].
    + left. exists j, o'. split; [|exact Hb]. unfold upd. destruct (Nat.eqb_spec j i); [contradiction|exact Hj].
Qed.
