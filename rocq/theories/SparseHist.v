(** * Proofs of the SparseMatrix properties. *)

From Coq Require Import Reals Lra.
From Verif Require Import Base Targets Matrix Sparse Logic MatrixFacts MatrixOps SpecMatrix MatrixHist
  SparseFacts SpecSparse RealSum.

Section Gen.
Context {tg : target}.
Variables st en : nat.
Implicit Types ss : sps tg.

Definition allswf ss : Prop := forall id, swf st en (ss id).
Lemma allswf_upd ss t s : allswf ss -> swf st en s -> allswf (upd ss t s).
Proof. intros H Hs id. unfold upd. destruct (Nat.eqb id t); auto. Qed.

Lemma sp_raw_set_pc (s : sparse tg) r c x : swf st en s -> pc (sp_raw_set s r c x) (swf st en).
Proof.
  intros H. unfold sp_raw_set. destruct (nth_error (s_rows s) r) as [[off|]|]; cbn; auto.
  destruct (Nat.lt_ge_cases (off + c) (length (s_data s))) as [L|L].
  - destruct (list_set_some _ _ x L) as [d [E [Hl _]]]. rewrite E. cbn. now apply swf_with_data.
  - rewrite list_set_none by exact L; exact I.
Qed.
Lemma put_block_pc (s : sparse tg) i b : swf st en s ->
  pc (let* l := lift_opt (list_set (s_blocks s) i b) in Ok (sp_with_blocks s l)) (swf st en).
Proof.
  intros H. destruct (Nat.lt_ge_cases i (length (s_blocks s))) as [L|L].
  - destruct (list_set_some _ _ b L) as [d [E [Hl _]]]. rewrite E. cbn. now apply swf_with_blocks.
  - rewrite list_set_none by exact L; exact I.
Qed.
Lemma sp_set_block_pc (s : sparse tg) r e b : swf st en s -> pc (sp_set_block en s r e b) (swf st en).
Proof. intros H. unfold sp_set_block. do 3 (apply pc_any; intros _). now apply put_block_pc. Qed.
Lemma sp_set_pc (s : sparse tg) r e k x : swf st en s -> pc (sp_set st en s r e k x) (swf st en).
Proof. intros H. unfold sp_set. do 3 (apply pc_any; intros _). now apply sp_raw_set_pc. Qed.
Lemma sp_init_pc (s : sparse tg) w h : swf st en s -> pc (sp_init st en s w h) (swf st en).
Proof.
  intros H. apply wp_pc. eapply wp_mono; [now apply sp_init_spec|]. intros s' [v Hv]. apply Hv.
Qed.

Lemma sstep_pc ss o : allswf ss -> is_destroy o = false -> pc (sstep st en ss o) allswf.
Proof.
  intros H Hd. destruct o; cbn [sstep is_destroy] in *; try discriminate.
  - eapply pc_seq; [apply sp_init_pc, H|]. intros s Hs. cbn. now apply allswf_upd.
  - eapply (pc_seq _ _ (swf st en)); [apply wp_pc; eapply wp_mono; [apply sp_resize_spec, H|intros s' Hs; apply Hs]|].
    intros s Hs. cbn. now apply allswf_upd.
  - eapply pc_seq; [apply sp_set_block_pc, H|]. intros s Hs. cbn. now apply allswf_upd.
  - eapply pc_seq; [apply sp_set_pc, H|]. intros s Hs. cbn. now apply allswf_upd.
  - eapply pc_seq with (P := swf st en).
    + unfold sp_set_empty. do 2 (apply pc_any; intros _).
      destruct (Nat.lt_ge_cases (r * en + e) (length (s_blocks (ss t)))) as [L|L];
        [|rewrite list_set_none by exact L; exact I].
      destruct (list_set_some _ _ (Some 255%Z) L) as [d [E [Hl _]]]. rewrite E. cbn [lift_opt bind].
      apply for_pc; [intros; now apply sp_raw_set_pc|]. apply swf_with_blocks; auto.
    + intros s Hs. cbn. now apply allswf_upd.
  - unfold sp_left_scale. do 2 (apply pc_any; intros _).
    eapply pc_seq; [apply sp_init_pc, H|]. intros t0 Ht0.
    apply for2_pc; [|now apply allswf_upd]. intros i j ss1 H1. apply pc_any; intros z.
    destruct (Z.eqb z 255); [exact H1|].
    eapply pc_seq; [apply sp_set_block_pc, H1|]. intros t1 Ht1.
    apply for_pc; [|now apply allswf_upd]. intros k ss2 H2. do 2 (apply pc_any; intros ?).
    eapply pc_seq; [apply sp_set_pc, H2|]. intros t2 Ht2. cbn. now apply allswf_upd.
  - unfold sp_right_scale. do 2 (apply pc_any; intros _).
    eapply pc_seq; [apply sp_init_pc, H|]. intros t0 Ht0.
    apply for2_pc; [|now apply allswf_upd]. intros i j ss1 H1. apply pc_any; intros z.
    destruct (Z.eqb z 255); [exact H1|].
    eapply pc_seq; [apply sp_set_block_pc, H1|]. intros t1 Ht1.
    apply for_pc; [|now apply allswf_upd]. intros k ss2 H2. do 2 (apply pc_any; intros ?).
    eapply pc_seq; [apply sp_set_pc, H2|]. intros t2 Ht2. cbn. now apply allswf_upd.
Qed.
Lemma sreach_swf ss : sreach st en ss -> allswf ss.
Proof.
  induction 1 as [|ss o ss' Hr IH Hd E].
  - intros id. apply swf_new.
  - eapply pc_elim; [exact E|]. now apply sstep_pc.
Qed.

(** ** shows and is_sp *)
Lemma sp_shows_is_sp (s : sparse tg) w h blk v :
  swf st en s -> sp_shows st en s w h blk v ->
  exists v', is_sp st en s w h blk v' /\
    forall r e k, r < h -> e < en -> k < st -> blk r e <> 255%Z -> v' r e k = v r e k.
Proof.
  intros H (Ew & Eh & Hb & Hv). destruct (swf_values st en s H) as [v' Hv']. rewrite Eh in Hv'.
  assert (Hs : is_sp st en s w h blk v') by exact (conj H (conj Ew (conj Eh (conj Hb Hv')))).
  exists v'. split; [exact Hs|].
  intros r e k Hr He Hk N. specialize (Hv r e k Hr He Hk N).
  rewrite (sp_get_spec _ _ _ _ _ _ _ _ _ _ Hs) in Hv by assumption. congruence.
Qed.
Lemma is_sp_shows (s : sparse tg) w h blk v : is_sp st en s w h blk v -> sp_shows st en s w h blk v.
Proof.
  intros H. split; [eapply is_sp_w; exact H|]. split; [eapply is_sp_h; exact H|].
  split; [intros; eapply is_sp_block; eassumption|].
  intros; eapply sp_get_spec; eassumption.
Qed.

Lemma inside_of w h blk : blocks_inside st en w h blk ->
  forall r e, r < h -> e < en -> inside st w (blk r e).
Proof.
  intros H r e Hr He. destruct (H r e Hr He) as [E|[L1 L2]]; [now left|right].
  split; [exact L1|]. nia.
Qed.

(** lookup is the described table *)
Lemma lookup_ext n blk (v v' : nat -> nat -> cell tg) c :
  (forall e k, e < n -> k < st -> blk e <> 255%Z -> v e k = v' e k) ->
  lookup st n blk v c = lookup st n blk v' c.
Proof.
  induction n; intros H; cbn; [reflexivity|].
  destruct (hit st (blk n) c) eqn:Eh; [|apply IHn; auto].
  apply hit_spec in Eh. apply H; [lia|lia|tauto].
Qed.
Lemma lookup_describes w h blk (v : nat -> nat -> nat -> cell tg) :
  blocks_inside st en w h blk -> blocks_distinct en h blk ->
  describes (cofZ 0) st en w h blk v (fun r c => lookup st en (blk r) (v r) c).
Proof.
  intros Hin Hd r c Hr Hc. split.
  - intros e k (He & Hk & Nb & ->).
    assert (U : forall e', e' < en -> hit st (blk r e') (Z.to_nat (blk r e) * st + k) = true -> e' = e).
    { intros e' He' Eh. apply hit_spec in Eh. destruct Eh as [N' Eh].
      assert (Z.to_nat (blk r e') = Z.to_nat (blk r e)) by nia.
      destruct (Hin r e Hr He) as [|[? _]]; [contradiction|].
      destruct (Hin r e' Hr He') as [|[? _]]; [contradiction|].
      destruct (Hd r e' e Hr He' He) as [|]; [lia|contradiction|assumption]. }
    assert (Hh : hit st (blk r e) (Z.to_nat (blk r e) * st + k) = true) by (now apply hit_bcol).
    assert (G : forall n, n <= en -> e < n ->
      lookup st n (blk r) (v r) (Z.to_nat (blk r e) * st + k) = v r e k).
    { induction n as [|n IH]; intros Hn Hen; [lia|]. cbn [lookup].
      destruct (hit st (blk r n) (Z.to_nat (blk r e) * st + k)) eqn:Eh.
      - rewrite (U n) by (auto; lia). f_equal. lia.
      - apply IH; [lia|]. destruct (Nat.eq_dec e n) as [->|]; [congruence|lia]. }
    apply G; auto.
  - intros Hno.
    assert (G : forall n, n <= en -> lookup st n (blk r) (v r) c = cofZ 0).
    { induction n as [|n IH]; intros Hn; cbn [lookup]; [reflexivity|].
      destruct (hit st (blk r n) c) eqn:Eh; [|apply IH; lia].
      apply hit_spec in Eh. exfalso. apply (Hno n (c - Z.to_nat (blk r n) * st)).
      unfold covers. repeat split; try tauto; lia. }
    apply G; lia.
Qed.

(** C09 *)
Lemma expand_any ss ms id t w h blk v D :
  sreach st en ss -> mreach false ms -> sp_shows st en (ss id) w h blk v ->
  blocks_inside st en w h blk -> blocks_distinct en h blk ->
  describes (cofZ 0) st en w h blk v D ->
  (exists ms', sp_expand st en (ss id) ms t = Ok ms' /\ shows ms' t w h D /\
     forall i, i <> t -> ms' i = ms i) /\
  (exists ms', sp_expand_transposed st en (ss id) ms t = Ok ms' /\ shows ms' t h w (fun r c => D c r) /\
     forall i, i <> t -> ms' i = ms i).
Proof.
  intros Hs Hm Hv Hin Hd HD.
  destruct (sp_shows_is_sp _ _ _ _ _ (sreach_swf _ Hs id) Hv) as (v' & Hv' & Ev).
  assert (E : forall r c, r < h -> c < w -> lookup st en (blk r) (v' r) c = D r c).
  { intros r c Hr Hc. rewrite (lookup_ext en (blk r) (v' r) (v r)); [|intros; now apply Ev].
    destruct (HD r c Hr Hc) as [D1 D2].
    destruct (lookup_describes w h blk v Hin Hd r c Hr Hc) as [L1 L2].
    assert (Dec : forall n, n <= en -> (exists e k, covers st n blk r c e k) \/ (forall e k, ~ covers st n blk r c e k)).
    { induction n as [|n IH]; intros Hn; [right; intros e k (He & _); lia|].
      destruct IH as [(e & k & He & X)|No]; [lia|left; exists e, k; split; [lia|exact X]|].
      destruct (hit st (blk r n) c) eqn:Eh.
      - apply hit_spec in Eh. left. exists n, (c - Z.to_nat (blk r n) * st).
        unfold covers. repeat split; try tauto; lia.
      - right. intros e k (He & Hk & Nb & Ec). destruct (Nat.eq_dec e n) as [->|].
        + subst c. pose proof (hit_bcol st (blk r n) k Nb Hk) as Hh. unfold bcol in Hh. congruence.
        + apply (No e k). unfold covers. repeat split; auto; lia. }
    destruct (Dec en (le_n _)) as [(e & k & C)|No].
    - rewrite (D1 _ _ C). now apply L1.
    - rewrite (D2 No). now apply L2. }
  pose proof (mreach_wf _ _ Hm t) as Wt.
  split.
  - pose proof (sp_expand_spec st en _ _ ms t w h blk v' Hv' Wt (inside_of _ _ _ Hin)) as P.
    apply post_shows in P. destruct P as (ms' & E1 & S1 & O1). exists ms'.
    split; [exact E1|]. split; [|exact O1]. eapply shows_ext; [exact S1|]. exact E.
  - pose proof (sp_expand_transposed_spec st en _ _ ms t w h blk v' Hv' Wt (inside_of _ _ _ Hin)) as P.
    apply post_shows in P. destruct P as (ms' & E1 & S1 & O1). exists ms'.
    split; [exact E1|]. split; [|exact O1]. eapply shows_ext; [exact S1|]. intros r c Hr Hc. now apply E.
Qed.

(** C14: results are determined by the shown entries *)
Lemma srow_ext blk (v v' : nat -> nat -> cell tg) y y' w :
  (forall e k, e < en -> k < st -> blk e <> 255%Z -> v e k = v' e k) ->
  (forall e, e < en -> inside st w (blk e)) ->
  (forall i, i < w -> y i = y' i) ->
  srow st en blk v y = srow st en blk v' y'.
Proof.
  intros H Hin Hy. apply iter_ext. intros e a He. destruct (Z.eqb_spec (blk e) 255); [reflexivity|].
  apply iter_ext. intros k x Hk. rewrite (H e k) by assumption. f_equal. f_equal. apply Hy.
  apply inside_bcol; auto.
Qed.
Lemma srowrow_ext blk (v v' : nat -> nat -> cell tg) blk1 v1 v1' :
  (forall e k, e < en -> k < st -> blk e <> 255%Z -> v e k = v' e k) ->
  (forall e k, e < en -> k < st -> blk1 e <> 255%Z -> v1 e k = v1' e k) ->
  srowrow st en blk v blk1 v1 = srowrow st en blk v' blk1 v1'.
Proof.
  intros H H1. apply iter_ext. intros e a He. destruct (Z.eqb_spec (blk e) 255); [reflexivity|].
  apply iter_ext. intros l x Hl. destruct (Z.eqb_spec (blk e) (blk1 l)) as [E|]; [|reflexivity].
  apply iter_ext. intros k z Hk. rewrite (H e k), (H1 l k) by (auto; congruence). reflexivity.
Qed.
Lemma stcol_ext h blk (v v' : nat -> nat -> nat -> cell tg) y y' c :
  (forall r e k, r < h -> e < en -> k < st -> blk r e <> 255%Z -> v r e k = v' r e k) ->
  (forall i, i < h -> y i = y' i) ->
  stcol st en h blk v y c = stcol st en h blk v' y' c.
Proof.
  intros H Hy. apply iter_ext. intros i a Hi. apply iter_ext. intros e b He.
  destruct (Z.eqb_spec (blk i e) 255); [reflexivity|].
  apply iter_ext. intros k x Hk. rewrite H, Hy by assumption. reflexivity.
Qed.

Lemma expand_determined w h blk v :
  blocks_inside st en w h blk ->
  exists F, forall ss id ms t,
    sreach st en ss -> sp_shows st en (ss id) w h blk v -> mreach false ms ->
    (exists ms', sp_expand st en (ss id) ms t = Ok ms' /\ shows ms' t w h F) /\
    (exists ms', sp_expand_transposed st en (ss id) ms t = Ok ms' /\ shows ms' t h w (fun r c => F c r)).
Proof.
  intros Hin. exists (fun r c => lookup st en (blk r) (v r) c). intros ss id ms t Hs Hv Hm.
  destruct (sp_shows_is_sp _ _ _ _ _ (sreach_swf _ Hs id) Hv) as (v' & Hv' & Ev).
  pose proof (mreach_wf _ _ Hm t) as Wt. split.
  - destruct (post_shows _ _ _ _ _ _ _ (sp_expand_spec st en _ _ ms t w h blk v' Hv' Wt (inside_of _ _ _ Hin)))
      as (ms' & E & S & _). exists ms'. split; [exact E|]. eapply shows_ext; [exact S|].
    intros r c Hr Hc. apply lookup_ext. intros; now apply Ev.
  - destruct (post_shows _ _ _ _ _ _ _ (sp_expand_transposed_spec st en _ _ ms t w h blk v' Hv' Wt (inside_of _ _ _ Hin)))
      as (ms' & E & S & _). exists ms'. split; [exact E|]. eapply shows_ext; [exact S|].
    intros r c Hr Hc. apply lookup_ext. intros; now apply Ev.
Qed.
Lemma multiply_determined w h blk v n y :
  blocks_inside st en n h blk ->
  exists F, forall ss id ms b t,
    sreach st en ss -> sp_shows st en (ss id) n h blk v -> mreach false ms -> b <> t ->
    shows ms b w n y ->
    exists ms', sp_multiply st en (ss id) ms b t = Ok ms' /\ shows ms' t w h F /\
      forall i, i <> t -> ms' i = ms i.
Proof.
  intros Hin. exists (fun r c => srow st en (blk r) (v r) (fun i => y i c)). intros ss id ms b t Hs Hv Hm Nb Hb.
  destruct (sp_shows_is_sp _ _ _ _ _ (sreach_swf _ Hs id) Hv) as (v' & Hv' & Ev).
  pose proof (mreach_wf _ _ Hm t) as Wt. apply (shows_is_mat false) in Hb; [|apply (mreach_wf _ _ Hm)].
  destruct (post_shows _ _ _ _ _ _ _ (sp_multiply_spec st en _ _ ms b t w h n blk v' y Hv' Hb Wt Nb (inside_of _ _ _ Hin)))
      as (ms' & E & S & O). exists ms'. split; [exact E|]. split; [|exact O]. eapply shows_ext; [exact S|].
  intros r c Hr Hc. apply srow_ext with (w := n); [intros; now apply Ev|intros; now apply (inside_of _ _ _ Hin)|reflexivity].
Qed.
Lemma multiply_transpose_determined n h h' blk v blk' v' :
  exists F, forall ss id ss' id' ms t,
    sreach st en ss -> sp_shows st en (ss id) n h blk v ->
    sreach st en ss' -> sp_shows st en (ss' id') n h' blk' v' -> mreach false ms ->
    exists ms', sp_multiply_transpose st en (ss id) (ss' id') ms t = Ok ms' /\ shows ms' t h' h F /\
      forall i, i <> t -> ms' i = ms i.
Proof.
  exists (fun r c => srowrow st en (blk r) (v r) (blk' c) (v' c)). intros ss id ss' id' ms t Hs Hv Hs' Hv' Hm.
  destruct (sp_shows_is_sp _ _ _ _ _ (sreach_swf _ Hs id) Hv) as (v1 & Hv1 & Ev1).
  destruct (sp_shows_is_sp _ _ _ _ _ (sreach_swf _ Hs' id') Hv') as (v2 & Hv2 & Ev2).
  pose proof (mreach_wf _ _ Hm t) as Wt.
  destruct (post_shows _ _ _ _ _ _ _ (sp_multiply_transpose_spec st en _ _ _ ms t n h h' blk v1 blk' v2 Hv1 Hv2 Wt))
      as (ms' & E & S & O). exists ms'. split; [exact E|]. split; [|exact O]. eapply shows_ext; [exact S|].
  intros r c Hr Hc. apply srowrow_ext; intros; auto.
Qed.
Lemma transpose_multiply_vector_determined n h blk v y :
  blocks_inside st en n h blk ->
  exists F, forall ss id ms b t,
    sreach st en ss -> sp_shows st en (ss id) n h blk v -> mreach false ms -> b <> t ->
    shows ms b 1 h y ->
    exists ms', sp_transpose_multiply_vector st en (ss id) ms b t = Ok ms' /\ shows ms' t 1 n F /\
      forall i, i <> t -> ms' i = ms i.
Proof.
  intros Hin. exists (fun r _ => stcol st en h blk v (fun i => y i 0) r). intros ss id ms b t Hs Hv Hm Nb Hb.
  destruct (sp_shows_is_sp _ _ _ _ _ (sreach_swf _ Hs id) Hv) as (v' & Hv' & Ev).
  pose proof (mreach_wf _ _ Hm t) as Wt. apply (shows_is_mat false) in Hb; [|apply (mreach_wf _ _ Hm)].
  destruct (post_shows _ _ _ _ _ _ _ (sp_transpose_multiply_vector_spec st en _ _ ms b t n h blk v' y Hv' Hb Wt Nb (inside_of _ _ _ Hin)))
      as (ms' & E & S & O). exists ms'. split; [exact E|]. split; [|exact O]. eapply shows_ext; [exact S|].
  intros r c Hr Hc. apply stcol_ext; intros; auto.
Qed.

Lemma blk_lt w h blk : 0 < st -> blocks_inside st en w h blk ->
  forall r e, r < h -> e < en -> (blk r e < Z.of_nat w)%Z \/ blk r e = 255%Z.
Proof. intros Hst H r e Hr He. destruct (H r e Hr He) as [|[L1 L2]]; [now right|left; nia]. Qed.

(** scaling, every arithmetic *)
Lemma scale_any ss ms this sc t w h blk v y :
  0 < st -> sreach st en ss -> mreach false ms -> this <> t ->
  sp_shows st en (ss this) w h blk v -> blocks_inside st en w h blk ->
  (shows ms sc 1 h y ->
   exists ss', sp_left_scale st en ss ms this sc t = Ok ss' /\
     sp_shows st en (ss' t) w h blk (fun r e k => cmul (y r 0) (v r e k)) /\
     forall i, i <> t -> ss' i = ss i) /\
  (shows ms sc 1 w y ->
   exists ss', sp_right_scale st en ss ms this sc t = Ok ss' /\
     sp_shows st en (ss' t) w h blk (fun r e k => cmul (y (Z.to_nat (blk r e) * st + k) 0) (v r e k)) /\
     forall i, i <> t -> ss' i = ss i).
Proof.
  intros Hst Hs Hm N Hv Hin.
  destruct (sp_shows_is_sp _ _ _ _ _ (sreach_swf _ Hs this) Hv) as (v' & Hv' & Ev).
  assert (K : forall r F, wp r (scale_done st en ss t w h blk F) ->
     forall G, (forall r e k, r < h -> e < en -> k < st -> blk r e <> 255%Z -> F r e k = G r e k) ->
     exists ss', r = Ok ss' /\ sp_shows st en (ss' t) w h blk G /\ forall i, i <> t -> ss' i = ss i).
  { intros r F Hw G E. apply wp_ok in Hw. destruct Hw as (ss' & Er & Ho & v2 & Hv2 & Ev2).
    exists ss'. split; [exact Er|]. split; [|exact Ho].
    apply is_sp_shows in Hv2. destruct Hv2 as (H1 & H2 & H3 & H4).
    refine (conj H1 (conj H2 (conj H3 _))). intros r' e k Hr He Hk Nb.
    rewrite H4 by assumption. now rewrite Ev2, E by assumption. }
  split; intros Hy.
  - destruct Hy as (Y1 & Y2 & Y3).
    eapply K; [eapply sp_left_scale_spec with (y := fun r => y r 0);
      [exact N|exact Hv'|apply (sreach_swf _ Hs)|now apply blk_lt|now left|exact Y2|intros; apply Y3; lia]|].
    intros r e k Hr He Hk Nb. cbn beta. now rewrite Ev.
  - apply (shows_is_mat false) in Hy; [|apply (mreach_wf _ _ Hm)].
    eapply K; [eapply sp_right_scale_spec; [exact N|exact Hv'|apply (sreach_swf _ Hs)|now apply blk_lt|now apply inside_of|exact Hy]|].
    intros r e k Hr He Hk Nb. cbn beta. now rewrite Ev.
Qed.
End Gen.

(** ** Over the reals *)
Section Real.
Variable dbg : bool.
Variables st en : nat.
Local Open Scope R_scope.

Definition Rentry (z : Z) (v : nat -> R) (c : nat) : R :=
  if hit st z c then v (c - Z.to_nat z * st)%nat else 0.

(** the described table is the sum of the entries *)
Lemma described_sum w h blk v D r c :
  blocks_inside st en w h blk -> blocks_distinct en h blk ->
  describes 0 st en w h blk v D -> (r < h)%nat -> (c < w)%nat ->
  D r c = Rsum en (fun e => Rentry (blk r e) (v r e) c).
Proof.
  intros Hin Hd HD Hr Hc. destruct (HD r c Hr Hc) as [D1 D2].
  assert (Dec : (exists e, (e < en)%nat /\ hit st (blk r e) c = true) \/ (forall e, (e < en)%nat -> hit st (blk r e) c = false)).
  { clear. induction en as [|n [(e & He & E)|No]]; [right; intros; lia|left; exists e; split; [lia|exact E]|].
    destruct (hit st (blk r n) c) eqn:E; [left; exists n; split; [lia|exact E]|].
    right. intros e He. destruct (Nat.eq_dec e n) as [->|]; [exact E|apply No; lia]. }
  destruct Dec as [(e & He & Eh)|No].
  - rewrite (Rsum_remove en e) by exact He.
    rewrite Rsum_eq0.
    + unfold Rentry. rewrite Eh. rewrite (D1 e (c - Z.to_nat (blk r e) * st)%nat); [lra|].
      apply hit_spec in Eh. unfold covers. repeat split; try tauto; lia.
    + intros e' He'. destruct (Nat.eqb_spec e' e); [reflexivity|]. unfold Rentry.
      destruct (hit st (blk r e') c) eqn:Eh'; [|reflexivity]. exfalso.
      apply hit_spec in Eh, Eh'. destruct Eh as [N1 E1], Eh' as [N2 E2].
      destruct (Hin r e Hr He) as [|[? _]]; [contradiction|].
      destruct (Hin r e' Hr He') as [|[? _]]; [contradiction|].
      assert (Z.to_nat (blk r e') = Z.to_nat (blk r e)) by nia.
      destruct (Hd r e' e Hr He' He); [lia|contradiction|contradiction].
  - rewrite Rsum_eq0; [|intros e He; unfold Rentry; now rewrite No].
    apply D2. intros e k (He & Hk & Nb & ->). specialize (No e He).
    pose proof (hit_bcol st (blk r e) k Nb Hk) as Hh. unfold bcol in Hh. congruence.
Qed.
Lemma Rentry_cols z v c :
  Rsum st (fun k => if negb (Z.eqb z 255) && Nat.eqb c (Z.to_nat z * st + k) then v k else 0) = Rentry z v c.
Proof.
  unfold Rentry. destruct (hit st z c) eqn:Eh.
  - apply hit_spec in Eh. destruct Eh as [N L].
    rewrite (Rsum_ext st _ (fun k => if Nat.eqb k (c - Z.to_nat z * st) then v k else 0)).
    + apply (Rsum_single st (c - Z.to_nat z * st)). lia.
    + intros k Hk. destruct (Z.eqb_spec z 255); [contradiction|]. cbn [negb andb].
      destruct (Nat.eqb_spec c (Z.to_nat z * st + k)), (Nat.eqb_spec k (c - Z.to_nat z * st)); auto; lia.
  - apply Rsum_eq0. intros k Hk. destruct (Z.eqb_spec z 255) as [|N]; [reflexivity|]. cbn [negb andb].
    destruct (Nat.eqb_spec c (Z.to_nat z * st + k)) as [->|]; [|reflexivity].
    pose proof (hit_bcol st z k N Hk) as Hh. unfold bcol in Hh. congruence.
Qed.
Lemma sums_entries w h blk v D r c : sums st en w h blk v D -> (r < h)%nat -> (c < w)%nat ->
  D r c = Rsum en (fun e => Rentry (blk r e) (v r e) c).
Proof. intros H Hr Hc. rewrite H by assumption. apply Rsum_ext. intros e _. apply Rentry_cols. Qed.
Lemma describes_sums w h blk v D :
  blocks_inside st en w h blk -> blocks_distinct en h blk ->
  describes 0 st en w h blk v D -> sums st en w h blk v D.
Proof.
  intros Hin Hd HD r c Hr Hc. rewrite (described_sum w h blk v D r c) by assumption.
  apply Rsum_ext. intros e _. symmetry. apply Rentry_cols.
Qed.
Lemma Rentry_sum w z v y : inside st w z ->
  Rsum w (fun c => Rentry z v c * y c) = if Z.eqb z 255 then 0 else Rsum st (fun k => v k * y (bcol st z k)).
Proof.
  intros Hin. destruct (Z.eqb_spec z 255) as [->|N].
  - apply Rsum_eq0. intros c _. unfold Rentry, hit. cbn. lra.
  - destruct Hin as [|[L1 L2]]; [contradiction|].
    rewrite <- (Rsum_block w (Z.to_nat z * st) st) by exact L2.
    apply Rsum_ext. intros c Hc. unfold Rentry, hit, bcol.
    destruct (Z.eqb_spec z 255); [contradiction|]. cbn [negb andb].
    destruct (Nat.leb_spec (Z.to_nat z * st) c), (Nat.ltb_spec c (Z.to_nat z * st + st)); cbn [andb]; try lra.
    f_equal. f_equal. lia.
Qed.
Lemma entries_dense w h blk v D y r :
  blocks_inside st en w h blk -> sums st en w h blk v D -> (r < h)%nat ->
  Rsum w (fun c => D r c * y c) =
  Rsum en (fun e => if Z.eqb (blk r e) 255 then 0 else Rsum st (fun k => v r e k * y (bcol st (blk r e) k))).
Proof.
  intros Hin HD Hr.
  rewrite (Rsum_ext w _ (fun c => Rsum en (fun e => Rentry (blk r e) (v r e) c * y c))).
  - rewrite Rsum_swap. apply Rsum_ext. intros e He. apply Rentry_sum. now apply (inside_of st en w h blk Hin).
  - intros c Hc. rewrite (sums_entries w h blk v D r c) by assumption. now rewrite <- Rsum_scal_r.
Qed.

Lemma srow_R blk v y : srow (tg := RT dbg) st en blk (fun e k => Some (v e k)) (fun i => Some (y i)) =
  (Some (Rsum en (fun e => if Z.eqb (blk e) 255 then 0 else Rsum st (fun k => v e k * y (bcol st (blk e) k)))) : cell (RT dbg)).
Proof.
  unfold srow. rewrite cofZ_R.
  rewrite (iter_R dbg en _ (fun e => if Z.eqb (blk e) 255 then 0 else Rsum st (fun k => v e k * y (bcol st (blk e) k)))).
  - f_equal. cbn. lra.
  - intros e x He. destruct (Z.eqb (blk e) 255); [f_equal; lra|].
    rewrite (iter_R dbg st _ (fun k => v e k * y (bcol st (blk e) k))); reflexivity.
Qed.
Lemma srowrow_R blk v blk' v' :
  srowrow (tg := RT dbg) st en blk (fun e k => Some (v e k)) blk' (fun e k => Some (v' e k)) =
  (Some (Rsum en (fun e => if Z.eqb (blk e) 255 then 0 else
     Rsum en (fun l => if Z.eqb (blk e) (blk' l) then Rsum st (fun k => v e k * v' l k) else 0))) : cell (RT dbg)).
Proof.
  unfold srowrow. rewrite cofZ_R.
  rewrite (iter_R dbg en _ (fun e => if Z.eqb (blk e) 255 then 0 else
     Rsum en (fun l => if Z.eqb (blk e) (blk' l) then Rsum st (fun k => v e k * v' l k) else 0))).
  - f_equal. cbn. lra.
  - intros e x He. destruct (Z.eqb (blk e) 255); [f_equal; lra|].
    rewrite (iter_R dbg en _ (fun l => if Z.eqb (blk e) (blk' l) then Rsum st (fun k => v e k * v' l k) else 0)); [reflexivity|].
    intros l z Hl. destruct (Z.eqb (blk e) (blk' l)); [|f_equal; lra].
    rewrite (iter_R dbg st _ (fun k => v e k * v' l k)); reflexivity.
Qed.
Lemma stcol_R h blk v y c :
  stcol (tg := RT dbg) st en h blk (fun r e k => Some (v r e k)) (fun i => Some (y i)) c =
  (Some (Rsum h (fun i => Rsum en (fun e => if Z.eqb (blk i e) 255 then 0 else
     Rsum st (fun k => if Nat.eqb c (bcol st (blk i e) k) then v i e k * y i else 0)))) : cell (RT dbg)).
Proof.
  unfold stcol. rewrite cofZ_R.
  rewrite (iter_R dbg h _ (fun i => Rsum en (fun e => if Z.eqb (blk i e) 255 then 0 else
     Rsum st (fun k => if Nat.eqb c (bcol st (blk i e) k) then v i e k * y i else 0)))).
  - f_equal. cbn. lra.
  - intros i x Hi. rewrite (iter_R dbg en _ (fun e => if Z.eqb (blk i e) 255 then 0 else
     Rsum st (fun k => if Nat.eqb c (bcol st (blk i e) k) then v i e k * y i else 0))); [reflexivity|].
    intros e z He. destruct (Z.eqb (blk i e) 255); [f_equal; lra|].
    rewrite (iter_R dbg st _ (fun k => if Nat.eqb c (bcol st (blk i e) k) then v i e k * y i else 0)); [reflexivity|].
    intros k a Hk. destruct (Nat.eqb c (bcol st (blk i e) k)); [reflexivity|f_equal; lra].
Qed.

Lemma srow_dense n h blk v D y r :
  blocks_inside st en n h blk -> sums st en n h blk v D -> (r < h)%nat ->
  srow (tg := RT dbg) st en (blk r) (fun e k => Some (v r e k)) (fun i => Some (y i)) =
  (Some (Rsum n (fun k => D r k * y k)) : cell (RT dbg)).
Proof. intros Hin HD Hr. rewrite srow_R. f_equal. symmetry. now apply (entries_dense n h). Qed.

(** scaling the columns *)
Lemma sums_scaled n h blk v D w :
  sums st en n h blk v D ->
  sums st en n h blk (fun r e k => w (bcol st (blk r e) k) * v r e k) (fun r c => D r c * w c).
Proof.
  intros HD r c Hr Hc. rewrite (HD r c Hr Hc), <- Rsum_scal_r. apply Rsum_ext. intros e He.
  rewrite <- Rsum_scal_r. apply Rsum_ext. intros k Hk. unfold bcol.
  destruct (Nat.eqb_spec c (Z.to_nat (blk r e) * st + k)) as [->|]; rewrite ?andb_true_r, ?andb_false_r; [|lra].
  destruct (negb _); lra.
Qed.

(** C10 *)
Lemma sparse_multiply_real (ss : sps (RT dbg)) ms id b t w h n blk v D B :
  sreach st en ss -> mreach false ms -> b <> t ->
  sp_shows st en (ss id) n h blk (fun r e k => Some (v r e k)) ->
  blocks_inside st en n h blk -> sums st en n h blk v D -> showsR ms b w n B ->
  exists ms', sp_multiply st en (ss id) ms b t = Ok ms' /\
    showsR ms' t w h (fun r c => Rsum n (fun k => D r k * B k c)) /\
    forall i, i <> t -> ms' i = ms i.
Proof.
  intros Hs Hm N Hv Hin HD Hb.
  destruct (sp_shows_is_sp _ _ _ _ _ _ _ (sreach_swf _ _ _ Hs id) Hv) as (v' & Hv' & Ev).
  pose proof (mreach_wf _ _ Hm) as Hwf.
  pose proof (shows_is_mat false _ _ _ _ _ (Hwf b) Hb) as Hb'.
  destruct (post_shows _ _ _ _ _ _ _ (sp_multiply_spec st en _ _ ms b t w h n blk v' _ Hv' Hb' (Hwf t) N (inside_of _ _ _ _ _ Hin)))
    as (ms' & E & S & O). exists ms'. split; [exact E|]. split; [|exact O].
  apply (shows_ext _ _ _ _ _ _ S). intros r c Hr Hc.
  rewrite (srow_ext st en (blk r) (v' r) (fun e k => Some (v r e k)) _ (fun i => Some (B i c)) n);
    [|intros; now apply Ev|intros; now apply (inside_of _ _ _ _ _ Hin)|reflexivity].
  rewrite srow_R. f_equal. symmetry. now apply entries_dense with (h := h).
Qed.

Lemma stcol_dense n h blk v D y r :
  sums st en n h blk v D -> (r < n)%nat ->
  stcol (tg := RT dbg) st en h blk (fun r e k => Some (v r e k)) (fun i => Some (y i)) r =
  (Some (Rsum h (fun i => D i r * y i)) : cell (RT dbg)).
Proof.
  intros HD Hr.
  rewrite stcol_R. f_equal. apply Rsum_ext. intros i Hi.
  rewrite (sums_entries n h blk v D i r) by assumption. rewrite <- Rsum_scal_r.
  apply Rsum_ext. intros e He. unfold Rentry. destruct (hit st (blk i e) r) eqn:Eh.
  - apply hit_spec in Eh. destruct Eh as [Nb L]. destruct (Z.eqb_spec (blk i e) 255); [contradiction|].
    rewrite (Rsum_ext st _ (fun k => if Nat.eqb k (r - Z.to_nat (blk i e) * st) then v i e k * y i else 0)).
    + rewrite (Rsum_single st (r - Z.to_nat (blk i e) * st) (fun k => v i e k * y i)) by lia. reflexivity.
    + intros k Hk. unfold bcol.
      destruct (Nat.eqb_spec r (Z.to_nat (blk i e) * st + k)), (Nat.eqb_spec k (r - Z.to_nat (blk i e) * st)); auto; lia.
  - destruct (Z.eqb_spec (blk i e) 255) as [|Nb]; [lra|]. rewrite Rsum_eq0; [lra|].
    intros k Hk. destruct (Nat.eqb_spec r (bcol st (blk i e) k)) as [->|]; [|reflexivity].
    rewrite hit_bcol in Eh by assumption. discriminate.
Qed.

(** C12 *)
Lemma sparse_transpose_vector_real (ss : sps (RT dbg)) ms id b t h n blk v D B :
  sreach st en ss -> mreach false ms -> b <> t ->
  sp_shows st en (ss id) n h blk (fun r e k => Some (v r e k)) ->
  blocks_inside st en n h blk -> sums st en n h blk v D -> showsR ms b 1 h B ->
  exists ms', sp_transpose_multiply_vector st en (ss id) ms b t = Ok ms' /\
    showsR ms' t 1 n (fun r _ => Rsum h (fun i => D i r * B i 0%nat)) /\
    forall i, i <> t -> ms' i = ms i.
Proof.
  intros Hs Hm N Hv Hin HD Hb.
  destruct (sp_shows_is_sp _ _ _ _ _ _ _ (sreach_swf _ _ _ Hs id) Hv) as (v' & Hv' & Ev).
  pose proof (mreach_wf _ _ Hm) as Hwf.
  pose proof (shows_is_mat false _ _ _ _ _ (Hwf b) Hb) as Hb'.
  destruct (post_shows _ _ _ _ _ _ _ (sp_transpose_multiply_vector_spec st en _ _ ms b t n h blk v' _ Hv' Hb' (Hwf t) N (inside_of _ _ _ _ _ Hin)))
    as (ms' & E & S & O). exists ms'. split; [exact E|]. split; [|exact O].
  apply (shows_ext _ _ _ _ _ _ S). intros r c Hr Hc.
  rewrite (stcol_ext st en h blk v' (fun r e k => Some (v r e k)) _ (fun i => Some (B i 0%nat)));
    [|intros; now apply Ev|reflexivity].
  apply (stcol_dense n h blk v D (fun i => B i 0%nat) r); assumption.
Qed.

Lemma srowrow_dense n h h' blk v D blk' v' D' r c :
  blocks_inside st en n h blk -> sums st en n h blk v D ->
  blocks_inside st en n h' blk' -> sums st en n h' blk' v' D' -> (r < h)%nat -> (c < h')%nat ->
  srowrow (tg := RT dbg) st en (blk r) (fun e k => Some (v r e k)) (blk' c) (fun e k => Some (v' c e k)) =
  (Some (Rsum n (fun k => D r k * D' c k)) : cell (RT dbg)).
Proof.
  intros Hin HD Hin' HD' Hr Hc.
  rewrite srowrow_R. f_equal. symmetry. rewrite entries_dense with (h := h) (v := v) (blk := blk) by assumption.
  apply Rsum_ext. intros e He. destruct (Z.eqb_spec (blk r e) 255) as [|Nb]; [reflexivity|].
  destruct (Hin r e Hr He) as [|[P1 P2]]; [contradiction|].
  assert (Hc' : forall k, (k < st)%nat -> (bcol st (blk r e) k < n)%nat) by (intros; apply inside_bcol; auto; now apply (inside_of _ _ _ _ _ Hin)).
  rewrite (Rsum_ext st _ (fun k => Rsum en (fun l => if Z.eqb (blk r e) (blk' c l) then v r e k * v' c l k else 0))).
  - rewrite Rsum_swap. apply Rsum_ext. intros l Hl. destruct (Z.eqb (blk r e) (blk' c l)); [reflexivity|now apply Rsum_eq0].
  - intros k Hk. rewrite (sums_entries n h' blk' v' D' c (bcol st (blk r e) k)) by auto.
    rewrite <- Rsum_scal_l. apply Rsum_ext. intros l Hl. unfold Rentry.
    destruct (Z.eqb_spec (blk r e) (blk' c l)) as [El|Nl].
    + rewrite <- El. rewrite hit_bcol by assumption. f_equal. f_equal. unfold bcol. lia.
    + destruct (hit st (blk' c l) (bcol st (blk r e) k)) eqn:Eh; [|lra]. exfalso.
      apply hit_spec in Eh. destruct Eh as [N' L]. destruct (Hin' c l Hc Hl) as [|[P1' P2']]; [contradiction|].
      apply Nl. unfold bcol in L. assert (Z.to_nat (blk r e) = Z.to_nat (blk' c l)) by nia. lia.
Qed.

(** C11 *)
Lemma sparse_multiply_transpose_real (ss : sps (RT dbg)) ms id id' t h h' n blk v D blk' v' D' :
  sreach st en ss -> mreach false ms ->
  sp_shows st en (ss id) n h blk (fun r e k => Some (v r e k)) ->
  sp_shows st en (ss id') n h' blk' (fun r e k => Some (v' r e k)) ->
  blocks_inside st en n h blk -> sums st en n h blk v D ->
  blocks_inside st en n h' blk' -> sums st en n h' blk' v' D' ->
  exists ms', sp_multiply_transpose st en (ss id) (ss id') ms t = Ok ms' /\
    showsR ms' t h' h (fun r c => Rsum n (fun k => D r k * D' c k)) /\
    forall i, i <> t -> ms' i = ms i.
Proof.
  intros Hs Hm Hv Hv' Hin HD Hin' HD'.
  destruct (sp_shows_is_sp _ _ _ _ _ _ _ (sreach_swf _ _ _ Hs id) Hv) as (v1 & Hv1 & Ev1).
  destruct (sp_shows_is_sp _ _ _ _ _ _ _ (sreach_swf _ _ _ Hs id') Hv') as (v2 & Hv2 & Ev2).
  pose proof (mreach_wf _ _ Hm) as Hwf.
  destruct (post_shows _ _ _ _ _ _ _ (sp_multiply_transpose_spec st en _ _ _ ms t n h h' blk v1 blk' v2 Hv1 Hv2 (Hwf t)))
    as (ms' & E & S & O). exists ms'. split; [exact E|]. split; [|exact O].
  apply (shows_ext _ _ _ _ _ _ S). intros r c Hr Hc.
  rewrite (srowrow_ext st en (blk r) (v1 r) (fun e k => Some (v r e k)) (blk' c) (v2 c) (fun e k => Some (v' c e k)));
    [|intros; now apply Ev1|intros; now apply Ev2].
  apply (srowrow_dense n h h' blk v D blk' v' D' r c); assumption.
Qed.

(** C13 *)
Lemma sparse_scale_real (ss : sps (RT dbg)) ms this sc t w h blk v y D :
  (0 < st)%nat -> sreach st en ss -> mreach false ms -> this <> t ->
  sp_shows st en (ss this) w h blk (fun r e k => Some (v r e k)) -> blocks_inside st en w h blk ->
  describes 0 st en w h blk v D ->
  (showsR ms sc 1 h y ->
   exists ss' v', sp_left_scale st en ss ms this sc t = Ok ss' /\
     sp_shows st en (ss' t) w h blk (fun r e k => Some (v' r e k)) /\
     describes 0 st en w h blk v' (fun r c => y r 0%nat * D r c) /\
     forall i, i <> t -> ss' i = ss i) /\
  (showsR ms sc 1 w y ->
   exists ss' v', sp_right_scale st en ss ms this sc t = Ok ss' /\
     sp_shows st en (ss' t) w h blk (fun r e k => Some (v' r e k)) /\
     describes 0 st en w h blk v' (fun r c => D r c * y c 0%nat) /\
     forall i, i <> t -> ss' i = ss i).
Proof.
  intros Hst Hs Hm N Hv Hin HD.
  destruct (scale_any st en ss ms this sc t w h blk _ (fun r c => Some (y r c)) Hst Hs Hm N Hv Hin) as [HL HR].
  split; intros Hy.
  - destruct (HL Hy) as (ss' & E & S & O). exists ss', (fun r e k => y r 0%nat * v r e k).
    refine (conj E (conj S (conj _ O))). intros r c Hr Hc. destruct (HD r c Hr Hc) as [D1 D2]. split.
    + intros e k C. now rewrite (D1 e k C).
    + intros No. rewrite (D2 No). lra.
  - destruct (HR Hy) as (ss' & E & S & O). exists ss', (fun r e k => y (Z.to_nat (blk r e) * st + k)%nat 0%nat * v r e k).
    refine (conj E (conj S (conj _ O))). intros r c Hr Hc. destruct (HD r c Hr Hc) as [D1 D2]. split.
    + intros e k C. rewrite (D1 e k C). destruct C as (_ & _ & _ & ->). lra.
    + intros No. rewrite (D2 No). lra.
Qed.
End Real.
