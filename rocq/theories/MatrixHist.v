(** * Proofs about matrix histories: invariant of reachable stores, refinement
      of tables, and the real-number readings of the operations. *)

From Coq Require Import Reals Lra.
From Verif Require Import Base Targets Matrix Logic MatrixFacts MatrixOps SpecMatrix.

Section Inv.
Context {tg : target}.
Implicit Types ms : mats tg.

Definition allwf (k : bool) ms : Prop := forall id, wf k (ms id).

Lemma raw_set_pc k (m : matrix tg) r c v : wf k m -> pc (raw_set m r c v) (wf k).
Proof.
  intros H. unfold raw_set.
  destruct (nth_error (m_rows m) r) as [[off|]|]; cbn; auto.
  destruct (Nat.lt_ge_cases (off + c) (length (m_data m))) as [L|L].
  - destruct (list_set_some (m_data m) (off + c) v L) as [d [E [Hl _]]]. rewrite E. cbn.
    destruct H as [H1 H2 H3 H4 H5 H6]. constructor; cbn; auto. lia.
  - now rewrite list_set_none.
Qed.

(** the same with a layout flag per matrix *)
Definition wfs (kf : nat -> bool) ms : Prop := forall id, wf (kf id) (ms id).
Lemma wfs_upd kf ms t m : wfs kf ms -> wf (kf t) m -> wfs kf (upd ms t m).
Proof. intros H Hm id. unfold upd. destruct (Nat.eqb_spec id t); subst; auto. Qed.
Lemma rset_pc kf ms t r c v : wfs kf ms -> pc (rset ms t r c v) (wfs kf).
Proof.
  intros H. unfold rset. eapply pc_seq; [apply raw_set_pc; apply H|].
  intros m Hm. cbn. now apply wfs_upd.
Qed.
Lemma mset_pc kf ms t c r v : wfs kf ms -> pc (mset ms t c r v) (wfs kf).
Proof.
  intros H. unfold mset, mat_set. eapply pc_seq.
  - apply pc_any; intros _. apply pc_any; intros _. apply raw_set_pc; apply H.
  - intros m Hm. cbn. now apply wfs_upd.
Qed.
Lemma maddto_pc kf ms t c r v : wfs kf ms -> pc (maddto ms t c r v) (wfs kf).
Proof.
  intros H. unfold maddto, mat_addto. eapply pc_seq.
  - apply pc_any; intros _. apply pc_any; intros _. apply pc_any; intros x. apply raw_set_pc; apply H.
  - intros m Hm. cbn. now apply wfs_upd.
Qed.
Lemma only_wfs kf ms ms' t : wfs kf ms -> only t ms ms' -> wf (kf t) (ms' t) -> wfs kf ms'.
Proof. intros H Ho Ht id. destruct (Nat.eq_dec id t) as [->|N]; [exact Ht|]. rewrite Ho; auto. Qed.
Lemma mresize_pc kf ms t w h : wfs kf ms -> pc (mresize ms t w h) (wfs kf).
Proof.
  intros H. apply wp_pc. eapply wp_mono; [apply mresize_spec; apply H|].
  intros ms' (Ho & (f & Hf) & _). eapply only_wfs; eauto. apply Hf.
Qed.

Ltac pcs := repeat first
  [ assumption
  | apply rset_pc; assumption
  | apply mset_pc; assumption
  | apply for2_pc; intros
  | apply for_pc; intros
  | apply pc_any; intros ].

Lemma mstep_pc kf ms o :
  wfs kf ms -> margs_ok ms o -> (forall t a b, o = MSwap t a b -> kf t = false) -> pc (mstep ms o) (wfs kf).
Proof.
  intros H Ha Hs. destruct o; cbn [mstep margs_ok is_swap] in *.
  - apply wp_pc. eapply wp_mono; [apply minit0_spec; apply H|].
    intros ms' [Ho Hm]. eapply only_wfs; eauto. apply Hm.
  - apply wp_pc. eapply wp_mono; [apply minit_val_spec; apply H|].
    intros ms' [Ho Hm]. eapply only_wfs; eauto. apply Hm.
  - now apply mresize_pc.
  - cbn. apply wfs_upd; [exact H|]. apply (mat_destroy_spec (kf t)), H.
  - now apply mset_pc.
  - now apply maddto_pc.
  - apply wp_pc. eapply wp_seq; [apply mat_load_wf; [apply H|exact Ha]|].
    intros m [Hm _]. cbn. now apply wfs_upd.
  - unfold mset_ref. eapply pc_seq; [apply mresize_pc, H|]. intros ms1 H1. pcs.
  - specialize (Hs _ _ _ eq_refl).
    destruct (wf_contents _ (ms t) (H t)) as [f Hf].
    apply wp_pc. eapply wp_seq; [eapply mat_row_swap_spec; [exact Hf|apply Ha|apply Ha]|].
    intros m Hm. cbn. apply wfs_upd; [exact H|]. rewrite Hs. apply Hm.
  - unfold mmultiply. apply pc_any; intros _.
    eapply pc_seq; [apply mresize_pc, H|]. intros ms1 H1. pcs.
  - unfold mcomponent. do 2 (apply pc_any; intros _).
    eapply pc_seq; [apply mresize_pc, H|]. intros ms1 H1. pcs.
  - unfold mtranspose_multiply. apply pc_any; intros _.
    eapply pc_seq; [apply mresize_pc, H|]. intros ms1 H1. pcs.
  - unfold mleft_scale. do 2 (apply pc_any; intros _).
    eapply pc_seq; [apply mresize_pc, H|]. intros ms1 H1. pcs.
  - unfold mright_scale. do 2 (apply pc_any; intros _).
    eapply pc_seq; [apply mresize_pc, H|]. intros ms1 H1. pcs.
  - unfold mscale. eapply pc_seq; [apply mresize_pc, H|]. intros ms1 H1. pcs.
  - unfold msubtract. do 2 (apply pc_any; intros _).
    eapply pc_seq; [apply mresize_pc, H|]. intros ms1 H1. pcs.
  - unfold madd2. do 2 (apply pc_any; intros _).
    eapply pc_seq; [apply mresize_pc, H|]. intros ms1 H1. pcs.
  - unfold mnegate. eapply pc_seq; [apply mresize_pc, H|]. intros ms1 H1. pcs.
  - unfold mmadd. do 2 (apply pc_any; intros _). pcs.
  - unfold mpmadd. do 2 (apply pc_any; intros _). pcs.
  - unfold mtranspose. eapply pc_seq; [apply mresize_pc, H|]. intros ms1 H1. pcs.
Qed.

Lemma allwf_wfs k ms : allwf k ms <-> wfs (fun _ => k) ms.
Proof. reflexivity. Qed.
Lemma only_allwf k ms ms' t : allwf k ms -> only t ms ms' -> wf k (ms' t) -> allwf k ms'.
Proof. apply (only_wfs (fun _ => k)). Qed.
Lemma mreach_wf k ms : mreach k ms -> allwf k ms.
Proof.
  induction 1 as [|ms o ms' Hr IH Ha Hs E].
  - intros id. apply wf_new.
  - eapply pc_elim; [exact E|]. apply (mstep_pc (fun _ => k)); [exact IH|exact Ha|].
    intros t a b ->. destruct k; [now specialize (Hs eq_refl)|reflexivity].
Qed.

(** ** shows and is_mat *)

Lemma shows_is_mat k ms id w h f : wf k (ms id) -> shows ms id w h f -> is_mat k (ms id) w h f.
Proof.
  intros Hwf (Ew & Eh & Hf). refine (conj Hwf (conj Ew (conj Eh _))). intros r c Hr Hc.
  specialize (Hf r c Hr Hc). unfold mget, mat_get in Hf. rewrite Ew, Eh in Hf.
  now rewrite !bind_massert in Hf by (now apply Nat.ltb_lt).
Qed.
Lemma is_mat_shows k ms id w h f : is_mat k (ms id) w h f -> shows ms id w h f.
Proof.
  intros H. split; [eapply is_mat_w; exact H|]. split; [eapply is_mat_h; exact H|].
  intros r c Hr Hc. eapply mget_spec; eassumption.
Qed.

(** ** C01: tables *)

Lemma tstep_refines ms ts o ts' :
  allwf false ms -> agrees ms ts -> tstep ts o = Some ts' ->
  wp (mstep ms o) (fun ms' => allwf false ms' /\ agrees ms' ts').
Proof.
  intros Hwf Hag Ht.
  (* helper: target known, others untouched *)
  assert (Hfin : forall ms' t f tb,
     only t ms ms' -> is_mat false (ms' t) (tb_w tb) (tb_h tb) f ->
     (forall r c v, r < tb_h tb -> c < tb_w tb -> tb_at tb r c = Some v -> f r c = v) ->
     allwf false ms' /\ agrees ms' (upd ts t tb)).
  { intros ms' t f tb Ho Hm Hv. split; [eapply only_allwf; eauto; apply Hm|].
    intros id. destruct (Nat.eq_dec id t) as [->|N].
    - rewrite upd_same. split; [eapply is_mat_w; exact Hm|]. split; [eapply is_mat_h; exact Hm|].
      intros r c Hr Hc. exists (f r c). split; [eapply mget_spec; eassumption|].
      intros v Ev. now apply Hv.
    - rewrite upd_other by assumption. unfold mget. rewrite (Ho id N). apply Hag. }
  (* contents of a matrix of the store *)
  assert (Hcont : forall id, exists f, is_mat false (ms id) (tb_w (ts id)) (tb_h (ts id)) f /\
     forall r c v, r < tb_h (ts id) -> c < tb_w (ts id) -> tb_at (ts id) r c = Some v -> f r c = v).
  { intros id. destruct (Hag id) as (Ew & Eh & Hv). destruct (wf_contents _ _ (Hwf id)) as [f Hf].
    rewrite Ew, Eh in Hf. exists f. split; [exact Hf|]. intros r c v Hr Hc Ev.
    destruct (Hv r c Hr Hc) as (x & Ex & Hx).
    rewrite (mget_spec _ _ _ _ _ _ _ _ Hf) in Ex by assumption. rewrite <- (Hx v Ev). congruence. }
  destruct o; cbn [tstep mstep] in *; try discriminate.
  - injection Ht as <-. eapply wp_mono; [apply minit0_spec, Hwf|].
    intros ms' [Ho Hm]. eapply Hfin; [exact Ho|exact Hm|]. cbn; congruence.
  - injection Ht as <-. eapply wp_mono; [apply minit_val_spec, Hwf|].
    intros ms' [Ho Hm]. eapply Hfin; [exact Ho|exact Hm|]. cbn; congruence.
  - destruct (Hag t) as (Ew & Eh & Hv).
    destruct (Nat.eqb_spec w (tb_w (ts t))) as [E1|N1]; cbn [andb] in Ht;
    [destruct (Nat.eqb_spec h (tb_h (ts t))) as [E2|N2]|].
    + injection Ht as <-. eapply wp_mono; [apply mresize_spec, Hwf|].
      intros ms' (Ho & (f & Hf) & Hs).
      assert (Es : ms' t = ms t) by (apply Hs; congruence).
      assert (Ea : forall id, ms' id = ms id).
      { intros id. destruct (Nat.eq_dec id t) as [->|N]; auto. }
      split; [intros id; now rewrite Ea|]. intros id. unfold mget. rewrite Ea. apply Hag.
    + injection Ht as <-. eapply wp_mono; [apply mresize_spec, Hwf|].
      intros ms' (Ho & (f & Hf) & _). eapply Hfin; [exact Ho|exact Hf|]. cbn; discriminate.
    + injection Ht as <-. eapply wp_mono; [apply mresize_spec, Hwf|].
      intros ms' (Ho & (f & Hf) & _). eapply Hfin; [exact Ho|exact Hf|]. cbn; discriminate.
  - injection Ht as <-. cbn [wp]. unfold mdestroy.
    eapply Hfin; [apply only_upd| |].
    + rewrite upd_same. apply (mat_destroy_spec false), Hwf.
    + cbn; intros; lia.
  - destruct (Nat.ltb_spec c (tb_w (ts t))); [|discriminate].
    destruct (Nat.ltb_spec r (tb_h (ts t))); [|discriminate]. cbn [andb] in Ht. injection Ht as <-.
    destruct (Hcont t) as (f & Hf & Hv). eapply wp_mono; [eapply mset_spec; eassumption|].
    intros ms' [Ho Hm]. eapply Hfin; [exact Ho|exact Hm|].
    cbn. unfold fset. intros r' c' v' Hr Hc.
    destruct (Nat.eqb r' r && Nat.eqb c' c); [congruence|now apply Hv].
  - destruct (Nat.ltb_spec c (tb_w (ts t))); [|discriminate].
    destruct (Nat.ltb_spec r (tb_h (ts t))); [|discriminate]. cbn [andb] in Ht. injection Ht as <-.
    destruct (Hcont t) as (f & Hf & Hv). eapply wp_mono; [eapply maddto_spec; eassumption|].
    intros ms' [Ho Hm]. eapply Hfin; [exact Ho|exact Hm|].
    cbn. unfold fset. intros r' c' v' Hr Hc.
    destruct (Nat.eqb r' r && Nat.eqb c' c); [|now apply Hv].
    destruct (tb_at (ts t) r c) as [x|] eqn:Ex; [|discriminate].
    rewrite (Hv r c x) by assumption. congruence.
  - injection Ht as <-. destruct (Hcont ref) as (f & Hf & Hv).
    eapply wp_mono; [eapply mset_ref_spec; [exact Hf|apply Hwf]|].
    intros ms' [Ho Hm]. eapply Hfin; [exact Ho|exact Hm|exact Hv].
  - destruct (Nat.ltb_spec a (tb_h (ts t))); [|discriminate].
    destruct (Nat.ltb_spec b (tb_h (ts t))); [|discriminate]. cbn [andb] in Ht. injection Ht as <-.
    destruct (Hcont t) as (f & Hf & Hv).
    eapply wp_seq; [eapply mat_row_swap_spec; eassumption|]. intros m Hm. cbn [wp].
    eapply Hfin; [apply only_upd|rewrite upd_same; exact Hm|].
    cbn. intros r c v Hr Hc Ev. apply Hv; [now apply swap_idx_lt|assumption|exact Ev].
Qed.

Lemma trun_refines os : forall ms ts ts',
  allwf false ms -> agrees ms ts -> trun ts os = Some ts' ->
  exists ms', mrun ms os = Ok ms' /\ agrees ms' ts'.
Proof.
  induction os as [|o os IH]; intros ms ts ts' Hwf Hag Ht; cbn [trun mrun] in *.
  - injection Ht as <-. eauto.
  - destruct (tstep ts o) as [ts1|] eqn:E; [|discriminate].
    pose proof (tstep_refines _ _ _ _ Hwf Hag E) as Hs. apply wp_ok in Hs.
    destruct Hs as (ms1 & -> & Hw1 & Ha1). cbn [bind]. eapply IH; eassumption.
Qed.

Lemma table_refinement os ts' :
  trun (fun _ => tab_fresh) os = Some ts' ->
  exists ms', mrun (@fresh tg) os = Ok ms' /\ agrees ms' ts'.
Proof.
  intros H. eapply trun_refines; [| |exact H].
  - intros id; apply wf_new.
  - intros id. cbn. repeat split. intros; lia.
Qed.

(** ** C02 *)
Lemma initialize_value ms t w h v :
  mreach false ms ->
  exists ms', minit_val ms t w h v = Ok ms' /\ shows ms' t w h (fun _ _ => v) /\
    forall id, id <> t -> ms' id = ms id.
Proof.
  intros H. pose proof (minit_val_spec false ms t w h v (mreach_wf _ _ H t)) as Hs.
  apply wp_ok in Hs. destruct Hs as (ms' & E & Ho & Hm). exists ms'. split; [exact E|].
  split; [eapply is_mat_shows; exact Hm|exact Ho].
Qed.
Lemma initialize_zero ms t w h :
  mreach false ms ->
  exists ms', minit0 ms t w h = Ok ms' /\ shows ms' t w h (fun _ _ => cofZ 0) /\
    forall id, id <> t -> ms' id = ms id.
Proof.
  intros H. pose proof (minit0_spec false ms t w h (mreach_wf _ _ H t)) as Hs.
  apply wp_ok in Hs. destruct Hs as (ms' & E & Ho & Hm). exists ms'. split; [exact E|].
  split; [eapply is_mat_shows; exact Hm|exact Ho].
Qed.

(** ** operations *)
Lemma post_shows kt ms t w h F r :
  wp r (post kt ms t w h F) ->
  exists ms', r = Ok ms' /\ shows ms' t w h F /\ forall id, id <> t -> ms' id = ms id.
Proof.
  intros H. apply wp_ok in H. destruct H as (ms' & E & Ho & Hm).
  exists ms'. split; [exact E|]. split; [eapply is_mat_shows; exact Hm|exact Ho].
Qed.

Lemma shows_ext ms t w h f g :
  shows ms t w h f -> (forall r c, r < h -> c < w -> f r c = g r c) -> shows ms t w h g.
Proof.
  intros (H1 & H2 & H3) E. split; [exact H1|]. split; [exact H2|].
  intros r c Hr Hc. rewrite <- E by assumption. auto.
Qed.

Lemma csum_fold n (f : nat -> cell tg) : csum n f = fold_sum n f.
Proof. induction n; cbn; congruence. Qed.

Lemma multiply_any ms this b t n w h f fb :
  mreach false ms -> this <> t -> b <> t ->
  shows ms this n h f -> shows ms b w n fb ->
  exists ms', mmultiply ms this b t = Ok ms' /\
    shows ms' t w h (fun r c => fold_sum n (fun k => cmul (f r k) (fb k c))) /\
    forall id, id <> t -> ms' id = ms id.
Proof.
  intros H N1 N2 Ha Hb. pose proof (mreach_wf _ _ H) as Hwf.
  apply (shows_is_mat false) in Ha; [|apply Hwf]. apply (shows_is_mat false) in Hb; [|apply Hwf].
  destruct (post_shows _ _ _ _ _ _ _ (mmultiply_spec false ms this b t n w h f fb Ha Hb (Hwf t) N1 N2))
    as (ms' & E & Hs & Ho).
  exists ms'. split; [exact E|]. split; [|exact Ho]. eapply shows_ext; [exact Hs|].
  intros; apply csum_fold.
Qed.
Lemma transpose_multiply_any ms this b t n w h f fb :
  mreach false ms -> this <> t -> b <> t ->
  shows ms this h n f -> shows ms b w n fb ->
  exists ms', mtranspose_multiply ms this b t = Ok ms' /\
    shows ms' t w h (fun r c => fold_sum n (fun k => cmul (f k r) (fb k c))) /\
    forall id, id <> t -> ms' id = ms id.
Proof.
  intros H N1 N2 Ha Hb. pose proof (mreach_wf _ _ H) as Hwf.
  apply (shows_is_mat false) in Ha; [|apply Hwf]. apply (shows_is_mat false) in Hb; [|apply Hwf].
  destruct (post_shows _ _ _ _ _ _ _ (mtranspose_multiply_spec false ms this b t n w h f fb Ha Hb (Hwf t) N1 N2))
    as (ms' & E & Hs & Ho).
  exists ms'. split; [exact E|]. split; [|exact Ho]. eapply shows_ext; [exact Hs|].
  intros; apply csum_fold.
Qed.
Lemma transpose_any ms this t w h f :
  mreach false ms -> this <> t -> shows ms this w h f ->
  exists ms', mtranspose ms this t = Ok ms' /\ shows ms' t h w (fun r c => f c r) /\
    forall id, id <> t -> ms' id = ms id.
Proof.
  intros H N1 Ha. pose proof (mreach_wf _ _ H) as Hwf.
  apply (shows_is_mat false) in Ha; [|apply Hwf].
  exact (post_shows _ _ _ _ _ _ _ (mtranspose_spec false ms this t w h f Ha (Hwf t) N1)).
Qed.

(** the element-wise calls, any aliasing *)
Lemma elementwise_any ms this b t w h f fb :
  mreach false ms -> shows ms this w h f -> shows ms b w h fb ->
  let done r F := exists ms', r = Ok ms' /\ shows ms' t w h F /\ forall id, id <> t -> ms' id = ms id in
  done (madd2 ms this b t) (fun r c => cadd (f r c) (fb r c)) /\
  done (msubtract ms this b t) (fun r c => csub (f r c) (fb r c)) /\
  done (mcomponent ms this b t) (fun r c => cmul (f r c) (fb r c)) /\
  done (mnegate ms this t) (fun r c => copp (f r c)) /\
  (forall s, done (mscale ms this s t) (fun r c => cmul s (f r c))).
Proof.
  intros H Ha Hb done. pose proof (mreach_wf _ _ H) as Hwf.
  apply (shows_is_mat false) in Ha; [|apply Hwf]. apply (shows_is_mat false) in Hb; [|apply Hwf].
  repeat split; unfold done; intros; eapply (post_shows false).
  - now apply madd2_spec.
  - now apply msubtract_spec.
  - now apply mcomponent_spec.
  - now apply mnegate_spec.
  - now apply mscale_spec.
Qed.
Lemma accumulate_any ms this b w h f fb s :
  mreach false ms -> shows ms this w h f -> shows ms b w h fb ->
  let done r F := exists ms', r = Ok ms' /\ shows ms' this w h F /\ forall id, id <> this -> ms' id = ms id in
  done (mmadd ms this b s) (fun r c => cadd (f r c) (cmul (fb r c) s)) /\
  done (mpmadd ms this b s) (fun r c => cadd (cmul s (f r c)) (fb r c)).
Proof.
  intros H Ha Hb done. pose proof (mreach_wf _ _ H) as Hwf.
  apply (shows_is_mat false) in Ha; [|apply Hwf]. apply (shows_is_mat false) in Hb; [|apply Hwf].
  split; unfold done; eapply (post_shows false).
  - now apply mmadd_spec.
  - now apply mpmadd_spec.
Qed.
Lemma scaling_any ms this sc t w h f s :
  mreach false ms -> shows ms this w h f ->
  let done r F := exists ms', r = Ok ms' /\ shows ms' t w h F /\ forall id, id <> t -> ms' id = ms id in
  (shows ms sc 1 h s -> (sc = t -> w = 1) ->
   done (mleft_scale ms this sc t) (fun r c => cmul (s r 0) (f r c))) /\
  (shows ms sc 1 w s -> (sc = t -> w = 1 /\ h = 1) ->
   done (mright_scale ms this sc t) (fun r c => cmul (s c 0) (f r c))).
Proof.
  intros H Ha done. pose proof (mreach_wf _ _ H) as Hwf.
  apply (shows_is_mat false) in Ha; [|apply Hwf].
  split; intros Hb Hal; apply (shows_is_mat false) in Hb; try apply Hwf;
    unfold done; eapply (post_shows false).
  - now apply mleft_scale_spec.
  - now apply mright_scale_spec.
Qed.

(** ** equals, for any arithmetic *)
Lemma equals_spec ms a b w h f fb err e :
  shows ms a w h f -> shows ms b w h fb -> err = Some e ->
  (forall r c, r < h -> c < w -> exists x y, f r c = Some x /\ fb r c = Some y) ->
  exists v, mequals ms a b err = Ok v /\
    (v = true <-> forall r c x y, r < h -> c < w -> f r c = Some x -> fb r c = Some y ->
       n_ltb tg e (n_abs tg (n_sub tg x y)) = false).
Proof.
  intros (Aw & Ah & Af) (Bw & Bh & Bf) -> Hd. unfold mequals.
  rewrite Aw, Ah, Bw, Bh, !Nat.eqb_refl. cbn [negb].
  set (good r c := forall x y, f r c = Some x -> fb r c = Some y ->
       n_ltb tg e (n_abs tg (n_sub tg x y)) = false).
  assert (W : wp (for2 h w (fun i j (ok : bool) =>
     if ok then
       let* x := mget ms a j i in let* y := mget ms b j i in
       let* far := clt (Some e) (cabs (csub x y)) in Ok (negb far)
     else Ok false) true)
    (fun v => v = true <-> forall r c, r < h -> c < w -> good r c)).
  { apply (for2_inv _ _ _ (fun i j v => v = true <->
      forall r c, r < h -> c < w -> (r < i \/ (r = i /\ c < j)) -> good r c)).
    - split; [intros _ r c _ _ X; lia|reflexivity].
    - intros i j t Hi Hj IH. destruct t.
      + rewrite Af, Bf by assumption. cbn [bind].
        destruct (Hd i j Hi Hj) as (x & y & Ex & Ey). rewrite Ex, Ey. cbn.
        destruct (n_ltb tg e (n_abs tg (n_sub tg x y))) eqn:El; cbn.
        * split; [discriminate|]. intros G.
          specialize (G i j Hi Hj (or_intror (conj eq_refl (Nat.lt_succ_diag_r j))) x y Ex Ey). congruence.
        * split; [intros _|reflexivity]. intros r c Hr Hc [L|[-> L]].
          -- apply IH; auto.
          -- destruct (Nat.eq_dec c j) as [->|]; [|apply IH; auto; lia].
             intros x' y' Ex' Ey'. congruence.
      + cbn. split; [discriminate|]. intros G. apply IH. intros r c Hr Hc L. apply G; auto. lia.
    - intros i t Hi IH. rewrite IH. split; intros G r c Hr Hc L; apply G; auto; lia.
    - intros t IH. rewrite IH. split; intros G r c Hr Hc; [apply G; auto|intros _; apply G; auto]. }
  apply wp_ok in W. destruct W as (v & E & Hv). exists v. split; [exact E|].
  rewrite Hv. unfold good. split; [intros G r c x y Hr Hc; now apply G|intros G r c Hr Hc x y; now apply G].
Qed.
Lemma equals_dims ms a b err :
  m_w (ms a) <> m_w (ms b) \/ m_h (ms a) <> m_h (ms b) -> mequals ms a b err = Ok false.
Proof.
  intros H. unfold mequals. destruct (Nat.eqb_spec (m_w (ms a)) (m_w (ms b))); cbn [negb]; [|reflexivity].
  destruct (Nat.eqb_spec (m_h (ms a)) (m_h (ms b))); cbn [negb]; [lia|reflexivity].
Qed.

(** ** dot products and loading, histories without row swaps *)
Lemma dot_any ms a b h f fb :
  mreach true ms -> shows ms a 1 h f -> shows ms b 1 h fb ->
  mdot ms a b = Ok (fold_sum h (fun i => cmul (f i 0) (fb i 0))) /\
  mvecmag2 ms a = Ok (fold_sum h (fun i => cmul (f i 0) (f i 0))).
Proof.
  intros H Ha Hb. pose proof (mreach_wf _ _ H) as Hwf.
  apply (shows_is_mat true) in Ha; [|apply Hwf]. apply (shows_is_mat true) in Hb; [|apply Hwf].
  rewrite <- !csum_fold. split; [now apply mdot_spec|now apply mvecmag2_spec].
Qed.
Lemma load_any ms t w h data :
  mreach true ms -> m_w (ms t) = w -> m_h (ms t) = h -> w * h <= length data ->
  exists ms', mstep ms (MLoad t data) = Ok ms' /\
    (m_w (ms' t) = w /\ m_h (ms' t) = h) /\
    (forall r c x, r < h -> c < w -> nth_error data (r * w + c) = Some x -> mget ms' t c r = Ok x) /\
    forall id, id <> t -> ms' id = ms id.
Proof.
  intros H Ew Eh Hd. pose proof (mreach_wf _ _ H t) as Hwf.
  destruct (wf_contents _ _ Hwf) as [f Hf]. rewrite Ew, Eh in Hf.
  pose proof (mat_load_spec (ms t) w h f data Hf Hd) as Hs. apply wp_ok in Hs.
  destruct Hs as (m' & E & Hm). cbn [mstep]. rewrite E. cbn [bind].
  exists (upd ms t m'). split; [reflexivity|]. rewrite upd_same. split; [|split].
  - split; [eapply is_mat_w; exact Hm|eapply is_mat_h; exact Hm].
  - intros r c x Hr Hc Ex. unfold mget. rewrite upd_same.
    rewrite (mat_get_spec _ _ _ _ _ _ _ Hm) by assumption. now rewrite Ex.
  - intros id N. now rewrite upd_other.
Qed.

End Inv.

(** ** Real readings *)

Lemma showsR_shows b (ms : mats (RT b)) id w h g :
  showsR ms id w h g <-> shows ms id w h (fun r c => Some (g r c) : cell (RT b)).
Proof. reflexivity. Qed.

Lemma fold_sum_R b n (f : nat -> cell (RT b)) g :
  (forall i, i < n -> f i = Some (g i)) -> fold_sum n f = Some (Rsum n g).
Proof.
  induction n; intros H; cbn; [reflexivity|]. rewrite IHn, (H n) by auto. reflexivity.
Qed.

Lemma R_ltb_false x y : R_ltb x y = false <-> (y <= x)%R.
Proof. unfold R_ltb. destruct (Rlt_dec x y); split; intros; try discriminate; try reflexivity; lra. Qed.
Lemma R_ltb_true x y : R_ltb x y = true <-> (x < y)%R.
Proof. unfold R_ltb. destruct (Rlt_dec x y); split; intros; try discriminate; try reflexivity; lra. Qed.
Lemma R_leb_true x y : R_leb x y = true <-> (x <= y)%R.
Proof. unfold R_leb. destruct (Rle_dec x y); split; intros; try discriminate; try reflexivity; lra. Qed.
Lemma R_eqb_true x y : R_eqb x y = true <-> x = y.
Proof. unfold R_eqb. destruct (Req_EM_T x y); split; intros; try discriminate; try reflexivity; congruence. Qed.

Section RealReadings.
Context {dbg : bool}.
Implicit Types ms : mats (RT dbg).

Lemma shows_R_ext ms t w h (f : nat -> nat -> cell (RT dbg)) g :
  shows ms t w h f -> (forall r c, r < h -> c < w -> f r c = Some (g r c)) -> showsR ms t w h g.
Proof. intros H E. apply showsR_shows. eapply shows_ext; eassumption. Qed.

Lemma multiply_real ms this b t n w h A B :
  mreach false ms -> this <> t -> b <> t ->
  showsR ms this n h A -> showsR ms b w n B ->
  exists ms', mmultiply ms this b t = Ok ms' /\
    showsR ms' t w h (fun r c => Rsum n (fun k => A r k * B k c)%R) /\
    forall id, id <> t -> ms' id = ms id.
Proof.
  intros H N1 N2 Ha Hb.
  destruct (multiply_any ms this b t n w h _ _ H N1 N2 Ha Hb) as (ms' & E & Hs & Ho).
  exists ms'. split; [exact E|]. split; [|exact Ho]. eapply shows_R_ext; [exact Hs|].
  intros r c Hr Hc. now apply fold_sum_R.
Qed.
Lemma transpose_multiply_real ms this b t n w h A B :
  mreach false ms -> this <> t -> b <> t ->
  showsR ms this h n A -> showsR ms b w n B ->
  exists ms', mtranspose_multiply ms this b t = Ok ms' /\
    showsR ms' t w h (fun r c => Rsum n (fun k => A k r * B k c)%R) /\
    forall id, id <> t -> ms' id = ms id.
Proof.
  intros H N1 N2 Ha Hb.
  destruct (transpose_multiply_any ms this b t n w h _ _ H N1 N2 Ha Hb) as (ms' & E & Hs & Ho).
  exists ms'. split; [exact E|]. split; [|exact Ho]. eapply shows_R_ext; [exact Hs|].
  intros r c Hr Hc. now apply fold_sum_R.
Qed.
Lemma transpose_real ms this t w h A :
  mreach false ms -> this <> t -> showsR ms this w h A ->
  exists ms', mtranspose ms this t = Ok ms' /\ showsR ms' t h w (fun r c => A c r) /\
    forall id, id <> t -> ms' id = ms id.
Proof. intros H N1 Ha. apply (transpose_any ms this t w h _ H N1 Ha). Qed.

Lemma equals_real ms a b w h w' h' A B (e : R) :
  showsR ms a w h A -> showsR ms b w' h' B ->
  exists v, mequals ms a b (Some e : cell (RT dbg)) = Ok v /\
    (v = true <-> w = w' /\ h = h' /\
       forall r c, r < h -> c < w -> (Rabs (A r c - B r c) <= e)%R).
Proof.
  intros Ha Hb.
  destruct (Nat.eq_dec w w') as [<-|N1]; [destruct (Nat.eq_dec h h') as [<-|N2]|].
  - destruct (equals_spec ms a b w h _ _ _ e Ha Hb eq_refl) as (v & E & Hv); [eauto|].
    exists v. split; [exact E|]. rewrite Hv. split.
    + intros G. split; [reflexivity|]. split; [reflexivity|]. intros r c Hr Hc.
      specialize (G r c _ _ Hr Hc eq_refl eq_refl). now apply R_ltb_false in G.
    + intros (_ & _ & G) r c x y Hr Hc [= <-] [= <-]. apply R_ltb_false. now apply G.
  - exists false. split; [|split; [discriminate|tauto]].
    apply equals_dims. destruct Ha as (_ & -> & _), Hb as (_ & -> & _). auto.
  - exists false. split; [|split; [discriminate|tauto]].
    apply equals_dims. destruct Ha as (-> & _), Hb as (-> & _). auto.
Qed.

Lemma Rsum_sq_nonneg n u : (0 <= Rsum n (fun i => u i * u i))%R.
Proof. induction n; cbn; [lra|]. pose proof (Rle_0_sqr (u n)). unfold Rsqr in *. lra. Qed.
Lemma Rsum_sq_zero n u : Rsum n (fun i => u i * u i)%R = 0%R -> forall i, i < n -> u i = 0%R.
Proof.
  induction n; cbn; intros H i Hi; [lia|].
  pose proof (Rsum_sq_nonneg n u). pose proof (Rle_0_sqr (u n)). unfold Rsqr in *.
  destruct (Nat.eq_dec i n) as [->|]; [|apply IHn; [lra|lia]].
  apply Rsqr_0_uniq. unfold Rsqr. lra.
Qed.
Lemma Rsum_0 n g : (forall i, i < n -> g i = 0%R) -> Rsum n g = 0%R.
Proof. induction n; cbn; intros H; [reflexivity|]. rewrite IHn, H; auto; lra. Qed.

Lemma dot_real ms a b h u v :
  mreach true ms -> showsR ms a 1 h u -> showsR ms b 1 h v ->
  mdot ms a b = Ok (Some (Rsum h (fun i => u i 0%nat * v i 0%nat)%R) : cell (RT dbg)).
Proof.
  intros H Ha Hb. destruct (dot_any ms a b h _ _ H Ha Hb) as [-> _].
  f_equal. now apply fold_sum_R.
Qed.
Lemma magnitude_real ms a h u :
  mreach true ms -> showsR ms a 1 h u ->
  exists q, mvecmag2 ms a = Ok (Some q : cell (RT dbg)) /\
    q = Rsum h (fun i => u i 0%nat * u i 0%nat)%R /\ (0 <= q)%R /\
    (q = 0%R <-> forall i, i < h -> u i 0%nat = 0%R).
Proof.
  intros H Ha. destruct (dot_any ms a a h _ _ H Ha Ha) as [_ ->].
  rewrite (fold_sum_R dbg h _ (fun i => u i 0%nat * u i 0%nat)%R) by reflexivity.
  eexists; split; [reflexivity|]. split; [reflexivity|]. split; [apply Rsum_sq_nonneg with (u := fun i => u i 0%nat)|].
  split; [apply Rsum_sq_zero with (u := fun i => u i 0%nat)|].
  intros G. apply Rsum_0. intros i Hi. rewrite G by assumption. lra.
Qed.

End RealReadings.
