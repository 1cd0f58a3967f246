(** * Conjugate gradient refines a program on vectors, for any arithmetic. *)

From Verif Require Import Base Matrix Sparse Sle Logic MatrixFacts MatrixOps SpecMatrix MatrixHist
  SparseFacts SpecSparse SparseHist SpecSle SleHist SleGe SleGs.
Local Open Scope nat_scope.

Ltac inl := cbn; repeat (first [left; reflexivity | right]).
Ltac notin Hid := intros ->; apply Hid; inl.
Ltac outside := cbn; let H := fresh in intros H; repeat (destruct H as [H|H]); first [contradiction|congruence].

Section Cg.
Context {tg : target}.
Local Open Scope cell_scope.
Notation vec := (nat -> cell tg).
Notation vecm k m h x := (is_mat k m 1 h (fun r _ => x r)).

(** ** the vector program *)
Section Pure.
Variable m : nat.
Variable mul : vec -> vec.
Variables (maxe mine : cell tg) (b : vec).

Definition psmall (r : vec) : res bool :=
  for_ m (fun i ok => if (ok : bool) then
    let* big := clt (cfmax (cabs (maxe * b i)) mine) (cabs (r i)) in Ok (negb big) else Ok false) true.
Definition pdot (x y : vec) : cell tg := csum m (fun i => x i * y i).
Definition palpha (r p : vec) : cell tg := pdot r r / pdot p (mul p).
Definition px (x r p : vec) : vec := fun i => x i + p i * palpha r p.
Definition pr (r p : vec) : vec := fun i => r i + mul p i * - palpha r p.
Definition pp (r p : vec) : vec := fun i => (pdot (pr r p) (pr r p) / pdot r r) * p i + pr r p i.
Fixpoint pcgloop (iters : nat) (x r p : vec) : res (vec * bool) :=
  match iters with
  | O => Ok (x, false)
  | S iters' =>
      let* small := psmall (pr r p) in
      if (small : bool) then Ok (px x r p, true) else pcgloop iters' (px x r p) (pr r p) (pp r p)
  end.
Definition pr0 (x : vec) : vec := fun i => b i + mul x i * cofZ (-1).
Definition pcg (iters : nat) (x : vec) : res (vec * bool) :=
  let* small := psmall (pr0 x) in
  if (small : bool) then Ok (x, true) else pcgloop iters x (pr0 x) (pr0 x).
End Pure.

Definition pmul (m : nat) blk v (w : vec) (x : vec) : vec :=
  fun i => srow 3 2 (blk i) (v i) (fun c => w c * stcol 3 2 m blk v x c).

(** ** agreement *)
Lemma rel_wp_l {A B C} (r : res A) (k : A -> res B) (p : res C) (P : A -> Prop) Q :
  wp r P -> (forall a, P a -> rel (k a) p Q) -> rel (bind r k) p Q.
Proof. destruct r; cbn; intuition. Qed.

Section Sim.
Variable priv : nat -> bool.
Variable g : cg_solver tg.
Variables (s : sparse tg) (n m : nat) (blk : nat -> nat -> Z) (v0 v : nat -> nat -> nat -> cell tg).
Hypothesis Hs : is_sp 3 2 s n m blk v0.
Hypothesis Hv : forall r e k, r < m -> e < 2 -> k < 3 -> blk r e <> 255%Z -> v0 r e k = v r e k.
Hypothesis Hin : blocks_inside 3 2 n m blk.
Variables (W right result : nat) (w b : vec).
Hypothesis Hnd : NoDup [W; right; result; cg_mreg0 g; cg_mreg1 g; cg_Ap g; cg_x g; cg_r g; cg_p g].
Hypothesis Hpriv : cg_private g priv.

Lemma names : W <> result /\ W <> cg_mreg0 g /\ W <> cg_mreg1 g /\ W <> cg_Ap g /\ W <> cg_x g /\ W <> cg_r g /\ W <> cg_p g /\
  right <> result /\ right <> cg_mreg0 g /\ right <> cg_mreg1 g /\ right <> cg_Ap g /\ right <> cg_x g /\ right <> cg_r g /\ right <> cg_p g /\
  result <> cg_mreg0 g /\ result <> cg_mreg1 g /\ result <> cg_Ap g /\ result <> cg_x g /\ result <> cg_r g /\ result <> cg_p g /\
  cg_mreg0 g <> cg_mreg1 g /\ cg_mreg0 g <> cg_Ap g /\ cg_mreg0 g <> cg_x g /\ cg_mreg0 g <> cg_r g /\ cg_mreg0 g <> cg_p g /\
  cg_mreg1 g <> cg_Ap g /\ cg_mreg1 g <> cg_x g /\ cg_mreg1 g <> cg_r g /\ cg_mreg1 g <> cg_p g /\
  cg_Ap g <> cg_x g /\ cg_Ap g <> cg_r g /\ cg_Ap g <> cg_p g /\ cg_x g <> cg_r g /\ cg_x g <> cg_p g /\ cg_r g <> cg_p g.
Proof.
  clear -Hnd. repeat match goal with H : NoDup (_ :: _) |- _ => inversion_clear H end. cbn in *.
  repeat (refine (conj _ _)); intros ?; intuition congruence.
Qed.

Lemma wfs_only (ms ms' : mats tg) t : wfs priv ms -> only t ms ms' -> wf (priv t) (ms' t) -> wfs priv ms'.
Proof. intros H Ho Hx id. destruct (Nat.eq_dec id t) as [->|N]; [exact Hx|rewrite Ho by exact N; apply H]. Qed.

Definition but (l : list nat) (ms ms' : mats tg) : Prop := forall id, ~ In id l -> ms' id = ms id.

Lemma multiply_sim ms y t (x : vec) :
  wfs priv ms -> vecm false (ms W) n w -> vecm false (ms y) m x ->
  y <> t -> y <> cg_mreg0 g -> y <> cg_mreg1 g -> t <> cg_mreg0 g -> t <> cg_mreg1 g -> W <> t ->
  wp (cg_multiply g s ms W y t) (fun ms' => but [t; cg_mreg0 g; cg_mreg1 g] ms ms' /\ wfs priv ms' /\
    vecm (priv t) (ms' t) m (pmul m blk v w x)).
Proof.
  intros Hwf HW Hy N1 N2 N3 N4 N5 N6.
  destruct names as (_ & NW0 & NW1 & _ & _ & _ & _ & _ & _ & _ & _ & _ & _ & _ & _ & _ & _ & _ & _ & _ & N01 & _).
  unfold cg_multiply. rewrite (is_mat_h _ _ _ _ _ Hy).
  eapply wp_seq; [apply (mresize_spec (priv t)); apply Hwf|]. intros ms1 (O1 & (f1 & M1) & _).
  assert (Hwf1 : wfs priv ms1) by (eapply wfs_only; [exact Hwf|exact O1|eapply is_mat_wf; exact M1]).
  eapply wp_seq; [apply (sp_transpose_multiply_vector_spec 3 2 (priv (cg_mreg0 g)) s ms1 y (cg_mreg0 g) n m blk v0 (fun r _ => x r)); auto|].
  { rewrite O1 by auto. exact Hy. }
  { now apply inside_of. }
  intros ms2 [O2 M2]. cbn beta in M2.
  assert (Hwf2 : wfs priv ms2) by (eapply wfs_only; [exact Hwf1|exact O2|eapply is_mat_wf; exact M2]).
  eapply wp_seq; [apply (mcomponent_spec (priv (cg_mreg1 g)) ms2 W (cg_mreg0 g) (cg_mreg1 g) 1 n (fun r _ => w r)); auto|].
  { rewrite O2, O1 by auto. exact HW. }
  { eapply is_mat_weaken; exact M2. }
  intros ms3 [O3 M3]. cbn beta in M3.
  assert (Hwf3 : wfs priv ms3) by (eapply wfs_only; [exact Hwf2|exact O3|eapply is_mat_wf; exact M3]).
  eapply wp_mono; [apply (sp_multiply_spec 3 2 (priv t) s ms3 (cg_mreg1 g) t 1 m n blk v0 _ Hs (is_mat_weaken _ _ _ _ _ M3)); auto|].
  { now apply inside_of. }
  intros ms4 [O4 M4]. split; [|split].
  - intros id Hid. rewrite O4, O3, O2, O1 by notin Hid. reflexivity.
  - eapply wfs_only; [exact Hwf3|exact O4|eapply is_mat_wf; exact M4].
  - eapply is_mat_ext; [exact M4|]. intros r c Hr Hc. unfold pmul.
    apply (srow_ext 3 2) with (w := n).
    + intros; now apply Hv.
    + intros e He. apply (inside_of 3 2 n m blk Hin); assumption.
    + intros i Hi. f_equal. apply stcol_ext; auto.
Qed.

Lemma small_sim ms r : vecm false (ms (cg_r g)) m r -> vecm false (ms right) m b ->
  cg_small g ms (cg_r g) right = psmall m (cg_max_error g) (cg_min_error g) b r.
Proof.
  intros Hr Hb. unfold cg_small, psmall. rewrite (is_mat_h _ _ _ _ _ Hr).
  match goal with |- ?a = ?b => assert (R : rel a b eq) end.
  { apply (for_rel _ _ (fun _ => eq)); [reflexivity|]. intros i ok ? Hi <-.
    destruct ok; [|reflexivity].
    rewrite (mget_spec _ _ _ _ _ _ _ _ Hr) by lia. cbn [bind].
    rewrite (mget_spec _ _ _ _ _ _ _ _ Hb) by lia. cbn [bind]. apply rel_refl. }
  revert R. match goal with |- rel ?a ?b eq -> _ => destruct a, b; cbn; intros; subst; auto; contradiction end.
Qed.

Variable ms0 : mats tg.
Hypothesis HW : vecm false (ms0 W) n w.
Hypothesis Hb : vecm false (ms0 right) m b.

Definition own : list nat := [result; cg_mreg0 g; cg_mreg1 g; cg_Ap g; cg_x g; cg_r g; cg_p g].
Lemma W_own : ~ In W own.
Proof. pose proof names as H. decompose [and] H. outside. Qed.
Lemma right_own : ~ In right own.
Proof. pose proof names as H. decompose [and] H. outside. Qed.

Ltac nm := first [assumption | apply not_eq_sym; assumption].

Lemma loop_sim : forall iters ms (x r p : vec),
  wfs priv ms -> but own ms0 ms ->
  vecm false (ms (cg_x g)) m x -> vecm false (ms (cg_r g)) m r -> vecm false (ms (cg_p g)) m p ->
  rel (cg_loop g s W right iters ms) (pcgloop m (pmul m blk v w) (cg_max_error g) (cg_min_error g) b iters x r p)
    (fun y z => snd y = snd z /\ wfs priv (fst y) /\ but own ms0 (fst y) /\ vecm false (fst y (cg_x g)) m (fst z)).
Proof.
  destruct Hpriv as (PA & PR & PP). pose proof names as Nm. decompose [and] Nm. clear Nm.
  induction iters as [|iters IH]; intros ms x r p Hwf Hbut Hx Hr Hp; cbn [cg_loop pcgloop].
  { cbn. auto. }
  eapply rel_wp_l; [apply (multiply_sim ms (cg_p g) (cg_Ap g) p); auto; try nm|].
  { rewrite Hbut by apply W_own. exact HW. }
  intros ms1 (B1 & Hwf1 & M1). cbv beta in M1.
  assert (K1 : forall id, id <> cg_Ap g -> id <> cg_mreg0 g -> id <> cg_mreg1 g -> ms1 id = ms id).
  { intros id Ha Hb' Hc. apply B1. outside. }
  assert (Hr1 : vecm true (ms1 (cg_r g)) m r).
  { rewrite K1 by nm. destruct Hr as (_ & E). refine (conj _ E). rewrite <- PR. apply Hwf. }
  assert (Hp1 : vecm true (ms1 (cg_p g)) m p).
  { rewrite K1 by nm. destruct Hp as (_ & E). refine (conj _ E). rewrite <- PP. apply Hwf. }
  assert (Hx1 : vecm (priv (cg_x g)) (ms1 (cg_x g)) m x).
  { rewrite K1 by nm. destruct Hx as (_ & E). refine (conj _ E). apply Hwf. }
  rewrite PA in M1.
  rewrite (mvecmag2_spec ms1 (cg_r g) m _ Hr1). cbn [bind].
  rewrite (mdot_spec ms1 (cg_p g) (cg_Ap g) m _ _ Hp1 M1). cbn [bind].
  cbv zeta. fold (pdot m r r). fold (pdot m p (pmul m blk v w p)). fold (palpha m (pmul m blk v w) r p).
  eapply rel_wp_l; [apply (mmadd_spec _ ms1 (cg_x g) (cg_p g) _ 1 m _ _ Hx1 (is_mat_weaken _ _ _ _ _ Hp1))|].
  intros ms2 [O2 M2].
  assert (Hwf2 : wfs priv ms2) by (eapply wfs_only; [exact Hwf1|exact O2|eapply is_mat_wf; exact M2]).
  assert (Hr2 : vecm true (ms2 (cg_r g)) m r) by (rewrite O2 by nm; exact Hr1).
  assert (HA2 : vecm true (ms2 (cg_Ap g)) m (pmul m blk v w p)) by (rewrite O2 by nm; exact M1).
  eapply rel_wp_l; [apply (mmadd_spec _ ms2 (cg_r g) (cg_Ap g) _ 1 m _ _ Hr2 (is_mat_weaken _ _ _ _ _ HA2))|].
  intros ms3 [O3 M3].
  assert (Hwf3 : wfs priv ms3).
  { eapply wfs_only; [exact Hwf2|exact O3|]. rewrite PR. eapply is_mat_wf; exact M3. }
  assert (B3 : but own ms0 ms3).
  { intros id Hid. rewrite O3, O2, K1 by notin Hid. now apply Hbut. }
  assert (Hr3 : vecm true (ms3 (cg_r g)) m (pr m (pmul m blk v w) r p)) by exact M3.
  assert (Hx3 : vecm false (ms3 (cg_x g)) m (px m (pmul m blk v w) x r p)).
  { rewrite O3 by nm. eapply is_mat_weaken; exact M2. }
  rewrite (small_sim ms3 (pr m (pmul m blk v w) r p) (is_mat_weaken _ _ _ _ _ Hr3)).
  2:{ rewrite B3 by apply right_own. exact Hb. }
  apply rel_same. intros small. destruct small.
  { cbn. split; [reflexivity|]. split; [exact Hwf3|]. split; [exact B3|exact Hx3]. }
  rewrite (mvecmag2_spec ms3 (cg_r g) m _ Hr3). cbn [bind]. cbv zeta.
  assert (Hp3 : vecm true (ms3 (cg_p g)) m p) by (rewrite O3, O2 by nm; exact Hp1).
  eapply rel_wp_l; [apply (mpmadd_spec _ ms3 (cg_p g) (cg_r g) _ 1 m _ _ Hp3 (is_mat_weaken _ _ _ _ _ Hr3))|].
  intros ms4 [O4 M4].
  apply IH.
  - eapply wfs_only; [exact Hwf3|exact O4|]. rewrite PP. eapply is_mat_wf; exact M4.
  - intros id Hid. rewrite O4 by notin Hid. now apply B3.
  - rewrite O4 by nm. exact Hx3.
  - rewrite O4 by nm. eapply is_mat_weaken; exact Hr3.
  - eapply is_mat_weaken; exact M4.
Qed.
End Sim.

Definition cg_own (g : cg_solver tg) (result : nat) : list nat :=
  [result; cg_mreg0 g; cg_mreg1 g; cg_Ap g; cg_x g; cg_r g; cg_p g].
Definition cg_done (g : cg_solver tg) (result m : nat) (hp : heap tg) (y : heap tg * bool) (z : vec * bool) : Prop :=
  snd y = snd z /\ frame (cg_own g result) [] hp (fst y) /\
  (snd y = true -> shows (hm (fst y)) result 1 m (fun r _ => fst z r)).

Lemma cg_solve_sim priv (hp : heap tg) g J W right previous result n m blk v w b x :
  hinv priv hp -> cg_names g W right result previous -> cg_private g priv -> system hp J W right n m blk v w b ->
  start_cg hp previous m x ->
  rel (cg_solve g J W right previous result hp)
      (pcg m (pmul m blk v w) (cg_max_error g) (cg_min_error g) b (cg_max_iterations g) x)
      (cg_done g result m hp).
Proof.
  intros [Hwf Hswf] [Hnd Hpn] Hpriv (HsJ & Hin & HWs & Hrs) Hst.
  pose proof (names g W right result Hnd) as Nm. decompose [and] Nm. clear Nm. pose proof Hpriv as (PA & PR & PP).
  destruct (sp_shows_is_sp _ _ _ _ _ _ _ (Hswf J) HsJ) as (v0 & Hs & Ev).
  pose proof (shows_vec _ _ _ _ _ (Hwf W) HWs) as HW. pose proof (shows_vec _ _ _ _ _ (Hwf right) Hrs) as Hb.
  unfold cg_solve. cbv zeta. replace (m_h (hm hp right)) with m by (symmetry; apply Hrs).
  assert (Res : forall (ms : mats tg) t w h, wfs priv ms -> wp (mresize ms t w h) (fun ms' => only t ms ms' /\ wfs priv ms')).
  { intros ms t w0 h0 Hq. eapply wp_mono; [apply (mresize_spec (priv t)); apply Hq|]. intros ms' (O & (f & M) & _).
    split; [exact O|]. eapply wfs_only; [exact Hq|exact O|eapply is_mat_wf; exact M]. }
  eapply rel_wp_l; [apply Res, Hwf|]. intros ms1 [O1 W1]. cbv beta.
  eapply rel_wp_l; [apply Res, W1|]. intros ms2 [O2 W2]. cbv beta.
  eapply rel_wp_l; [apply Res, W2|]. intros ms3 [O3 W3]. cbv beta.
  eapply rel_wp_l; [apply (minit0_spec (priv (cg_x g))); apply W3|]. intros ms4 [O4 M4]. cbv beta.
  assert (W4 : wfs priv ms4) by (eapply wfs_only; [exact W3|exact O4|eapply is_mat_wf; exact M4]).
  assert (K4 : forall id, id <> cg_r g -> id <> cg_p g -> id <> cg_Ap g -> id <> cg_x g -> ms4 id = hm hp id).
  { intros id Ha Hb' Hc Hd. rewrite O4, O3, O2, O1 by assumption. reflexivity. }
  eapply rel_wp_l.
  { instantiate (1 := fun ms5 => only (cg_x g) ms4 ms5 /\ wfs priv ms5 /\ vecm false (ms5 (cg_x g)) m x).
    destruct Hst as [(p & -> & Hp)|[Hno Hz]].
    - specialize (Hpn p eq_refl).
      assert (Hp4 : vecm false (ms4 p) m x).
      { rewrite K4 by notin Hpn. eapply shows_vec; [apply Hwf|exact Hp]. }
      unfold warm_start. rewrite (is_mat_h _ _ _ _ _ Hp4), Nat.eqb_refl.
      eapply wp_mono; [apply (mset_ref_spec (priv (cg_x g))); [exact Hp4|apply W4]|].
      intros ms' [O M]. split; [exact O|]. split; [|eapply is_mat_weaken; exact M].
      eapply wfs_only; [exact W4|exact O|eapply is_mat_wf; exact M].
    - assert (E : warm_start ms4 previous (cg_x g) m = Ok ms4).
      { unfold warm_start. destruct previous as [p|]; [|reflexivity].
        specialize (Hpn p eq_refl). rewrite K4 by notin Hpn.
        destruct (Nat.eqb_spec (m_h (hm hp p)) m) as [E|]; [|reflexivity]. now destruct (Hno p eq_refl). }
      rewrite E. cbn. split; [apply only_refl|]. split; [exact W4|].
      eapply is_mat_ext; [eapply is_mat_weaken; exact M4|]. intros; cbn. symmetry. apply Hz. }
  intros ms5 (O5 & W5 & X5). cbv beta.
  eapply rel_wp_l; [apply Res, W5|]. intros ms6 [O6 W6]. cbv beta.
  assert (K6 : forall id, ~ In id (cg_own g result) -> ms6 id = hm hp id).
  { intros id Hid. rewrite O6, O5, K4 by notin Hid. reflexivity. }
  assert (Hb6 : vecm false (ms6 right) m b) by (rewrite K6 by outside; exact Hb).
  assert (HW6 : vecm false (ms6 W) n w) by (rewrite K6 by outside; exact HW).
  eapply rel_wp_l; [apply (mset_ref_spec (priv (cg_r g)) ms6 (cg_r g) right 1 m _ Hb6); apply W6|].
  intros ms7 [O7 M7]. cbv beta.
  assert (W7 : wfs priv ms7) by (eapply wfs_only; [exact W6|exact O7|eapply is_mat_wf; exact M7]).
  eapply rel_wp_l; [apply (multiply_sim priv g (hs hp J) n m blk v0 v Hs Ev Hin W right result w Hnd ms7 (cg_x g) (cg_Ap g) x W7); try congruence|].
  { rewrite O7 by congruence. exact HW6. }
  { rewrite O7, O6 by congruence. exact X5. }
  intros ms8 (B8 & W8 & M8). cbv beta.
  assert (K8 : forall id, id <> cg_Ap g -> id <> cg_mreg0 g -> id <> cg_mreg1 g -> ms8 id = ms7 id).
  { intros id Ha Hb' Hc. apply B8. outside. }
  assert (R8 : vecm (priv (cg_r g)) (ms8 (cg_r g)) m b) by (rewrite K8 by congruence; exact M7).
  eapply rel_wp_l; [apply (mmadd_spec _ ms8 (cg_r g) (cg_Ap g) _ 1 m _ _ R8 (is_mat_weaken _ _ _ _ _ M8))|].
  intros ms9 [O9 M9]. cbv beta.
  assert (W9 : wfs priv ms9) by (eapply wfs_only; [exact W8|exact O9|eapply is_mat_wf; exact M9]).
  assert (X9 : vecm false (ms9 (cg_x g)) m x).
  { rewrite O9, K8, O7, O6 by congruence. exact X5. }
  assert (K9 : but (cg_own g result) (hm hp) ms9).
  { intros id Hid. pose proof (K6 id Hid) as E. rewrite O9, K8, O7 by notin Hid. exact E. }
  unfold pcg.
  rewrite (small_sim g m right b ms9 (pr0 (pmul m blk v w) b x)).
  2:{ eapply is_mat_weaken; exact M9. }
  2:{ rewrite K9 by outside. exact Hb. }
  apply rel_same. intros small.
  rewrite <- (bind_ret_r (if small then _ else pcgloop _ _ _ _ _ _ _ _ _)).
  apply (rel_bind _ _ _ _ (fun y z => snd y = snd z /\ wfs priv (fst y) /\ but (cg_own g result) (hm hp) (fst y) /\ vecm false (fst y (cg_x g)) m (fst z))).
  - destruct small.
    { cbn. auto. }
    eapply rel_wp_l; [apply (mset_ref_spec (priv (cg_p g)) ms9 (cg_p g) (cg_r g) 1 m _ (is_mat_weaken _ _ _ _ _ M9)); apply W9|].
    intros ms10 [O10 M10]. cbv beta.
    apply (loop_sim priv g (hs hp J) n m blk v0 v Hs Ev Hin W right result w b Hnd Hpriv (hm hp) HW Hb).
    + eapply wfs_only; [exact W9|exact O10|eapply is_mat_wf; exact M10].
    + intros id Hid. rewrite O10 by notin Hid. now apply K9.
    + rewrite O10 by congruence. exact X9.
    + rewrite O10 by congruence. eapply is_mat_weaken; exact M9.
    + eapply is_mat_weaken; exact M10.
  - intros [msf ok] [xf ok'] (E & Wf & Bf & Xf). cbn [fst snd] in *. subst ok'. destruct ok.
    + eapply rel_wp_l; [apply (mset_ref_spec (priv result) msf result (cg_x g) 1 m _ Xf); apply Wf|].
      intros ms11 [O11 M11]. cbn. split; [reflexivity|]. split.
      * split; [|reflexivity]. intros id Hid. cbn [hm with_hm fst]. rewrite O11 by notin Hid. now apply Bf.
      * intros _. cbn. eapply is_mat_shows; exact M11.
    + cbn. split; [reflexivity|]. split; [|discriminate]. split; [exact Bf|reflexivity].
Qed.
End Cg.
