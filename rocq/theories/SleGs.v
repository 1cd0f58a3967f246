(** * Gauss-Seidel on tables, and its agreement with the model. *)

From Coq Require Import Reals.
From Verif Require Import Base Targets Matrix Sparse Sle Logic MatrixFacts MatrixOps SpecMatrix MatrixHist
  SparseFacts SpecSparse SparseHist SpecSle SleHist SleGe.

Section Gs.
Context {tg : target}.
Local Open Scope cell_scope.
Notation vec := (nat -> cell tg).
Implicit Types (ms : mats tg) (M : nat -> nat -> cell tg) (b lo hi : nat -> cell tg).

(** ** the same algorithm on tables *)
Definition pcand M b (m : nat) (x : vec) (i : nat) : cell tg :=
  (cofZ 1 / M i i) * (b i - csum i (fun j => M i j * x j)
     - csum (m - (i + 1)) (fun u => M i (i + 1 + u)%nat * x (i + 1 + u)%nat)).
Definition pstep1 M b (m : nat) (x : vec) (i : nat) : cell tg * cell tg :=
  let c := pcand M b m x i in
  let min_k := cfmax (clit 1 1000) (x i) in
  (c, (cabs c - min_k) / min_k).
Definition pstepL M b lo hi (m : nat) (x : vec) (i : nat) : cell tg * cell tg :=
  let c := gs_clamp (lo i) (hi i) (pcand M b m x i) in
  let min_k := cfmax (clit 1 1000) (cabs (x i)) in
  (c, cabs (c - x i) / min_k).
Definition psweep (step : vec -> nat -> cell tg * cell tg) (m : nat) (x : vec) : res (vec * cell tg) :=
  for_ m (fun i '(x, maxd) =>
    let* maxd := gs_max (snd (step x i)) maxd in
    Ok (xset x i (fst (step x i)), maxd)) (x, cofZ 0).
Fixpoint piter (step : vec -> nat -> cell tg * cell tg) (m : nat) (min_delta : cell tg) (iters : nat) (x : vec)
  : res (vec * bool) :=
  match iters with
  | O => Ok (x, false)
  | S iters' =>
      let* (x, maxd) := psweep step m x in
      let* conv := clt maxd min_delta in
      if (conv : bool) then Ok (x, true) else piter step m min_delta iters' x
  end.

(** ** agreement *)
Lemma bind_ret_r {A} (r : res A) : bind r (fun a => Ok a) = r.
Proof. now destruct r. Qed.
Notation vecm mt m x := (is_mat false mt 1 m (fun r _ => x r)).

Lemma for_range_sum2 (lo n : nat) (gx gy : nat -> res (cell tg)) (fx fy : vec) :
  (forall i, lo <= i < n -> gx i = Ok (fx i)) -> (forall i, lo <= i < n -> gy i = Ok (fy i)) ->
  for_range lo n (fun i v => let* x := gx i in let* y := gy i in Ok (v + x * y)) (cofZ 0)
  = Ok (csum (n - lo) (fun u => fx (lo + u)%nat * fy (lo + u)%nat)).
Proof.
  intros Hx Hy.
  assert (W : wp (for_range lo n (fun i v => let* x := gx i in let* y := gy i in Ok (v + x * y)) (cofZ 0))
     (fun v => v = csum (n - lo) (fun u => fx (lo + u)%nat * fy (lo + u)%nat))).
  { apply (for_range_inv _ (fun i v => v = csum (i - lo) (fun u => fx (lo + u)%nat * fy (lo + u)%nat))).
    - now rewrite Nat.sub_diag.
    - intros i v Hi ->. rewrite Hx, Hy by assumption. cbn [bind].
      replace (S i - lo)%nat with (S (i - lo)) by lia. cbn. replace (lo + (i - lo))%nat with i by lia. reflexivity.
    - intros v ->. f_equal. lia. }
  destruct (for_range lo n _ (cofZ 0)); cbn in W; try contradiction. now subst.
Qed.

Lemma gs_candidate_eq ms left right k m M b x i :
  is_mat false (ms left) m m M -> vecm (ms right) m b -> vecm (ms k) m x -> i < m ->
  gs_candidate ms left right k k m i = Ok (pcand M b m x i).
Proof.
  intros HM Hb Hx Hi. unfold gs_candidate, pcand.
  rewrite (for_sum2 i (fun j => mget ms left j i) (fun j => mget ms k 0 j) (fun j => M i j) x).
  2:{ intros j Hj. apply (mget_spec _ _ _ _ _ _ _ _ HM); lia. }
  2:{ intros j Hj. apply (mget_spec _ _ _ _ _ _ _ _ Hx); lia. }
  cbn [bind].
  rewrite (for_range_sum2 (i + 1) m (fun j => mget ms left j i) (fun j => mget ms k 0 j) (fun j => M i j) x).
  2:{ intros j Hj. apply (mget_spec _ _ _ _ _ _ _ _ HM); lia. }
  2:{ intros j Hj. apply (mget_spec _ _ _ _ _ _ _ _ Hx); lia. }
  cbn [bind]. rewrite (mget_spec _ _ _ _ _ _ _ _ HM) by lia. cbn [bind].
  rewrite (mget_spec _ _ _ _ _ _ _ _ Hb) by lia. reflexivity.
Qed.

Definition sweep_rel ms (result m : nat) (y : mats tg * cell tg) (z : vec * cell tg) : Prop :=
  only result ms (fst y) /\ vecm (fst y result) m (fst z) /\ snd y = snd z.

Lemma put_vec ms t m (x : vec) i v : vecm (ms t) m x -> i < m ->
  wp (mset ms t 0 i v) (fun ms' => only t ms ms' /\ vecm (ms' t) m (xset x i v)).
Proof.
  intros H Hi. eapply wp_mono; [eapply mset_spec; [exact H|lia|exact Hi]|].
  intros ms' [Ho Hm]. split; [exact Ho|]. eapply is_mat_ext; [exact Hm|].
  intros r c Hr Hc. unfold fset, xset. replace c with 0%nat by lia. cbn. now rewrite andb_true_r.
Qed.

Lemma gs_iteration_sim ms left right k m M b x :
  left <> k -> right <> k -> is_mat false (ms left) m m M -> vecm (ms right) m b -> vecm (ms k) m x ->
  rel (gs_iteration ms left right k k) (psweep (pstep1 M b m) m x) (sweep_rel ms k m).
Proof.
  intros N1 N2 HM Hb Hx. unfold gs_iteration, psweep. rewrite (is_mat_h _ _ _ _ _ Hx).
  apply (for_rel _ _ (fun _ => sweep_rel ms k m)); [exact (conj (only_refl _ _) (conj Hx eq_refl))|].
  intros i [ms1 d1] [x1 d2] Hi (Ho & Hv & E). cbn [fst snd] in *. subst d2.
  assert (HM1 : is_mat false (ms1 left) m m M) by (rewrite Ho by assumption; exact HM).
  assert (Hb1 : vecm (ms1 right) m b) by (rewrite Ho by assumption; exact Hb).
  rewrite (gs_candidate_eq ms1 left right k m M b x1 i HM1 Hb1 Hv Hi). cbn [bind].
  rewrite (mget_spec _ _ _ _ _ _ _ _ Hv) by lia. cbn [bind].
  cbv zeta. unfold pstep1 at 1. cbn [snd]. apply rel_same. intros d3.
  pose proof (put_vec ms1 k m x1 i (pcand M b m x1 i) Hv Hi) as W.
  destruct (mset ms1 k 0 i (pcand M b m x1 i)) as [ms2| | |]; cbn [wp bind rel] in *; try contradiction.
  destruct W as [Ho2 Hv2]. refine (conj _ (conj Hv2 eq_refl)). eapply only_trans; eassumption.
Qed.

Lemma gs_iteration_limits_sim ms left right limits k m M b lo hi x :
  left <> k -> right <> k -> limits <> k ->
  is_mat false (ms left) m m M -> vecm (ms right) m b ->
  is_mat false (ms limits) 2 m (fun r c => if Nat.eqb c 0 then lo r else hi r) -> vecm (ms k) m x ->
  rel (gs_iteration_limits ms left right limits k k) (psweep (pstepL M b lo hi m) m x) (sweep_rel ms k m).
Proof.
  intros N1 N2 N3 HM Hb Hl Hx. unfold gs_iteration_limits, psweep. rewrite (is_mat_h _ _ _ _ _ Hx).
  apply (for_rel _ _ (fun _ => sweep_rel ms k m)); [exact (conj (only_refl _ _) (conj Hx eq_refl))|].
  intros i [ms1 d1] [x1 d2] Hi (Ho & Hv & E). cbn [fst snd] in *. subst d2.
  assert (HM1 : is_mat false (ms1 left) m m M) by (rewrite Ho by assumption; exact HM).
  assert (Hb1 : vecm (ms1 right) m b) by (rewrite Ho by assumption; exact Hb).
  rewrite (gs_candidate_eq ms1 left right k m M b x1 i HM1 Hb1 Hv Hi). cbn [bind].
  assert (Hl1 : is_mat false (ms1 limits) 2 m (fun r c => if Nat.eqb c 0 then lo r else hi r))
    by (rewrite Ho by assumption; exact Hl).
  assert (E0 : mget ms1 limits 0 i = Ok (lo i)) by (apply (mget_spec _ _ _ _ _ _ 0 i Hl1); lia).
  assert (E1 : mget ms1 limits 1 i = Ok (hi i)) by (apply (mget_spec _ _ _ _ _ _ 1 i Hl1); lia).
  rewrite E0, E1. cbn [bind].
  rewrite (mget_spec _ _ _ _ _ _ _ _ Hv) by lia. cbn [bind].
  cbv zeta. unfold pstepL at 1. cbn [snd]. apply rel_same. intros d3.
  set (c := gs_clamp (lo i) (hi i) (pcand M b m x1 i)).
  pose proof (put_vec ms1 k m x1 i c Hv Hi) as W.
  destruct (mset ms1 k 0 i c) as [ms2| | |]; cbn [wp bind rel] in *; try contradiction.
  destruct W as [Ho2 Hv2]. refine (conj _ (conj Hv2 eq_refl)). eapply only_trans; eassumption.
Qed.

Lemma gs_iterate_sim (step : mats tg -> res (mats tg * cell tg)) pstep ms0 k m md :
  (forall ms x, only k ms0 ms -> vecm (ms k) m x -> rel (step ms) (psweep pstep m x) (sweep_rel ms k m)) ->
  forall iters ms x, only k ms0 ms -> vecm (ms k) m x ->
  rel (gs_iterate step md iters ms) (piter pstep m md iters x)
    (fun y z => only k ms0 (fst y) /\ vecm (fst y k) m (fst z) /\ snd y = snd z).
Proof.
  intros Hs. induction iters as [|iters IH]; intros ms x Ho Hx; cbn [gs_iterate piter].
  - cbn. auto.
  - eapply rel_bind; [apply Hs; eassumption|]. intros [ms1 d] [x1 d'] (Ho1 & Hv1 & E). cbn [fst snd] in *. subst d'.
    assert (Ho' : only k ms0 ms1) by (eapply only_trans; eassumption).
    apply rel_same. intros c. destruct c; [|now apply IH]. cbn. auto.
Qed.

(** ** the starting vector *)
Lemma warm_copy ms priv p t m x : wfs priv ms -> vecm (ms p) m x ->
  wp (warm_start ms (Some p) t m) (fun ms' => only t ms ms' /\ vecm (ms' t) m x).
Proof.
  intros Hwf Hp. unfold warm_start. rewrite (is_mat_h _ _ _ _ _ Hp), Nat.eqb_refl.
  eapply wp_mono; [apply (mset_ref_spec (priv t)); [exact Hp|apply Hwf]|].
  intros ms' [Ho Hm]. split; [exact Ho|]. eapply is_mat_weaken; exact Hm.
Qed.
Lemma warm_skip ms p t m : (forall q, p = Some q -> m_h (ms q) <> m) -> warm_start ms p t m = Ok ms.
Proof.
  intros H. unfold warm_start. destruct p as [p|]; [|reflexivity].
  destruct (Nat.eqb_spec (m_h (ms p)) m) as [E|]; [|reflexivity]. now destruct (H p eq_refl).
Qed.

Lemma only_wfs' priv ms ms' t m x : wfs priv ms -> only t ms ms' -> is_mat (priv t) (ms' t) 1 m x -> wfs priv ms'.
Proof.
  intros H Ho Hx id. destruct (Nat.eq_dec id t) as [->|N]; [eapply is_mat_wf; exact Hx|rewrite Ho by exact N; apply H].
Qed.

Lemma start_limits_ok priv hp previous result m x : wfs priv (hm hp) -> start_limits hp previous result m x ->
  wp (let* ms := (if negb (Nat.eqb (m_h (hm hp result)) m) then minit0 (hm hp) result 1 m else Ok (hm hp)) in
      warm_start ms previous result m)
     (fun ms' => only result (hm hp) ms' /\ vecm (ms' result) m x).
Proof.
  intros Hwf Hst.
  set (first := if negb (Nat.eqb (m_h (hm hp result)) m) then minit0 (hm hp) result 1 m else Ok (hm hp)).
  assert (Hf : wp first (fun ms => only result (hm hp) ms /\ wfs priv ms /\ m_h (ms result) = m /\
    (m_h (hm hp result) = m -> ms = hm hp) /\
    (m_h (hm hp result) <> m -> is_mat false (ms result) 1 m (fun _ _ => cofZ 0)))).
  { unfold first. destruct (Nat.eqb_spec (m_h (hm hp result)) m) as [E|N]; cbn [negb].
    - cbn. split; [apply only_refl|]. split; [exact Hwf|]. split; [exact E|]. split; [auto|contradiction].
    - eapply wp_mono; [apply minit0_spec; apply Hwf|]. intros ms [Ho Hm]. split; [exact Ho|].
      split; [eapply only_wfs'; eassumption|]. split; [eapply is_mat_h; exact Hm|].
      split; [contradiction|]. intros _. eapply is_mat_weaken; exact Hm. }
  eapply wp_seq; [exact Hf|]. intros ms (Ho & Hwf1 & Eh & Esame & Ezero).
  destruct Hst as [(p & -> & Hp)|[Hno Hr]].
  - assert (Hp1 : vecm (ms p) m x).
    { destruct (Nat.eq_dec p result) as [->|N].
      - rewrite Esame by apply Hp. eapply shows_vec; [apply Hwf|exact Hp].
      - rewrite Ho by exact N. eapply shows_vec; [apply Hwf|exact Hp]. }
    eapply wp_mono; [eapply warm_copy; [exact Hwf1|exact Hp1]|]. intros ms' [Ho' Hv].
    split; [eapply only_trans; eassumption|exact Hv].
  - assert (Hv : vecm (ms result) m x).
    { destruct Hr as [Hr|[N Hz]].
      - rewrite Esame by apply Hr. eapply shows_vec; [apply Hwf|exact Hr].
      - eapply is_mat_ext; [apply Ezero; exact N|]. intros; cbn. symmetry. apply Hz. }
    destruct previous as [p|]; [|cbn; split; assumption].
    destruct (Nat.eq_dec p result) as [->|N].
    + eapply wp_mono; [eapply warm_copy; [exact Hwf1|exact Hv]|]. intros ms' [Ho' Hv'].
      split; [eapply only_trans; eassumption|exact Hv'].
    + rewrite warm_skip; [cbn; split; assumption|]. intros q [= <-]. rewrite Ho by exact N. now apply Hno.
Qed.

Lemma start_plain_ok priv hp previous result m x : wfs priv (hm hp) -> start_plain hp previous result m x ->
  wp (let* ms := mresize (hm hp) result 1 m in warm_start ms previous result m)
     (fun ms' => only result (hm hp) ms' /\ vecm (ms' result) m x).
Proof.
  intros Hwf Hst.
  eapply wp_seq; [apply mresize_spec; apply Hwf|]. intros ms (Ho & (f & Hf) & Esame).
  assert (Hwf1 : wfs priv ms) by (eapply only_wfs'; eassumption).
  assert (Hsame : shows (hm hp) result 1 m (fun r _ => x r) -> vecm (ms result) m x).
  { intros Hr. rewrite Esame by (symmetry; apply Hr). eapply shows_vec; [apply Hwf|exact Hr]. }
  destruct Hst as [(p & -> & Hp)|[Hno Hr]].
  - assert (Hp1 : vecm (ms p) m x).
    { destruct (Nat.eq_dec p result) as [->|N]; [now apply Hsame|].
      rewrite Ho by exact N. eapply shows_vec; [apply Hwf|exact Hp]. }
    eapply wp_mono; [eapply warm_copy; [exact Hwf1|exact Hp1]|]. intros ms' [Ho' Hv].
    split; [eapply only_trans; eassumption|exact Hv].
  - pose proof (Hsame Hr) as Hv. destruct previous as [p|]; [|cbn; split; assumption].
    destruct (Nat.eq_dec p result) as [->|N]; [exfalso; apply (Hno result eq_refl); apply Hr|].
    rewrite warm_skip; [cbn; split; assumption|]. intros q [= <-]. rewrite Ho by exact N. now apply Hno.
Qed.

Definition gs_done (g : gs_solver tg) (result m : nat) hp (y : heap tg * bool) (z : vec * bool) : Prop :=
  snd y = snd z /\ frame [result; gs_M g] [gs_reg g] hp (fst y) /\
  shows (hm (fst y)) result 1 m (fun r _ => fst z r).

(** after the starting vector is in place *)
Lemma gs_tail_sim priv (hp : heap tg) g J W right result n m blk v w b x ms pstep (step : mats tg -> res (mats tg * cell tg)) :
  hinv priv hp -> NoDup [W; right; result; gs_M g] -> J <> gs_reg g -> system hp J W right n m blk v w b ->
  only result (hm hp) ms -> vecm (ms result) m x ->
  (forall ms' x', only result (hm hp) (upd ms' (gs_M g) (hm hp (gs_M g))) ->
     is_mat false (ms' (gs_M g)) m m (msys blk v w) -> vecm (ms' result) m x' ->
     rel (step ms') (psweep pstep m x') (sweep_rel ms' result m)) ->
  rel (let* ss := sp_right_scale 3 2 (hs hp) ms J W (gs_reg g) in
       let* ms := sp_multiply_transpose 3 2 (ss (gs_reg g)) (ss J) ms (gs_M g) in
       let* (ms, ok) := gs_iterate step (gs_min_delta g) (gs_max_iterations g) ms in
       Ok ({| hm := ms; hs := ss |}, ok))
      (piter pstep m (gs_min_delta g) (gs_max_iterations g) x)
      (gs_done g result m hp).
Proof.
  intros [Hwf Hswf] Hnd HJ (HsJ & Hin & HW & Hr) Ho Hx Hstep.
  assert (Nd : W <> gs_M g /\ right <> gs_M g /\ right <> result /\ result <> gs_M g /\ W <> result).
  { repeat match goal with H : NoDup (_ :: _) |- _ => inversion_clear H end. cbn in *. intuition congruence. }
  destruct Nd as (N1 & N2 & N3 & N4 & N5). clear Hnd.
  assert (HW' : vecm (ms W) n w) by (rewrite Ho by assumption; eapply shows_vec; [apply Hwf|exact HW]).
  assert (HwM : wf (priv (gs_M g)) (ms (gs_M g))) by (rewrite Ho by auto; apply Hwf).
  pose proof (build_matrix_spec _ (hs hp) ms J W (gs_reg g) (gs_M g) n m blk v w Hswf HwM HJ HsJ Hin HW') as HB.
  destruct (sp_right_scale 3 2 (hs hp) ms J W (gs_reg g)) as [ss| | |]; cbn [wp bind] in *; try contradiction.
  destruct HB as (Hso & _ & HB).
  destruct (sp_multiply_transpose 3 2 (ss (gs_reg g)) (ss J) ms (gs_M g)) as [ms1| | |]; cbn [wp bind] in *; try contradiction.
  destruct HB as [Ho1 Hm1]. apply is_mat_weaken in Hm1.
  rewrite <- (bind_ret_r (piter _ _ _ _ _)).
  eapply rel_bind.
  - apply (gs_iterate_sim step pstep ms1 result m).
    + intros ms2 x2 Ho2 Hx2. apply Hstep; [| |exact Hx2].
      * intros id Hid. unfold upd. destruct (Nat.eqb_spec id (gs_M g)) as [->|N]; [reflexivity|].
        rewrite Ho2, Ho1 by assumption. now apply Ho.
      * rewrite Ho2 by auto. exact Hm1.
    + apply only_refl.
    + rewrite Ho1 by auto. exact Hx.
  - intros [ms2 ok] [x2 ok'] (Ho2 & Hx2 & E). cbn [fst snd] in *. subst ok'. cbn.
    refine (conj eq_refl (conj (conj _ _) _)).
    + cbn [hm fst]. intros id Hid. cbn in Hid. rewrite Ho2, Ho1, Ho by intuition. reflexivity.
    + cbn [hs fst]. intros id Hid. apply Hso. cbn in Hid. intuition.
    + cbn [hm fst]. eapply is_mat_shows; exact Hx2.
Qed.

Lemma gs_solve_sim priv (hp : heap tg) g J W right previous result n m blk v w b x :
  hinv priv hp -> gs_names g J W right result -> system hp J W right n m blk v w b ->
  start_plain hp previous result m x ->
  rel (gs_solve g J W right previous result hp)
      (piter (pstep1 (msys blk v w) b m) m (gs_min_delta g) (gs_max_iterations g) x)
      (gs_done g result m hp).
Proof.
  intros Hinv [Hnd HJ] Hsys Hst. unfold gs_solve.
  assert (Hr : shows (hm hp) right 1 m (fun r _ => b r)) by apply Hsys.
  replace (m_h (hm hp right)) with m by (symmetry; apply Hr).
  pose proof (start_plain_ok priv hp previous result m x (proj1 Hinv) Hst) as HS.
  assert (Nd : right <> gs_M g /\ right <> result /\ result <> gs_M g).
  { clear -Hnd. repeat match goal with H : NoDup (_ :: _) |- _ => inversion_clear H end. cbn in *. intuition congruence. }
  destruct Nd as (N1 & N2 & N3).
  destruct (mresize (hm hp) result 1 m) as [ms0| | |]; cbn [wp bind] in *; try contradiction.
  destruct (warm_start ms0 previous result m) as [ms| | |]; cbn [wp bind] in *; try contradiction.
  destruct HS as [Ho Hx].
  apply (gs_tail_sim priv hp g J W right result n m blk v w b x ms); auto.
  intros ms' x' Ho' HM Hx'. apply gs_iteration_sim; auto.
  pose proof (Ho' right ltac:(auto)) as E. rewrite upd_other in E by auto. rewrite E.
  eapply shows_vec; [apply (proj1 Hinv)|exact Hr].
Qed.

Lemma gs_solve_limits_sim priv (hp : heap tg) g J W right limits previous result n m blk v w b lo hi x :
  hinv priv hp -> gs_names_limits g J W right limits result -> system hp J W right n m blk v w b ->
  limits_are (hm hp) limits m lo hi ->
  start_limits hp previous result m x ->
  rel (gs_solve_limits g J W right limits result previous hp)
      (piter (pstepL (msys blk v w) b lo hi m) m (gs_min_delta g) (gs_max_iterations g) x)
      (gs_done g result m hp).
Proof.
  intros Hinv [Hnd HJ] Hsys Hl Hst. unfold gs_solve_limits.
  assert (Hr : shows (hm hp) right 1 m (fun r _ => b r)) by apply Hsys.
  replace (m_h (hm hp right)) with m by (symmetry; apply Hr).
  pose proof (start_limits_ok priv hp previous result m x (proj1 Hinv) Hst) as HS.
  assert (Nd : right <> gs_M g /\ right <> result /\ result <> gs_M g /\ limits <> result /\ limits <> gs_M g /\
    NoDup [W; right; result; gs_M g]).
  { clear -Hnd. repeat match goal with H : NoDup (_ :: _) |- _ => inversion_clear H end. cbn in *.
    repeat (refine (conj _ _)); try (intuition congruence). repeat constructor; cbn; intuition congruence. }
  destruct Nd as (N1 & N2 & N3 & N4 & N5 & Hnd').
  match type of HS with wp (bind ?c _) _ => destruct c as [ms0| | |]; cbn [wp bind] in *; try contradiction end.
  destruct (warm_start ms0 previous result m) as [ms| | |]; cbn [wp bind] in *; try contradiction.
  destruct HS as [Ho Hx].
  apply (gs_tail_sim priv hp g J W right result n m blk v w b x ms); auto.
  intros ms' x' Ho' HM Hx'. apply gs_iteration_limits_sim; auto.
  - pose proof (Ho' right ltac:(auto)) as E. rewrite upd_other in E by auto. rewrite E.
    eapply shows_vec; [apply (proj1 Hinv)|exact Hr].
  - pose proof (Ho' limits ltac:(auto)) as E. rewrite upd_other in E by auto. rewrite E.
    eapply is_mat_weaken. eapply shows_is_mat; [apply (proj1 Hinv)|exact Hl].
Qed.
End Gs.
