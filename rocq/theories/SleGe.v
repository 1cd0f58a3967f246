(** * Gaussian elimination on tables, and its agreement with the model. *)

From Coq Require Import Reals.
From Verif Require Import Base Targets Matrix Sparse Sle Logic MatrixFacts MatrixOps SpecMatrix MatrixHist
  SparseFacts SpecSparse SparseHist SpecSle SleHist.

Section Ge.
Context {tg : target}.
Local Open Scope cell_scope.
Implicit Types (ms : mats tg) (F M : nat -> nat -> cell tg).

(** ** the same algorithm on tables *)
Definition ppivot F (m h k : nat) : res (nat * cell tg) :=
  let* v0 := fast_abs (F h k) in
  for_range (h + 1) m (fun i '(imax, maxV) =>
    let* v := fast_abs (F i k) in
    let* gt := clt maxV v in
    if (gt : bool) then Ok (i, v) else Ok (imax, maxV)) (h, v0).

Definition pelim F (h k : nat) : nat -> nat -> cell tg := fun i j =>
  if Nat.ltb h i then
    if Nat.eqb j k then cofZ 0
    else if Nat.ltb k j then F i j - F h j * (F i k / F h k) else F i j
  else F i j.

Fixpoint ploop (fuel : nat) F (m n h k : nat) : res (nat -> nat -> cell tg) :=
  if Nat.ltb h m && Nat.ltb k n then
    match fuel with
    | O => OutOfFuel
    | S fuel' =>
        let* (imax, maxV) := ppivot F m h k in
        let* z := ceq maxV (cofZ 0) in
        if (z : bool) then ploop fuel' F m n h (k + 1)
        else ploop fuel' (pelim (fun r c => F (swap_idx h imax r) c) h k) m n (h + 1) (k + 1)
    end
  else Ok F.

Definition xset (x : nat -> cell tg) (i : nat) (v : cell tg) : nat -> cell tg :=
  fun k => if Nat.eqb k i then v else x k.
Definition pback_sum F (x : nat -> cell tg) (m i : nat) : cell tg :=
  csum (m - 1 - i) (fun u => F i (m - 1 - u)%nat * x (m - 1 - u)%nat).
Definition pback F (x0 : nat -> cell tg) (m : nat) : res (nat -> cell tg) :=
  for_ (m - 1) (fun t x =>
    let i := (m - 2 - t)%nat in
    let* z := ceq (F i i) (cofZ 0) in
    Ok (xset x i (if negb z then (F i m - pback_sum F x m i) / F i i else cofZ 0)))
    (xset x0 (m - 1) (F (m - 1)%nat m / F (m - 1)%nat (m - 1)%nat)).

Definition aug M (b : nat -> cell tg) (m : nat) : nat -> nat -> cell tg :=
  fun r c => if Nat.ltb c m then M r c else b r.

Definition pge (m : nat) M (b : nat -> cell tg) : res (nat -> cell tg) :=
  if Nat.eqb m 0 then Ok (fun _ => None) else
  let* F := ploop (m + 1) (aug M b m) m (m + 1) 0 0 in
  let* z := ceq (F (m - 1)%nat (m - 1)%nat) (cofZ 0) in
  let* _ := massert tg (negb z) in
  let* x := pback F (fun _ => None) m in
  let* _ := for_ m (fun i _ => let* f := cfinite (x i) in massert tg f) tt in
  Ok x.

(** ** agreement *)
Lemma rel_same {A B C} (r : res A) (k : A -> res B) (k' : A -> res C) Q :
  (forall a, rel (k a) (k' a) Q) -> rel (bind r k) (bind r k') Q.
Proof. destruct r; cbn; auto. Qed.
Lemma rel_refl {A} (r : res A) : rel r r eq.
Proof. destruct r; cbn; auto. Qed.

Lemma ge_find_pivot_sim ms A m n h k F :
  is_mat false (ms A) n m F -> h < m -> k < n ->
  ge_find_pivot ms A m h k = ppivot F m h k /\ pc (ppivot F m h k) (fun x => h <= fst x < m).
Proof.
  intros H Hh Hk. split.
  - unfold ge_find_pivot, ppivot. rewrite (mget_spec _ _ _ _ _ _ _ _ H) by assumption. cbn [bind].
    destruct (fast_abs (F h k)) as [v0| | |]; cbn [bind]; auto.
    match goal with |- ?a = ?b => assert (R : rel a b eq) end.
    { unfold for_range.
      eapply rel_mono; [apply (for_from_rel _ _ (fun _ => eq)); [|reflexivity]|auto].
      intros j t t' Hj <-. destruct t as [im mv].
      rewrite (mget_spec _ _ _ _ _ _ _ _ H) by lia. cbn [bind].
      repeat (apply rel_same; intros ?). apply rel_refl. }
    revert R. unfold for_range.
    match goal with |- rel ?a ?b eq -> _ => destruct a, b; cbn; intros; subst; auto; contradiction end.
  - unfold ppivot. apply pc_any; intros v0. unfold for_range.
    eapply pc_mono; [apply (for_from_pci _ (fun _ x => h <= fst x < m)); [|cbn; lia]|auto].
    intros j [i v] Hj Hi. do 2 (apply pc_any; intros ?).
    match goal with |- pc (if ?b then _ else _) _ => destruct b end; cbn in *; auto. lia.
Qed.

Lemma ge_eliminate_sim ms A m n h k F :
  is_mat false (ms A) n m F -> h < m -> k < n ->
  wp (ge_eliminate ms A m n h k) (fun ms' => only A ms ms' /\ is_mat false (ms' A) n m (pelim F h k)).
Proof.
  intros H Hh Hk. unfold ge_eliminate.
  apply (for_range_inv _ (fun i ms' => only A ms ms' /\ is_mat false (ms' A) n m
    (fun r c => if Nat.ltb r i then pelim F h k r c else F r c))).
  - split; [apply only_refl|]. eapply is_mat_ext; [exact H|]. intros r c _ _. unfold pelim.
    destruct (Nat.ltb_spec r (h + 1)); [|reflexivity]. destruct (Nat.ltb_spec h r); [lia|reflexivity].
  - intros i ms1 Hi [Ho Hm].
    rewrite (mget_spec _ _ _ _ _ _ _ _ Hm) by lia. cbn [bind].
    rewrite (mget_spec _ _ _ _ _ _ _ _ Hm) by lia. cbn [bind].
    destruct (Nat.ltb_spec i i); [lia|]. destruct (Nat.ltb_spec h i); [|lia].
    assert (Eh : forall j, pelim F h k h j = F h j).
    { intros j. unfold pelim. destruct (Nat.ltb_spec h h); [lia|reflexivity]. }
    rewrite !Eh. set (f := F i k / F h k).
    eapply wp_seq; [eapply mset_spec; [exact Hm|exact Hk|lia]|]. intros ms2 [Ho2 Hm2].
    apply (for_range_inv _ (fun j ms' => only A ms ms' /\ is_mat false (ms' A) n m
      (fun r c => if Nat.ltb r i then pelim F h k r c else
         if Nat.eqb r i then (if Nat.ltb c j then pelim F h k r c else F r c) else F r c))).
    + split; [eapply only_trans; eassumption|]. eapply is_mat_ext; [exact Hm2|]. intros r c Hr Hc.
      unfold fset. destruct (Nat.eqb_spec r i) as [->|]; cbn [andb].
      * destruct (Nat.ltb_spec i i); [lia|]. unfold pelim.
        destruct (Nat.ltb_spec h i); [|lia].
        destruct (Nat.eqb_spec c k) as [->|].
        -- destruct (Nat.ltb_spec k (k + 1)); [reflexivity|lia].
        -- destruct (Nat.ltb_spec k c), (Nat.ltb_spec c (k + 1)); try lia; reflexivity.
      * reflexivity.
    + intros j ms3 Hj [Ho3 Hm3].
      rewrite (mget_spec _ _ _ _ _ _ _ _ Hm3) by lia. cbn [bind].
      rewrite (mget_spec _ _ _ _ _ _ _ _ Hm3) by lia. cbn [bind].
      eapply wp_mono; [eapply mset_spec; [exact Hm3|lia|lia]|]. intros ms4 [Ho4 Hm4].
      split; [eapply only_trans; eassumption|]. eapply is_mat_ext; [exact Hm4|]. intros r c Hr Hc.
      unfold fset. destruct (Nat.ltb_spec i i); [lia|].
      destruct (Nat.ltb_spec h i) as [_|]; [|lia].
      rewrite Nat.eqb_refl. rewrite Eh. destruct (Nat.ltb_spec j j); [lia|].
      destruct (Nat.eqb_spec r i) as [->|]; cbn [andb].
      * destruct (Nat.eqb_spec c j) as [->|].
        -- destruct (Nat.ltb_spec i i); [lia|]. destruct (Nat.ltb_spec j (S j)); [|lia].
           unfold pelim. destruct (Nat.ltb_spec h i); [|lia].
           destruct (Nat.eqb_spec j k); [lia|]. destruct (Nat.ltb_spec k j); [reflexivity|lia].
        -- destruct (Nat.ltb_spec i i); [lia|].
           destruct (Nat.ltb_spec c j), (Nat.ltb_spec c (S j)); auto; lia.
      * reflexivity.
    + intros ms3 [Ho3 Hm3]. split; [exact Ho3|]. eapply is_mat_ext; [exact Hm3|]. intros r c Hr Hc.
      cbn beta. destruct (Nat.ltb_spec r i), (Nat.ltb_spec r (S i)), (Nat.eqb_spec r i); auto; try lia.
      destruct (Nat.ltb_spec c (Nat.max (k + 1) n)); [reflexivity|lia].
  - intros ms' [Ho Hm]. split; [exact Ho|]. eapply is_mat_ext; [exact Hm|]. intros r c Hr Hc.
    cbn beta. destruct (Nat.ltb_spec r (Nat.max (h + 1) m)); [reflexivity|lia].
Qed.

Lemma ge_loop_sim A m n : forall fuel ms h k F,
  is_mat false (ms A) n m F ->
  rel (ge_loop fuel ms A m n h k) (ploop fuel F m n h k)
    (fun ms' F' => only A ms ms' /\ is_mat false (ms' A) n m F').
Proof.
  induction fuel as [|fuel IH]; intros ms h k F H; cbn [ge_loop ploop].
  - destruct (_ && _); cbn; auto. split; [apply only_refl|exact H].
  - destruct (Nat.ltb_spec h m) as [L|L]; cbn [andb]; [|cbn; split; [apply only_refl|exact H]].
    destruct (Nat.ltb_spec k n) as [L'|L']; [|cbn; split; [apply only_refl|exact H]].
    destruct (ge_find_pivot_sim ms A m n h k F H L L') as [-> Hp].
    destruct (ppivot F m h k) as [[i v]| | |]; cbn [bind rel pc fst] in *; auto.
    apply rel_same. intros z. destruct z; [now apply IH|].
    pose proof (mat_row_swap_spec _ _ _ _ _ h i H L ltac:(lia)) as Hs.
    destruct (mat_row_swap (ms A) h i) as [a| | |]; cbn [bind wp] in *; try contradiction.
    assert (Hu : is_mat false (upd ms A a A) n m (fun r c => F (swap_idx h i r) c)) by (now rewrite upd_same).
    pose proof (ge_eliminate_sim _ A m n h k _ Hu L L') as He.
    destruct (ge_eliminate (upd ms A a) A m n h k) as [ms'| | |]; cbn [bind wp] in *; try contradiction.
    destruct He as [Ho Hm]. eapply rel_mono; [apply IH; exact Hm|].
    intros ms'' F'' [Ho' Hm']. split; [|exact Hm'].
    eapply only_trans; [|exact Ho']. eapply only_trans; [|exact Ho]. apply only_upd.
Qed.

Lemma ge_back_sim ms A result m F x0 :
  is_mat false (ms A) (m + 1) m F -> is_mat false (ms result) 1 m (fun r _ => x0 r) -> A <> result -> 0 < m ->
  rel (ge_back_substitute ms A result m (m + 1)) (pback F x0 m)
    (fun ms' x => only result ms ms' /\ is_mat false (ms' result) 1 m (fun r _ => x r)).
Proof.
  intros HA Hr N Hm. unfold ge_back_substitute.
  rewrite (mget_spec _ _ _ _ _ _ _ _ HA) by lia. cbn [bind].
  rewrite (mget_spec _ _ _ _ _ _ _ _ HA) by lia. cbn [bind].
  replace (m + 1 - 1)%nat with m by lia. replace (m + 1 - 2)%nat with (m - 1)%nat by lia.
  pose proof (mset_spec _ _ _ _ _ _ 0 (m - 1) (F (m - 1)%nat m / F (m - 1)%nat (m - 1)%nat) Hr ltac:(lia) ltac:(lia)) as W.
  destruct (mset ms result 0 (m - 1) _) as [ms1| | |]; cbn [bind wp] in *; try contradiction.
  destruct W as [Ho1 Hm1]. unfold pback.
  apply (for_rel _ _ (fun _ ms' x => only result ms ms' /\ is_mat false (ms' result) 1 m (fun r _ => x r))).
  - split; [exact Ho1|]. eapply is_mat_ext; [exact Hm1|]. intros r c Hrr Hc. unfold fset, xset.
    replace c with 0%nat by lia. cbn. now rewrite andb_true_r.
  - intros t ms2 x Ht [Ho2 Hm2].
    assert (HA2 : is_mat false (ms2 A) (m + 1) m F) by (rewrite Ho2 by assumption; exact HA).
    cbv zeta. set (i := (m - 2 - t)%nat).
    rewrite (mget_spec _ _ _ _ _ _ _ _ HA2) by lia. cbn [bind].
    rewrite (for_sum2 (m - 1 - i) (fun u => mget ms2 A (m - 1 - u) i) (fun u => mget ms2 result 0 (m - 1 - u))
       (fun u => F i (m - 1 - u)%nat) (fun u => x (m - 1 - u)%nat)).
    2:{ intros u Hu. rewrite (mget_spec _ _ _ _ _ _ _ _ HA2); [reflexivity|lia|lia]. }
    2:{ intros u Hu. rewrite (mget_spec _ _ _ _ _ _ _ _ Hm2); [reflexivity|lia|lia]. }
    cbn [bind]. rewrite (mget_spec _ _ _ _ _ _ _ _ HA2) by lia. cbn [bind].
    apply rel_same. intros z.
    fold (pback_sum F x m i). set (val := if negb z then (F i m - pback_sum F x m i) / F i i else cofZ 0).
    assert (Es : (if negb z then mset ms2 result 0 i ((F i m - pback_sum F x m i) / F i i)
                  else mset ms2 result 0 i (cofZ 0)) = mset ms2 result 0 i val)
      by (unfold val; destruct z; reflexivity).
    rewrite Es. pose proof (mset_spec _ _ _ _ _ _ 0 i val Hm2 ltac:(lia) ltac:(lia)) as W.
    destruct (mset ms2 result 0 i val) as [ms3| | |]; cbn [wp rel] in *; try contradiction.
    destruct W as [Ho3 Hm3]. split; [eapply only_trans; eassumption|].
    eapply is_mat_ext; [exact Hm3|]. intros r c Hrr Hc. unfold fset, xset.
    replace c with 0%nat by lia. cbn. now rewrite andb_true_r.
Qed.

(** extensionality of the table programs *)
Definition teq (w h : nat) F F' : Prop := forall r c, r < h -> c < w -> F r c = F' r c.

(** reading a vector *)
Definition isvec (mt : matrix tg) (m : nat) (x : nat -> cell tg) : Prop := is_mat false mt 1 m (fun r _ => x r).

(** *** the matrix J diag(w) J^T, evaluation order included *)
Definition wsc (blk : nat -> nat -> Z) (v : nat -> nat -> nat -> cell tg) (w : nat -> cell tg) : nat -> nat -> nat -> cell tg :=
  fun r e k => w (bcol 3 (blk r e) k) * v r e k.
Definition msys (blk : nat -> nat -> Z) (v : nat -> nat -> nat -> cell tg) (w : nat -> cell tg) (r c : nat) : cell tg :=
  srowrow 3 2 (blk r) (wsc blk v w r) (blk c) (v c).

(** the common prefix of the Gaussian and Gauss-Seidel solvers *)
Lemma build_matrix_spec k (ss : sps tg) ms J W reg Mt n m blk v w :
  allswf 3 2 ss -> wf k (ms Mt) -> J <> reg ->
  sp_shows 3 2 (ss J) n m blk v -> blocks_inside 3 2 n m blk ->
  is_mat false (ms W) 1 n (fun r _ => w r) ->
  wp (sp_right_scale 3 2 ss ms J W reg) (fun ss' =>
    sonly reg ss ss' /\ allswf 3 2 ss' /\
    wp (sp_multiply_transpose 3 2 (ss' reg) (ss' J) ms Mt) (post k ms Mt m m (msys blk v w))).
Proof.
  intros Hs Hk N Hsh Hin HW.
  destruct (sp_shows_is_sp _ _ _ _ _ _ _ (Hs J) Hsh) as (v' & Hv' & Ev').
  assert (Hlt : forall r e, r < m -> e < 2 -> (blk r e < Z.of_nat n)%Z \/ blk r e = 255%Z)
    by (apply (blk_lt 3); [lia|exact Hin]).
  assert (Hins : forall r e, r < m -> e < 2 -> inside 3 n (blk r e)) by (now apply inside_of).
  pose proof (sp_right_scale_spec 3 2 ss ms J W reg n m blk v' (fun r _ => w r) N Hv' (Hs reg) Hlt Hins HW) as Hq.
  pose proof (right_scale_pc ss ms J W reg Hs) as Hp.
  apply (wp_mono _ (fun x => scale_done 3 2 ss reg n m blk (fun r e k0 => w (bcol 3 (blk r e) k0) * v' r e k0) x /\ allswf 3 2 x)).
  - destruct (sp_right_scale 3 2 ss ms J W reg); cbn in *; auto.
  - intros ss' [(Ho & u & Hu & Eu) Ha]. split; [exact Ho|]. split; [exact Ha|].
    assert (HJ : is_sp 3 2 (ss' J) n m blk v') by (rewrite Ho by assumption; exact Hv').
    eapply wp_mono; [apply (sp_multiply_transpose_spec 3 2 k _ _ ms Mt n m m blk u blk v'); assumption|].
    intros ms' [Ho' Hm']. split; [exact Ho'|]. eapply is_mat_ext; [exact Hm'|].
    intros r c Hr Hc. unfold msys. apply srowrow_ext.
    + intros e j He Hj Nb. rewrite Eu by assumption. cbn beta. unfold wsc. now rewrite Ev'.
    + intros e j He Hj Nb. now apply Ev'.
Qed.

(** back substitution overwrites every component *)
Lemma pback_ext F x0 x0' m : 0 < m ->
  rel (pback F x0 m) (pback F x0' m) (fun x x' => forall i, i < m -> x i = x' i).
Proof.
  intros Hm. unfold pback.
  eapply rel_mono; [apply (for_rel _ _ (fun t x x' => forall i, m - 1 - t <= i < m -> x i = x' i))|].
  - intros i Hi. unfold xset. replace i with (m - 1)%nat by lia. now rewrite Nat.eqb_refl.
  - intros t x x' Ht E. cbv zeta. apply rel_same. intros z. apply rel_ret.
    intros i Hi. unfold xset.
    assert (Es : pback_sum F x m (m - 2 - t) = pback_sum F x' m (m - 2 - t)).
    { apply csum_ext. intros u Hu. rewrite E by lia. reflexivity. }
    rewrite Es. destruct (Nat.eqb_spec i (m - 2 - t)); [reflexivity|apply E; lia].
  - intros x x' E i Hi. apply E. lia.
Qed.

Lemma rel_trans {A B C} (a : res A) (b : res B) (c : res C) (P : A -> B -> Prop) (Q : B -> C -> Prop) (R : A -> C -> Prop) :
  rel a b P -> rel b c Q -> (forall x y z, P x y -> Q y z -> R x z) -> rel a c R.
Proof. destruct a, b, c; cbn; auto; try contradiction. intros; eauto. Qed.

Lemma shows_vec ms id m (x : nat -> cell tg) k : wf k (ms id) ->
  shows ms id 1 m (fun r _ => x r) -> is_mat false (ms id) 1 m (fun r _ => x r).
Proof. intros H Hs. eapply is_mat_weaken. eapply shows_is_mat; eassumption. Qed.

Definition frame (ids : list nat) (sids : list nat) (hp hp' : heap tg) : Prop :=
  (forall id, ~ In id ids -> hm hp' id = hm hp id) /\ (forall id, ~ In id sids -> hs hp' id = hs hp id).

Lemma ge_solve_sim_a priv (hp : heap tg) g J W right prev result n m blk v w b :
  hinv priv hp -> ge_names g J W right result -> system hp J W right n m blk v w b ->
  rel (ge_solve g J W right prev result hp) (pge m (msys blk v w) b)
    (fun y x => snd y = true /\ frame [result; ge_a g; ge_M g] [ge_reg g] hp (fst y) /\
       (0 < m -> shows (hm (fst y)) result 1 m (fun r _ => x r) /\
          exists F, ploop (m + 1) (aug (msys blk v w) b m) m (m + 1) 0 0 = Ok F /\ is_mat false (hm (fst y) (ge_a g)) (m + 1) m F)).
Proof.
  intros [Hwf Hswf] [Hnd HJ] (HsJ & Hin & HW & Hr).
  assert (Nd : W <> ge_M g /\ right <> ge_M g /\ right <> result /\ right <> ge_a g /\
    result <> ge_a g /\ result <> ge_M g /\ ge_a g <> ge_M g).
  { repeat match goal with H : NoDup (_ :: _) |- _ => inversion_clear H end. cbn in *. intuition congruence. }
  destruct Nd as (N1 & N2 & N3 & N4 & N5 & N6 & N7). clear Hnd.
  pose proof (shows_vec _ _ _ _ _ (Hwf W) HW) as HW'.
  pose proof (shows_vec _ _ _ _ _ (Hwf right) Hr) as Hr'.
  unfold ge_solve.
  pose proof (build_matrix_spec _ (hs hp) (hm hp) J W (ge_reg g) (ge_M g) n m blk v w Hswf (Hwf (ge_M g)) HJ HsJ Hin HW') as HB.
  destruct (sp_right_scale 3 2 (hs hp) (hm hp) J W (ge_reg g)) as [ss| | |]; cbn [wp bind] in *; try contradiction.
  destruct HB as (Hso & _ & HB).
  destruct (sp_multiply_transpose 3 2 (ss (ge_reg g)) (ss J) (hm hp) (ge_M g)) as [ms1| | |]; cbn [wp bind] in *; try contradiction.
  destruct HB as [Ho1 Hm1]. rewrite (is_mat_w _ _ _ _ _ Hm1), (is_mat_h _ _ _ _ _ Hm1).
  rewrite bind_massert by (rewrite Ho1 by assumption; rewrite (is_mat_h _ _ _ _ _ Hr'); apply Nat.eqb_refl).
  unfold pge. destruct (Nat.eqb_spec (m + 1) 0); [lia|]. cbn [orb].
  assert (Fr : forall id, ~ In id [result; ge_a g; ge_M g] -> id <> result /\ id <> ge_a g /\ id <> ge_M g).
  { intros id Hid. cbn in Hid. intuition. }
  destruct (Nat.eqb_spec m 0) as [E0|N0].
  { cbn. split; [reflexivity|]. split; [|lia]. split; [|intros id Hid; apply Hso; cbn in Hid; intuition].
    intros id Hid. destruct (Fr id Hid) as (? & ? & ?). now apply Ho1. }
  cbv zeta.
  assert (Hw2 : wf (priv result) (ms1 result)) by (rewrite Ho1 by assumption; apply Hwf).
  pose proof (mresize_spec _ ms1 result 1 m Hw2) as HR.
  destruct (mresize ms1 result 1 m) as [ms2| | |]; cbn [wp bind] in *; try contradiction.
  destruct HR as (Ho2 & (x0 & Hx0) & _).
  assert (Hw3 : wf (priv (ge_a g)) (ms2 (ge_a g))) by (rewrite Ho2, Ho1 by auto; apply Hwf).
  pose proof (mresize_spec _ ms2 (ge_a g) (m + 1) m Hw3) as HR.
  destruct (mresize ms2 (ge_a g) (m + 1) m) as [ms3| | |]; cbn [wp bind] in *; try contradiction.
  destruct HR as (Ho3 & (f3 & Hf3) & _). apply is_mat_weaken in Hf3.
  (* copying *)
  match goal with |- rel (bind (for_ m ?f ms3) _) _ _ =>
    assert (HC : wp (for_ m f ms3) (fun ms' => only (ge_a g) ms3 ms' /\ is_mat false (ms' (ge_a g)) (m + 1) m (aug (msys blk v w) b m))) end.
  { assert (HM3 : is_mat false (ms3 (ge_M g)) m m (msys blk v w)).
    { rewrite Ho3, Ho2 by auto. eapply is_mat_weaken; exact Hm1. }
    assert (Hr3 : is_mat false (ms3 right) 1 m (fun r _ => b r)) by (rewrite Ho3, Ho2, Ho1 by auto; exact Hr').
    apply (for_inv _ (fun i ms' => only (ge_a g) ms3 ms' /\ is_mat false (ms' (ge_a g)) (m + 1) m
      (fun r c => if Nat.ltb r i then aug (msys blk v w) b m r c else f3 r c))).
    - split; [apply only_refl|]. eapply is_mat_ext; [exact Hf3|]. intros r c _ _.
      destruct (Nat.ltb_spec r 0); [lia|reflexivity].
    - intros i ms4 Hi [Ho4 Hm4]. replace (m + 1 - 1)%nat with m by lia.
      eapply wp_seq.
      + apply (for_inv _ (fun j ms' => only (ge_a g) ms3 ms' /\ is_mat false (ms' (ge_a g)) (m + 1) m
          (fun r c => if Nat.ltb r i then aug (msys blk v w) b m r c else
             if Nat.eqb r i && Nat.ltb c j then msys blk v w r c else f3 r c)) m _ (fun ms' =>
          only (ge_a g) ms3 ms' /\ is_mat false (ms' (ge_a g)) (m + 1) m
          (fun r c => if Nat.ltb r i then aug (msys blk v w) b m r c else
             if Nat.eqb r i && Nat.ltb c m then msys blk v w r c else f3 r c))).
        * split; [exact Ho4|]. eapply is_mat_ext; [exact Hm4|]. intros r c _ _.
          destruct (Nat.ltb_spec c 0); [lia|]. now rewrite andb_false_r.
        * intros j ms5 Hj [Ho5 Hm5].
          rewrite (mget_spec false ms5 (ge_M g) m m (msys blk v w)) by (first [rewrite Ho5 by auto; exact HM3|lia]).
          cbn [bind]. eapply wp_mono; [eapply mset_spec; [exact Hm5|lia|lia]|].
          intros ms6 [Ho6 Hm6]. split; [eapply only_trans; eassumption|].
          eapply is_mat_ext; [exact Hm6|]. intros r c _ _. unfold fset.
          destruct (Nat.eqb_spec r i) as [->|]; cbn [andb]; [|reflexivity].
          destruct (Nat.ltb_spec i i); [lia|].
          destruct (Nat.eqb_spec c j) as [->|]; [destruct (Nat.ltb_spec j (S j)); [reflexivity|lia]|].
          destruct (Nat.ltb_spec c j), (Nat.ltb_spec c (S j)); auto; lia.
        * auto.
      + intros ms5 [Ho5 Hm5]. cbn beta.
        rewrite (mget_spec false ms5 right 1 m (fun r _ => b r)) by (first [rewrite Ho5 by auto; exact Hr3|lia]).
        cbn [bind]. eapply wp_mono; [eapply mset_spec; [exact Hm5|lia|lia]|].
        intros ms6 [Ho6 Hm6]. split; [eapply only_trans; eassumption|].
        eapply is_mat_ext; [exact Hm6|]. intros r c _ Hc. unfold fset.
        destruct (Nat.eqb_spec r i) as [->|].
        * destruct (Nat.ltb_spec i i), (Nat.ltb_spec i (S i)); try lia. cbn [andb]. unfold aug.
          destruct (Nat.eqb_spec c m) as [->|]; [destruct (Nat.ltb_spec m m); [lia|reflexivity]|].
          destruct (Nat.ltb_spec c m); [reflexivity|lia].
        * cbn [andb]. destruct (Nat.ltb_spec r i), (Nat.ltb_spec r (S i)); auto; lia.
    - intros ms4 [Ho4 Hm4]. split; [exact Ho4|]. eapply is_mat_ext; [exact Hm4|]. intros r c Hrr _. cbn beta.
      destruct (Nat.ltb_spec r m); [reflexivity|lia]. }
  match goal with |- rel (bind ?c _) _ _ => destruct c as [ms4| | |]; cbn [wp bind] in HC |- *; try contradiction end.
  destruct HC as [Ho4 Hm4].
  pose proof (ge_loop_sim (ge_a g) m (m + 1) (m + 1) _ 0 0 _ Hm4) as HL.
  destruct (ge_loop (m + 1) ms4 (ge_a g) m (m + 1) 0 0) as [ms5| | |],
    (ploop (m + 1) (aug (msys blk v w) b m) m (m + 1) 0 0) as [F| | |]; cbn [rel] in HL; try contradiction;
    cbn [bind]; try exact I.
  destruct HL as [Ho5 Hm5].
  rewrite (mget_spec _ _ _ _ _ _ _ _ Hm5) by lia. cbn [bind].
  replace (m + 1 - 2)%nat with (m - 1)%nat by lia.
  apply rel_same; intros z. apply rel_same; intros _.
  assert (Hx5 : is_mat false (ms5 result) 1 m (fun r _ => x0 r 0%nat)).
  { rewrite Ho5, Ho4, Ho3 by auto. eapply is_mat_ext; [eapply is_mat_weaken; exact Hx0|].
    intros r c _ Hc. now replace c with 0%nat by lia. }
  eapply rel_bind.
  - eapply rel_trans; [apply (ge_back_sim ms5 (ge_a g) result m F (fun r => x0 r 0%nat)); auto; lia
      |apply (pback_ext F _ (fun _ => None)); lia|].
    intros ms' x x' [Ho Hx] E. cbn beta in *.
    assert (Hx' : only result ms5 ms' /\ is_mat false (ms' result) 1 m (fun r _ => x' r)).
    { split; [exact Ho|]. eapply is_mat_ext; [exact Hx|]. intros r c Hrr _. now apply E. }
    exact Hx'.
  - intros ms6 x [Ho6 Hm6]. cbn beta.
    eapply rel_bind with (P := fun _ _ => True).
    + apply (for_rel _ _ (fun _ _ _ => True)); [exact I|]. intros i [] [] Hi _.
      rewrite (mget_spec _ _ _ _ _ _ _ _ Hm6) by lia. cbn [bind].
      apply rel_same. intros fb. eapply rel_mono; [apply rel_refl|auto].
    + intros _ _ _. apply rel_ret. cbn [fst snd hm hs]. split; [reflexivity|].
      split; [|intros _; split; [eapply is_mat_shows; exact Hm6|]; exists F; split; [reflexivity|];
        rewrite Ho6 by auto; exact Hm5].
      split; cbn [hm hs]; [|intros id Hid; apply Hso; cbn in Hid; intuition].
      intros id Hid. destruct (Fr id Hid) as (? & ? & ?).
      now rewrite Ho6, Ho5, Ho4, Ho3, Ho2, Ho1 by auto.
Qed.

Lemma ge_solve_sim priv (hp : heap tg) g J W right prev result n m blk v w b :
  hinv priv hp -> ge_names g J W right result -> system hp J W right n m blk v w b ->
  rel (ge_solve g J W right prev result hp) (pge m (msys blk v w) b)
    (fun y x => snd y = true /\ frame [result; ge_a g; ge_M g] [ge_reg g] hp (fst y) /\
       (0 < m -> shows (hm (fst y)) result 1 m (fun r _ => x r))).
Proof.
  intros H1 H2 H3. eapply rel_mono; [eapply ge_solve_sim_a; eassumption|].
  intros y x (Ha & Hb & Hc). split; [exact Ha|]. split; [exact Hb|]. intros Hm. apply (Hc Hm).
Qed.
End Ge.
