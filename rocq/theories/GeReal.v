(** * Gaussian elimination over the reals. *)

From Coq Require Import Reals Lra.
From Verif Require Import Base Targets Matrix Sparse Sle Logic MatrixFacts MatrixOps SpecMatrix MatrixHist
  SparseFacts SpecSparse SparseHist SpecSle SleHist SleGe RealSum.
Local Open Scope nat_scope.

Lemma R_eqb_refl x : R_eqb x x = true.
Proof. now apply R_eqb_true. Qed.
Lemma R_eqb_false x y : R_eqb x y = false <-> x <> y.
Proof.
  destruct (R_eqb x y) eqn:E; split; intros H; try discriminate; auto.
  - apply R_eqb_true in E. contradiction.
  - intros E'. apply R_eqb_true in E'. congruence.
Qed.
Lemma R_div_some x y : y <> 0%R -> R_div x y = Some (x / y)%R.
Proof. intros N. unfold R_div. destruct (Req_EM_T y 0); [contradiction|reflexivity]. Qed.
Lemma Rsum_rev n f : Rsum n f = Rsum n (fun u => f (n - 1 - u)).
Proof.
  induction n; [reflexivity|]. rewrite (Rsum_head n (fun u => f (S n - 1 - u))).
  cbn [Rsum]. rewrite IHn, Rplus_comm. f_equal; [f_equal; lia|].
  apply Rsum_ext. intros i Hi. f_equal. lia.
Qed.

Section R.
Variable dbg : bool.
Variable m : nat.
Notation cl := (cell (RT dbg)).
Implicit Types (F : nat -> nat -> cl) (G : nat -> nat -> R).

Definition realF F G : Prop := forall r c, r < m -> c <= m -> F r c = (Some (G r c) : cl).

Lemma ceq_R x z : ceq (Some x : cl) (cofZ z) = Ok (R_eqb x (IZR z)).
Proof. reflexivity. Qed.
Lemma fast_abs_R x : fast_abs (Some x : cl) = Ok (Some (Rabs x) : cl).
Proof.
  unfold fast_abs, clt, cmp, cofZ. cbn. destruct (R_ltb 0 x) eqn:E; cbn.
  - apply R_ltb_true in E. now rewrite Rabs_right by lra.
  - apply R_ltb_false in E. now rewrite Rabs_left1 by lra.
Qed.

Lemma ppivot_R F G h k : realF F G -> h < m -> k <= m ->
  exists i, ppivot F m h k = Ok (i, Some (Rabs (G i k)) : cl) /\ h <= i < m /\
    forall i', h <= i' < m -> (Rabs (G i' k) <= Rabs (G i k))%R.
Proof.
  intros HF Hh Hk.
  assert (W : wp (ppivot F m h k) (fun x => exists i, x = (i, Some (Rabs (G i k)) : cl) /\ h <= i < m /\
    forall i', h <= i' < m -> (Rabs (G i' k) <= Rabs (G i k))%R)).
  { unfold ppivot. rewrite HF, fast_abs_R by assumption. cbn [bind].
    apply (for_range_inv _ (fun j x => exists i, x = (i, Some (Rabs (G i k)) : cl) /\ h <= i < m /\
      forall i', h <= i' < j -> (Rabs (G i' k) <= Rabs (G i k))%R)).
    - exists h. split; [reflexivity|]. split; [lia|]. intros i' Hi'. replace i' with h by lia. lra.
    - intros j x Hj (i & -> & Hi & Hmax). rewrite HF, fast_abs_R by lia. cbn [bind].
      unfold clt, cmp. cbn. destruct (R_ltb (Rabs (G i k)) (Rabs (G j k))) eqn:E; cbn.
      + apply R_ltb_true in E. exists j. split; [reflexivity|]. split; [lia|].
        intros i' Hi'. destruct (Nat.eq_dec i' j) as [->|]; [lra|].
        specialize (Hmax i' ltac:(lia)). lra.
      + apply R_ltb_false in E. exists i. split; [reflexivity|]. split; [lia|].
        intros i' Hi'. destruct (Nat.eq_dec i' j) as [->|]; [lra|]. apply Hmax; lia.
    - intros x (i & -> & Hi & Hmax). exists i. split; [reflexivity|]. split; [lia|].
      intros i' Hi'. apply Hmax. lia. }
  apply wp_ok in W. destruct W as (x & E & i & -> & H). exists i. auto.
Qed.

Definition relim G (h k : nat) : nat -> nat -> R := fun i j =>
  if Nat.ltb h i then
    if Nat.eqb j k then 0%R
    else if Nat.ltb k j then (G i j - G h j * (G i k / G h k))%R else G i j
  else G i j.
Lemma pelim_R F G h k : realF F G -> h < m -> k <= m -> G h k <> 0%R -> realF (pelim F h k) (relim G h k).
Proof.
  intros HF Hh Hk N r c Hr Hc. unfold pelim, relim.
  destruct (Nat.ltb_spec h r); [|now apply HF].
  destruct (Nat.eqb c k); [reflexivity|].
  destruct (Nat.ltb k c); [|now apply HF].
  rewrite !HF by assumption. unfold csub, cmul, cdiv, lift2, lift2p. cbn. now rewrite R_div_some.
Qed.
Lemma swap_R F G h i : realF F G -> h < m -> i < m -> realF (fun r c => F (swap_idx h i r) c) (fun r c => G (swap_idx h i r) c).
Proof. intros HF Hh Hi r c Hr Hc. apply HF; [now apply swap_idx_lt|exact Hc]. Qed.

(** x solves G x = t * (last column) *)
Definition sol G (x : nat -> R) (t : R) : Prop := forall r, r < m -> mulv m G x r = (t * G r m)%R.
Definition Z G (h k : nat) : Prop := forall r c, h <= r < m -> c < k -> c <= m -> G r c = 0%R.
Definition tri G (h : nat) : Prop := forall r, r < h -> G r r <> 0%R /\ forall c, c < r -> G r c = 0%R.
Definition sing G : Prop := exists x, sol G x 0 /\ exists c, c < m /\ x c <> 0%R.

Lemma swap_idx_inv a b r : swap_idx a b (swap_idx a b r) = r.
Proof.
  unfold swap_idx. destruct (Nat.eqb_spec r a) as [->|]; [|destruct (Nat.eqb_spec r b) as [->|]].
  - destruct (Nat.eqb_spec b a); [auto|]. now rewrite Nat.eqb_refl.
  - now rewrite Nat.eqb_refl.
  - destruct (Nat.eqb_spec r a); [contradiction|]. destruct (Nat.eqb_spec r b); [contradiction|reflexivity].
Qed.
Lemma sol_swap G h i x t : h < m -> i < m -> sol (fun r c => G (swap_idx h i r) c) x t <-> sol G x t.
Proof.
  intros Hh Hi. split; intros H r Hr.
  - specialize (H (swap_idx h i r) (swap_idx_lt _ _ _ _ Hh Hi Hr)). unfold mulv in *. cbn beta in H.
    now rewrite swap_idx_inv in H.
  - apply (H (swap_idx h i r)). now apply swap_idx_lt.
Qed.

(** every row below h becomes row - f * row h *)
Lemma relim_row G h k r c : Z G h k -> h < m -> k <= m -> G h k <> 0%R -> h < r < m -> c <= m ->
  relim G h k r c = (G r c - G r k / G h k * G h c)%R.
Proof.
  intros HZ Hh Hk N Hr Hc. unfold relim. destruct (Nat.ltb_spec h r); [|lia].
  destruct (Nat.eqb_spec c k) as [->|]; [field; exact N|].
  destruct (Nat.ltb_spec k c); [lra|].
  rewrite (HZ h c) by lia. lra.
Qed.
Lemma mulv_elim G h k x r : Z G h k -> h < m -> k <= m -> G h k <> 0%R -> h < r < m ->
  mulv m (relim G h k) x r = (mulv m G x r - G r k / G h k * mulv m G x h)%R.
Proof.
  intros HZ Hh Hk N Hr. unfold mulv. rewrite <- Rsum_scal_l, <- Rsum_minus.
  apply Rsum_ext. intros c Hc. rewrite relim_row by (auto; lia). lra.
Qed.
Lemma relim_low G h k r c : r <= h -> relim G h k r c = G r c.
Proof. intros Hr. unfold relim. destruct (Nat.ltb_spec h r); [lia|reflexivity]. Qed.
Lemma sol_elim G h k x t : Z G h k -> h < m -> k <= m -> G h k <> 0%R ->
  sol (relim G h k) x t <-> sol G x t.
Proof.
  intros HZ Hh Hk N.
  assert (Hlow : forall r, r <= h -> mulv m (relim G h k) x r = mulv m G x r).
  { intros r Hr. apply Rsum_ext. intros c Hc. now rewrite relim_low. }
  split; intros H r Hr.
  - destruct (Nat.le_gt_cases r h) as [L|L].
    + rewrite <- Hlow by exact L. rewrite H by exact Hr. now rewrite relim_low.
    + pose proof (H r Hr) as E1. pose proof (H h Hh) as E2.
      rewrite mulv_elim in E1 by (auto; lia). rewrite Hlow in E2 by lia. rewrite relim_low in E2 by lia.
      rewrite relim_row in E1 by (auto; lia). rewrite E2 in E1. lra.
  - destruct (Nat.le_gt_cases r h) as [L|L].
    + rewrite Hlow, relim_low by exact L. now apply H.
    + rewrite mulv_elim, relim_row by (auto; lia). rewrite (H r Hr), (H h Hh). lra.
Qed.
Lemma sing_ext G G' : (forall x t, sol G x t <-> sol G' x t) -> sing G -> sing G'.
Proof. intros E (x & Hx & Hc). exists x. split; [now apply E|exact Hc]. Qed.

(** solving the upper part for given lower components *)
Lemma tri_extend G h : tri G h -> h <= m -> forall y, exists x,
  (forall c, h <= c -> x c = y c) /\ forall r, r < h -> mulv m G x r = 0%R.
Proof.
  induction h as [|h IH]; intros HT Hm y.
  { exists y. split; [auto|]. intros; lia. }
  destruct (HT h ltac:(lia)) as [Nd Z0].
  set (rest := Rsum m (fun c => if Nat.eqb c h then 0%R else (G h c * y c)%R)).
  set (y' := fun c => if Nat.eqb c h then (- rest / G h h)%R else if Nat.ltb c h then 0%R else y c).
  destruct (IH ltac:(intros r Hr; apply HT; lia) ltac:(lia) y') as (x & Ex & Hx).
  exists x. split.
  - intros c Hc. rewrite Ex by lia. unfold y'. destruct (Nat.eqb_spec c h); [lia|].
    destruct (Nat.ltb_spec c h); [lia|reflexivity].
  - intros r Hr. destruct (Nat.eq_dec r h) as [->|]; [|apply Hx; lia].
    unfold mulv. rewrite (Rsum_remove m h) by lia.
    assert (E : Rsum m (fun i => if Nat.eqb i h then 0%R else (G h i * x i)%R) = rest).
    { apply Rsum_ext. intros c Hc. destruct (Nat.eqb_spec c h); [reflexivity|].
      destruct (Nat.lt_ge_cases c h) as [L|L]; [rewrite Z0 by exact L; lra|].
      rewrite Ex by lia. unfold y'. destruct (Nat.eqb_spec c h); [lia|].
      destruct (Nat.ltb_spec c h); [lia|reflexivity]. }
    rewrite E, Ex by lia. unfold y'. rewrite Nat.eqb_refl. field. exact Nd.
Qed.
(** a zero column below the triangle gives a kernel vector *)
Lemma skip_singular G h : tri G h -> h < m -> Z G h (S h) -> sing G.
Proof.
  intros HT Hh HZ. destruct (tri_extend G h HT ltac:(lia) (fun c => if Nat.eqb c h then 1%R else 0%R)) as (x & Ex & Hx).
  exists x. split; [|exists h; split; [exact Hh|rewrite Ex by lia; rewrite Nat.eqb_refl; lra]].
  intros r Hr. rewrite Rmult_0_l. destruct (Nat.lt_ge_cases r h) as [L|L]; [now apply Hx|].
  apply Rsum_eq0. intros c Hc. destruct (Nat.le_gt_cases c h) as [L'|L'].
  - rewrite (HZ r c) by lia. lra.
  - rewrite Ex by lia. destruct (Nat.eqb_spec c h); [lia|]. lra.
Qed.
Lemma tri_nonsing G : tri G m -> ~ sing G.
Proof.
  intros HT (x & Hx & c & Hc & Nc).
  assert (H : forall j c, c < m -> m <= c + j -> x c = 0%R).
  { induction j as [|j IH]; intros c' Hc' L; [lia|].
    destruct (Nat.le_gt_cases m (c' + j)) as [L'|L']; [now apply IH|].
    destruct (HT c' Hc') as [Nd Z0]. pose proof (Hx c' Hc') as E. unfold mulv in E.
    rewrite (Rsum_remove m c') in E by exact Hc'.
    rewrite (Rsum_eq0 m (fun i => if Nat.eqb i c' then 0%R else (G c' i * x i)%R)) in E.
    - rewrite Rplus_0_r, Rmult_0_l in E. apply Rmult_integral in E. destruct E; [contradiction|assumption].
    - intros i Hi. destruct (Nat.eqb_spec i c'); [reflexivity|].
      destruct (Nat.lt_ge_cases i c'); [rewrite Z0 by assumption; lra|].
      rewrite (IH i) by lia. lra. }
  apply Nc. apply (H m c Hc). lia.
Qed.

Lemma ploop_R : forall fuel F G h k,
  realF F G -> h <= m -> k <= m + 1 -> h <= k -> m + 1 <= fuel + k -> Z G h k ->
  (h = k -> tri G h) -> (h < k -> sing G /\ (h = m -> forall c, c < k - 1 -> c <= m -> G (m - 1) c = 0%R)) -> 0 < m ->
  exists F' G', ploop fuel F m (m + 1) h k = Ok F' /\ realF F' G' /\
    (forall x t, sol G x t <-> sol G' x t) /\
    (tri G' m \/ (G' (m - 1) (m - 1) = 0%R /\ sing G')).
Proof.
  induction fuel as [|fuel IH]; intros F G h k HF Hh Hk Hhk Hf HZ HT HS Hm; cbn [ploop].
  - destruct (Nat.ltb_spec h m) as [L|L], (Nat.ltb_spec k (m + 1)) as [L'|L']; cbn [andb]; try lia;
    (exists F, G; split; [reflexivity|]; split; [exact HF|]; split; [reflexivity|]).
    + right. split; [apply HZ; lia|apply HS; lia].
    + right. split; [|apply HS; lia]. apply HS; lia.
  - destruct (Nat.ltb_spec h m) as [L|L]; cbn [andb];
      [destruct (Nat.ltb_spec k (m + 1)) as [L'|L']|].
    + destruct (ppivot_R F G h k HF L ltac:(lia)) as (i & -> & Hi & Hmax). cbn [bind].
      unfold ceq, cmp, cofZ. cbn. destruct (R_eqb (Rabs (G i k)) 0) eqn:E.
      * apply R_eqb_true in E.
        assert (HZ' : Z G h (k + 1)).
        { intros r c Hr Hc Hcm. destruct (Nat.eq_dec c k) as [->|]; [|apply HZ; lia].
          specialize (Hmax r Hr). rewrite E in Hmax. pose proof (Rabs_pos (G r k)).
          destruct (Req_dec (G r k) 0) as [|N]; [assumption|]. apply Rabs_no_R0 in N. lra. }
        apply IH; auto; try lia. intros _. split; [|lia].
        destruct (Nat.eq_dec h k) as [E'|N'].
        -- apply (skip_singular G h); auto. subst k. replace (S h) with (h + 1) by lia. exact HZ'.
        -- apply HS. lia.
      * apply R_eqb_false in E.
        assert (N : G i k <> 0%R) by (intros E'; rewrite E', Rabs_R0 in E; auto).
        set (G1 := fun r c => G (swap_idx h i r) c).
        assert (E1 : swap_idx h i h = i) by (unfold swap_idx; now rewrite Nat.eqb_refl).
        assert (N1 : G1 h k <> 0%R) by (unfold G1; now rewrite E1).
        assert (HF1 : realF (fun r c => F (swap_idx h i r) c) G1) by (apply swap_R; auto; lia).
        assert (Hge : forall r, h <= r < m -> h <= swap_idx h i r < m).
        { intros r Hr. unfold swap_idx. destruct (Nat.eqb_spec r h); [lia|]. destruct (Nat.eqb_spec r i); lia. }
        assert (Hlo : forall r, r < h -> swap_idx h i r = r).
        { intros r Hr. unfold swap_idx. destruct (Nat.eqb_spec r h); [lia|]. destruct (Nat.eqb_spec r i); lia. }
        assert (HZ1 : Z G1 h k) by (intros r c Hr Hc Hcm; apply HZ; auto).
        assert (Hsol : forall x t, sol G x t <-> sol (relim G1 h k) x t).
        { intros x t. rewrite sol_elim by (auto; lia). symmetry. apply sol_swap; lia. }
        destruct (IH (pelim (fun r c => F (swap_idx h i r) c) h k) (relim G1 h k) (h + 1) (k + 1))
          as (F' & G' & E2 & HF' & Hs' & Hend); try lia.
        -- apply pelim_R; auto; lia.
        -- intros r c Hr Hc Hcm. unfold relim. destruct (Nat.ltb_spec h r); [|lia].
           destruct (Nat.eqb_spec c k); [reflexivity|]. destruct (Nat.ltb_spec k c); [lia|]. apply HZ1; lia.
        -- intros E2. assert (h = k) by lia. intros r Hr.
           destruct (Nat.eq_dec r h) as [->|Nr].
           ++ rewrite relim_low by lia. subst k. split; [exact N1|]. intros c Hc.
              rewrite relim_low by lia. apply HZ1; lia.
           ++ assert (Lr : r < h) by lia. destruct (HT ltac:(assumption) r Lr) as [D0 D1].
              rewrite relim_low by lia. unfold G1 at 1. rewrite Hlo by exact Lr. split; [exact D0|].
              intros c Hc. rewrite relim_low by lia. unfold G1. rewrite Hlo by exact Lr. now apply D1.
        -- intros Lk. assert (h < k) by lia. split; [eapply sing_ext; [exact Hsol|apply HS; lia]|].
           intros Em c Hc Hcm. rewrite relim_low by lia. apply HZ1; lia.
        -- exists F', G'. split; [exact E2|]. split; [exact HF'|]. split; [|exact Hend].
           intros x t. rewrite Hsol. apply Hs'.
    + exists F, G. split; [reflexivity|]. split; [exact HF|]. split; [reflexivity|].
      right. split; [apply HZ; lia|apply HS; lia].
    + exists F, G. split; [reflexivity|]. split; [exact HF|]. split; [reflexivity|].
      destruct (Nat.eq_dec h k) as [E|N].
      * left. replace m with h by lia. now apply HT.
      * right. split; [|apply HS; lia]. apply HS; lia.
Qed.

Definition val (x : cl) : R := match x with Some r => r | None => 0%R end.

Lemma pback_sum_R F G (x : nat -> cl) i : realF F G -> i < m ->
  (forall j, i < j < m -> x j = Some (val (x j))) ->
  pback_sum F x m i = (Some (Rsum (m - 1 - i) (fun u => G i (m - 1 - u)%nat * val (x (m - 1 - u)%nat))%R) : cl).
Proof.
  intros HF Hi Hx. unfold pback_sum. apply csum_R. intros u Hu. rewrite HF by lia.
  rewrite (Hx (m - 1 - u)) by lia. reflexivity.
Qed.

Lemma pback_R F G (x0 : nat -> cl) : realF F G -> tri G m -> 0 < m ->
  exists x, pback F x0 m = Ok x /\ (forall i, i < m -> x i = (Some (val (x i)) : cl)) /\
    forall i, i < m -> mulv m G (fun c => val (x c)) i = G i m.
Proof.
  intros HF HT Hm.
  set (I := fun t (x : nat -> cl) => forall i, m - 1 - t <= i < m -> x i = Some (val (x i)) /\
     Rsum (m - i) (fun u => G i (m - 1 - u)%nat * val (x (m - 1 - u)%nat))%R = G i m).
  assert (W : wp (pback F x0 m) (I (m - 1))).
  { unfold pback. apply (for_inv _ I); [| |auto].
    - intros i Hi. replace i with (m - 1) by lia. unfold xset at 1 2. rewrite Nat.eqb_refl.
      rewrite !HF by lia. unfold cdiv, lift2p. cbn.
      destruct (HT (m - 1) ltac:(lia)) as [Nd _]. rewrite R_div_some by exact Nd. split; [reflexivity|].
      replace (m - (m - 1)) with 1 by lia. cbn. replace (m - 1 - 0) with (m - 1) by lia.
      unfold xset. rewrite Nat.eqb_refl. rewrite ?HF by lia. cbn. rewrite ?R_div_some by exact Nd. cbn.
      field. exact Nd.
    - intros t x Ht Hx. cbv zeta. set (i := m - 2 - t). rewrite HF by lia.
      destruct (HT i ltac:(lia)) as [Nd _].
      unfold ceq, cmp, cofZ. cbn. destruct (R_eqb (G i i) 0) eqn:E; [apply R_eqb_true in E; contradiction|].
      cbn [bind negb wp].
      rewrite (pback_sum_R F G) by (first [assumption|lia|intros j Hj; apply Hx; lia]).
      rewrite !HF by lia. unfold cdiv, csub, lift2, lift2p. cbn [num n_sub n_div RT]. rewrite R_div_some by exact Nd.
      set (S0 := Rsum (m - 1 - i) (fun u => G i (m - 1 - u)%nat * val (x (m - 1 - u)%nat))%R).
      intros j Hj. destruct (Nat.eq_dec j i) as [->|Nj].
      + unfold xset at 1 2. rewrite Nat.eqb_refl. split; [reflexivity|].
        replace (m - i) with (S (m - 1 - i)) by lia. cbn [Rsum].
        replace (m - 1 - (m - 1 - i)) with i by lia.
        rewrite (Rsum_ext (m - 1 - i) _ (fun u => G i (m - 1 - u)%nat * val (x (m - 1 - u)%nat))%R).
        * fold S0. unfold xset. rewrite Nat.eqb_refl. cbn [val]. field. exact Nd.
        * intros u Hu. unfold xset. destruct (Nat.eqb_spec (m - 1 - u) i); [lia|reflexivity].
      + destruct (Hx j ltac:(lia)) as [E1 E2]. unfold xset at 1 2.
        destruct (Nat.eqb_spec j i); [contradiction|]. split; [exact E1|].
        rewrite <- E2. apply Rsum_ext. intros u Hu. unfold xset.
        destruct (Nat.eqb_spec (m - 1 - u) i); [lia|reflexivity]. }
  apply wp_ok in W. destruct W as (x & E & Hx). exists x. split; [exact E|].
  split; [intros i Hi; apply Hx; lia|]. intros i Hi. unfold mulv. rewrite Rsum_rev.
  destruct (Hx i ltac:(lia)) as [_ E2]. replace m with ((m - i) + i) at 1 by lia.
  rewrite Rsum_split. rewrite E2. rewrite (Rsum_eq0 i); [lra|].
  intros u Hu. destruct (HT i Hi) as [_ Z0]. rewrite Z0 by lia. lra.
Qed.

Lemma sol_aug (A : nat -> nat -> R) (b x : nat -> R) t :
  sol (fun r c => if Nat.ltb c m then A r c else b r) x t <-> solves m A x (fun r => (t * b r)%R).
Proof.
  assert (E : forall r, mulv m (fun r c => if Nat.ltb c m then A r c else b r) x r = mulv m A x r).
  { intros r. apply Rsum_ext. intros c Hc. destruct (Nat.ltb_spec c m); [reflexivity|lia]. }
  split; intros H r Hr; specialize (H r Hr); rewrite E in *; destruct (Nat.ltb_spec m m); try lia; exact H.
Qed.

Lemma pge_R (M : nat -> nat -> cl) (b : nat -> cl) A br :
  (forall r c, r < m -> c < m -> M r c = Some (A r c)) -> (forall r, r < m -> b r = Some (br r)) -> 0 < m ->
  (nonsingular m A -> exists x xr, pge m M b = Ok x /\ (forall i, i < m -> x i = Some (xr i)) /\ solves m A xr br) /\
  (~ nonsingular m A -> dbg = true -> pge m M b = AssertFail).
Proof.
  intros HM Hb Hm.
  set (G := fun r c => if Nat.ltb c m then A r c else br r).
  assert (HF : realF (aug M b m) G).
  { intros r c Hr Hc. unfold aug, G. destruct (Nat.ltb_spec c m); auto. }
  destruct (ploop_R (m + 1) (aug M b m) G 0 0 HF) as (F' & G' & E & HF' & Hs & Hend); try lia.
  { intros r c _ Hc. lia. } { intros _ r Hr. lia. }
  assert (Ep : pge m M b = let* _ := massert (RT dbg) (negb (R_eqb (G' (m - 1) (m - 1)) 0)) in
    let* x := pback F' (fun _ => None) m in
    let* _ := for_ m (fun i _ => let* f := cfinite (x i) in massert (RT dbg) f) tt in Ok x).
  { unfold pge. destruct (Nat.eqb_spec m 0); [lia|]. rewrite E. cbn [bind].
    rewrite HF' by lia. rewrite ceq_R. reflexivity. }
  rewrite Ep.
  assert (Hns : nonsingular m A <-> ~ sing G').
  { split.
    - intros Hn (x & Hx & c & Hc & Nc). apply Nc. apply (Hn x); [|exact Hc].
      apply Hs in Hx. apply (sol_aug A br) in Hx. intros r Hr. rewrite (Hx r Hr). lra.
    - intros Hn x Hx c Hc. destruct (Req_dec (x c) 0) as [|Nc]; [assumption|]. exfalso. apply Hn.
      exists x. split; [|now exists c]. apply Hs. apply (sol_aug A br). intros r Hr. rewrite (Hx r Hr). lra. }
  split.
  - intros Hn. destruct Hend as [HT|[_ Hsg]]; [|exfalso; now apply Hns].
    destruct (HT (m - 1) ltac:(lia)) as [Nd _].
    destruct (R_eqb (G' (m - 1) (m - 1)) 0) eqn:E0; [apply R_eqb_true in E0; contradiction|].
    cbn [negb massert bind].
    destruct (pback_R F' G' (fun _ => None) HF' HT Hm) as (x & -> & Hx & Hsol). cbn [bind].
    exists x, (fun c => val (x c)).
    assert (Ef : for_ m (fun i _ => let* f := cfinite (x i) in massert (RT dbg) f) tt = Ok tt).
    { assert (W : wp (for_ m (fun i _ => let* f := cfinite (x i) in massert (RT dbg) f) tt) (fun _ => True)).
      { apply (for_inv _ (fun _ _ => True)); auto. intros i [] Hi _. rewrite Hx by exact Hi. cbn. exact I. }
      apply wp_ok in W. destruct W as ([] & E1 & _). exact E1. }
    rewrite Ef. cbn [bind]. split; [reflexivity|]. split; [exact Hx|].
    intros r Hr. assert (Hsl : sol G' (fun c => val (x c)) 1).
    { intros r' Hr'. rewrite Hsol by exact Hr'. lra. }
    apply Hs in Hsl. apply (sol_aug A br) in Hsl. rewrite (Hsl r Hr). lra.
  - intros Hn Hd. destruct Hend as [HT|[Ez _]].
    + exfalso. apply Hn. apply Hns. now apply tri_nonsing.
    + rewrite Ez, R_eqb_refl. cbn [negb]. unfold massert. cbn. now rewrite Hd.
Qed.
End R.

(** an invertible system has a solution *)
Lemma nonsingular_solvable m A b : nonsingular m A -> exists x, solves m A x b.
Proof.
  intros Hn. destruct (Nat.eq_dec m 0) as [->|N]; [exists (fun _ => 0%R); intros r Hr; lia|].
  destruct (pge_R true m (fun r c => Some (A r c)) (fun r => Some (b r)) A b) as [H _]; auto; [lia|].
  destruct (H Hn) as (x & xr & _ & _ & Hs). now exists xr.
Qed.
Lemma posdef_nonsingular m A : positive_definite m A -> nonsingular m A.
Proof.
  intros Hp x Hx c Hc. destruct (Req_dec (x c) 0) as [|N]; [assumption|]. exfalso.
  assert (Hpos := Hp x (ex_intro _ c (conj Hc N))).
  assert (E : dot m x (mulv m A x) = 0%R).
  { apply Rsum_eq0. intros i Hi. rewrite (Hx i Hi). lra. }
  lra.
Qed.
