(** * Gauss-Seidel over the reals, over binary64, and its safety. *)

From Coq Require Import Reals Lra SpecFloat.
From Verif Require Import Base Targets Matrix Sparse Sle Logic MatrixFacts MatrixOps SpecMatrix MatrixHist
  SparseFacts SpecSparse SparseHist SpecSle SleHist SleGe GeReal GeHist SleGs RealSum.
Local Open Scope nat_scope.

(** ** sweeps over the reals *)
Section R.
Variable dbg : bool.
Variable m : nat.
Notation cl := (cell (RT dbg)).
Notation vec := (nat -> cl).
Notation vecR := (nat -> R).

Definition lifts (x : vec) (xr : vecR) : Prop := forall i, i < m -> x i = (Some (xr i) : cl).
Definition rset (x : vecR) (i : nat) (v : R) : vecR := fun k => if Nat.eqb k i then v else x k.
Lemma lifts_set x xr i v : lifts x xr -> lifts (xset x i (Some v : cl)) (rset xr i v).
Proof. intros H k Hk. unfold xset, rset. destruct (Nat.eqb k i); [reflexivity|now apply H]. Qed.

Section Sweep.
Variable step : vec -> nat -> cl * cl.
Variables (c d : vecR -> nat -> R).
Hypothesis step_R : forall x xr i, i < m -> lifts x xr -> step x i = ((Some (c xr i) : cl), (Some (d xr i) : cl)).
(** the vector before component i is treated *)
Definition traj (xr : vecR) (i : nat) : vecR := iter i (fun i y => rset y i (c y i)) xr.

Lemma gs_max_R a e : gs_max (Some a : cl) (Some e) = Ok (Some (Rmax e a) : cl).
Proof.
  unfold gs_max, clt, cmp. cbn. unfold Rmax. destruct (R_ltb e a) eqn:E.
  - apply R_ltb_true in E. destruct (Rle_dec e a); [reflexivity|lra].
  - apply R_ltb_false in E. destruct (Rle_dec e a); [|reflexivity]. do 2 f_equal. lra.
Qed.

Lemma psweep_R x xr : lifts x xr ->
  exists x' e, psweep step m x = Ok (x', Some e : cl) /\ lifts x' (traj xr m) /\
    (forall i, i < m -> (d (traj xr i) i <= e)%R) /\
    (e = 0%R \/ exists i, i < m /\ e = d (traj xr i) i).
Proof.
  intros Hx.
  assert (W : wp (psweep step m x) (fun y => lifts (fst y) (traj xr m) /\ exists e, snd y = (Some e : cl) /\
    (forall i, i < m -> (d (traj xr i) i <= e)%R) /\ (e = 0%R \/ exists i, i < m /\ e = d (traj xr i) i))).
  { unfold psweep.
    apply (for_inv _ (fun j y => lifts (fst y) (traj xr j) /\ exists e, snd y = (Some e : cl) /\
      (forall i, i < j -> (d (traj xr i) i <= e)%R) /\ (e = 0%R \/ exists i, i < j /\ e = d (traj xr i) i))).
    - split; [exact Hx|]. exists 0%R. split; [reflexivity|]. split; [intros; lia|now left].
    - intros j [y e] Hj [Hy (e' & Ee & Hle & Hin)]. cbn [fst snd] in *. subst e.
      rewrite (step_R _ _ _ Hj Hy). cbn [fst snd]. rewrite gs_max_R. cbn [bind wp fst snd].
      split; [exact (lifts_set _ _ _ _ Hy)|].
      exists (Rmax e' (d (traj xr j) j)). split; [reflexivity|]. split.
      + intros i Hi. destruct (Nat.eq_dec i j) as [->|]; [apply Rmax_r|].
        eapply Rle_trans; [apply Hle; lia|apply Rmax_l].
      + unfold Rmax. destruct (Rle_dec e' (d (traj xr j) j)).
        * right. exists j. split; [lia|reflexivity].
        * destruct Hin as [->|(i & Hi & ->)]; [now left|right; exists i; split; [lia|reflexivity]].
    - auto. }
  apply wp_ok in W. destruct W as ([x' e] & E & H1 & e' & E2 & H2). cbn [fst snd] in *. subst e.
  exists x', e'. auto.
Qed.

Lemma traj_later xr i j : i <= j -> traj xr i j = xr j.
Proof.
  revert j. induction i; intros j Hj; [reflexivity|]. cbn. unfold rset at 1.
  destruct (Nat.eqb_spec j i); [lia|]. apply IHi. lia.
Qed.
Lemma traj_done xr i j : j < i -> traj xr i j = c (traj xr j) j.
Proof.
  induction i; intros Hj; [lia|]. cbn. unfold rset at 1.
  destruct (Nat.eqb_spec j i) as [->|]; [reflexivity|]. apply IHi. lia.
Qed.

Hypothesis c_ext : forall x y i, i < m -> (forall j, j < m -> x j = y j) -> c x i = c y i.
Lemma stationary_iff xr :
  (forall j, j < m -> traj xr m j = xr j) <-> (forall i, i < m -> c xr i = xr i).
Proof.
  split.
  - intros H.
    assert (Hall : forall i, i <= m -> forall j, j < m -> traj xr i j = xr j).
    { intros i Hi j Hj. destruct (Nat.lt_ge_cases j i) as [L|L]; [|now apply traj_later].
      rewrite traj_done by exact L. rewrite <- (traj_done xr m j) by exact Hj. now apply H. }
    intros i Hi. rewrite <- (H i Hi), (traj_done xr m i Hi). apply c_ext; [exact Hi|].
    intros j Hj. symmetry. apply Hall; lia.
  - intros H. assert (Hall : forall i, i <= m -> forall j, j < m -> traj xr i j = xr j).
    { induction i; intros Hi j Hj; [reflexivity|]. cbn. unfold rset at 1.
      destruct (Nat.eqb_spec j i) as [->|]; [|apply IHi; lia].
      rewrite (c_ext _ xr) by (auto; intros; apply IHi; lia). now apply H. }
    apply Hall. lia.
Qed.
End Sweep.

(** ** the candidate *)
Variables (A : nat -> nat -> R) (b lo hi : vecR).
Definition candR (x : vecR) (i : nat) : R :=
  (1 / A i i * (b i - Rsum i (fun j => A i j * x j) - Rsum (m - (i + 1)) (fun u => A i (i + 1 + u)%nat * x (i + 1 + u)%nat)))%R.
Lemma candR_eq x i : i < m -> A i i <> 0%R -> candR x i = (x i + (b i - mulv m A x i) / A i i)%R.
Proof.
  intros Hi N. unfold candR, mulv.
  replace m with ((i + 1) + (m - (i + 1))) at 2 by lia. rewrite Rsum_split.
  replace (i + 1) with (S i) by lia. cbn [Rsum]. field. exact N.
Qed.
Lemma candR_ext x y i : i < m -> (forall j, j < m -> x j = y j) -> candR x i = candR y i.
Proof.
  intros Hi H. unfold candR. f_equal. f_equal.
  - f_equal. apply Rsum_ext. intros j Hj. rewrite H by lia. reflexivity.
  - apply Rsum_ext. intros u Hu. rewrite H by lia. reflexivity.
Qed.
Definition clampR (l h x : R) : R := Rmax l (Rmin h x).
Definition stepLR (x : vecR) (i : nat) : R := clampR (lo i) (hi i) (candR x i).
Definition deltaLR (x : vecR) (i : nat) : R := (Rabs (stepLR x i - x i) / Rmax (1 / 1000) (Rabs (x i)))%R.
Lemma stepLR_ext x y i : i < m -> (forall j, j < m -> x j = y j) -> stepLR x i = stepLR y i.
Proof. intros Hi H. unfold stepLR. now rewrite (candR_ext x y). Qed.

Variables (M : nat -> nat -> cl) (bc loc hic : vec).
Hypothesis M_R : forall r c, r < m -> c < m -> M r c = (Some (A r c) : cl).
Hypothesis b_R : lifts bc b.
Hypothesis lo_R : lifts loc lo.
Hypothesis hi_R : lifts hic hi.

Lemma pcand_R x xr i : i < m -> lifts x xr -> A i i <> 0%R -> pcand M bc m x i = (Some (candR xr i) : cl).
Proof.
  intros Hi Hx N. unfold pcand.
  rewrite (csum_R dbg i _ (fun j => A i j * xr j)%R).
  2:{ intros j Hj. rewrite M_R, Hx by lia. reflexivity. }
  rewrite (csum_R dbg (m - (i + 1)) _ (fun u => A i (i + 1 + u)%nat * xr (i + 1 + u)%nat)%R).
  2:{ intros u Hu. rewrite M_R, Hx by lia. reflexivity. }
  rewrite M_R, b_R by assumption. unfold cmul, csub, cdiv, lift2, lift2p, cofZ. cbn.
  rewrite R_div_some by exact N. reflexivity.
Qed.
Lemma clit_1000 : (clit 1 1000 : cl) = Some (1 / 1000)%R.
Proof. unfold clit, cdiv, lift2p, cofZ. cbn. rewrite R_div_some by lra. reflexivity. Qed.
Lemma min_k_pos y : (0 < Rmax (1 / 1000) y)%R.
Proof. eapply Rlt_le_trans; [|apply Rmax_l]. lra. Qed.
Lemma pstepL_R x xr i : i < m -> lifts x xr -> A i i <> 0%R ->
  pstepL M bc loc hic m x i = ((Some (stepLR xr i) : cl), (Some (deltaLR xr i) : cl)).
Proof.
  intros Hi Hx N. unfold pstepL. rewrite (pcand_R x xr) by assumption.
  rewrite (lo_R i Hi), (hi_R i Hi), (Hx i Hi), clit_1000.
  unfold gs_clamp, cfmax, cfmin, csub, cabs, cdiv, lift1, lift2, lift2p. cbn.
  rewrite R_div_some by (apply Rgt_not_eq, min_k_pos). reflexivity.
Qed.

(** a sweep that returns has divided by every diagonal element *)
Lemma cfmax_none (x : cl) : cfmax x None = None.
Proof. now destruct x. Qed.
Lemma cfmin_none (x : cl) : cfmin x None = None.
Proof. now destruct x. Qed.
Lemma pcand_zero x i : i < m -> A i i = 0%R -> pcand M bc m x i = None.
Proof.
  intros Hi E. unfold pcand. rewrite M_R, E by assumption.
  unfold cmul, cdiv, lift2, lift2p, cofZ. cbn. unfold R_div. destruct (Req_EM_T 0 0); [reflexivity|lra].
Qed.
Lemma gs_max_none (e : cl) : gs_max None e = UB.
Proof. unfold gs_max, clt, cmp. now destruct e. Qed.
Lemma psweepL_diag x : pc (psweep (pstepL M bc loc hic m) m x) (fun _ => forall i, i < m -> A i i <> 0%R).
Proof.
  unfold psweep, for_.
  eapply pc_mono; [apply (for_from_pci _ (fun j _ => forall i, i < j -> A i i <> 0%R)); [|intros; lia]|auto].
  intros j [y e] Hj IH. destruct (Req_dec (A j j) 0) as [E|N].
  - assert (En : snd (pstepL M bc loc hic m y j) = (None : cl)).
    { unfold pstepL, gs_clamp. cbn [snd]. rewrite (pcand_zero y j) by (auto; lia).
      rewrite cfmin_none, cfmax_none. reflexivity. }
    rewrite En, gs_max_none. exact I.
  - apply pc_any. intros e'. cbn. intros i Hi. destruct (Nat.eq_dec i j) as [->|]; [exact N|apply IH; lia].
Qed.

(** ** stationary vectors *)
Lemma clamp_fixed l h x g a : (0 < a)%R -> (l <= h)%R ->
  clampR l h (x + g / a) = x <-> ((l <= x <= h) /\ (g = 0 \/ (x = l /\ g < 0) \/ (x = h /\ g > 0)))%R.
Proof.
  intros Ha Hl.
  assert (Hg : (g / a * a = g)%R) by (field; lra).
  revert Hg. generalize (g / a)%R. intros q Hg.
  assert (Hs : ((q < 0 /\ g < 0) \/ (q = 0 /\ g = 0) \/ (q > 0 /\ g > 0))%R).
  { destruct (Rtotal_order q 0) as [H|[H|H]].
    - left. split; nra.
    - right. left. split; nra.
    - right. right. split; nra. }
  unfold clampR, Rmax, Rmin. split.
  - intros E. destruct (Rle_dec h (x + q)); destruct (Rle_dec l _); destruct Hs as [H|[H|H]];
      (split; [lra|]); try lra.
  - intros [HL H]. destruct (Rle_dec h (x + q)); destruct (Rle_dec l _); lra.
Qed.

Lemma stationary_solves xr : (forall i, i < m -> (0 < A i i)%R) -> (forall i, i < m -> (lo i <= hi i)%R) ->
  (forall i, i < m -> stepLR xr i = xr i) <-> solves_limited m A lo hi b xr.
Proof.
  intros Hp Hl.
  assert (E : forall i, i < m -> stepLR xr i = clampR (lo i) (hi i) (xr i + (b i - mulv m A xr i) / A i i)%R).
  { intros i Hi. unfold stepLR. rewrite candR_eq by (auto; apply Rgt_not_eq, Hp, Hi). reflexivity. }
  split.
  - intros H. split; intros i Hi; specialize (H i Hi); rewrite (E i Hi) in H;
      apply clamp_fixed in H; auto; destruct H as [H1 H2]; [exact H1|]. lra.
  - intros [H1 H2] i Hi. rewrite (E i Hi). apply clamp_fixed; auto. split; [now apply H1|].
    destruct (H2 i Hi) as [H|[H|H]]; lra.
Qed.
Lemma stationary_solves_plain xr : (forall i, i < m -> (A i i <> 0)%R) ->
  (forall i, i < m -> candR xr i = xr i) <-> solves m A xr b.
Proof.
  intros Hp. split; intros H i Hi; specialize (H i Hi); specialize (Hp i Hi).
  - rewrite candR_eq in H by auto.
    assert (E : ((b i - mulv m A xr i) / A i i * A i i = b i - mulv m A xr i)%R) by (field; exact Hp).
    assert (Z : ((b i - mulv m A xr i) / A i i = 0)%R) by lra. rewrite Z in E. lra.
  - rewrite candR_eq by auto. rewrite H. field. exact Hp.
Qed.

(** ** energy *)
Lemma mulv_rset x i v r : i < m -> mulv m A (rset x i v) r = (mulv m A x r + A r i * (v - x i))%R.
Proof.
  intros Hi. unfold mulv.
  rewrite (Rsum_remove m i (fun c => A r c * rset x i v c)%R Hi), (Rsum_remove m i (fun c => A r c * x c)%R Hi).
  unfold rset at 1. rewrite Nat.eqb_refl.
  rewrite (Rsum_ext m (fun i0 => if Nat.eqb i0 i then 0%R else (A r i0 * rset x i v i0)%R)
     (fun i0 => if Nat.eqb i0 i then 0%R else (A r i0 * x i0)%R)); [lra|].
  intros j Hj. unfold rset. destruct (Nat.eqb j i); reflexivity.
Qed.
Lemma dot_rset x i v y : i < m -> dot m y (rset x i v) = (dot m y x + y i * (v - x i))%R.
Proof.
  intros Hi. unfold dot.
  rewrite (Rsum_remove m i (fun c => y c * rset x i v c)%R Hi), (Rsum_remove m i (fun c => y c * x c)%R Hi).
  unfold rset at 1. rewrite Nat.eqb_refl.
  rewrite (Rsum_ext m (fun i0 => if Nat.eqb i0 i then 0%R else (y i0 * rset x i v i0)%R)
     (fun i0 => if Nat.eqb i0 i then 0%R else (y i0 * x i0)%R)); [lra|].
  intros j Hj. unfold rset. destruct (Nat.eqb j i); reflexivity.
Qed.
Lemma dot_comm x y : dot m x y = dot m y x.
Proof. apply Rsum_ext. intros; apply Rmult_comm. Qed.
Lemma energy_rset x i v : symmetric m A -> i < m ->
  energy m A b (rset x i v) = (energy m A b x + A i i * (v - x i) * (v - x i) / 2 - (v - x i) * (b i - mulv m A x i))%R.
Proof.
  intros Hs Hi. unfold energy.
  rewrite (dot_rset x i v b Hi).
  assert (E : dot m (rset x i v) (mulv m A (rset x i v)) =
    (dot m x (mulv m A x) + 2 * (v - x i) * mulv m A x i + (v - x i) * (v - x i) * A i i)%R).
  { rewrite dot_comm, dot_rset by exact Hi. rewrite mulv_rset by exact Hi.
    assert (E2 : dot m (mulv m A (rset x i v)) x = (dot m (mulv m A x) x + (v - x i) * mulv m A x i)%R).
    { unfold dot. rewrite (Rsum_ext m _ (fun r => mulv m A x r * x r + (v - x i) * (A i r * x r))%R).
      - rewrite Rsum_plus, Rsum_scal_l. reflexivity.
      - intros r Hr. rewrite mulv_rset by exact Hi. rewrite (Hs i r) by assumption. ring. }
    rewrite E2, dot_comm. ring. }
  rewrite E. field.
Qed.

Lemma clamp_in l h x : (l <= h)%R -> (l <= clampR l h x <= h)%R.
Proof. intros H. unfold clampR, Rmax, Rmin. destruct (Rle_dec h x), (Rle_dec l _); lra. Qed.
Lemma clamp_proj l h x y : (l <= y <= h)%R -> ((x - clampR l h x) * (clampR l h x - y) >= 0)%R.
Proof.
  intros H. unfold clampR, Rmax, Rmin.
  destruct (Rle_dec h x); destruct (Rle_dec l _); try lra; nra.
Qed.

Lemma energy_step x i : symmetric m A -> i < m -> (0 < A i i)%R -> (lo i <= x i <= hi i)%R ->
  (energy m A b (rset x i (stepLR x i)) <= energy m A b x - A i i * (stepLR x i - x i) * (stepLR x i - x i) / 2)%R.
Proof.
  intros Hs Hi Hp Hb. rewrite energy_rset by assumption.
  assert (E : (b i - mulv m A x i = A i i * (candR x i - x i))%R) by (rewrite candR_eq by (auto; lra); field; lra).
  rewrite E. pose proof (clamp_proj (lo i) (hi i) (candR x i) (x i) Hb) as HP. fold (stepLR x i) in HP. nra.
Qed.

Lemma traj_within xr i : i <= m -> (forall i, i < m -> (lo i <= hi i)%R) -> within m lo hi xr -> within m lo hi (traj stepLR xr i).
Proof.
  intros Hi Hl Hw j Hj. destruct (Nat.lt_ge_cases j i) as [L|L].
  - rewrite traj_done by exact L. apply clamp_in. now apply Hl.
  - rewrite traj_later by exact L. now apply Hw.
Qed.
Lemma sweep_within xr : (forall i, i < m -> (lo i <= hi i)%R) -> within m lo hi (traj stepLR xr m).
Proof. intros Hl j Hj. rewrite traj_done by exact Hj. apply clamp_in. now apply Hl. Qed.

Lemma energy_traj xr : symmetric m A -> (forall i, i < m -> (0 < A i i)%R) -> (forall i, i < m -> (lo i <= hi i)%R) ->
  within m lo hi xr -> forall j, j <= m ->
  (energy m A b (traj stepLR xr j) <= energy m A b xr -
     Rsum j (fun i => A i i * (stepLR (traj stepLR xr i) i - traj stepLR xr i i) * (stepLR (traj stepLR xr i) i - traj stepLR xr i i) / 2))%R.
Proof.
  intros Hs Hp Hl Hw. induction j; intros Hj; [cbn; lra|].
  cbn [Rsum]. change (traj stepLR xr (S j)) with (rset (traj stepLR xr j) j (stepLR (traj stepLR xr j) j)).
  eapply Rle_trans; [apply energy_step; [exact Hs|lia|apply Hp; lia|]|].
  - apply (traj_within xr j); auto; lia.
  - specialize (IHj ltac:(lia)). lra.
Qed.

Lemma energy_sweep xr : symmetric m A -> (forall i, i < m -> (0 < A i i)%R) -> (forall i, i < m -> (lo i <= hi i)%R) ->
  within m lo hi xr ->
  forall i, i < m ->
  (energy m A b (traj stepLR xr m) <= energy m A b xr -
     A i i * (traj stepLR xr m i - xr i) * (traj stepLR xr m i - xr i) / 2)%R.
Proof.
  intros Hs Hp Hl Hw i Hi. eapply Rle_trans; [apply energy_traj; auto|].
  rewrite (Rsum_remove m i _ Hi). cbv beta. rewrite (traj_done stepLR xr m i) by exact Hi. rewrite (traj_later stepLR xr i i) by lia.
  match goal with |- (_ - (_ + ?r) <= _)%R => assert (H : (0 <= r)%R) end; [|lra].
  apply Rsum_nonneg. intros j Hj. destruct (Nat.eqb j i); [lra|]. specialize (Hp j Hj).
  generalize (stepLR (traj stepLR xr j) j - traj stepLR xr j j)%R. intros q.
  pose proof (Rle_0_sqr q) as Hq. unfold Rsqr in Hq. nra.
Qed.
End R.
