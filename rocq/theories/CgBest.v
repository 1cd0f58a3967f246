(** * Conjugate gradient finds the best point of the Krylov space (C125, C126). *)

From Coq Require Import Reals Lra.
From Verif Require Import Base Targets Matrix Sparse Sle Logic SpecMatrix SpecSparse SparseHist SpecSle SleHist GeHist RealSum GeReal SleGs GsReal SleCg CgReal CgHist SpecKrylov.
Local Open Scope nat_scope.

Section Vec.
Variable m : nat.
Variable A : nat -> nat -> R.
Notation dt := (dot m).
Notation mul x := (mulv m A x).

Lemma mul_ext x y r : (forall i, i < m -> x i = y i) -> mul x r = mul y r.
Proof. intros H. apply Rsum_ext. intros i Hi. now rewrite H. Qed.
Lemma mul_sum k (c : nat -> R) (u : nat -> nat -> R) r : mul (fun i => Rsum k (fun j => c j * u j i)%R) r = Rsum k (fun j => c j * mul (u j) r)%R.
Proof.
  unfold mulv. rewrite (Rsum_ext m _ (fun i => Rsum k (fun j => c j * (A r i * u j i)))%R).
  - rewrite Rsum_swap. apply Rsum_ext. intros j Hj. now rewrite Rsum_scal_l.
  - intros i Hi. rewrite <- Rsum_scal_l. apply Rsum_ext. intros; ring.
Qed.

(** ** combinations of the first k vectors of a family *)
Section Span.
Variable u : nat -> nat -> R.
Definition span (k : nat) (y : nat -> R) : Prop := exists c, forall i, i < m -> y i = Rsum k (fun j => c j * u j i)%R.
Lemma span_ext k y y' : (forall i, i < m -> y i = y' i) -> span k y -> span k y'.
Proof. intros E [c H]. exists c. intros i Hi. rewrite <- E by exact Hi. auto. Qed.
Lemma span_zero k : span k (fun _ => 0%R).
Proof. exists (fun _ => 0%R). intros i Hi. symmetry. apply Rsum_eq0. intros; ring. Qed.
Lemma span_comb k y z s : span k y -> span k z -> span k (fun i => y i + s * z i)%R.
Proof.
  intros [c H] [d H']. exists (fun j => c j + s * d j)%R. intros i Hi. rewrite (H i Hi), (H' i Hi).
  rewrite <- Rsum_scal_l, <- Rsum_plus. apply Rsum_ext. intros; ring.
Qed.
Lemma span_more k y : span k y -> span (S k) y.
Proof.
  intros [c H]. exists (fun j => if Nat.ltb j k then c j else 0%R). intros i Hi. rewrite (H i Hi). cbn [Rsum].
  rewrite Nat.ltb_irrefl. rewrite Rmult_0_l, Rplus_0_r. apply Rsum_ext. intros j Hj. apply Nat.ltb_lt in Hj. now rewrite Hj.
Qed.
Lemma span_le k l y : k <= l -> span k y -> span l y.
Proof. induction 1; auto using span_more. Qed.
Lemma span_one j : span (S j) (u j).
Proof.
  exists (fun i => if Nat.eqb i j then 1%R else 0%R). intros i Hi.
  rewrite (Rsum_ext (S j) _ (fun t => if Nat.eqb t j then u t i else 0%R)).
  - rewrite (Rsum_single (S j) j (fun t => u t i)) by lia. reflexivity.
  - intros t Ht. destruct (Nat.eqb t j); ring.
Qed.
Lemma span_in j k : j < k -> span k (u j).
Proof. intros H. apply (span_le (S j)); [lia|apply span_one]. Qed.
Lemma span_dot k y z : span k y -> (forall j, j < k -> dt z (u j) = 0%R) -> dt z y = 0%R.
Proof.
  intros [c H] Z. rewrite (dot_ext m z z y _ (fun _ _ => eq_refl) H). unfold dot.
  rewrite (Rsum_ext m _ (fun i => Rsum k (fun j => c j * (z i * u j i)))%R).
  - rewrite Rsum_swap. apply Rsum_eq0. intros j Hj. rewrite Rsum_scal_l. change (Rsum m (fun i => z i * u j i)%R) with (dt z (u j)). rewrite (Z j Hj). ring.
  - intros i Hi. rewrite <- Rsum_scal_l. apply Rsum_ext. intros; ring.
Qed.
(* from one family to another *)
Lemma span_trans (v : nat -> nat -> R) k l y : (exists c, forall i, i < m -> y i = Rsum l (fun j => c j * v j i)%R) -> (forall j, j < l -> span k (v j)) -> span k y.
Proof.
  intros [c H] Hv. apply (span_ext k (fun i => Rsum l (fun j => c j * v j i)%R)); [intros i Hi; symmetry; auto|]. clear y H.
  induction l as [|l IH]; [apply span_zero|]. cbn [Rsum].
  apply (span_ext k (fun i => Rsum l (fun j => c j * v j i) + c l * v l i)%R); [reflexivity|].
  apply span_comb; [apply IH; intros; apply Hv; lia|apply Hv; lia].
Qed.
End Span.

Lemma krylov_span r k y : krylov m A r k y <-> span (power m A r) k y.
Proof. reflexivity. Qed.
Lemma krylov_mul r k y : krylov m A r k y -> krylov m A r (S k) (mul y).
Proof.
  intros [c H]. exists (fun j => match j with O => 0%R | S j => c j end). intros i Hi.
  rewrite (mul_ext _ _ i H), mul_sum, Rsum_head. rewrite Rmult_0_l, Rplus_0_l. reflexivity.
Qed.

Section Orth.
Variable r0 : nat -> R.
Notation r k := (fst (rp m A r0 k)).
Notation p k := (snd (rp m A r0 k)).
Hypothesis Hs : symmetric m A.
Hypothesis Hp : positive_definite m A.

Lemma rp_krylov j : krylov m A r0 (S j) (r j) /\ krylov m A r0 (S j) (p j).
Proof.
  induction j as [|j [I1 I2]].
  - split; apply krylov_span, span_one.
  - assert (R1 : krylov m A r0 (S (S j)) (r (S j))).
    { cbn [rp fst]. unfold rR. apply krylov_span. apply (span_comb _ _ (r j) (mul (p j))); [now apply span_more|]. now apply krylov_mul. }
    split; [exact R1|]. cbn [rp snd]. unfold pR. apply krylov_span. apply (span_comb _ _ (rR m A (r j) (p j)) (p j)); [exact R1|now apply span_more].
Qed.

Variable k : nat.
Hypothesis Hnz : forall j, j < k -> dt (r j) (r j) <> 0%R.
Notation sp := (span (fun j => p j)).
Lemma r_in_span j : sp (S j) (r j).
Proof.
  destruct j as [|j].
  - apply span_one.
  - apply (span_ext _ _ (fun i => p (S j) i + (- betaR m A (r j) (p j)) * p j i)%R).
    + intros i Hi. cbn [rp fst snd]. unfold pR. ring.
    + apply span_comb; apply (span_in (fun j => p j)); lia.
Qed.
Lemma alpha_nz j : j < k -> alphaR m A (r j) (p j) <> 0%R.
Proof.
  intros Hj. destruct (orth_all m A r0 Hs Hp j) as (_ & _ & _ & Id); [intros; apply Hnz; lia|].
  pose proof (pAp_pos m A r0 Hp j (Hnz j Hj) (Id j ltac:(lia))) as H. unfold alphaR, Rdiv.
  apply Rmult_integral_contrapositive_currified; [now apply Hnz|]. apply Rinv_neq_0_compat. lra.
Qed.
Lemma Ap_in_span j : j < k -> sp (S (S j)) (mul (p j)).
Proof.
  intros Hj. pose proof (alpha_nz j Hj) as Ha.
  apply (span_ext _ _ (fun i => 0 + (/ alphaR m A (r j) (p j)) * (r j i + (-1) * r (S j) i))%R).
  - intros i Hi. cbn [rp fst]. unfold rR. field. exact Ha.
  - apply span_comb; [apply span_zero|]. apply span_comb; [apply span_more|]; apply r_in_span.
Qed.
Lemma power_in_span j : j < k -> sp (S j) (power m A r0 j).
Proof.
  induction j as [|j IH]; intros Hj; [exact (span_one (fun j => p j) 0)|].
  destruct (IH ltac:(lia)) as [c H]. cbn [power].
  apply (span_ext _ _ (fun i => Rsum (S j) (fun t => c t * mul (p t) i)%R)).
  - intros i Hi. rewrite (mul_ext _ _ i H), mul_sum. reflexivity.
  - apply (span_trans _ (fun t => mul (p t)) (S (S j)) (S j)); [exists c; reflexivity|].
    intros t Ht. apply (span_le _ (S (S t))); [lia|]. apply Ap_in_span. lia.
Qed.
Lemma krylov_in_span y : krylov m A r0 k y -> sp k y.
Proof.
  intros H. apply (span_trans _ (power m A r0) k k y H). intros j Hj. apply (span_le _ (S j)); [lia|]. now apply power_in_span.
Qed.
Lemma residual_orth y : krylov m A r0 k y -> dt (r k) y = 0%R.
Proof.
  intros H. destruct (orth_all m A r0 Hs Hp k Hnz) as (_ & _ & Irp & _).
  apply (span_dot (fun j => p j) k); [now apply krylov_in_span|]. intros j Hj. apply Irp. lia.
Qed.
End Orth.

(** ** the iterates *)
Variable b : nat -> R.
Notation res_ x := (residual m A b x).
Fixpoint xs (x : nat -> R) (k : nat) : nat -> R :=
  match k with O => x | S k => xR m A (xs x k) (fst (rp m A (res_ x) k)) (snd (rp m A (res_ x) k)) end.
Lemma xs_residual x k i : i < m -> fst (rp m A (res_ x) k) i = res_ (xs x k) i.
Proof.
  revert i. induction k as [|k IH]; intros i Hi; [reflexivity|]. cbn [rp fst xs]. unfold rR. rewrite (IH i Hi). unfold residual at 1. unfold residual at 4. unfold xR at 1. rewrite mul_lin. ring.
Qed.
Lemma xs_krylov x k : krylov m A (res_ x) k (fun i => xs x k i - x i)%R.
Proof.
  induction k as [|k IH].
  - exists (fun _ => 0%R). intros i Hi. cbn [xs Rsum]. ring.
  - apply krylov_span. apply (span_ext _ _ (fun i => (xs x k i - x i) + alphaR m A (fst (rp m A (res_ x) k)) (snd (rp m A (res_ x) k)) * snd (rp m A (res_ x) k) i)%R).
    + intros i Hi. cbn [xs]. unfold xR. ring.
    + apply span_comb; [apply span_more; exact IH|]. apply rp_krylov.
Qed.

Hypothesis Hs : symmetric m A.
Hypothesis Hp : positive_definite m A.
Lemma pd_nonneg u : (0 <= dt u (mul u))%R /\ (dt u (mul u) = 0%R -> forall i, i < m -> u i = 0%R).
Proof.
  assert (D : (exists c, c < m /\ u c <> 0%R) \/ (forall c, c < m -> u c = 0%R)).
  { clear. induction m as [|m' IH]; [right; intros; lia|].
    destruct IH as [(c & Hc & N)|IH]; [left; exists c; split; [lia|exact N]|].
    destruct (Req_dec (u m') 0) as [E|N]; [right|left; exists m'; split; [lia|exact N]].
    intros c Hc. destruct (Nat.eq_dec c m') as [->|]; [exact E|apply IH; lia]. }
  destruct D as [D|D].
  - specialize (Hp u D). split; [lra|]. intros E. lra.
  - split; [|auto]. unfold dot; rewrite (Rsum_eq0 m); [lra|]. intros i Hi. rewrite D by exact Hi. ring.
Qed.
Lemma energy_shift x u : energy m A b (fun i => x i + 1 * u i)%R = (energy m A b x - dt (res_ x) u + dt u (mul u) / 2)%R.
Proof.
  unfold energy. rewrite (dot_ext m _ (fun i => x i + 1 * u i)%R (mul (fun i => x i + 1 * u i)%R) (fun r => mul x r + 1 * mul u r)%R) by (intros; first [reflexivity|apply mul_lin]).
  rewrite dot_lin, !dot_lin_l, dot_lin. rewrite (mul_sym m A x u Hs).
  assert (E : dt (res_ x) u = (dt b u + (-1) * dt (mul x) u)%R).
  { rewrite <- dot_lin_l. apply dot_ext; [|reflexivity]. intros i Hi. unfold residual. ring. }
  rewrite E, (dotc m (mul x) u). lra.
Qed.
Lemma energy_ext x y : (forall i, i < m -> x i = y i) -> energy m A b x = energy m A b y.
Proof.
  intros H. unfold energy. f_equal; [f_equal|]; apply dot_ext; auto. intros; now apply mul_ext.
Qed.

Lemma best x k y : (forall j, j < k -> dt (fst (rp m A (res_ x) j)) (fst (rp m A (res_ x) j)) <> 0%R) ->
  krylov m A (res_ x) k (fun i => y i - x i)%R ->
  (energy m A b (xs x k) <= energy m A b y)%R /\ (energy m A b y = energy m A b (xs x k) -> forall i, i < m -> y i = xs x k i).
Proof.
  intros Hnz Hy. set (u := fun i => (y i - xs x k i)%R).
  assert (Ku : krylov m A (res_ x) k u).
  { apply krylov_span. apply (span_ext _ _ (fun i => (y i - x i) + (-1) * (xs x k i - x i))%R); [intros i Hi; unfold u; ring|].
    apply span_comb; [exact Hy|apply xs_krylov]. }
  pose proof (residual_orth (res_ x) Hs Hp k Hnz u Ku) as O.
  rewrite (dot_ext m _ (res_ (xs x k)) u u) in O; [|intros; now apply xs_residual|reflexivity].
  rewrite (energy_ext y (fun i => xs x k i + 1 * u i)%R) by (intros; unfold u; ring).
  rewrite energy_shift, O. destruct (pd_nonneg u) as [P1 P2]. split; [lra|]. intros E i Hi.
  assert (Z : u i = 0%R) by (apply P2; [lra|exact Hi]). unfold u in Z. lra.
Qed.

Lemma ends_at_degree x d : annihilated m A (res_ x) d -> (forall j, j <= d -> dt (fst (rp m A (res_ x) j)) (fst (rp m A (res_ x) j)) <> 0%R) -> False.
Proof.
  intros [c Hc] Hnz. apply (Hnz d (le_n d)).
  set (z := fun i => Rsum d (fun j => c j * power m A (res_ x) j i)%R).
  assert (Az : forall i, i < m -> mul z i = res_ x i).
  { intros i Hi. unfold z. rewrite mul_sum. rewrite (Hc i Hi). reflexivity. }
  set (u := fun i => (z i + (-1) * (xs x d i - x i))%R).
  assert (Ku : krylov m A (res_ x) d u).
  { apply krylov_span. apply span_comb; [exists c; reflexivity|apply xs_krylov]. }
  assert (Au : forall i, i < m -> mul u i = fst (rp m A (res_ x) d) i).
  { intros i Hi. unfold u. rewrite mul_lin, (Az i Hi), (xs_residual x d i Hi).
    rewrite (mul_ext (fun i => xs x d i - x i)%R (fun i => xs x d i + (-1) * x i)%R i) by (intros; ring). rewrite mul_lin. unfold residual. ring. }
  pose proof (residual_orth (res_ x) Hs Hp d (fun j Hj => Hnz j (Nat.lt_le_incl _ _ Hj)) u Ku) as O.
  rewrite dotc in O. rewrite (dot_ext m u u _ (mul u)) in O; [|reflexivity|intros; now rewrite Au].
  destruct (pd_nonneg u) as [_ P]. pose proof (P O) as Z.
  apply Rsum_eq0. intros i Hi. rewrite <- (Au i Hi). rewrite (mul_ext u (fun _ => 0%R) i Z). unfold mulv. rewrite Rsum_eq0; [ring|]. intros; ring.
Qed.
End Vec.

(** ** the loop of the code *)
Section R.
Variable dbg : bool.
Notation cl := (cell (RT dbg)).
Notation vec := (nat -> cl).
Variable m : nat.
Variables (A : nat -> nat -> R) (b : nat -> R) (me mi : R).
Variables (mul : vec -> vec) (bc : vec).
Hypothesis mul_R : forall x xr, lifts dbg m x xr -> lifts dbg m (mul x) (mulv m A xr).
Hypothesis b_R : lifts dbg m bc b.
Hypothesis Hs : symmetric m A.
Hypothesis Hpd : positive_definite m A.
Notation loop := (pcgloop (tg := RT dbg) m mul (Some me) (Some mi) bc).
Variable x0 : nat -> R.
Notation X k := (xs m A b x0 k).
Notation r k := (fst (rp m A (residual m A b x0) k)).
Notation p k := (snd (rp m A (residual m A b x0) k)).
Notation good x := (good_enough m A b me mi x).

Lemma good_r k : good (X k) <-> forall i, i < m -> (Rabs (r k i) <= Rmax (Rabs (me * b i)) mi)%R.
Proof. split; intros H i Hi; specialize (H i Hi); now rewrite xs_residual in * by exact Hi. Qed.
Lemma bad_nz k : ~ good (X k) -> dot m (r k) (r k) <> 0%R.
Proof. intros N. destruct (small_false m b me mi (r k)) as [H|H]; [|exact H]. exfalso. apply N. now apply good_r. Qed.

Lemma loop_run : forall k j x rr p', lifts dbg m x (X j) -> lifts dbg m rr (r j) -> lifts dbg m p' (p j) -> (forall i, i <= j -> ~ good (X i)) ->
  exists x' ok K, loop k x rr p' = Ok (x', ok) /\ lifts dbg m x' (X K) /\ K <= j + k /\ (forall i, i < K -> ~ good (X i)) /\
    (ok = true -> good (X K)) /\ (ok = false -> K = j + k /\ ~ good (X K)).
Proof.
  induction k as [|k IH]; intros j x rr p' Hx Hr Hp Hb.
  - exists x, false, j. split; [reflexivity|]. split; [exact Hx|]. split; [lia|]. split; [intros; apply Hb; lia|]. split; [discriminate|]. intros _. split; [lia|]. apply Hb. lia.
  - cbn [pcgloop].
    destruct (orth_all m A (residual m A b x0) Hs Hpd j) as (_ & _ & _ & Id); [intros; apply bad_nz, Hb; lia|].
    pose proof (bad_nz j (Hb j (le_n j))) as Nj.
    pose proof (pAp_pos m A (residual m A b x0) Hpd j Nj (Id j ltac:(lia))) as HpAp.
    assert (N : dot m (p j) (mulv m A (p j)) <> 0%R) by lra.
    pose proof (px_R dbg m A mul mul_R x rr p' _ _ _ Hx Hr Hp N) as Hx1. pose proof (pr_R dbg m A mul mul_R rr p' _ _ Hr Hp N) as Hr1.
    destruct (psmall_R dbg m b me mi bc b_R _ _ Hr1) as (ok & Es & Hok). rewrite Es. cbn [bind].
    change (rR m A (r j) (p j)) with (r (S j)) in Hok.
    destruct ok.
    + exists (px m mul x rr p'), true, (S j). split; [reflexivity|]. split; [exact Hx1|]. split; [lia|]. split; [intros; apply Hb; lia|]. split; [intros _; now apply good_r, Hok|discriminate].
    + destruct (IH (S j) _ _ _ Hx1 Hr1 (pp_R dbg m A mul mul_R rr p' _ _ Hr Hp N Nj)) as (x' & ok & K & E & L & LK & H1 & H2 & H3).
      * intros i Hi. destruct (Nat.eq_dec i (S j)) as [->|]; [|apply Hb; lia]. intros G. assert (false = true); [|discriminate]. apply Hok. now apply good_r.
      * exists x', ok, K. split; [exact E|]. split; [exact L|]. split; [lia|]. split; [exact H1|]. split; [exact H2|]. intros F. destruct (H3 F) as [-> H4]. split; [lia|exact H4].
Qed.

Lemma pcg_run k x : lifts dbg m x x0 ->
  exists x' ok K, pcg (tg := RT dbg) m mul (Some me) (Some mi) bc k x = Ok (x', ok) /\ lifts dbg m x' (X K) /\ K <= k /\ (forall i, i < K -> ~ good (X i)) /\
    (ok = true -> good (X K)) /\ (ok = false -> K = k /\ ~ good (X K)).
Proof.
  intros Hx. unfold pcg. pose proof (pr0_R dbg m A b mul bc mul_R b_R x x0 Hx) as Hr0.
  destruct (psmall_R dbg m b me mi bc b_R _ _ Hr0) as (ok & Es & Hok). rewrite Es. cbn [bind]. destruct ok.
  - exists x, true, 0. split; [reflexivity|]. split; [exact Hx|]. split; [lia|]. split; [intros; lia|]. split; [intros _; exact (proj1 Hok eq_refl)|discriminate].
  - apply (loop_run k 0); auto. intros i Hi G. assert (i = 0) by lia. subst i. assert (false = true); [|discriminate]. apply Hok. exact G.
Qed.

(** the spec's notion of the best point, against the iterates *)
Lemma iterate_best k : (forall i, i < k -> ~ good (X i)) -> best_of m A b x0 k (X k).
Proof.
  intros H. split; [apply xs_krylov|]. intros z Hz. apply best; auto. intros j Hj. apply bad_nz. auto.
Qed.
Lemma best_iterate k y : (forall i, i < k -> ~ good (X i)) -> best_of m A b x0 k y -> forall i, i < m -> y i = X k i.
Proof.
  intros H [H1 H2]. destruct (iterate_best k H) as [_ H3]. destruct (H3 y H1) as [L E]. apply E. apply Rle_antisym; [|exact L]. apply H2. apply xs_krylov.
Qed.
Lemma good_ext x y : (forall i, i < m -> x i = y i) -> good x -> good y.
Proof. intros E G i Hi. specialize (G i Hi). unfold residual in *. now rewrite <- (mul_ext m A x y i E). Qed.
Lemma degree_ends k d : annihilated m A (residual m A b x0) d -> (forall i, i <= k -> ~ good (X i)) -> k < d.
Proof.
  intros Hd H. destruct (Nat.lt_ge_cases k d) as [|L]; [assumption|exfalso].
  apply (ends_at_degree m A b Hs Hpd x0 d Hd). intros j Hj. apply bad_nz, H. lia.
Qed.
End R.

Section Props.
Variables (dbg : bool) (priv : nat -> bool) (hp : heap (RT dbg)) (g : cg_solver (RT dbg)).
Variables (J W right : nat) (previous : option nat) (result n m : nat) (D : nat -> nat -> R) (w b x : nat -> R) (me mi : R).
Hypothesis Hr : hreach priv hp.
Hypothesis Hn : cg_names g W right result previous.
Hypothesis Hpriv : cg_private g priv.
Hypothesis Hs : systemR hp J W right n m D w b.
Hypothesis Hst : start_cg hp previous m (fun i => Some (x i)).
Hypothesis Hme : cg_max_error g = Some me.
Hypothesis Hmi : cg_min_error g = Some mi.
Hypothesis Hpd : positive_definite m (JWJt n D w).
Notation A := (JWJt n D w).

Lemma cg_run : exists hp' ok K, cg_solve g J W right previous result hp = Ok (hp', ok) /\ K <= cg_max_iterations g /\
  (forall i, i < K -> ~ good_enough m A b me mi (xs m A b x i)) /\
  (ok = true -> good_enough m A b me mi (xs m A b x K) /\ showsR (hm hp') result 1 m (fun r _ => xs m A b x K r)) /\
  (ok = false -> K = cg_max_iterations g /\ ~ good_enough m A b me mi (xs m A b x K)).
Proof.
  pose proof (hreach_inv _ _ Hr) as Hinv.
  destruct (systemR_system dbg hp J W right n m D w b Hs) as (blk & v & Hsy & HD & Hin & _).
  pose proof (cg_solve_sim priv hp g J W right previous result n m _ _ _ _ _ Hinv Hn Hpriv Hsy Hst) as HR.
  rewrite Hme, Hmi in HR.
  assert (Hsym : symmetric m A) by (intros r c Hrr Hc; apply Rsum_ext; intros; ring).
  destruct (pcg_run dbg m A b me mi _ _ (fun y yr => pmul_R dbg n m blk v D w y yr Hin HD) (fun i _ => eq_refl) Hsym Hpd x
    (cg_max_iterations g) _ (fun i _ => eq_refl)) as (x' & ok & K & E & L & LK & H1 & H2 & H3).
  match type of HR with rel _ ?q _ => assert (Ex' : q = Ok (x', ok)) by exact E; rewrite Ex' in HR end.
  destruct (cg_solve g J W right previous result hp) as [[hp' ok']| | |]; cbn in HR; try contradiction.
  destruct HR as (Eok & _ & Hsh). cbn in Eok. subst ok'. exists hp', ok, K. split; [reflexivity|]. split; [exact LK|]. split; [exact H1|]. split; [|exact H3].
  intros T. split; [exact (H2 T)|]. destruct (Hsh T) as (E1 & E2 & E3). split; [exact E1|]. split; [exact E2|].
  intros r c Hrr Hc. rewrite E3 by assumption. now rewrite L.
Qed.

(** C125 *)
Lemma cg_best hp' : cg_solve g J W right previous result hp = Ok (hp', true) ->
  exists k y, k <= cg_max_iterations g /\ showsR (hm hp') result 1 m (fun r _ => y r) /\ best_of m A b x k y /\ good_enough m A b me mi y /\
    forall j z, j < k -> best_of m A b x j z -> ~ good_enough m A b me mi z.
Proof.
  intros E. destruct cg_run as (hp1 & ok & K & E1 & LK & H1 & H2 & _). rewrite E1 in E. injection E as -> ->. destruct (H2 eq_refl) as [G S].
  assert (Hsym : symmetric m A) by (intros r c Hrr Hc; apply Rsum_ext; intros; ring).
  exists K, (xs m A b x K). split; [exact LK|]. split; [exact S|]. split; [eapply iterate_best; eauto|]. split; [exact G|].
  intros j z Hj Hz Gz. apply (H1 j Hj).
  apply (good_ext m A b me mi z); [|exact Gz]. intros i Hi. eapply best_iterate; eauto. intros t Ht. apply H1. lia.
Qed.
(** C126 *)
Lemma cg_degree d : annihilated m A (residual m A b x) d -> d <= cg_max_iterations g ->
  exists hp' k y, cg_solve g J W right previous result hp = Ok (hp', true) /\ k <= d /\
    showsR (hm hp') result 1 m (fun r _ => y r) /\ best_of m A b x k y /\ good_enough m A b me mi y.
Proof.
  intros Hd Ld. destruct cg_run as (hp1 & ok & K & E1 & LK & H1 & H2 & H3).
  assert (Hsym : symmetric m A) by (intros r c Hrr Hc; apply Rsum_ext; intros; ring).
  destruct ok.
  - destruct (H2 eq_refl) as [G S]. exists hp1, K, (xs m A b x K). split; [exact E1|]. split.
    + destruct K as [|K]; [lia|]. enough (K < d) by lia. eapply degree_ends; eauto. intros i Hi. apply H1. lia.
    + split; [exact S|]. split; [eapply iterate_best; eauto|exact G].
  - destruct (H3 eq_refl) as [-> G]. exfalso. enough (cg_max_iterations g < d) by lia.
    eapply degree_ends; eauto. intros i Hi. destruct (Nat.eq_dec i (cg_max_iterations g)) as [->|]; [exact G|apply H1; lia].
Qed.
End Props.
