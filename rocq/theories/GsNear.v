(** * Gauss-Seidel with limits: an accepted result solves a nearby problem. *)

From Coq Require Import Reals Lra.
From Verif Require Import Base Targets Matrix Sparse Sle Logic MatrixFacts MatrixOps SpecMatrix MatrixHist
  SparseFacts SpecSparse SparseHist SpecSle SleHist SleGe GeReal GeHist SleGs RealSum GsReal GsHist SpecNear.
Local Open Scope nat_scope.

Lemma sgn_le a d : (a = 0 \/ (a > 0 /\ d <= 0) \/ (a < 0 /\ d >= 0) -> a * d <= 0)%R.
Proof. intros [->|[[H1 H2]|[H1 H2]]]; [lra|nra|nra]. Qed.
Lemma sgn_ge a d : (a = 0 \/ (a > 0 /\ d >= 0) \/ (a < 0 /\ d <= 0) -> a * d >= 0)%R.
Proof. intros [->|[[H1 H2]|[H1 H2]]]; [lra|nra|nra]. Qed.

Section Near.
Variables (m : nat) (A : nat -> nat -> R) (b lo hi : nat -> R).

(** the sweep from y to x treats x as if row i's right side were off by the
    change of the later components *)
Definition late (y x : nat -> R) (i : nat) : R :=
  Rsum (m - (i + 1)) (fun u => A i (i + 1 + u)%nat * (x (i + 1 + u)%nat - y (i + 1 + u)%nat))%R.

Lemma sweep_nearby y : (forall i, i < m -> (0 < A i i)%R) -> (forall i, i < m -> (lo i <= hi i)%R) ->
  let x := traj (stepLR m A b lo hi) y m in
  solves_limited m A lo hi (fun i => b i + late y x i)%R x.
Proof.
  intros Hp Hl x. apply stationary_solves; [exact Hp|exact Hl|]. intros i Hi.
  transitivity (stepLR m A b lo hi (traj (stepLR m A b lo hi) y i) i); [|unfold x; now rewrite (traj_done _ y m i Hi)].
  unfold stepLR at 1 2. f_equal.
  unfold candR. f_equal.
  assert (E1 : Rsum i (fun j => A i j * x j)%R = Rsum i (fun j => A i j * traj (stepLR m A b lo hi) y i j)%R).
  { apply Rsum_ext. intros j Hj. unfold x. rewrite (traj_done _ y m j) by lia. now rewrite (traj_done _ y i j) by lia. }
  assert (E2 : Rsum (m - (i + 1)) (fun u => A i (i + 1 + u)%nat * traj (stepLR m A b lo hi) y i (i + 1 + u)%nat)%R =
    Rsum (m - (i + 1)) (fun u => A i (i + 1 + u)%nat * y (i + 1 + u)%nat)%R).
  { apply Rsum_ext. intros u Hu. now rewrite traj_later by lia. }
  rewrite E1, E2. unfold late.
  rewrite (Rsum_ext (m - (i + 1)) (fun u => A i (i + 1 + u)%nat * (x (i + 1 + u)%nat - y (i + 1 + u)%nat))%R
    (fun u => A i (i + 1 + u)%nat * x (i + 1 + u)%nat - A i (i + 1 + u)%nat * y (i + 1 + u)%nat)%R)
    by (intros; ring).
  rewrite Rsum_minus. ring.
Qed.

Lemma late_small y x tol i : (0 < tol < 1)%R -> i < m ->
  (forall i, i < m -> (Rabs (x i - y i) < tol * Rmax (1 / 1000) (Rabs (y i)))%R) ->
  (Rabs (late y x i) <= tol / (1 - tol) * Rsum (m - (i + 1)) (fun u => Rabs (A i (i + 1 + u)%nat) * Rmax (1 / 1000) (Rabs (x (i + 1 + u)%nat))))%R.
Proof.
  intros Ht Hi H. unfold late. eapply Rle_trans; [apply Rsum_abs|].
  rewrite <- Rsum_scal_l. apply Rsum_le. intros u Hu. set (j := (i + 1 + u)%nat).
  assert (Hj : j < m) by (unfold j; lia). specialize (H j Hj). rewrite Rabs_mult.
  set (a := Rabs (A i j)). assert (Ha : (0 <= a)%R) by apply Rabs_pos.
  assert (G : (Rabs (x j - y j) <= tol / (1 - tol) * Rmax (1 / 1000) (Rabs (x j)))%R).
  { assert (T : (Rabs (y j) <= Rabs (x j) + Rabs (x j - y j))%R).
    { replace (y j) with (x j - (x j - y j))%R at 1 by ring. eapply Rle_trans; [apply Rabs_triang|].
      rewrite Rabs_Ropp. lra. }
    set (d := Rabs (x j - y j)) in *. set (M := Rmax (1 / 1000) (Rabs (x j))).
    assert (M1 : (1 / 1000 <= M)%R) by apply Rmax_l. assert (M2 : (Rabs (x j) <= M)%R) by apply Rmax_r.
    assert (Hd : (d <= tol * (M + d))%R).
    { assert (0 <= d)%R by apply Rabs_pos.
      assert (Rmax (1 / 1000) (Rabs (y j)) <= M + d)%R by (apply Rmax_lub; lra).
      assert (tol * Rmax (1 / 1000) (Rabs (y j)) <= tol * (M + d))%R by (apply Rmult_le_compat_l; lra). lra. }
    apply Rmult_le_reg_r with (1 - tol)%R; [lra|].
    replace (tol / (1 - tol) * M * (1 - tol))%R with (tol * M)%R by (field; lra). nra. }
  replace (tol / (1 - tol) * (a * Rmax (1 / 1000) (Rabs (x j))))%R with
    (a * (tol / (1 - tol) * Rmax (1 / 1000) (Rabs (x j))))%R by ring.
  apply Rmult_le_compat_l; assumption.
Qed.

(** how far apart the solutions of two problems are which differ in the right side *)
Lemma apart_le lam x z e : (0 < lam)%R ->
  (forall v, (lam * Rsum m (fun i => v i * v i) <= dot m v (mulv m A v))%R) ->
  solves_limited m A lo hi (fun i => b i + e i)%R x -> solves_limited m A lo hi b z ->
  (lam * lam * Rsum m (fun i => (x i - z i) * (x i - z i)) <= Rsum m (fun i => e i * e i))%R.
Proof.
  intros Hl Hp [Wx Hx] [Wz Hz].
  specialize (Hp (fun i => x i - z i)%R). cbv beta in Hp.
  assert (G : (dot m (fun i => x i - z i) (mulv m A (fun i => x i - z i)) <= Rsum m (fun i => e i * (x i - z i)))%R).
  { apply Rsum_le. intros i Hi. rewrite mulv_minus. specialize (Hx i Hi). specialize (Hz i Hi).
    specialize (Wx i Hi). specialize (Wz i Hi). cbv beta in Hx.
    set (p := mulv m A x i) in *. set (q := mulv m A z i) in *. set (r := b i) in *.
    assert (K1 : ((p - (r + e i)) * (x i - z i) <= 0)%R) by (apply sgn_le; destruct Hx as [?|[[? ?]|[? ?]]]; [left|right; left|right; right]; lra).
    assert (K2 : ((q - r) * (x i - z i) >= 0)%R) by (apply sgn_ge; destruct Hz as [?|[[? ?]|[? ?]]]; [left|right; left|right; right]; lra).
    nra. }
  assert (K : (Rsum m (fun i => e i * (x i - z i)) <=
    lam / 2 * Rsum m (fun i => (x i - z i) * (x i - z i)) + / (2 * lam) * Rsum m (fun i => e i * e i))%R).
  { rewrite <- !Rsum_scal_l, <- Rsum_plus. apply Rsum_le. intros i Hi.
    set (d := (x i - z i)%R). set (f := e i).
    assert (S : (0 <= / (2 * lam) * ((lam * d - f) * (lam * d - f)))%R).
    { apply Rmult_le_pos; [left; apply Rinv_0_lt_compat; lra|apply Rle_0_sqr]. }
    replace (lam / 2 * (d * d) + / (2 * lam) * (f * f))%R with
      (f * d + / (2 * lam) * ((lam * d - f) * (lam * d - f)))%R by (field; lra). lra. }
  set (D := Rsum m (fun i => (x i - z i) * (x i - z i))%R) in *. set (E := Rsum m (fun i => e i * e i)%R) in *.
  assert (Q : (lam / 2 * D <= / (2 * lam) * E)%R) by lra.
  apply (Rmult_le_compat_l (2 * lam)) in Q; [|lra].
  replace (2 * lam * (lam / 2 * D))%R with (lam * lam * D)%R in Q by field.
  replace (2 * lam * (/ (2 * lam) * E))%R with E in Q by (field; lra). exact Q.
Qed.
End Near.

(** ** the solver *)
Lemma psweepL_start dbg m (M : nat -> nat -> cell (RT dbg)) bc loc hic x :
  pc (psweep (pstepL M bc loc hic m) m x) (fun _ => forall i, i < m -> x i <> None).
Proof.
  unfold psweep, for_.
  eapply pc_mono; [apply (for_from_pci _ (fun j (z : _ * cell (RT dbg)) => (forall i, j <= i -> fst z i = x i) /\ forall i, i < j -> x i <> None));
    [|split; [reflexivity|intros; lia]]|intros z [_ H]; exact H].
  intros j [z e] Hj [Hs IH]. cbn [fst] in Hs. destruct (x j) as [xj|] eqn:Ex.
  - apply pc_any. intros e'. cbn [pc fst]. split.
    + intros i Hi. unfold xset. destruct (Nat.eqb_spec i j); [lia|]. apply Hs. lia.
    + intros i Hi. destruct (Nat.eq_dec i j) as [->|]; [congruence|apply IH; lia].
  - assert (En : snd (pstepL M bc loc hic m z j) = (None : cell (RT dbg))).
    { unfold pstepL. cbn [snd]. rewrite (Hs j), Ex by lia. unfold cdiv, csub, cabs, lift1, lift2, lift2p.
      now destruct (gs_clamp _ _ _). }
    rewrite En, gs_max_none. exact I.
Qed.
Lemma gs_success_inv dbg priv (hp hp' : heap (RT dbg)) (g : gs_solver (RT dbg)) J W right limits previous result n m D w b (lo hi : nat -> R) x (tol : R) :
  hinv priv hp -> gs_names_limits g J W right limits result -> systemR hp J W right n m D w b ->
  limits_are (hm hp) limits m (fun i => Some (lo i)) (fun i => Some (hi i)) ->
  start_limits hp previous result m x -> gs_min_delta g = Some tol ->
  gs_solve_limits g J W right limits result previous hp = Ok (hp', true) ->
  exists y, let x' := traj (stepLR m (JWJt n D w) b lo hi) y m in
    showsR (hm hp') result 1 m (fun r _ => x' r) /\
    forall i, i < m -> (Rabs (x' i - y i) < tol * Rmax (1 / 1000) (Rabs (y i)))%R.
Proof.
  intros Hr Hn Hsy Hli Hst Htol E.
  destruct (systemR_system dbg hp J W right n m D w b Hsy) as (blk & v & Hs' & _ & Hin & Em).
  set (st := pstepL (tg := RT dbg) (msys blk (fun r e k => Some (v r e k)) (fun i => Some (w i))) (fun i => Some (b i)) (fun i => Some (lo i)) (fun i => Some (hi i)) m).
  pose proof (gs_solve_limits_sim priv hp g J W right limits previous result n m blk _ _ _ _ _ _ Hr Hn Hs' Hli Hst) as HR.
  rewrite E, Htol in HR. fold st in HR.
  destruct (piter st m (Some tol : cell (RT dbg)) (gs_max_iterations g) _) as [[x1 ok]| | |] eqn:Ep; cbn in HR; try contradiction.
  destruct HR as (Eok & _ & Hsh). cbn in Eok. subst ok. cbn [fst] in Hsh.
  destruct (piter_true _ _ _ _ _ _ Ep) as (j & y & d & Hj & F1 & F2 & F3 & F4).
  assert (Hd : forall i, i < m -> JWJt n D w i i <> 0%R).
  { pose proof (psweepL_diag dbg m (JWJt n D w) (msys blk (fun r e k => Some (v r e k)) (fun i => Some (w i))) (fun i => Some (b i)) (fun i => Some (lo i)) (fun i => Some (hi i)) Em y) as P.
    fold st in P. rewrite F2 in P. exact P. }
  assert (Hy0 : forall i, i < m -> y i <> None).
  { pose proof (psweepL_start dbg m (msys blk (fun r e k => Some (v r e k)) (fun i => Some (w i))) (fun i => Some (b i)) (fun i => Some (lo i)) (fun i => Some (hi i)) y) as P.
    fold st in P. rewrite F2 in P. exact P. }
  assert (Hstep : forall y yr i, i < m -> lifts dbg m y yr ->
    st y i = (Some (stepLR m (JWJt n D w) b lo hi yr i) : cell (RT dbg), Some (deltaLR m (JWJt n D w) b lo hi yr i) : cell (RT dbg))).
  { intros y0 yr i Hi Hy. unfold st. apply (pstepL_R dbg m (JWJt n D w) b lo hi); auto; intros q Hq; reflexivity. }
  set (yr := fun i => match y i with Some a => a : R | None => 0%R end).
  assert (Hy : lifts dbg m y yr).
  { intros i Hi. unfold yr. specialize (Hy0 i Hi). destruct (y i); [reflexivity|congruence]. }
  destruct (psweep_R dbg m st _ _ Hstep y yr Hy) as (x' & e & E1 & Hx' & Hle & _). rewrite F2 in E1. injection E1 as <- ->.
  rewrite clt_R in F3. injection F3 as F3. apply R_ltb_true in F3.
  exists yr. split.
  { destruct Hsh as (A1 & A2 & A3). split; [exact A1|]. split; [exact A2|]. intros r c Hrr Hc. rewrite A3 by assumption. now rewrite Hx'. }
  intros i Hi. specialize (Hle i Hi).
  assert (Ed : deltaLR m (JWJt n D w) b lo hi (traj (stepLR m (JWJt n D w) b lo hi) yr i) i =
    (Rabs (traj (stepLR m (JWJt n D w) b lo hi) yr m i - yr i) / Rmax (1 / 1000) (Rabs (yr i)))%R).
  { unfold deltaLR. rewrite (traj_done _ yr m i Hi). rewrite !(traj_later _ yr i i) by lia. reflexivity. }
  rewrite Ed in Hle. pose proof (min_k_pos (Rabs (yr i))) as Hm0.
  set (q := Rabs (traj (stepLR m (JWJt n D w) b lo hi) yr m i - yr i)) in *.
  assert (Eq : (q = q / Rmax (1 / 1000) (Rabs (yr i)) * Rmax (1 / 1000) (Rabs (yr i)))%R) by (field; lra).
  rewrite Eq. apply Rmult_lt_compat_r; [exact Hm0|lra].
Qed.

Lemma gs_nearby_inv dbg priv (hp hp' : heap (RT dbg)) (g : gs_solver (RT dbg)) J W right limits previous result n m D w b (lo hi : nat -> R) x (tol : R) :
  hinv priv hp -> gs_names_limits g J W right limits result -> systemR hp J W right n m D w b ->
  limits_are (hm hp) limits m (fun i => Some (lo i)) (fun i => Some (hi i)) ->
  start_limits hp previous result m x -> gs_min_delta g = Some tol -> (0 < tol < 1)%R ->
  (forall i, i < m -> (0 < JWJt n D w i i)%R) -> (forall i, i < m -> (lo i <= hi i)%R) ->
  gs_solve_limits g J W right limits result previous hp = Ok (hp', true) ->
  exists x' e, showsR (hm hp') result 1 m (fun r _ => x' r) /\
    solves_limited m (JWJt n D w) lo hi (fun i => b i + e i)%R x' /\
    forall i, i < m -> (Rabs (e i) <= tol / (1 - tol) * later m (JWJt n D w) x' i)%R.
Proof.
  intros Hr Hn Hsy Hli Hst Htol Ht Hd Hl E.
  destruct (gs_success_inv dbg priv hp hp' g J W right limits previous result n m D w b lo hi x tol) as (y & Hs & Hc); auto.
  exists (traj (stepLR m (JWJt n D w) b lo hi) y m), (late m (JWJt n D w) y (traj (stepLR m (JWJt n D w) b lo hi) y m)).
  split; [exact Hs|]. split; [now apply sweep_nearby|].
  intros i Hi. unfold later. now apply late_small.
Qed.
Lemma gs_nearby dbg priv (hp hp' : heap (RT dbg)) (g : gs_solver (RT dbg)) J W right limits previous result n m D w b (lo hi x : nat -> R) (tol : R) :
  hreach priv hp -> gs_names_limits g J W right limits result -> systemR hp J W right n m D w b ->
  limits_are (hm hp) limits m (fun i => Some (lo i)) (fun i => Some (hi i)) ->
  start_limits hp previous result m (fun i => Some (x i)) -> gs_min_delta g = Some tol -> (0 < tol < 1)%R ->
  (forall i, i < m -> (0 < JWJt n D w i i)%R) -> (forall i, i < m -> (lo i <= hi i)%R) ->
  gs_solve_limits g J W right limits result previous hp = Ok (hp', true) ->
  exists x' e, showsR (hm hp') result 1 m (fun r _ => x' r) /\
    solves_limited m (JWJt n D w) lo hi (fun i => b i + e i)%R x' /\
    forall i, i < m -> (Rabs (e i) <= tol / (1 - tol) * later m (JWJt n D w) x' i)%R.
Proof.
  intros Hr Hn Hsy Hli Hst Htol Ht Hd Hl E. apply hreach_inv in Hr. eapply gs_nearby_inv; eassumption.
Qed.

Lemma lam_diag m A lam : (0 < lam)%R -> (forall v, (lam * Rsum m (fun i => v i * v i) <= dot m v (mulv m A v))%R) ->
  forall i, i < m -> (0 < A i i)%R.
Proof.
  intros Hl H. apply posdef_diag. intros v (c & Hc & Nc). eapply Rlt_le_trans; [|apply H].
  apply Rmult_lt_0_compat; [exact Hl|].
  assert (S0 : (0 <= Rsum m (fun i => v i * v i))%R) by (apply Rsum_nonneg; intros; nra).
  destruct S0 as [S0|S0]; [exact S0|]. exfalso. apply Nc.
  assert (v c * v c = 0)%R; [|nra].
  apply (Rsum_nonneg_zero m (fun i => v i * v i)%R); [intros; nra|auto|exact Hc].
Qed.

Lemma gs_distance dbg priv (hp hp' : heap (RT dbg)) (g : gs_solver (RT dbg)) J W right limits previous result n m D w b (lo hi x : nat -> R) (tol lam : R) (z : nat -> R) :
  hreach priv hp -> gs_names_limits g J W right limits result -> systemR hp J W right n m D w b ->
  limits_are (hm hp) limits m (fun i => Some (lo i)) (fun i => Some (hi i)) ->
  start_limits hp previous result m (fun i => Some (x i)) -> gs_min_delta g = Some tol -> (0 < tol < 1)%R ->
  (0 < lam)%R -> (forall v, (lam * Rsum m (fun i => v i * v i) <= dot m v (mulv m (JWJt n D w) v))%R) ->
  solves_limited m (JWJt n D w) lo hi b z ->
  gs_solve_limits g J W right limits result previous hp = Ok (hp', true) ->
  exists x', showsR (hm hp') result 1 m (fun r _ => x' r) /\
    (lam * lam * Rsum m (fun i => (x' i - z i) * (x' i - z i)) <=
      (tol / (1 - tol)) * (tol / (1 - tol)) * Rsum m (fun i => later m (JWJt n D w) x' i * later m (JWJt n D w) x' i))%R.
Proof.
  intros Hr Hn Hsy Hli Hst Htol Ht Hlam Hp Hz E.
  assert (Hl : forall i, i < m -> (lo i <= hi i)%R) by (intros i Hi; destruct Hz as [Wz _]; specialize (Wz i Hi); lra).
  destruct (gs_nearby dbg priv hp hp' g J W right limits previous result n m D w b lo hi x tol) as (x' & e & Hs & Hsol & He); auto.
  { eapply lam_diag; eassumption. }
  exists x'. split; [exact Hs|].
  eapply Rle_trans; [apply (apart_le m (JWJt n D w) b lo hi lam x' z e); assumption|].
  rewrite <- Rsum_scal_l. apply Rsum_le. intros i Hi. specialize (He i Hi).
  set (t := (tol / (1 - tol))%R) in *. set (l := later m (JWJt n D w) x' i) in *.
  replace (t * t * (l * l))%R with ((t * l) * (t * l))%R by ring.
  pose proof (Rabs_pos (e i)). replace (e i * e i)%R with (Rabs (e i) * Rabs (e i))%R.
  - apply Rmult_le_compat; lra.
  - rewrite <- Rabs_mult. apply Rabs_right. nra.
Qed.
