(** * Gauss-Seidel: the properties, from reachable heaps. *)

From Coq Require Import Reals Lra SpecFloat.
From Verif Require Import Base Targets Matrix Sparse Sle Logic MatrixFacts MatrixOps SpecMatrix MatrixHist
  SparseFacts SpecSparse SparseHist SpecSle SleHist SleGe GeReal GeHist SleGs GsReal RealSum.
Local Open Scope nat_scope.

(** ** safety, every arithmetic *)
Section Safe.
Context {tg : target}.
Notation vec := (nat -> cell tg).
Definition defv (m : nat) (x : vec) : Prop := forall i, i < m -> defined (x i).
Lemma defv_set m x i v : defv m x -> defined v -> defv m (xset x i v).
Proof. intros Hx Hv j Hj. unfold xset. destruct (Nat.eqb j i); [exact Hv|now apply Hx]. Qed.

Lemma psweep_safe m (step : vec -> nat -> cell tg * cell tg) x :
  (forall x i, i < m -> defv m x -> defined (fst (step x i)) /\ defined (snd (step x i))) ->
  defv m x -> wp (psweep step m x) (fun y => defv m (fst y) /\ defined (snd y)).
Proof.
  intros Hs Hx. unfold psweep.
  apply (for_inv _ (fun _ y => defv m (fst y) /\ defined (snd y))); [cbn; split; [exact Hx|apply defined_cofZ]| |auto].
  intros i [y e] Hi [Hy He]. cbn [fst snd] in *. destruct (Hs y i Hi Hy) as [H1 H2].
  unfold gs_max. destruct (clt_defined e (snd (step y i)) He H2) as [c ->]. cbn [bind].
  destruct c; cbn [bind wp fst snd]; (split; [now apply defv_set|assumption]).
Qed.

Lemma piter_safe m (step : vec -> nat -> cell tg * cell tg) md :
  (forall x i, i < m -> defv m x -> defined (fst (step x i)) /\ defined (snd (step x i))) -> defined md ->
  forall iters x, defv m x -> wp (piter step m md iters x) (fun y => defv m (fst y)).
Proof.
  intros Hs Hmd. induction iters as [|iters IH]; intros x Hx; cbn [piter]; [exact Hx|].
  eapply wp_seq; [now apply psweep_safe|]. intros [y e] [Hy He]. cbn [fst snd] in *.
  destruct (clt_defined e md He Hmd) as [c ->]. cbn [bind]. destruct c; [exact Hy|now apply IH].
Qed.

Lemma pcand_safe m M b x i : total_division tg ->
  (forall r c, r < m -> c < m -> defined (M r c)) -> defv m b -> i < m -> defv m x -> defined (pcand (tg := tg) M b m x i).
Proof.
  intros Ht HM Hb Hi Hx. unfold pcand. apply defined_mul; [apply defined_div; auto; apply defined_cofZ|].
  apply defined_sub; [apply defined_sub; [now apply Hb|]|].
  - apply csum_defined. intros j Hj. apply defined_mul; [apply HM; lia|apply Hx; lia].
  - apply csum_defined. intros j Hj. apply defined_mul; [apply HM; lia|apply Hx; lia].
Qed.
Lemma clit_defined p q : total_division tg -> defined (clit p q : cell tg).
Proof. intros Ht. apply defined_div; auto; apply defined_cofZ. Qed.
Lemma pstep1_safe m M b x i : total_division tg ->
  (forall r c, r < m -> c < m -> defined (M r c)) -> defv m b -> i < m -> defv m x ->
  defined (fst (pstep1 (tg := tg) M b m x i)) /\ defined (snd (pstep1 M b m x i)).
Proof.
  intros Ht HM Hb Hi Hx. unfold pstep1. cbn [fst snd].
  pose proof (pcand_safe m M b x i Ht HM Hb Hi Hx). split; [assumption|].
  assert (defined (cfmax (clit 1 1000) (x i))) by (apply defined_fmax; [now apply clit_defined|now apply Hx]).
  apply defined_div; auto. apply defined_sub; auto. now apply defined_abs.
Qed.
Lemma pstepL_safe m M b lo hi x i : total_division tg ->
  (forall r c, r < m -> c < m -> defined (M r c)) -> defv m b -> defv m lo -> defv m hi -> i < m -> defv m x ->
  defined (fst (pstepL (tg := tg) M b lo hi m x i)) /\ defined (snd (pstepL M b lo hi m x i)).
Proof.
  intros Ht HM Hb Hlo Hhi Hi Hx. unfold pstepL, gs_clamp. cbn [fst snd].
  pose proof (pcand_safe m M b x i Ht HM Hb Hi Hx).
  assert (defined (cfmax (lo i) (cfmin (hi i) (pcand M b m x i))))
    by (apply defined_fmax; [now apply Hlo|apply defined_fmin; [now apply Hhi|assumption]]).
  split; [assumption|].
  assert (defined (cfmax (clit 1 1000) (cabs (x i)))).
  { apply defined_fmax; [now apply clit_defined|]. apply defined_abs. now apply Hx. }
  apply defined_div; auto. apply defined_abs. apply defined_sub; auto.
Qed.

Lemma gs_frame_inputs (g : gs_solver tg) J W right result (hp hp' : heap tg) :
  gs_names g J W right result -> frame [result; gs_M g] [gs_reg g] hp hp' -> inputs_kept hp hp' J W right.
Proof.
  intros [Hnd HJ] [H1 H2]. split; [|split].
  - apply H2. cbn. intuition congruence.
  - apply H1. repeat match goal with H : NoDup (_ :: _) |- _ => inversion_clear H end. cbn in *. intuition congruence.
  - apply H1. repeat match goal with H : NoDup (_ :: _) |- _ => inversion_clear H end. cbn in *. intuition congruence.
Qed.
Lemma gs_names_of_limits (g : gs_solver tg) J W right limits result :
  gs_names_limits g J W right limits result -> gs_names g J W right result /\ limits <> result /\ limits <> gs_M g.
Proof.
  intros [Hnd HJ]. repeat match goal with H : NoDup (_ :: _) |- _ => inversion_clear H end. cbn in *.
  refine (conj (conj _ HJ) (conj _ _)); try (intuition congruence).
  repeat constructor; cbn; intuition congruence.
Qed.

Lemma gs_safe_inv priv (hp : heap tg) g J W right previous result n m blk v w b x :
  hinv priv hp -> gs_names g J W right result -> system hp J W right n m blk v w b ->
  start_plain hp previous result m x ->
  defined_system n m blk v w b -> (forall i, i < m -> defined (x i)) -> defined (gs_min_delta g) -> total_division tg ->
  exists hp' ok y, gs_solve g J W right previous result hp = Ok (hp', ok) /\ inputs_kept hp hp' J W right /\
    shows (hm hp') result 1 m (fun r _ => y r) /\ forall i, i < m -> defined (y i).
Proof.
  intros Hr Hn Hs Hst Hd Hx Hmd Ht.
  assert (Hin : blocks_inside 3 2 n m blk) by apply Hs.
  pose proof (gs_solve_sim priv hp g J W right previous result n m blk v w b x Hr Hn Hs Hst) as HR.
  assert (W' : wp (piter (pstep1 (msys blk v w) b m) m (gs_min_delta g) (gs_max_iterations g) x) (fun y => defv m (fst y))).
  { apply piter_safe; auto. intros y i Hi Hy. apply pstep1_safe; auto; [|exact (proj2 (proj2 Hd))].
    intros r c Hrr Hc. now apply (msys_defined n m blk v w b). }
  destruct (piter _ m _ _ x) as [[y ok]| | |]; cbn in W'; try contradiction.
  destruct (gs_solve g J W right previous result hp) as [[hp' ok']| | |]; cbn in HR; try contradiction.
  destruct HR as (E & Hf & Hsh). cbn [fst snd] in *. exists hp', ok', y. split; [reflexivity|].
  split; [eapply gs_frame_inputs; eassumption|]. split; assumption.
Qed.
Lemma gs_safe priv (hp : heap tg) g J W right previous result n m blk v w b x :
  hreach priv hp -> gs_names g J W right result -> system hp J W right n m blk v w b ->
  start_plain hp previous result m x ->
  defined_system n m blk v w b -> (forall i, i < m -> defined (x i)) -> defined (gs_min_delta g) -> total_division tg ->
  exists hp' ok y, gs_solve g J W right previous result hp = Ok (hp', ok) /\ inputs_kept hp hp' J W right /\
    shows (hm hp') result 1 m (fun r _ => y r) /\ forall i, i < m -> defined (y i).
Proof. intros H. apply (gs_safe_inv priv). now apply hreach_inv. Qed.

Lemma gs_limits_safe_inv priv (hp : heap tg) g J W right limits previous result n m blk v w b lo hi x :
  hinv priv hp -> gs_names_limits g J W right limits result -> system hp J W right n m blk v w b ->
  limits_are (hm hp) limits m lo hi -> start_limits hp previous result m x ->
  defined_system n m blk v w b -> (forall i, i < m -> defined (lo i) /\ defined (hi i)) ->
  (forall i, i < m -> defined (x i)) -> defined (gs_min_delta g) -> total_division tg ->
  exists hp' ok y, gs_solve_limits g J W right limits result previous hp = Ok (hp', ok) /\
    inputs_kept hp hp' J W right /\ hm hp' limits = hm hp limits /\
    shows (hm hp') result 1 m (fun r _ => y r) /\ forall i, i < m -> defined (y i).
Proof.
  intros Hr Hn Hs Hl Hst Hd Hlh Hx Hmd Ht.
  assert (Hin : blocks_inside 3 2 n m blk) by apply Hs.
  pose proof (gs_solve_limits_sim priv hp g J W right limits previous result n m blk v w b lo hi x Hr Hn Hs Hl Hst) as HR.
  assert (W' : wp (piter (pstepL (msys blk v w) b lo hi m) m (gs_min_delta g) (gs_max_iterations g) x) (fun y => defv m (fst y))).
  { apply piter_safe; auto. intros y i Hi Hy. apply pstepL_safe; auto.
    - intros r c Hrr Hc. now apply (msys_defined n m blk v w b).
    - exact (proj2 (proj2 Hd)).
    - intros j Hj. now apply Hlh.
    - intros j Hj. now apply Hlh. }
  destruct (piter _ m _ _ x) as [[y ok]| | |]; cbn in W'; try contradiction.
  destruct (gs_solve_limits g J W right limits result previous hp) as [[hp' ok']| | |]; cbn in HR; try contradiction.
  destruct HR as (E & Hf & Hsh). cbn [fst snd] in *. destruct (gs_names_of_limits _ _ _ _ _ _ Hn) as (Hn' & N1 & N2).
  exists hp', ok', y. split; [reflexivity|].
  split; [eapply gs_frame_inputs; eassumption|]. split; [|split; assumption].
  apply Hf. cbn. intuition congruence.
Qed.
Lemma gs_limits_safe priv (hp : heap tg) g J W right limits previous result n m blk v w b lo hi x :
  hreach priv hp -> gs_names_limits g J W right limits result -> system hp J W right n m blk v w b ->
  limits_are (hm hp) limits m lo hi -> start_limits hp previous result m x ->
  defined_system n m blk v w b -> (forall i, i < m -> defined (lo i) /\ defined (hi i)) ->
  (forall i, i < m -> defined (x i)) -> defined (gs_min_delta g) -> total_division tg ->
  exists hp' ok y, gs_solve_limits g J W right limits result previous hp = Ok (hp', ok) /\
    inputs_kept hp hp' J W right /\ hm hp' limits = hm hp limits /\
    shows (hm hp') result 1 m (fun r _ => y r) /\ forall i, i < m -> defined (y i).
Proof. intros H. apply (gs_limits_safe_inv priv). now apply hreach_inv. Qed.

(** ** determined by the inputs (C29) *)
Lemma gs_determined priv priv' (hp hp' : heap tg) g g' J W right previous result J' W' right' previous' result' n m blk v w b x :
  hreach priv hp -> gs_names g J W right result -> system hp J W right n m blk v w b ->
  hreach priv' hp' -> gs_names g' J' W' right' result' -> system hp' J' W' right' n m blk v w b ->
  start_plain hp previous result m x -> start_plain hp' previous' result' m x ->
  gs_max_iterations g = gs_max_iterations g' -> gs_min_delta g = gs_min_delta g' ->
  same_solution (gs_solve g J W right previous result hp) (gs_solve g' J' W' right' previous' result' hp') result result' m.
Proof.
  intros Hr Hn Hs Hr' Hn' Hs' Hst Hst' E1 E2. apply hreach_inv in Hr, Hr'.
  pose proof (gs_solve_sim priv hp g J W right previous result n m blk v w b x Hr Hn Hs Hst) as H1.
  pose proof (gs_solve_sim priv' hp' g' J' W' right' previous' result' n m blk v w b x Hr' Hn' Hs' Hst') as H2.
  rewrite E1, E2 in H1.
  destruct (piter _ m _ _ x) as [[y ok0]| | |];
    destruct (gs_solve g J W right previous result hp) as [[a ok]| | |]; cbn [rel] in H1; try contradiction;
    destruct (gs_solve g' J' W' right' previous' result' hp') as [[a' ok']| | |]; cbn [rel] in H2; try contradiction;
    cbn; auto.
  destruct H1 as (F1 & _ & S1), H2 as (F2 & _ & S2). cbn [fst snd] in *. split; [congruence|].
  exists (fun r _ => y r). auto.
Qed.
Lemma gs_limits_determined priv priv' (hp hp' : heap tg) g g' J W right limits previous result J' W' right' limits' previous' result' n m blk v w b lo hi x :
  hreach priv hp -> gs_names_limits g J W right limits result -> system hp J W right n m blk v w b ->
  hreach priv' hp' -> gs_names_limits g' J' W' right' limits' result' -> system hp' J' W' right' n m blk v w b ->
  limits_are (hm hp) limits m lo hi -> limits_are (hm hp') limits' m lo hi ->
  start_limits hp previous result m x -> start_limits hp' previous' result' m x ->
  gs_max_iterations g = gs_max_iterations g' -> gs_min_delta g = gs_min_delta g' ->
  same_solution (gs_solve_limits g J W right limits result previous hp)
    (gs_solve_limits g' J' W' right' limits' result' previous' hp') result result' m.
Proof.
  intros Hr Hn Hs Hr' Hn' Hs' Hl Hl' Hst Hst' E1 E2. apply hreach_inv in Hr, Hr'.
  pose proof (gs_solve_limits_sim priv hp g J W right limits previous result n m blk v w b lo hi x Hr Hn Hs Hl Hst) as H1.
  pose proof (gs_solve_limits_sim priv' hp' g' J' W' right' limits' previous' result' n m blk v w b lo hi x Hr' Hn' Hs' Hl' Hst') as H2.
  rewrite E1, E2 in H1.
  destruct (piter _ m _ _ x) as [[y ok0]| | |];
    destruct (gs_solve_limits g J W right limits result previous hp) as [[a ok]| | |]; cbn [rel] in H1; try contradiction;
    destruct (gs_solve_limits g' J' W' right' limits' result' previous' hp') as [[a' ok']| | |]; cbn [rel] in H2; try contradiction;
    cbn; auto.
  destruct H1 as (F1 & _ & S1), H2 as (F2 & _ & S2). cbn [fst snd] in *. split; [congruence|].
  exists (fun r _ => y r). auto.
Qed.

(** ** only the entries in range matter *)
Lemma psweep_ext m (s s' : vec -> nat -> cell tg * cell tg) x :
  (forall x i, i < m -> s x i = s' x i) -> psweep s m x = psweep s' m x.
Proof.
  intros H. unfold psweep.
  assert (R : rel (for_ m (fun i '(x, maxd) => let* maxd := gs_max (snd (s x i)) maxd in Ok (xset x i (fst (s x i)), maxd)) (x, cofZ 0))
    (for_ m (fun i '(x, maxd) => let* maxd := gs_max (snd (s' x i)) maxd in Ok (xset x i (fst (s' x i)), maxd)) (x, cofZ 0)) eq).
  { apply (for_rel _ _ (fun _ => eq)); [reflexivity|]. intros i y ? Hi <-. destruct y as [y e].
    rewrite H by exact Hi. apply rel_refl. }
  revert R. match goal with |- rel ?a ?b eq -> _ => destruct a, b; cbn; intros; subst; auto; contradiction end.
Qed.
Lemma piter_ext m (s s' : vec -> nat -> cell tg * cell tg) md :
  (forall x i, i < m -> s x i = s' x i) -> forall k x, rel (piter s m md k x) (piter s' m md k x) eq.
Proof.
  intros H. induction k as [|k IH]; intros x; cbn [piter]; [reflexivity|].
  rewrite (psweep_ext m s s' x H). apply rel_same. intros [y e]. apply rel_same. intros c.
  destruct c; [reflexivity|apply IH].
Qed.
Lemma pcand_extM m M M' b x i : (forall r c, r < m -> c < m -> M r c = M' r c) -> i < m ->
  pcand (tg := tg) M b m x i = pcand M' b m x i.
Proof.
  intros H Hi. unfold pcand. rewrite H by assumption.
  rewrite (csum_ext i _ (fun j => cmul (M' i j) (x j))) by (intros; rewrite H by lia; reflexivity).
  rewrite (csum_ext (m - (i + 1)) _ (fun u => cmul (M' i (i + 1 + u)) (x (i + 1 + u)))) by (intros; rewrite H by lia; reflexivity).
  reflexivity.
Qed.
Lemma pstepL_extM m M M' b lo hi x i : (forall r c, r < m -> c < m -> M r c = M' r c) -> i < m ->
  pstepL (tg := tg) M b lo hi m x i = pstepL M' b lo hi m x i.
Proof. intros H Hi. unfold pstepL. now rewrite (pcand_extM m M M'). Qed.

(** ** every component passed through the clamp *)
Lemma psweepL_clamped m M b lo hi x :
  pc (psweep (pstepL (tg := tg) M b lo hi m) m x)
     (fun y => forall i, i < m -> exists l h c, lo i = Some l /\ hi i = Some h /\ fst y i = Some (n_fmax tg l (n_fmin tg h c))).
Proof.
  unfold psweep, for_.
  eapply pc_mono; [apply (for_from_pci _ (fun j y => forall i, i < j -> exists l h c,
    lo i = Some l /\ hi i = Some h /\ fst y i = Some (n_fmax tg l (n_fmin tg h c)))); [|intros; lia]|auto].
  intros j [y e] Hj IH. cbn [fst snd] in IH.
  unfold pstepL. cbn [fst snd]. set (c := pcand M b m y j).
  destruct (lo j) as [l|] eqn:El; destruct (hi j) as [h|] eqn:Eh; destruct c as [c|];
    try (cbn; destruct e; cbn; exact I).
  apply pc_any. intros e'. cbn. intros i Hi. unfold xset.
  destruct (Nat.eqb_spec i j) as [->|]; [|apply IH; lia]. exists l, h, c. auto.
Qed.
Lemma piterL_clamped m M b lo hi md : forall iters x, 0 < iters ->
  pc (piter (pstepL (tg := tg) M b lo hi m) m md iters x)
     (fun y => forall i, i < m -> exists l h c, lo i = Some l /\ hi i = Some h /\ fst y i = Some (n_fmax tg l (n_fmin tg h c))).
Proof.
  induction iters as [|iters IH]; intros x Hi; [lia|]. cbn [piter].
  eapply pc_seq; [apply psweepL_clamped|]. intros [y e] Hy. cbn [fst] in *.
  apply pc_any. intros c. destruct c; [exact Hy|].
  destruct iters; [exact Hy|]. apply IH. lia.
Qed.
End Safe.

(** ** C20: clamping in binary64 *)
Lemma SFcompare_opp x y : SFcompare y x = match SFcompare x y with Some c => Some (CompOpp c) | None => None end.
Proof.
  destruct x as [[|]|[|]| |[|] mx ex], y as [[|]|[|]| |[|] my ey]; cbn; try reflexivity.
  - rewrite Z.compare_antisym. destruct (Z.compare ex ey); cbn; try reflexivity.
    f_equal. rewrite (Pos.compare_cont_antisym my mx Eq). cbn. now rewrite ?CompOpp_involutive.
  - rewrite Z.compare_antisym. destruct (Z.compare ex ey); cbn; try reflexivity.
    f_equal. rewrite (Pos.compare_cont_antisym mx my Eq). cbn. now rewrite ?CompOpp_involutive.
Qed.
Lemma SFcompare_nan x y : f_isnan x = false -> f_isnan y = false -> SFcompare x y <> None.
Proof.
  intros Hx Hy. destruct x as [[|]|[|]| |[|] mx ex], y as [[|]|[|]| |[|] my ey]; cbn in *; try discriminate;
    destruct (Z.compare ex ey); discriminate.
Qed.
Lemma SFcompare_refl x : f_isnan x = false -> SFcompare x x = Some Eq.
Proof.
  intros H. destruct x as [[|]|[|]| |[|] mx ex]; cbn in *; try discriminate; try reflexivity;
    rewrite Z.compare_refl, Pos.compare_cont_refl; reflexivity.
Qed.
Lemma SFleb_nonan x y : SFleb x y = true -> f_isnan x = false /\ f_isnan y = false.
Proof. destruct x as [[|]|[|]| |[|] mx ex], y as [[|]|[|]| |[|] my ey]; cbn; try discriminate; auto. Qed.
Lemma SFleb_refl x : f_isnan x = false -> SFleb x x = true.
Proof. intros H. unfold SFleb. now rewrite SFcompare_refl. Qed.
Lemma SFltb_leb x y : SFltb x y = true -> SFleb x y = true.
Proof. unfold SFltb, SFleb. destruct (SFcompare x y) as [[]|]; auto; discriminate. Qed.
Lemma SFltb_false x y : f_isnan x = false -> f_isnan y = false -> SFltb x y = false -> SFleb y x = true.
Proof.
  intros Hx Hy. pose proof (SFcompare_nan x y Hx Hy) as N. unfold SFltb, SFleb. rewrite (SFcompare_opp x y).
  destruct (SFcompare x y) as [[]|]; cbn; auto; congruence.
Qed.
Lemma f_clamp_in lo hi x : SFleb lo hi = true ->
  SFleb lo (f_fmax lo (f_fmin hi x)) = true /\ SFleb (f_fmax lo (f_fmin hi x)) hi = true.
Proof.
  intros H. destruct (SFleb_nonan _ _ H) as [Nl Nh].
  assert (Hin : exists y, f_fmin hi x = y /\ f_isnan y = false /\ SFleb y hi = true).
  { unfold f_fmin. rewrite Nh. destruct (f_isnan x) eqn:Nx; [exists hi; repeat split; auto; now apply SFleb_refl|].
    destruct (SFltb x hi) eqn:L.
    - exists x. repeat split; auto. now apply SFltb_leb.
    - exists hi. repeat split; auto. now apply SFleb_refl. }
  destruct Hin as (y & -> & Ny & Hy). unfold f_fmax. rewrite Nl, Ny.
  destruct (SFltb lo y) eqn:L.
  - split; [now apply SFltb_leb|exact Hy].
  - split; [now apply SFleb_refl|exact H].
Qed.

Lemma gs_limits_inside dbg priv (hp hp' : heap (F64 dbg)) g J W right limits previous result n m blk v w b lo hi x ok :
  hreach priv hp -> gs_names_limits g J W right limits result -> system hp J W right n m blk v w b ->
  limits_are (hm hp) limits m (fun i => Some (lo i)) (fun i => Some (hi i)) -> start_limits hp previous result m x ->
  (forall i, i < m -> SFleb (lo i) (hi i) = true) -> 0 < gs_max_iterations g ->
  gs_solve_limits g J W right limits result previous hp = Ok (hp', ok) ->
  forall i, i < m -> exists y, mget (hm hp') result 0 i = Ok (Some y) /\
    SFleb (lo i) y = true /\ SFleb y (hi i) = true.
Proof.
  intros Hr Hn Hs Hl Hst Hle Hit E i Hi. apply hreach_inv in Hr.
  pose proof (gs_solve_limits_sim priv hp g J W right limits previous result n m blk v w b _ _ x Hr Hn Hs Hl Hst) as HR.
  pose proof (piterL_clamped m (msys blk v w) b (fun i => Some (lo i)) (fun i => Some (hi i)) (gs_min_delta g)
    (gs_max_iterations g) x Hit) as HP.
  rewrite E in HR. destruct (piter _ m _ _ x) as [[y ok']| | |]; cbn in HR; try contradiction.
  destruct HR as (_ & _ & Hsh). cbn [fst snd] in *.
  destruct (HP i Hi) as (l & h & c & [= <-] & [= <-] & Ey).
  exists (f_fmax (lo i) (f_fmin (hi i) c)). split; [|apply f_clamp_in; now apply Hle].
  destruct Hsh as (_ & _ & Hg). rewrite Hg by lia. cbn [fst] in Ey |- *. now rewrite Ey.
Qed.

(** ** C21, C22: one sweep *)
Lemma mreach_vec {tg} (ms : mats tg) id m (x : nat -> cell tg) :
  mreach false ms -> shows ms id 1 m (fun r _ => x r) -> is_mat false (ms id) 1 m (fun r _ => x r).
Proof. intros Hr Hs. eapply shows_vec; [apply (mreach_wf _ _ Hr)|exact Hs]. Qed.

Definition ordered (m : nat) (lo hi : nat -> R) : Prop := forall i, i < m -> (lo i <= hi i)%R.

Lemma sweep_limits dbg (ms : mats (RT dbg)) left right limits k m A b (lo hi : nat -> R) x :
  mreach false ms -> left <> k -> right <> k -> limits <> k ->
  showsR ms left m m A -> showsR ms right 1 m (fun r _ => b r) ->
  limits_are ms limits m (fun i => Some (lo i)) (fun i => Some (hi i)) ->
  showsR ms k 1 m (fun r _ => x r) ->
  (forall i, i < m -> A i i <> 0%R) ->
  exists ms' d, gs_iteration_limits ms left right limits k k = Ok (ms', d) /\
    showsR ms' k 1 m (fun r _ => traj (stepLR m A b lo hi) x m r) /\ forall id, id <> k -> ms' id = ms id.
Proof.
  intros Hr N1 N2 N3 HA Hb Hl Hx Hd.
  pose proof (gs_iteration_limits_sim ms left right limits k m (fun r c => Some (A r c)) (fun i => Some (b i))
    (fun i => Some (lo i)) (fun i => Some (hi i)) (fun i => Some (x i)) N1 N2 N3) as HS.
  assert (P1 : is_mat false (ms left) m m (fun r c => Some (A r c))) by (eapply shows_is_mat; [apply (mreach_wf _ _ Hr)|exact HA]).
  assert (P3 : is_mat false (ms limits) 2 m (fun r c => if Nat.eqb c 0 then Some (lo r) else Some (hi r)))
    by (eapply shows_is_mat; [apply (mreach_wf _ _ Hr)|exact Hl]).
  specialize (HS P1 (mreach_vec ms right m (fun i => Some (b i)) Hr Hb) P3 (mreach_vec ms k m (fun i => Some (x i)) Hr Hx)).
  destruct (psweep_R dbg m (pstepL (tg := RT dbg) (fun r c => Some (A r c)) (fun i => Some (b i)) (fun i => Some (lo i)) (fun i => Some (hi i)) m)
    (stepLR m A b lo hi) (deltaLR m A b lo hi)) with (x := fun i => (Some (x i) : cell (RT dbg))) (xr := x)
    as (x' & e & E & Hx' & _).
  { intros y yr i Hi Hy. apply pstepL_R; auto; intros j Hj; reflexivity. }
  { intros i Hi. reflexivity. }
  rewrite E in HS. destruct (gs_iteration_limits ms left right limits k k) as [[ms' d]| | |]; cbn in HS; try contradiction.
  destruct HS as (Ho & Hv & _). cbn [fst snd] in *. exists ms', d. split; [reflexivity|]. split; [|exact Ho].
  destruct (is_mat_shows _ _ _ _ _ _ Hv) as (E1 & E2 & E3). split; [exact E1|]. split; [exact E2|].
  intros r c Hrr Hc. rewrite E3 by assumption. now rewrite Hx'.
Qed.

Lemma showsR_fun dbg (ms : mats (RT dbg)) id m x y :
  showsR ms id 1 m (fun r _ => x r) -> showsR ms id 1 m (fun r _ => y r) -> forall i, i < m -> x i = y i.
Proof.
  intros (_ & _ & H1) (_ & _ & H2) i Hi. specialize (H1 i 0 Hi ltac:(lia)). specialize (H2 i 0 Hi ltac:(lia)).
  rewrite H1 in H2. injection H2. auto.
Qed.
Lemma showsR_ext dbg (ms : mats (RT dbg)) id m x y :
  showsR ms id 1 m (fun r _ => x r) -> (forall i, i < m -> x i = y i) -> showsR ms id 1 m (fun r _ => y r).
Proof.
  intros (E1 & E2 & H1) H. split; [exact E1|]. split; [exact E2|]. intros r c Hr Hc. rewrite <- H by exact Hr. now apply H1.
Qed.

Lemma gs_stationary dbg (ms : mats (RT dbg)) left right limits k m A b (lo hi : nat -> R) x :
  mreach false ms -> left <> k -> right <> k -> limits <> k ->
  showsR ms left m m A -> showsR ms right 1 m (fun r _ => b r) ->
  limits_are ms limits m (fun i => Some (lo i)) (fun i => Some (hi i)) ->
  showsR ms k 1 m (fun r _ => x r) ->
  (forall i, i < m -> (0 < A i i)%R) -> (forall i, i < m -> (lo i <= hi i)%R) ->
  exists ms' d, gs_iteration_limits ms left right limits k k = Ok (ms', d) /\
    (showsR ms' k 1 m (fun r _ => x r) <-> solves_limited m A lo hi b x).
Proof.
  intros Hr N1 N2 N3 HA Hb Hl Hx Hp Ho.
  destruct (sweep_limits dbg ms left right limits k m A b lo hi x) as (ms' & d & E & Hs & _); auto.
  { intros i Hi. apply Rgt_not_eq, Hp, Hi. }
  exists ms', d. split; [exact E|].
  rewrite <- (stationary_solves m A b lo hi x Hp Ho).
  rewrite <- (stationary_iff m (stepLR m A b lo hi)) by (intros; now apply stepLR_ext).
  split.
  - intros H j Hj. exact (showsR_fun _ _ _ _ _ _ Hs H j Hj).
  - intros H. eapply showsR_ext; [exact Hs|exact H].
Qed.

Lemma sweep_plain dbg (ms : mats (RT dbg)) left right k m A b x :
  mreach false ms -> left <> k -> right <> k ->
  showsR ms left m m A -> showsR ms right 1 m (fun r _ => b r) ->
  showsR ms k 1 m (fun r _ => x r) ->
  (forall i, i < m -> A i i <> 0%R) ->
  exists ms' d, gs_iteration ms left right k k = Ok (ms', d) /\
    showsR ms' k 1 m (fun r _ => traj (candR m A b) x m r) /\ forall id, id <> k -> ms' id = ms id.
Proof.
  intros Hr N1 N2 HA Hb Hx Hd.
  pose proof (gs_iteration_sim ms left right k m (fun r c => Some (A r c)) (fun i => Some (b i)) (fun i => Some (x i)) N1 N2) as HS.
  assert (P1 : is_mat false (ms left) m m (fun r c => Some (A r c))) by (eapply shows_is_mat; [apply (mreach_wf _ _ Hr)|exact HA]).
  specialize (HS P1 (mreach_vec ms right m (fun i => Some (b i)) Hr Hb) (mreach_vec ms k m (fun i => Some (x i)) Hr Hx)).
  destruct (psweep_R dbg m (pstep1 (tg := RT dbg) (fun r c => Some (A r c)) (fun i => Some (b i)) m)
    (candR m A b) (fun x i => (Rabs (candR m A b x i) - Rmax (1 / 1000) (x i)) / Rmax (1 / 1000) (x i))%R)
     with (x := fun i => (Some (x i) : cell (RT dbg))) (xr := x)
    as (x' & e & E & Hx' & _).
  { intros y yr i Hi Hy. unfold pstep1.
    rewrite (pcand_R dbg m A b (fun r c => Some (A r c)) (fun i => Some (b i))) with (xr := yr); auto;
      [|intros j Hj; reflexivity].
    rewrite clit_1000, (Hy i Hi). unfold cfmax, csub, cabs, cdiv, lift1, lift2, lift2p. cbn.
    rewrite R_div_some by (apply Rgt_not_eq, min_k_pos). reflexivity. }
  { intros i Hi. reflexivity. }
  rewrite E in HS. destruct (gs_iteration ms left right k k) as [[ms' d]| | |]; cbn in HS; try contradiction.
  destruct HS as (Ho & Hv & _). cbn [fst snd] in *. exists ms', d. split; [reflexivity|]. split; [|exact Ho].
  destruct (is_mat_shows _ _ _ _ _ _ Hv) as (E1 & E2 & E3). split; [exact E1|]. split; [exact E2|].
  intros r c Hrr Hc. rewrite E3 by assumption. now rewrite Hx'.
Qed.
Lemma gs_stationary_plain dbg (ms : mats (RT dbg)) left right k m A b x :
  mreach false ms -> left <> k -> right <> k ->
  showsR ms left m m A -> showsR ms right 1 m (fun r _ => b r) ->
  showsR ms k 1 m (fun r _ => x r) -> (forall i, i < m -> A i i <> 0%R) ->
  exists ms' d, gs_iteration ms left right k k = Ok (ms', d) /\
    (showsR ms' k 1 m (fun r _ => x r) <-> solves m A x b).
Proof.
  intros Hr N1 N2 HA Hb Hx Hp.
  destruct (sweep_plain dbg ms left right k m A b x) as (ms' & d & E & Hs & _); auto.
  exists ms', d. split; [exact E|].
  rewrite <- (stationary_solves_plain m A b x Hp).
  rewrite <- (stationary_iff m (candR m A b)) by (intros; now apply candR_ext).
  split.
  - intros H j Hj. exact (showsR_fun _ _ _ _ _ _ Hs H j Hj).
  - intros H. eapply showsR_ext; [exact Hs|exact H].
Qed.

Lemma gs_energy dbg (ms : mats (RT dbg)) left right limits k m A b (lo hi : nat -> R) x :
  mreach false ms -> left <> k -> right <> k -> limits <> k ->
  showsR ms left m m A -> showsR ms right 1 m (fun r _ => b r) ->
  limits_are ms limits m (fun i => Some (lo i)) (fun i => Some (hi i)) ->
  showsR ms k 1 m (fun r _ => x r) ->
  symmetric m A -> (forall i, i < m -> (0 < A i i)%R) -> within m lo hi x ->
  exists ms' d x', gs_iteration_limits ms left right limits k k = Ok (ms', d) /\
    showsR ms' k 1 m (fun r _ => x' r) /\ within m lo hi x' /\
    (energy m A b x' <= energy m A b x)%R /\
    (energy m A b x' = energy m A b x -> forall i, i < m -> x' i = x i).
Proof.
  intros Hr N1 N2 N3 HA Hb Hl Hx Hsy Hp Hw.
  assert (Ho : forall i, i < m -> (lo i <= hi i)%R) by (intros i Hi; specialize (Hw i Hi); lra).
  destruct (sweep_limits dbg ms left right limits k m A b lo hi x) as (ms' & d & E & Hs & _); auto.
  { intros i Hi. apply Rgt_not_eq, Hp, Hi. }
  exists ms', d, (traj (stepLR m A b lo hi) x m). split; [exact E|]. split; [exact Hs|].
  split; [now apply sweep_within|].
  pose proof (energy_sweep m A b lo hi x Hsy Hp Ho Hw) as He. split.
  - destruct m as [|m']; [right; reflexivity|]. specialize (He 0 ltac:(lia)). specialize (Hp 0 ltac:(lia)).
    revert He. generalize (traj (stepLR (S m') A b lo hi) x (S m') 0%nat - x 0%nat)%R. intros q He.
    pose proof (Rle_0_sqr q) as Hq. unfold Rsqr in Hq. nra.
  - intros Eq i Hi. specialize (He i Hi). specialize (Hp i Hi). rewrite Eq in He.
    assert (Z : (traj (stepLR m A b lo hi) x m i - x i = 0)%R); [|lra].
    revert He. generalize (traj (stepLR m A b lo hi) x m i - x i)%R. intros q He.
    pose proof (Rle_0_sqr q) as Hq. unfold Rsqr in Hq.
    destruct (Req_dec q 0) as [|N]; [assumption|]. exfalso. assert (0 < q * q)%R by nra. nra.
Qed.

(** ** C23: convergence *)
Lemma diag_min m (A : nat -> nat -> R) : (forall i, i < m -> (0 < A i i)%R) ->
  exists a, (0 < a)%R /\ forall i, i < m -> (a <= A i i)%R.
Proof.
  induction m as [|m IH]; intros H; [exists 1%R; split; [lra|intros; lia]|].
  destruct IH as (a & Ha & Hm); [intros; apply H; lia|].
  exists (Rmin a (A m m)). split; [apply Rmin_glb_lt; auto|].
  intros i Hi. destruct (Nat.eq_dec i m) as [->|]; [apply Rmin_r|].
  eapply Rle_trans; [apply Rmin_l|apply Hm; lia].
Qed.
Lemma posdef_diag m A : positive_definite m A -> forall i, i < m -> (0 < A i i)%R.
Proof.
  intros Hp i Hi. set (e := fun c => if Nat.eqb c i then 1%R else 0%R).
  assert (H : (0 < dot m e (mulv m A e))%R).
  { apply Hp. exists i. split; [exact Hi|]. unfold e. rewrite Nat.eqb_refl. lra. }
  replace (A i i) with (dot m e (mulv m A e)); [exact H|].
  unfold dot. rewrite (Rsum_remove m i _ Hi). rewrite (Rsum_eq0 m).
  - unfold e at 1. rewrite Nat.eqb_refl. unfold mulv. rewrite (Rsum_remove m i _ Hi), (Rsum_eq0 m).
    + unfold e. rewrite Nat.eqb_refl. lra.
    + intros j Hj. unfold e. destruct (Nat.eqb j i); lra.
  - intros j Hj. unfold e at 1. destruct (Nat.eqb j i); lra.
Qed.
Lemma mulv_minus m A x y r : mulv m A (fun i => x i - y i)%R r = (mulv m A x r - mulv m A y r)%R.
Proof. unfold mulv. rewrite <- Rsum_minus. apply Rsum_ext. intros; ring. Qed.
Lemma quad_nonneg m A x : positive_definite m A -> (0 <= dot m x (mulv m A x))%R.
Proof.
  intros Hp. assert (D : (exists c, c < m /\ x c <> 0%R) \/ (forall c, c < m -> x c = 0%R)).
  { clear. induction m as [|m IH]; [right; intros; lia|].
    destruct IH as [(c & Hc & N)|IH]; [left; exists c; split; [lia|exact N]|].
    destruct (Req_dec (x m) 0) as [E|N]; [right|left; exists m; split; [lia|exact N]].
    intros c Hc. destruct (Nat.eq_dec c m) as [->|]; [exact E|apply IH; lia]. }
  destruct D as [H|H]; [left; now apply Hp|]. right. symmetry. apply Rsum_eq0. intros i Hi. rewrite H by exact Hi. lra.
Qed.
Lemma energy_below m A b : symmetric m A -> positive_definite m A -> exists lb, forall x, (lb <= energy m A b x)%R.
Proof.
  intros Hs Hp. destruct (nonsingular_solvable m A b (posdef_nonsingular m A Hp)) as [y Hy].
  exists (- dot m y (mulv m A y) / 2)%R. intros x.
  pose proof (quad_nonneg m A (fun i => x i - y i)%R Hp) as Hq.
  assert (E : dot m (fun i => x i - y i)%R (mulv m A (fun i => x i - y i)%R) =
    (dot m x (mulv m A x) - 2 * dot m b x + dot m y (mulv m A y))%R).
  { assert (E1 : dot m y (mulv m A x) = dot m b x).
    { unfold dot, mulv. rewrite (Rsum_ext m _ (fun i => Rsum m (fun c => y i * (A i c * x c)))%R) by (intros; now rewrite Rsum_scal_l).
      rewrite Rsum_swap. apply Rsum_ext. intros c Hc. rewrite <- (Hy c Hc). unfold mulv. rewrite <- Rsum_scal_r.
      apply Rsum_ext. intros i Hi. rewrite (Hs c i) by assumption. ring. }
    assert (E2 : dot m x (mulv m A y) = dot m b x).
    { unfold dot. apply Rsum_ext. intros i Hi. rewrite (Hy i Hi). ring. }
    unfold dot in *. rewrite (Rsum_ext m _ (fun i => x i * mulv m A x i - x i * mulv m A y i - y i * mulv m A x i + y i * mulv m A y i)%R).
    - rewrite Rsum_plus, !Rsum_minus. lra.
    - intros i Hi. rewrite mulv_minus. ring. }
  unfold energy. lra.
Qed.
Lemma energy_above m A b lo hi : exists ub, forall x, within m lo hi x -> (energy m A b x <= ub)%R.
Proof.
  set (B := fun i => (Rmax (Rabs (lo i)) (Rabs (hi i)))%R).
  exists (Rsum m (fun i => B i * Rsum m (fun c => Rabs (A i c) * B c)) / 2 + Rsum m (fun i => Rabs (b i) * B i))%R.
  intros x Hw.
  assert (HB : forall i, i < m -> (Rabs (x i) <= B i)%R).
  { intros i Hi. specialize (Hw i Hi). unfold B. apply Rabs_le. split.
    - destruct (Rle_dec 0 (x i)).
      + pose proof (Rle_trans _ _ _ (Rabs_pos (lo i)) (Rmax_l (Rabs (lo i)) (Rabs (hi i)))). lra.
      + pose proof (Rmax_l (Rabs (lo i)) (Rabs (hi i))). rewrite (Rabs_left (lo i)) in * by lra. lra.
    - pose proof (Rmax_r (Rabs (lo i)) (Rabs (hi i))). pose proof (Rle_abs (hi i)). lra. }
  unfold energy.
  assert (H1 : (dot m x (mulv m A x) <= Rsum m (fun i => B i * Rsum m (fun c => Rabs (A i c) * B c)))%R).
  { apply Rsum_le. intros i Hi. eapply Rle_trans; [apply Rle_abs|]. rewrite Rabs_mult.
    apply Rmult_le_compat; [apply Rabs_pos|apply Rabs_pos|now apply HB|].
    eapply Rle_trans; [apply Rsum_abs|]. apply Rsum_le. intros c Hc. rewrite Rabs_mult.
    apply Rmult_le_compat_l; [apply Rabs_pos|now apply HB]. }
  assert (H2 : (- dot m b x <= Rsum m (fun i => Rabs (b i) * B i))%R).
  { unfold dot. rewrite <- Rsum_opp. apply Rsum_le. intros i Hi. eapply Rle_trans; [apply Rle_abs|].
    rewrite Rabs_Ropp, Rabs_mult. apply Rmult_le_compat_l; [apply Rabs_pos|now apply HB]. }
  lra.
Qed.

Lemma INR_above (r : R) : exists n, (r < INR n)%R.
Proof.
  exists (Z.to_nat (up r)). destruct (archimed r) as [H _]. rewrite INR_IZR_INZ.
  eapply Rlt_le_trans; [exact H|]. apply IZR_le. lia.
Qed.

Section Converge.
Variable dbg : bool.
Variable m : nat.
Variables (A : nat -> nat -> R) (b lo hi : nat -> R) (tol : R).
Hypothesis Hs : symmetric m A.
Hypothesis Hpd : positive_definite m A.
Hypothesis Hl : forall i, i < m -> (lo i <= hi i)%R.
Hypothesis Ht : (0 < tol)%R.
Variables (M : nat -> nat -> cell (RT dbg)) (bc loc hic : nat -> cell (RT dbg)).
Hypothesis M_R : forall r c, r < m -> c < m -> M r c = (Some (A r c) : cell (RT dbg)).
Hypothesis b_R : lifts dbg m bc b.
Hypothesis lo_R : lifts dbg m loc lo.
Hypothesis hi_R : lifts dbg m hic hi.

Lemma clt_R (x y : R) : clt (Some x : cell (RT dbg)) (Some y) = Ok (R_ltb x y).
Proof. reflexivity. Qed.

Lemma sweep_R x xr : lifts dbg m x xr ->
  exists x' e, psweep (pstepL M bc loc hic m) m x = Ok (x', Some e : cell (RT dbg)) /\
    lifts dbg m x' (traj (stepLR m A b lo hi) xr m) /\
    (forall i, i < m -> (deltaLR m A b lo hi (traj (stepLR m A b lo hi) xr i) i <= e)%R) /\
    (e = 0%R \/ exists i, i < m /\ e = deltaLR m A b lo hi (traj (stepLR m A b lo hi) xr i) i).
Proof.
  apply psweep_R. intros y yr i Hi Hy. apply (pstepL_R dbg m A b lo hi); auto.
  apply Rgt_not_eq. now apply posdef_diag with (m := m).
Qed.

Lemma decrease a xr i e : (0 < a)%R -> (forall i, i < m -> (a <= A i i)%R) -> within m lo hi xr -> i < m ->
  e = deltaLR m A b lo hi (traj (stepLR m A b lo hi) xr i) i -> (tol <= e)%R ->
  (energy m A b (traj (stepLR m A b lo hi) xr m) <= energy m A b xr - a * (tol / 1000 * (tol / 1000)) / 2)%R.
Proof.
  intros Ha Hmin Hw Hi Ee He.
  pose proof (energy_sweep m A b lo hi xr Hs (posdef_diag m A Hpd) Hl Hw i Hi) as HE.
  assert (Ed : e = (Rabs (traj (stepLR m A b lo hi) xr m i - xr i) / Rmax (1 / 1000) (Rabs (xr i)))%R).
  { rewrite Ee. unfold deltaLR. rewrite (traj_done _ xr m i Hi). rewrite !(traj_later _ xr i i) by lia. reflexivity. }
  set (q := (traj (stepLR m A b lo hi) xr m i - xr i)%R) in *.
  assert (Hq : (tol / 1000 <= Rabs q)%R).
  { pose proof (Rmax_l (1 / 1000) (Rabs (xr i))) as Hm1. pose proof (min_k_pos (Rabs (xr i))) as Hm0.
    assert (E : (Rabs q = e * Rmax (1 / 1000) (Rabs (xr i)))%R) by (rewrite Ed; field; lra).
    rewrite E. nra. }
  assert (Hqq : (tol / 1000 * (tol / 1000) <= q * q)%R).
  { rewrite <- (Rabs_pos_eq (q * q)) by (pose proof (Rle_0_sqr q); unfold Rsqr in *; lra). rewrite Rabs_mult. nra. }
  specialize (Hmin i Hi).
  assert (0 <= q * q)%R by nra. nra.
Qed.

Lemma piter_converges a lb : (0 < a)%R -> (forall i, i < m -> (a <= A i i)%R) ->
  (forall x, (lb <= energy m A b x)%R) ->
  forall k x xr, lifts dbg m x xr -> within m lo hi xr ->
  (energy m A b xr - lb < INR k * (a * (tol / 1000 * (tol / 1000)) / 2))%R ->
  exists x', piter (pstepL M bc loc hic m) m (Some tol : cell (RT dbg)) k x = Ok (x', true).
Proof.
  intros Ha Hmin Hlb. induction k as [|k IH]; intros x xr Hx Hw He.
  - specialize (Hlb xr). cbn in He. lra.
  - cbn [piter]. destruct (sweep_R x xr Hx) as (x' & e & E & Hx' & Hle & Hin). rewrite E. cbn [bind].
    rewrite clt_R. cbn [bind]. destruct (R_ltb e tol) eqn:Ec; [eexists; reflexivity|].
    apply R_ltb_false in Ec. destruct Hin as [->|(i & Hi & Ee)]; [lra|].
    apply (IH x' (traj (stepLR m A b lo hi) xr m)); [exact Hx'|now apply sweep_within|].
    pose proof (decrease a xr i e Ha Hmin Hw Hi Ee ltac:(lra)) as HD. rewrite S_INR in He. lra.
Qed.

Lemma piter_converges_any : exists N, forall k x xr, N <= k -> lifts dbg m x xr ->
  exists x', piter (pstepL M bc loc hic m) m (Some tol : cell (RT dbg)) k x = Ok (x', true).
Proof.
  destruct (diag_min m A (posdef_diag m A Hpd)) as (a & Ha & Hmin).
  destruct (energy_below m A b Hs Hpd) as [lb Hlb]. destruct (energy_above m A b lo hi) as [ub Hub].
  set (eta := (a * (tol / 1000 * (tol / 1000)) / 2)%R).
  assert (Heta : (0 < eta)%R) by (unfold eta; assert (0 < tol / 1000)%R by lra; assert (0 < a * (tol / 1000 * (tol / 1000)))%R by (apply Rmult_lt_0_compat; [assumption|apply Rmult_lt_0_compat; assumption]); lra).
  destruct (INR_above ((ub - lb) / eta)) as [N HN].
  exists (S N). intros [|k] x xr Hk Hx; [lia|]. cbn [piter].
  destruct (sweep_R x xr Hx) as (x' & e & E & Hx' & Hle & Hin). rewrite E. cbn [bind].
  rewrite clt_R. cbn [bind]. destruct (R_ltb e tol) eqn:Ec; [eexists; reflexivity|].
  apply (piter_converges a lb Ha Hmin Hlb k x' (traj (stepLR m A b lo hi) xr m)); [exact Hx'|now apply sweep_within|].
  fold eta. pose proof (Hub _ (sweep_within m A b lo hi xr Hl)) as HU.
  assert (H1 : (INR N <= INR k)%R) by (apply le_INR; lia).
  assert (H2 : ((ub - lb) / eta * eta = ub - lb)%R) by (field; lra). nra.
Qed.
End Converge.

(** the bound depends on the system, the limits and the tolerance only *)
Lemma gs_converges n m D w b lo hi tol :
  positive_definite m (JWJt n D w) -> (forall i, i < m -> (lo i <= hi i)%R) -> (0 < tol)%R ->
  exists N, forall dbg priv (hp : heap (RT dbg)) M reg k J W right limits previous result x,
    let g := mkGs M reg k (Some tol : cell (RT dbg)) in
    N <= k -> hreach priv hp -> gs_names_limits g J W right limits result -> systemR hp J W right n m D w b ->
    limits_are (hm hp) limits m (fun i => Some (lo i)) (fun i => Some (hi i)) ->
    start_limits hp previous result m (fun i => Some (x i)) ->
    exists hp', gs_solve_limits g J W right limits result previous hp = Ok (hp', true).
Proof.
  intros Hpd Hl Ht.
  assert (Hsym : symmetric m (JWJt n D w)).
  { intros r c Hr Hc. apply Rsum_ext. intros; ring. }
  assert (HN : forall dbg, exists N, forall k x xr, N <= k -> lifts dbg m x xr ->
    exists x', piter (tg := RT dbg) (pstepL (tg := RT dbg) (fun r c => Some (JWJt n D w r c)) (fun i => Some (b i)) (fun i => Some (lo i)) (fun i => Some (hi i)) m)
      m (Some tol) k x = Ok (x', true)).
  { intros dbg. apply (piter_converges_any dbg m (JWJt n D w) b lo hi tol Hsym Hpd Hl Ht); auto; intros i Hi; reflexivity. }
  destruct (HN true) as [Nt HNt]. destruct (HN false) as [Nf HNf].
  exists (Nat.max Nt Nf). intros dbg priv hp M reg k J W right limits previous result x g Hk Hr Hn Hsy Hli Hst.
  apply hreach_inv in Hr.
  destruct (systemR_system dbg hp J W right n m D w b Hsy) as (blk & v & Hs' & _ & Hin & Em).
  pose proof (gs_solve_limits_sim priv hp g J W right limits previous result n m blk _ _ _ _ _ _ Hr Hn Hs' Hli Hst) as HR.
  cbn [gs_min_delta gs_max_iterations g] in HR.
  assert (Hit : exists x', piter (tg := RT dbg) (pstepL (tg := RT dbg) (fun r c => Some (JWJt n D w r c)) (fun i => Some (b i)) (fun i => Some (lo i)) (fun i => Some (hi i)) m)
      m (Some tol) k (fun i => Some (x i)) = Ok (x', true)).
  { destruct dbg; [apply (HNt k _ x)|apply (HNf k _ x)]; try lia; intros i Hi; reflexivity. }
  destruct Hit as [x' Ex].
  assert (Eq : forall k x0, rel
    (piter (tg := RT dbg) (pstepL (tg := RT dbg) (msys blk (fun r e k => Some (v r e k)) (fun i => Some (w i))) (fun i => Some (b i)) (fun i => Some (lo i)) (fun i => Some (hi i)) m) m (Some tol) k x0)
    (piter (tg := RT dbg) (pstepL (tg := RT dbg) (fun r c => Some (JWJt n D w r c)) (fun i => Some (b i)) (fun i => Some (lo i)) (fun i => Some (hi i)) m) m (Some tol) k x0) eq).
  { apply piter_ext. intros y i Hi. apply pstepL_extM; [exact Em|exact Hi]. }
  specialize (Eq k (fun i => Some (x i))). rewrite Ex in Eq.
  match type of HR with rel _ ?p _ => destruct p as [[y ok]| | |]; cbn in Eq; try contradiction end.
  injection Eq as <- <-.
  destruct (gs_solve_limits g J W right limits result previous hp) as [[hp' ok']| | |]; cbn in HR; try contradiction.
  destruct HR as (E & _). cbn in E. subst. exists hp'. reflexivity.
Qed.

(** ** C24: what success means *)
Lemma piter_true {tg : target} (step : (nat -> cell tg) -> nat -> cell tg * cell tg) m md :
  forall k x x', piter step m md k x = Ok (x', true) ->
  exists j y d, j < k /\ piter step m md j x = Ok (y, false) /\ psweep step m y = Ok (x', d) /\ clt d md = Ok true /\
    piter step m md (S j) x = Ok (x', true).
Proof.
  induction k as [|k IH]; intros x x' E; cbn [piter] in E; [discriminate|].
  destruct (psweep step m x) as [[y d]| | |] eqn:E1; try discriminate. cbn [bind] in E.
  destruct (clt d md) as [[|]| | |] eqn:E2; try discriminate; cbn [bind] in E.
  - injection E as <-. exists 0, x, d. split; [lia|]. split; [reflexivity|]. split; [exact E1|]. split; [exact E2|].
    cbn [piter]. rewrite E1. cbn [bind]. rewrite E2. reflexivity.
  - destruct (IH y x' E) as (j & z & d' & Hj & F1 & F2 & F3 & F4). exists (S j), z, d'.
    split; [lia|]. split; [cbn [piter]; rewrite E1; cbn [bind]; rewrite E2; exact F1|]. split; [exact F2|]. split; [exact F3|].
    remember (S j) as j'. cbn [piter]. rewrite E1. cbn [bind]. rewrite E2. exact F4.
Qed.
Lemma piter_lifts dbg m (step : (nat -> cell (RT dbg)) -> nat -> cell (RT dbg) * cell (RT dbg)) c d md :
  (forall y yr i, i < m -> lifts dbg m y yr -> step y i = (Some (c yr i) : cell (RT dbg), Some (d yr i) : cell (RT dbg))) ->
  forall k x xr y ok, lifts dbg m x xr -> piter step m md k x = Ok (y, ok) -> exists yr, lifts dbg m y yr.
Proof.
  intros Hs. induction k as [|k IH]; intros x xr y ok Hx E; cbn [piter] in E.
  - injection E as <- _. now exists xr.
  - destruct (psweep_R dbg m step c d Hs x xr Hx) as (x' & e & E1 & Hx' & _). rewrite E1 in E. cbn [bind] in E.
    destruct (clt _ md) as [[|]| | |]; try discriminate; cbn [bind] in E; [injection E as <- _; eauto|eauto].
Qed.

Lemma gs_iterate_more {tg : target} (step : mats tg -> res (mats tg * cell tg)) md :
  forall j k ms ms', gs_iterate step md j ms = Ok (ms', true) -> j <= k -> gs_iterate step md k ms = Ok (ms', true).
Proof.
  induction j as [|j IH]; intros [|k] ms ms' E Hk; cbn [gs_iterate] in *; try discriminate; try lia.
  destruct (step ms) as [[ms1 d]| | |]; try discriminate. cbn [bind] in *.
  destruct (clt d md) as [[|]| | |]; try discriminate; cbn [bind] in *; [exact E|]. apply IH; [exact E|lia].
Qed.
Lemma gs_more {tg : target} (g : gs_solver tg) k J W right limits result previous hp hp' :
  (exists h, gs_solve_limits g J W right limits result previous hp = Ok (h, true)) -> gs_max_iterations g <= k ->
  gs_solve_limits (with_iterations g k) J W right limits result previous hp = Ok (hp', true) ->
  gs_solve_limits g J W right limits result previous hp = Ok (hp', true).
Proof.
  intros [h E] Hk E'. rewrite E. rewrite <- E'. symmetry. revert E. unfold gs_solve_limits. cbn [with_iterations gs_M gs_reg gs_min_delta gs_max_iterations].
  set (n := m_h (hm hp right)).
  destruct (if negb (m_h (hm hp result) =? n) then _ else _) as [ms| | |]; cbn [bind]; try discriminate.
  destruct (warm_start ms previous result n) as [ms1| | |]; cbn [bind]; try discriminate.
  destruct (sp_right_scale 3 2 (hs hp) ms1 J W (gs_reg g)) as [ss| | |]; cbn [bind]; try discriminate.
  destruct (sp_multiply_transpose 3 2 (ss (gs_reg g)) (ss J) ms1 (gs_M g)) as [ms2| | |]; cbn [bind]; try discriminate.
  destruct (gs_iterate _ (gs_min_delta g) (gs_max_iterations g) ms2) as [[ms3 ok]| | |] eqn:Ei; cbn [bind]; try discriminate.
  intros [= <- ->]. rewrite (gs_iterate_more _ _ _ k _ _ Ei Hk). reflexivity.
Qed.

Lemma gs_success_small dbg priv (hp hp' : heap (RT dbg)) g J W right limits previous result n m D w b lo hi x tol :
  hreach priv hp -> gs_names_limits g J W right limits result -> systemR hp J W right n m D w b ->
  limits_are (hm hp) limits m (fun i => Some (lo i)) (fun i => Some (hi i)) ->
  start_limits hp previous result m (fun i => Some (x i)) -> gs_min_delta g = Some tol ->
  gs_solve_limits g J W right limits result previous hp = Ok (hp', true) ->
  exists k before y x', k < gs_max_iterations g /\
    gs_solve_limits (with_iterations g k) J W right limits result previous hp = Ok (before, false) /\
    gs_solve_limits (with_iterations g (S k)) J W right limits result previous hp = Ok (hp', true) /\
    showsR (hm before) result 1 m (fun r _ => y r) /\ showsR (hm hp') result 1 m (fun r _ => x' r) /\
    forall i, i < m -> (Rabs (x' i - y i) < tol * Rmax (1 / 1000) (Rabs (y i)))%R.
Proof.
  intros Hr Hn Hsy Hli Hst Htol E. apply hreach_inv in Hr.
  destruct (systemR_system dbg hp J W right n m D w b Hsy) as (blk & v & Hs' & _ & Hin & Em).
  set (st := pstepL (tg := RT dbg) (msys blk (fun r e k => Some (v r e k)) (fun i => Some (w i))) (fun i => Some (b i)) (fun i => Some (lo i)) (fun i => Some (hi i)) m).
  assert (HR : forall k, rel (gs_solve_limits (with_iterations g k) J W right limits result previous hp)
    (piter st m (Some tol : cell (RT dbg)) k (fun i => Some (x i))) (gs_done g result m hp)).
  { intros k. rewrite <- Htol.
    exact (gs_solve_limits_sim priv hp (with_iterations g k) J W right limits previous result n m blk _ _ _ _ _ _ Hr Hn Hs' Hli Hst). }
  assert (HE : gs_solve_limits (with_iterations g (gs_max_iterations g)) J W right limits result previous hp = Ok (hp', true)).
  { rewrite <- E. destruct g; reflexivity. }
  pose proof (HR (gs_max_iterations g)) as HRm. rewrite HE in HRm.
  destruct (piter st m (Some tol : cell (RT dbg)) (gs_max_iterations g) _) as [[x1 ok]| | |] eqn:Ep; cbn in HRm; try contradiction.
  destruct HRm as (Eok & _ & Hsh). cbn in Eok. subst ok. cbn [fst] in Hsh.
  destruct (piter_true _ _ _ _ _ _ Ep) as (j & y & d & Hj & F1 & F2 & F3 & F4).
  assert (Hd : forall i, i < m -> JWJt n D w i i <> 0%R).
  { pose proof (psweepL_diag dbg m (JWJt n D w) (msys blk (fun r e k => Some (v r e k)) (fun i => Some (w i))) (fun i => Some (b i)) (fun i => Some (lo i)) (fun i => Some (hi i)) Em y) as P.
    fold st in P. rewrite F2 in P. exact P. }
  assert (Hstep : forall y yr i, i < m -> lifts dbg m y yr ->
    st y i = (Some (stepLR m (JWJt n D w) b lo hi yr i) : cell (RT dbg), Some (deltaLR m (JWJt n D w) b lo hi yr i) : cell (RT dbg))).
  { intros y0 yr i Hi Hy. unfold st. apply (pstepL_R dbg m (JWJt n D w) b lo hi); auto; intros q Hq; reflexivity. }
  destruct (piter_lifts dbg m st _ _ (Some tol) Hstep j (fun i => Some (x i)) x y false) as [yr Hy]; [intros i Hi; reflexivity|exact F1|].
  destruct (psweep_R dbg m st _ _ Hstep y yr Hy) as (x' & e & E1 & Hx' & Hle & _). rewrite F2 in E1. injection E1 as <- ->.
  rewrite clt_R in F3. injection F3 as F3. apply R_ltb_true in F3.
  pose proof (HR j) as HRj. rewrite F1 in HRj.
  destruct (gs_solve_limits (with_iterations g j) J W right limits result previous hp) as [[before okj]| | |] eqn:Ej; cbn in HRj; try contradiction.
  destruct HRj as (Eok & _ & Hshj). cbn in Eok. subst okj. cbn [fst] in Hshj.
  (* one more iteration ends in the very same heap *)
  assert (ES : gs_solve_limits (with_iterations g (S j)) J W right limits result previous hp = Ok (hp', true)).
  { pose proof (HR (S j)) as HRs. rewrite F4 in HRs.
    apply (gs_more (with_iterations g (S j)) (gs_max_iterations g)).
    - destruct (gs_solve_limits (with_iterations g (S j)) J W right limits result previous hp) as [[h ok]| | |]; cbn in HRs; try contradiction.
      destruct HRs as (Eo & _). cbn in Eo. subst. eauto.
    - cbn. lia.
    - exact HE. }
  exists j, before, yr, (traj (stepLR m (JWJt n D w) b lo hi) yr m). split; [exact Hj|].
  split; [exact Ej|]. split; [exact ES|]. split.
  { destruct Hshj as (A1 & A2 & A3). split; [exact A1|]. split; [exact A2|]. intros r c Hrr Hc. rewrite A3 by assumption. now rewrite Hy. }
  split.
  { destruct Hsh as (A1 & A2 & A3). split; [exact A1|]. split; [exact A2|]. intros r c Hrr Hc. rewrite A3 by assumption. now rewrite Hx'. }
  intros i Hi. specialize (Hle i Hi).
  assert (Ed : deltaLR m (JWJt n D w) b lo hi (traj (stepLR m (JWJt n D w) b lo hi) yr i) i =
    (Rabs (traj (stepLR m (JWJt n D w) b lo hi) yr m i - yr i) / Rmax (1 / 1000) (Rabs (yr i)))%R).
  { unfold deltaLR. rewrite (traj_done _ yr m i Hi). rewrite !(traj_later _ yr i i) by lia. reflexivity. }
  rewrite Ed in Hle. pose proof (min_k_pos (Rabs (yr i))) as Hm0.
  set (q := Rabs (traj (stepLR m (JWJt n D w) b lo hi) yr m i - yr i)) in *.
  assert (Eq : (q = q / Rmax (1 / 1000) (Rabs (yr i)) * Rmax (1 / 1000) (Rabs (yr i)))%R) by (field; lra).
  rewrite Eq. apply Rmult_lt_compat_r; [exact Hm0|lra].
Qed.
