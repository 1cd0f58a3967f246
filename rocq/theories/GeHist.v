(** * Gaussian elimination: the properties, from reachable heaps. *)

From Coq Require Import Reals Lra.
From Verif Require Import Base Targets Matrix Sparse Sle Logic MatrixFacts MatrixOps SpecMatrix MatrixHist
  SparseFacts SpecSparse SparseHist SpecSle SleHist SleGe GeReal RealSum.
Local Open Scope nat_scope.

(** ** determinate values *)
Section Defined.
Context {tg : target}.
Lemma defined_some (x : cell tg) : defined x -> exists a, x = Some a.
Proof. destruct x as [a|]; intros H; [now exists a|now destruct H]. Qed.
Lemma defined_cofZ z : defined (cofZ z : cell tg).
Proof. discriminate. Qed.
Lemma defined_add (x y : cell tg) : defined x -> defined y -> defined (cadd x y).
Proof. destruct x, y; unfold defined; cbn; congruence. Qed.
Lemma defined_sub (x y : cell tg) : defined x -> defined y -> defined (csub x y).
Proof. destruct x, y; unfold defined; cbn; congruence. Qed.
Lemma defined_mul (x y : cell tg) : defined x -> defined y -> defined (cmul x y).
Proof. destruct x, y; unfold defined; cbn; congruence. Qed.
Lemma defined_opp (x : cell tg) : defined x -> defined (copp x).
Proof. destruct x; unfold defined; cbn; congruence. Qed.
Lemma defined_abs (x : cell tg) : defined x -> defined (cabs x).
Proof. destruct x; unfold defined; cbn; congruence. Qed.
Lemma defined_fmax (x y : cell tg) : defined x -> defined y -> defined (cfmax x y).
Proof. destruct x, y; unfold defined; cbn; congruence. Qed.
Lemma defined_fmin (x y : cell tg) : defined x -> defined y -> defined (cfmin x y).
Proof. destruct x, y; unfold defined; cbn; congruence. Qed.
Lemma defined_div (x y : cell tg) : total_division tg -> defined x -> defined y -> defined (cdiv x y).
Proof.
  intros Ht. destruct x as [a|], y as [b|]; unfold defined; cbn; try congruence.
  destruct (Ht a b) as [z ->]. congruence.
Qed.
Lemma clt_defined (x y : cell tg) : defined x -> defined y -> exists c, clt x y = Ok c.
Proof. intros Hx Hy. destruct (defined_some _ Hx) as [a ->], (defined_some _ Hy) as [b ->]. now eexists. Qed.
Lemma ceq_defined (x y : cell tg) : defined x -> defined y -> exists c, ceq x y = Ok c.
Proof. intros Hx Hy. destruct (defined_some _ Hx) as [a ->], (defined_some _ Hy) as [b ->]. now eexists. Qed.
Lemma csum_defined n f : (forall i, i < n -> defined (f i)) -> defined (csum (tg := tg) n f).
Proof. induction n; intros H; cbn; [apply defined_cofZ|]. apply defined_add; auto. Qed.
Lemma iter_defined n (g : nat -> cell tg -> cell tg) a :
  defined a -> (forall i x, i < n -> defined x -> defined (g i x)) -> defined (iter n g a).
Proof. intros Ha. induction n; intros H; cbn; [exact Ha|]. apply H; [lia|]. apply IHn. auto. Qed.

Lemma srowrow_defined st en blk (v : nat -> nat -> cell tg) blk' v' :
  (forall e k, e < en -> k < st -> blk e <> 255%Z -> defined (v e k)) ->
  (forall e k, e < en -> k < st -> blk' e <> 255%Z -> defined (v' e k)) ->
  defined (srowrow st en blk v blk' v').
Proof.
  intros H H'. apply iter_defined; [apply defined_cofZ|]. intros e x He Hx.
  destruct (Z.eqb_spec (blk e) 255); [exact Hx|]. apply iter_defined; [exact Hx|]. intros l y Hl Hy.
  destruct (Z.eqb_spec (blk e) (blk' l)); [|exact Hy]. apply iter_defined; [exact Hy|].
  intros k z Hk Hz. apply defined_add; [exact Hz|]. apply defined_mul; [now apply H|apply H'; congruence].
Qed.

Lemma msys_defined n m blk (v : nat -> nat -> nat -> cell tg) w b r c :
  blocks_inside 3 2 n m blk -> defined_system n m blk v w b -> r < m -> c < m -> defined (msys blk v w r c).
Proof.
  intros Hin (Hv & Hw & _) Hr Hc. apply srowrow_defined; [|intros; now apply Hv].
  intros e k He Hk N. unfold wsc. apply defined_mul; [|now apply Hv].
  apply Hw. apply inside_bcol; auto. now apply (inside_of 3 2 n m).
Qed.

(** ** the elimination never goes wrong apart from its assertions *)
Definition defF (m : nat) (F : nat -> nat -> cell tg) : Prop := forall r c, r < m -> c <= m -> defined (F r c).

Lemma fast_abs_defined (x : cell tg) : defined x -> wp (fast_abs x) defined.
Proof.
  intros H. destruct (defined_some _ H) as [a ->]. unfold fast_abs, clt, cmp, cofZ. cbn.
  destruct (n_ltb tg (n_ofZ tg 0) a); cbn; discriminate.
Qed.

Lemma ppivot_defined m F h k : defF m F -> h < m -> k <= m ->
  wp (ppivot F m h k) (fun x => h <= fst x < m /\ defined (snd x)).
Proof.
  intros HF Hh Hk. unfold ppivot. eapply wp_seq; [apply fast_abs_defined, HF; lia|]. intros v0 Hv0.
  apply (for_range_inv _ (fun _ x => h <= fst x < m /\ defined (snd x))); [cbn; split; [lia|exact Hv0]| |auto].
  intros i [im mv] Hi [H1 H2]. cbn [fst snd] in *.
  eapply wp_seq; [apply fast_abs_defined, HF; lia|]. intros v Hv.
  destruct (clt_defined mv v H2 Hv) as [c ->]. cbn [bind]. destruct c; cbn; split; auto; lia.
Qed.

Lemma ploop_defined m : total_division tg -> forall fuel F h k,
  defF m F -> m + 1 <= fuel + k -> wp (ploop fuel F m (m + 1) h k) (defF m).
Proof.
  intros Ht. induction fuel as [|fuel IH]; intros F h k HF Hf; cbn [ploop].
  - destruct (Nat.ltb_spec h m) as [L|L], (Nat.ltb_spec k (m + 1)) as [L'|L']; cbn [andb]; try lia; exact HF.
  - destruct (Nat.ltb_spec h m) as [L|L]; cbn [andb]; [|exact HF].
    destruct (Nat.ltb_spec k (m + 1)) as [L'|L']; [|exact HF].
    eapply wp_seq; [apply ppivot_defined; auto; lia|]. intros [i v] [Hi Hv]. cbn [fst snd] in *.
    destruct (ceq_defined v (cofZ 0) Hv (defined_cofZ 0)) as [z ->]. cbn [bind].
    destruct z; apply IH; try lia; [exact HF|].
    assert (Hs : defF m (fun r c => F (swap_idx h i r) c)).
    { intros r c Hr Hc. apply HF; [apply swap_idx_lt; lia|exact Hc]. }
    intros r c Hr Hc. unfold pelim. destruct (Nat.ltb h r); [|now apply Hs].
    destruct (Nat.eqb c k); [apply defined_cofZ|].
    destruct (Nat.ltb k c); [|now apply Hs].
    apply defined_sub; [now apply Hs|]. apply defined_mul; [apply Hs; lia|].
    apply defined_div; [exact Ht| |]; apply Hs; lia.
Qed.

Lemma pback_defined m F x0 : total_division tg -> defF m F -> 0 < m ->
  wp (pback F x0 m) (fun x => forall i, i < m -> defined (x i)).
Proof.
  intros Ht HF Hm. unfold pback.
  apply (for_inv _ (fun t x => forall i, m - 1 - t <= i < m -> defined (x i))).
  - intros i Hi. unfold xset. replace i with (m - 1) by lia. rewrite Nat.eqb_refl.
    apply defined_div; [exact Ht| |]; apply HF; lia.
  - intros t x Ht' Hx. cbv zeta.
    destruct (ceq_defined (F (m - 2 - t) (m - 2 - t)) (cofZ 0)) as [z ->];
      [apply HF; lia|apply defined_cofZ|]. cbn [bind]. apply wp_ret.
    intros i Hi. unfold xset. destruct (Nat.eqb_spec i (m - 2 - t)); [|apply Hx; lia].
    destruct z; cbn [negb]; [apply defined_cofZ|].
    apply defined_div; [exact Ht| |apply HF; lia].
    apply defined_sub; [apply HF; lia|]. apply csum_defined. intros u Hu.
    apply defined_mul; [apply HF; lia|apply Hx; lia].
  - intros x Hx i Hi. apply Hx. lia.
Qed.

Lemma massert_any {A} bb (k : unit -> res A) (Q : A -> Prop) :
  (forall u, wpa (k u) Q) -> wpa (bind (massert tg bb) k) Q.
Proof. intros H. unfold massert. destruct bb; [apply H|]. destruct (asserts_on tg); [exact I|apply H]. Qed.
Lemma massert_off {A} bb (k : unit -> res A) :
  asserts_on tg = false -> bind (massert tg bb) k = k tt.
Proof. intros H. unfold massert. rewrite H. now destruct bb. Qed.

Lemma pge_defined m M (b : nat -> cell tg) : total_division tg ->
  (forall r c, r < m -> c < m -> defined (M r c)) -> (forall r, r < m -> defined (b r)) ->
  wpa (pge m M b) (fun x => forall i, i < m -> defined (x i) /\
     (asserts_on tg = true -> cfinite (x i) = Ok true)) /\
  (asserts_on tg = false -> exists x, pge m M b = Ok x).
Proof.
  intros Ht HM Hb. unfold pge. destruct (Nat.eqb_spec m 0) as [E0|N0].
  { split; [cbn; intros; lia|]. intros _. eexists; reflexivity. }
  assert (HF : defF m (aug M b m)).
  { intros r c Hr Hc. unfold aug. destruct (Nat.ltb_spec c m); auto. }
  pose proof (ploop_defined m Ht (m + 1) (aug M b m) 0 0 HF ltac:(lia)) as HL.
  destruct (ploop (m + 1) (aug M b m) m (m + 1) 0 0) as [F| | |]; cbn [wp bind] in *; try contradiction.
  destruct (ceq_defined (F (m - 1) (m - 1)) (cofZ 0)) as [z ->]; [apply HL; lia|apply defined_cofZ|].
  cbn [bind].
  pose proof (pback_defined m F (fun _ => None) Ht HL ltac:(lia)) as HB.
  destruct (pback F (fun _ => None) m) as [x| | |] eqn:Eb; cbn [wp bind] in *; try contradiction.
  split.
  - apply massert_any. intros _.
    eapply (wpa_seq _ _ (fun _ => forall i, i < m -> asserts_on tg = true -> cfinite (x i) = Ok true)).
    + apply (for_inva _ (fun j _ => forall i, i < j -> asserts_on tg = true -> cfinite (x i) = Ok true)); [intros; lia| |auto].
      intros j u Hj Hu. destruct (defined_some _ (HB j Hj)) as [a Ea]. rewrite Ea. cbn [cfinite bind].
      unfold massert. destruct (n_finite tg a) eqn:Ef; [|destruct (asserts_on tg) eqn:Eo; [exact I|]]; cbn.
      * intros i Hi Ho. destruct (Nat.eq_dec i j) as [->|]; [rewrite Ea; cbn; now rewrite Ef|apply Hu; auto; lia].
      * intros i Hi Ho. congruence.
    + intros _ Hf. cbn. intros i Hi. split; [now apply HB|now apply Hf].
  - intros Ho. rewrite massert_off by exact Ho.
    match goal with |- exists _, (let* _ := ?l in _) = _ => assert (El : wp l (fun _ => True)) end.
    { apply (for_inv _ (fun _ _ => True)); auto. intros j u Hj _.
      destruct (defined_some _ (HB j Hj)) as [a ->]. cbn [cfinite bind]. unfold massert. rewrite Ho.
      now destruct (n_finite tg a). }
    match goal with |- exists _, (let* _ := ?l in _) = _ => destruct l; cbn in El |- *; try contradiction end.
    eexists; reflexivity.
Qed.
End Defined.

(** ** the system matrix over the reals *)
Section RealSystem.
Variable dbg : bool.

Lemma systemR_system (hp : heap (RT dbg)) J W right n m D w b :
  systemR hp J W right n m D w b ->
  exists blk v, system hp J W right n m blk (fun r e k => Some (v r e k)) (fun i => Some (w i)) (fun i => Some (b i)) /\
    sums 3 2 n m blk v D /\ blocks_inside 3 2 n m blk /\
    forall r c, r < m -> c < m ->
      msys (tg := RT dbg) blk (fun r e k => Some (v r e k)) (fun i => Some (w i)) r c = Some (JWJt n D w r c).
Proof.
  intros (blk & v & HJ & Hin & Hs & HW & Hb). exists blk, v.
  split; [exact (conj HJ (conj Hin (conj HW Hb)))|]. split; [exact Hs|]. split; [exact Hin|].
  intros r c Hr Hc. unfold msys.
  apply (srowrow_dense dbg 3 2 n m m blk (fun r e k => w (bcol 3 (blk r e) k) * v r e k)%R
    (fun r c => D r c * w c)%R blk v D r c); auto.
  now apply sums_scaled.
Qed.
End RealSystem.

(** ** C17 *)
Lemma ge_frame_inputs {tg} g J W right result (hp hp' : heap tg) :
  ge_names g J W right result -> frame [result; ge_a g; ge_M g] [ge_reg g] hp hp' -> inputs_kept hp hp' J W right.
Proof.
  intros [Hnd HJ] [H1 H2]. split; [|split].
  - apply H2. cbn. intuition congruence.
  - apply H1. repeat match goal with H : NoDup (_ :: _) |- _ => inversion_clear H end. cbn in *. intuition congruence.
  - apply H1. repeat match goal with H : NoDup (_ :: _) |- _ => inversion_clear H end. cbn in *. intuition congruence.
Qed.

Lemma ge_solves_inv dbg priv (hp : heap (RT dbg)) g J W right prev result n m D w b :
  hinv priv hp -> ge_names g J W right result -> systemR hp J W right n m D w b ->
  nonsingular m (JWJt n D w) ->
  exists hp' x, ge_solve g J W right prev result hp = Ok (hp', true) /\
    (0 < m -> showsR (hm hp') result 1 m (fun r _ => x r)) /\
    solves m (JWJt n D w) x b /\ inputs_kept hp hp' J W right.
Proof.
  intros Hr Hn Hs Hns.
  destruct (systemR_system dbg hp J W right n m D w b Hs) as (blk & v & Hsy & Hsum & Hin & Em).
  pose proof (ge_solve_sim priv hp g J W right prev result n m _ _ _ _ Hr Hn Hsy) as HR.
  destruct (Nat.eq_dec m 0) as [->|N0].
  { unfold pge in HR. cbn [Nat.eqb] in HR.
    destruct (ge_solve g J W right prev result hp) as [[hp' ok]| | |]; cbn in HR; try contradiction.
    destruct HR as (-> & Hf & _). exists hp', (fun _ => 0%R). split; [reflexivity|].
    split; [lia|]. split; [intros r Hr'; lia|]. eapply ge_frame_inputs; eassumption. }
  destruct (pge_R dbg m (msys blk (fun r e k => Some (v r e k)) (fun i => Some (w i))) (fun i => Some (b i))
    (JWJt n D w) b Em ltac:(auto) ltac:(lia)) as [H _].
  destruct (H Hns) as (x & xr & E & Ex & Hsol). rewrite E in HR.
  destruct (ge_solve g J W right prev result hp) as [[hp' ok]| | |]; cbn [rel fst snd] in HR; try contradiction.
  destruct HR as (-> & Hf & Hsh). exists hp', xr. split; [reflexivity|]. split.
  - intros Hm. destruct (Hsh Hm) as (E1 & E2 & E3). split; [exact E1|]. split; [exact E2|].
    intros r c Hrr Hc. rewrite E3 by assumption. now rewrite Ex.
  - split; [exact Hsol|]. eapply ge_frame_inputs; eassumption.
Qed.
Lemma ge_solves dbg priv (hp : heap (RT dbg)) g J W right prev result n m D w b :
  hreach priv hp -> ge_names g J W right result -> systemR hp J W right n m D w b ->
  nonsingular m (JWJt n D w) ->
  exists hp' x, ge_solve g J W right prev result hp = Ok (hp', true) /\
    (0 < m -> showsR (hm hp') result 1 m (fun r _ => x r)) /\
    solves m (JWJt n D w) x b /\ inputs_kept hp hp' J W right.
Proof. intros Hr. apply (ge_solves_inv dbg priv). now apply hreach_inv. Qed.

(** ** C18, debug builds *)
Lemma ge_singular_asserts priv (hp : heap (RT true)) g J W right prev result n m D w b :
  hreach priv hp -> ge_names g J W right result -> systemR hp J W right n m D w b ->
  ~ nonsingular m (JWJt n D w) -> ge_solve g J W right prev result hp = AssertFail.
Proof.
  intros Hr Hn Hs Hns. apply hreach_inv in Hr.
  destruct (systemR_system true hp J W right n m D w b Hs) as (blk & v & Hsy & Hsum & Hin & Em).
  pose proof (ge_solve_sim priv hp g J W right prev result n m _ _ _ _ Hr Hn Hsy) as HR.
  destruct (Nat.eq_dec m 0) as [->|N0]; [exfalso; apply Hns; intros x _ c Hc; lia|].
  destruct (pge_R true m (msys blk (fun r e k => Some (v r e k)) (fun i => Some (w i))) (fun i => Some (b i))
    (JWJt n D w) b Em ltac:(auto) ltac:(lia)) as [_ H].
  rewrite (H Hns eq_refl) in HR.
  destruct (ge_solve g J W right prev result hp) as [[hp' ok]| | |]; cbn in HR; try contradiction; reflexivity.
Qed.

Lemma ge_unsolvable_asserts priv (hp : heap (RT true)) g J W right prev result n m D w b :
  hreach priv hp -> ge_names g J W right result -> systemR hp J W right n m D w b ->
  (forall x, ~ solves m (JWJt n D w) x b) -> ge_solve g J W right prev result hp = AssertFail.
Proof.
  intros Hr Hn Hs Hu. eapply ge_singular_asserts; try eassumption.
  intros Hns. destruct (nonsingular_solvable m _ b Hns) as [x Hx]. exact (Hu x Hx).
Qed.

(** ** C19 *)
Lemma ge_forgets {tg} priv priv' (hp hp' : heap tg) g g' J W right prev result J' W' right' prev' result' n m blk v w b :
  hreach priv hp -> ge_names g J W right result -> system hp J W right n m blk v w b ->
  hreach priv' hp' -> ge_names g' J' W' right' result' -> system hp' J' W' right' n m blk v w b ->
  0 < m ->
  same_solution (ge_solve g J W right prev result hp) (ge_solve g' J' W' right' prev' result' hp') result result' m.
Proof.
  intros Hr Hn Hs Hr' Hn' Hs' Hm. apply hreach_inv in Hr, Hr'.
  pose proof (ge_solve_sim priv hp g J W right prev result n m _ _ _ _ Hr Hn Hs) as H1.
  pose proof (ge_solve_sim priv' hp' g' J' W' right' prev' result' n m _ _ _ _ Hr' Hn' Hs') as H2.
  destruct (pge m (msys blk v w) b) as [x| | |];
    destruct (ge_solve g J W right prev result hp) as [[a ok]| | |]; cbn [rel fst snd] in H1; try contradiction;
    destruct (ge_solve g' J' W' right' prev' result' hp') as [[a' ok']| | |]; cbn [rel fst snd] in H2; try contradiction;
    cbn; auto.
  destruct H1 as (-> & _ & S1), H2 as (-> & _ & S2). split; [reflexivity|]. exists (fun r _ => x r). auto.
Qed.

(** ** C28 for Gaussian elimination *)
Lemma ge_safe_inv {tg} priv (hp : heap tg) g J W right prev result n m blk v w b :
  hinv priv hp -> ge_names g J W right result -> system hp J W right n m blk v w b ->
  defined_system n m blk v w b -> total_division tg ->
  (exists hp', ge_solve g J W right prev result hp = Ok (hp', true) /\ inputs_kept hp hp' J W right /\
     (0 < m -> exists x, shows (hm hp') result 1 m (fun r _ => x r) /\
        forall i, i < m -> defined (x i) /\ (asserts_on tg = true -> cfinite (x i) = Ok true))) \/
  (ge_solve g J W right prev result hp = AssertFail /\ asserts_on tg = true).
Proof.
  intros Hr Hn Hs Hd Ht.
  assert (Hin : blocks_inside 3 2 n m blk) by apply Hs.
  pose proof (ge_solve_sim priv hp g J W right prev result n m _ _ _ _ Hr Hn Hs) as H1.
  destruct (pge_defined m (msys blk v w) b Ht) as [P1 P2].
  { intros r c Hrr Hc. now apply (msys_defined n m blk v w b). }
  { apply Hd. }
  destruct (pge m (msys blk v w) b) as [x| | |]; cbn [wpa] in P1; try contradiction;
    destruct (ge_solve g J W right prev result hp) as [[a ok]| | |]; cbn [rel fst snd] in H1; try contradiction.
  - left. destruct H1 as (-> & Hf & Hsh). exists a. split; [reflexivity|].
    split; [eapply ge_frame_inputs; eassumption|]. intros Hm. exists x. split; [now apply Hsh|exact P1].
  - right. split; [reflexivity|]. destruct (asserts_on tg); [reflexivity|].
    destruct (P2 eq_refl) as [x Ex]. discriminate.
Qed.
Lemma ge_safe {tg} priv (hp : heap tg) g J W right prev result n m blk v w b :
  hreach priv hp -> ge_names g J W right result -> system hp J W right n m blk v w b ->
  defined_system n m blk v w b -> total_division tg ->
  (exists hp', ge_solve g J W right prev result hp = Ok (hp', true) /\ inputs_kept hp hp' J W right /\
     (0 < m -> exists x, shows (hm hp') result 1 m (fun r _ => x r) /\
        forall i, i < m -> defined (x i) /\ (asserts_on tg = true -> cfinite (x i) = Ok true))) \/
  (ge_solve g J W right prev result hp = AssertFail /\ asserts_on tg = true).
Proof. intros H. apply (ge_safe_inv priv). now apply hreach_inv. Qed.
