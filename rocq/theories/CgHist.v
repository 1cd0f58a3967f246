(** * Conjugate gradient: the properties, from reachable heaps. *)

From Coq Require Import Reals Lra.
From Verif Require Import Base Targets Matrix Sparse Sle Logic MatrixFacts MatrixOps SpecMatrix MatrixHist
  SparseFacts SpecSparse SparseHist SpecSle SleHist SleGe GeReal GeHist SleGs GsReal RealSum SleCg CgReal.
Local Open Scope nat_scope.

(** ** C28: safety, every arithmetic *)
Section Safe.
Context {tg : target}.
Notation vec := (nat -> cell tg).
Definition def_on (m : nat) (x : vec) : Prop := forall i, i < m -> defined (x i).

Lemma psmall_safe m me mi b r : defined me -> defined mi -> def_on m b -> def_on m r ->
  wp (psmall (tg := tg) m me mi b r) (fun _ => True).
Proof.
  intros H1 H2 H3 H4. unfold psmall. apply (for_inv _ (fun _ _ => True)); auto.
  intros i ok Hi _. destruct ok; [|exact I].
  destruct (clt_defined (cfmax (cabs (cmul me (b i))) mi) (cabs (r i))) as [c ->]; [| |exact I].
  - assert (D : defined (cabs (cmul me (b i)))) by (apply defined_abs, defined_mul; [exact H1|now apply H3]).
    destruct (cabs (cmul me (b i))), mi; unfold defined in *; cbn; congruence.
  - now apply defined_abs, H4.
Qed.
Lemma pdot_safe m x y : def_on m x -> def_on m y -> defined (pdot (tg := tg) m x y).
Proof. intros H1 H2. apply csum_defined. intros i Hi. apply defined_mul; auto. Qed.

Lemma pcgloop_safe m mul me mi b : total_division tg -> (forall x, def_on m x -> def_on m (mul x)) ->
  defined me -> defined mi -> def_on m b ->
  forall k x r p, def_on m x -> def_on m r -> def_on m p ->
  wp (pcgloop (tg := tg) m mul me mi b k x r p) (fun y => def_on m (fst y)).
Proof.
  intros Ht Hm H1 H2 H3. induction k as [|k IH]; intros x r p Hx Hr Hp; cbn [pcgloop]; [exact Hx|].
  assert (Ha : defined (palpha m mul r p)) by (apply defined_div; [exact Ht| |]; apply pdot_safe; auto).
  assert (Hr' : def_on m (pr m mul r p)).
  { intros i Hi. apply defined_add; [now apply Hr|]. apply defined_mul; [now apply Hm|now apply defined_opp]. }
  assert (Hx' : def_on m (px m mul x r p)).
  { intros i Hi. apply defined_add; [now apply Hx|]. apply defined_mul; [now apply Hp|exact Ha]. }
  eapply wp_seq; [now apply psmall_safe|]. intros [|] _; [exact Hx'|].
  apply IH; auto. intros i Hi. apply defined_add; [|now apply Hr'].
  apply defined_mul; [apply defined_div; [exact Ht| |]; now apply pdot_safe|now apply Hp].
Qed.

Lemma pmul_safe n m blk (v : nat -> nat -> nat -> cell tg) w b x :
  blocks_inside 3 2 n m blk -> defined_system n m blk v w b -> def_on m x -> def_on m (pmul m blk v w x).
Proof.
  intros Hin (Hv & Hw & _) Hx i Hi. unfold pmul. apply iter_defined; [apply defined_cofZ|].
  intros e a He Ha. destruct (Z.eqb_spec (blk i e) 255) as [|N]; [exact Ha|].
  apply iter_defined; [exact Ha|]. intros k y Hk Hy. apply defined_add; [exact Hy|].
  apply defined_mul; [now apply Hv|]. apply defined_mul.
  - apply Hw. apply inside_bcol; auto. now apply (inside_of 3 2 n m).
  - apply iter_defined; [apply defined_cofZ|]. intros r z Hr Hz. apply iter_defined; [exact Hz|].
    intros e' z' He' Hz'. destruct (Z.eqb_spec (blk r e') 255) as [|N']; [exact Hz'|].
    apply iter_defined; [exact Hz'|]. intros k' z'' Hk' Hz''. destruct (Nat.eqb _ _); [|exact Hz''].
    apply defined_add; [exact Hz''|]. apply defined_mul; [now apply Hv|now apply Hx].
Qed.

Lemma cg_frame_inputs (g : cg_solver tg) J W right previous result (hp hp' : heap tg) :
  cg_names g W right result previous -> frame (cg_own g result) [] hp hp' -> inputs_kept hp hp' J W right.
Proof.
  intros [Hnd _] [H1 H2]. pose proof (names g W right result Hnd) as Nm. decompose [and] Nm. clear Nm.
  split; [|split]; [apply H2; auto|apply H1; outside|apply H1; outside].
Qed.

Lemma cg_safe_inv priv (hp : heap tg) g J W right previous result n m blk v w b x :
  hinv priv hp -> cg_names g W right result previous -> cg_private g priv -> system hp J W right n m blk v w b ->
  start_cg hp previous m x -> defined_system n m blk v w b -> (forall i, i < m -> defined (x i)) ->
  defined (cg_max_error g) -> defined (cg_min_error g) -> total_division tg ->
  exists hp' ok, cg_solve g J W right previous result hp = Ok (hp', ok) /\ inputs_kept hp hp' J W right /\
    (ok = true -> exists y, shows (hm hp') result 1 m (fun r _ => y r) /\ forall i, i < m -> defined (y i)).
Proof.
  intros Hr Hn Hp Hs Hst Hd Hx Hme Hmi Ht.
  assert (Hin : blocks_inside 3 2 n m blk) by apply Hs.
  pose proof (cg_solve_sim priv hp g J W right previous result n m blk v w b x Hr Hn Hp Hs Hst) as HR.
  assert (Hb : def_on m b) by (intros i Hi; now apply Hd).
  assert (Hmul : forall y, def_on m y -> def_on m (pmul m blk v w y)) by (intros; eapply pmul_safe; eauto).
  assert (Hr0 : def_on m (pr0 (pmul m blk v w) b x)).
  { intros i Hi. apply defined_add; [now apply Hb|]. apply defined_mul; [now apply Hmul|apply defined_cofZ]. }
  assert (HP : wp (pcg m (pmul m blk v w) (cg_max_error g) (cg_min_error g) b (cg_max_iterations g) x) (fun y => def_on m (fst y))).
  { unfold pcg. eapply wp_seq; [now apply psmall_safe|]. intros [|] _; [exact Hx|]. now apply pcgloop_safe. }
  destruct (pcg _ _ _ _ _ _ _) as [[y ok]| | |]; cbn in HP; try contradiction.
  destruct (cg_solve g J W right previous result hp) as [[hp' ok']| | |]; cbn in HR; try contradiction.
  destruct HR as (_ & Hf & Hsh). exists hp', ok'. split; [reflexivity|]. split; [eapply cg_frame_inputs; eassumption|].
  intros ->. exists y. split; [now apply Hsh|exact HP].
Qed.
Lemma cg_safe priv (hp : heap tg) g J W right previous result n m blk v w b x :
  hreach priv hp -> cg_names g W right result previous -> cg_private g priv -> system hp J W right n m blk v w b ->
  start_cg hp previous m x -> defined_system n m blk v w b -> (forall i, i < m -> defined (x i)) ->
  defined (cg_max_error g) -> defined (cg_min_error g) -> total_division tg ->
  exists hp' ok, cg_solve g J W right previous result hp = Ok (hp', ok) /\ inputs_kept hp hp' J W right /\
    (ok = true -> exists y, shows (hm hp') result 1 m (fun r _ => y r) /\ forall i, i < m -> defined (y i)).
Proof. intros H. apply (cg_safe_inv priv). now apply hreach_inv. Qed.
End Safe.

(** ** exact arithmetic *)
Section R.
Variable dbg : bool.
Notation cl := (cell (RT dbg)).
Notation vec := (nat -> cl).
Variable m : nat.
Variables (A : nat -> nat -> R) (b : nat -> R) (me mi : R).
Variables (mul : vec -> vec) (bc : vec).
Hypothesis mul_R : forall x xr, lifts dbg m x xr -> lifts dbg m (mul x) (mulv m A xr).
Hypothesis b_R : lifts dbg m bc b.
Notation small := (psmall (tg := RT dbg) m (Some me) (Some mi) bc).
Notation loop := (pcgloop (tg := RT dbg) m mul (Some me) (Some mi) bc).
Notation bound i := (Rmax (Rabs (me * b i)) mi).
Notation residual x i := (b i - mulv m A x i)%R.

Lemma bound_pos i : (0 <= bound i)%R.
Proof. eapply Rle_trans; [apply Rabs_pos|apply Rmax_l]. Qed.

Lemma psmall_R r rr : lifts dbg m r rr ->
  exists ok, small r = Ok ok /\ (ok = true <-> forall i, i < m -> (Rabs (rr i) <= bound i)%R).
Proof.
  intros Hr. unfold psmall.
  match goal with |- exists ok, ?c = _ /\ _ =>
    assert (H : wp c (fun ok => ok = true <-> forall i, i < m -> (Rabs (rr i) <= bound i)%R));
    [|destruct c as [ok| | |]; cbn in H; try contradiction; exists ok; auto] end.
  apply (for_inv _ (fun k ok => ok = true <-> forall i, i < k -> (Rabs (rr i) <= bound i)%R)); auto.
  - split; [intros; lia|auto].
  - intros i ok Hi IH. destruct ok.
    + rewrite (Hr i Hi), (b_R i Hi). unfold clt, cmp, cfmax, cabs, cmul, lift1, lift2. cbn [bind wp].
      cbn -[Rabs Rmax Rmult]. destruct (R_ltb (bound i) (Rabs (rr i))) eqn:E; cbn [negb].
      * apply R_ltb_true in E. split; [discriminate|]. intros H. specialize (H i ltac:(lia)). lra.
      * apply R_ltb_false in E. split; [|auto]. intros _ j Hj.
        destruct (Nat.eq_dec j i) as [->|]; [lra|]. apply IH; [reflexivity|lia].
    + cbn. split; [discriminate|]. intros H. apply IH. intros j Hj. apply H. lia.
Qed.
Lemma psmall_none r : 0 < m -> r 0 = None -> small r = UB.
Proof.
  intros Hm E. unfold psmall, for_. destruct m as [|m']; [lia|]. cbn [for_from].
  rewrite E. unfold clt, cmp, cabs, lift1. now destruct (cfmax _ _).
Qed.

Lemma pdot_R x xr y yr : lifts dbg m x xr -> lifts dbg m y yr -> pdot (tg := RT dbg) m x y = (Some (dot m xr yr) : cl).
Proof. intros Hx Hy. apply csum_R. intros i Hi. rewrite (Hx i Hi), (Hy i Hi). reflexivity. Qed.

Lemma palpha_R r rr p pr : lifts dbg m r rr -> lifts dbg m p pr -> dot m pr (mulv m A pr) <> 0%R ->
  palpha (tg := RT dbg) m mul r p = (Some (alphaR m A rr pr) : cl).
Proof.
  intros Hr Hp N. unfold palpha. rewrite (pdot_R r rr r rr), (pdot_R p pr (mul p) (mulv m A pr)) by auto.
  unfold cdiv, lift2p. cbn. now rewrite R_div_some.
Qed.
Lemma palpha_none r rr p pr : lifts dbg m r rr -> lifts dbg m p pr -> dot m pr (mulv m A pr) = 0%R ->
  palpha (tg := RT dbg) m mul r p = None.
Proof.
  intros Hr Hp N. unfold palpha. rewrite (pdot_R r rr r rr), (pdot_R p pr (mul p) (mulv m A pr)) by auto.
  unfold cdiv, lift2p. cbn. rewrite N. unfold R_div. destruct (Req_EM_T 0 0); [reflexivity|lra].
Qed.

Section Step.
Variables (x r p : vec) (xr rr pr' : nat -> R).
Hypothesis Hx : lifts dbg m x xr.
Hypothesis Hr : lifts dbg m r rr.
Hypothesis Hp : lifts dbg m p pr'.
Hypothesis N : dot m pr' (mulv m A pr') <> 0%R.
Lemma px_R : lifts dbg m (px (tg := RT dbg) m mul x r p) (xR m A xr rr pr').
Proof.
  intros i Hi. unfold px. rewrite (palpha_R r rr p pr') by auto. rewrite (Hx i Hi), (Hp i Hi).
  unfold cadd, cmul, lift2, xR. cbn. f_equal. ring.
Qed.
Lemma pr_R : lifts dbg m (pr (tg := RT dbg) m mul r p) (rR m A rr pr').
Proof.
  intros i Hi. unfold pr. rewrite (palpha_R r rr p pr') by auto. rewrite (Hr i Hi), (mul_R p pr' Hp i Hi).
  unfold cadd, cmul, copp, lift1, lift2, rR. cbn. f_equal. ring.
Qed.
Lemma pp_R : dot m rr rr <> 0%R -> lifts dbg m (pp (tg := RT dbg) m mul r p) (pR m A rr pr').
Proof.
  intros N2 i Hi. unfold pp. rewrite (pdot_R _ _ _ _ pr_R pr_R), (pdot_R r rr r rr) by auto.
  rewrite (pr_R i Hi), (Hp i Hi). unfold cdiv, lift2p. cbn -[Rsum dot]. rewrite R_div_some by exact N2.
  unfold cadd, cmul, lift2, pR, betaR. cbn -[dot]. f_equal. ring.
Qed.
End Step.

(** the residual vector is the residual of x *)
Lemma residual_step xr rr pr' : (forall i, i < m -> rr i = residual xr i) ->
  forall i, i < m -> rR m A rr pr' i = residual (xR m A xr rr pr') i.
Proof.
  intros H i Hi. unfold rR, xR. rewrite mul_lin, (H i Hi). ring.
Qed.

Lemma loop_true : forall k x xr r rr p pr' x',
  lifts dbg m x xr -> lifts dbg m r rr -> lifts dbg m p pr' -> (forall i, i < m -> rr i = residual xr i) ->
  loop k x r p = Ok (x', true) ->
  exists xr', lifts dbg m x' xr' /\ forall i, i < m -> (Rabs (residual xr' i) <= bound i)%R.
Proof.
  destruct (Nat.eq_dec m 0) as [E0|E0].
  { intros. exists xr. split; intros i Hi; lia. }
  induction k as [|k IH]; intros x xr r rr p pr' x' Hx Hr Hp Hres E; cbn [pcgloop] in E; [discriminate|].
  destruct (Req_dec (dot m pr' (mulv m A pr')) 0) as [Z|N].
  { rewrite psmall_none in E; [discriminate|lia|]. unfold pr. rewrite (palpha_none r rr p pr') by auto.
    unfold cadd, cmul, copp, lift1, lift2. destruct (r 0); [|reflexivity]. now destruct (mul p 0). }
  pose proof (px_R x r p xr rr pr' Hx Hr Hp N) as Hx1. pose proof (pr_R r p rr pr' Hr Hp N) as Hr1.
  pose proof (residual_step xr rr pr' Hres) as Hres1.
  destruct (psmall_R _ _ Hr1) as (ok & Es & Hok). rewrite Es in E. cbn [bind] in E. destruct ok.
  - injection E as <-. exists (xR m A xr rr pr'). split; [exact Hx1|]. intros i Hi. rewrite <- Hres1 by exact Hi.
    now apply Hok.
  - assert (N2 : dot m rr rr <> 0%R).
    { intros Z. assert (H : false = true); [|discriminate]. apply Hok. intros i Hi.
      unfold rR, alphaR. rewrite Z, (dot_zero m rr Z i Hi). unfold Rdiv. rewrite Rmult_0_l, Ropp_0, Rmult_0_l, Rplus_0_l, Rabs_R0.
      apply bound_pos. }
    eapply (IH _ _ _ _ _ _ _ Hx1 Hr1 (pp_R r p rr pr' Hr Hp N N2) Hres1 E).
Qed.

Lemma pr0_R x xr : lifts dbg m x xr -> lifts dbg m (pr0 (tg := RT dbg) mul bc x) (fun i => residual xr i).
Proof.
  intros Hx i Hi. unfold pr0. rewrite (b_R i Hi), (mul_R x xr Hx i Hi).
  unfold cadd, cmul, cofZ, lift2. cbn. f_equal. ring.
Qed.
Lemma pcg_true k x xr x' : lifts dbg m x xr ->
  pcg (tg := RT dbg) m mul (Some me) (Some mi) bc k x = Ok (x', true) ->
  exists xr', lifts dbg m x' xr' /\ forall i, i < m -> (Rabs (residual xr' i) <= bound i)%R.
Proof.
  intros Hx E. unfold pcg in E. pose proof (pr0_R x xr Hx) as Hr0.
  destruct (psmall_R _ _ Hr0) as (ok & Es & Hok). rewrite Es in E. cbn [bind] in E. destruct ok.
  - injection E as <-. exists xr. split; [exact Hx|]. now apply Hok.
  - eapply loop_true; [exact Hx|exact Hr0|exact Hr0|reflexivity|exact E].
Qed.

(** termination *)
Hypothesis Hs : symmetric m A.
Hypothesis Hpd : positive_definite m A.
Lemma small_false r : (forall i, i < m -> (Rabs (r i) <= bound i)%R) \/ dot m r r <> 0%R.
Proof.
  destruct (Req_dec (dot m r r) 0) as [Z|N]; [left|now right].
  intros i Hi. rewrite (dot_zero m r Z i Hi), Rabs_R0. apply bound_pos.
Qed.
Lemma loop_ends r0 : forall k j x xr r p,
  lifts dbg m x xr -> lifts dbg m r (fst (rp m A r0 j)) -> lifts dbg m p (snd (rp m A r0 j)) ->
  (forall i, i <= j -> dot m (fst (rp m A r0 i)) (fst (rp m A r0 i)) <> 0%R) -> m <= k + j ->
  exists x', loop k x r p = Ok (x', true).
Proof.
  induction k as [|k IH]; intros j x xr r p Hx Hr Hp Hnz Hk.
  - pose proof (cg_bound m A r0 Hs Hpd j Hnz). lia.
  - cbn [pcgloop].
    destruct (orth_all m A r0 Hs Hpd j) as (_ & _ & _ & Id); [intros; apply Hnz; lia|].
    pose proof (pAp_pos m A r0 Hpd j (Hnz j ltac:(lia)) (Id j ltac:(lia))) as HpAp.
    assert (N : dot m (snd (rp m A r0 j)) (mulv m A (snd (rp m A r0 j))) <> 0%R) by lra.
    pose proof (px_R x r p xr _ _ Hx Hr Hp N) as Hx1. pose proof (pr_R r p _ _ Hr Hp N) as Hr1.
    destruct (psmall_R _ _ Hr1) as (ok & Es & Hok). rewrite Es. cbn [bind]. destruct ok; [eexists; reflexivity|].
    apply (IH (S j) _ _ _ _ Hx1 Hr1 (pp_R r p _ _ Hr Hp N (Hnz j ltac:(lia)))); [|lia].
    intros i Hi. destruct (Nat.eq_dec i (S j)) as [->|]; [|apply Hnz; lia].
    destruct (small_false (fst (rp m A r0 (S j)))) as [Hsm|Hn]; [|exact Hn].
    exfalso. assert (false = true); [|discriminate]. apply Hok. exact Hsm.
Qed.
Lemma pcg_ends k x xr : lifts dbg m x xr -> m <= k ->
  exists x', pcg (tg := RT dbg) m mul (Some me) (Some mi) bc k x = Ok (x', true).
Proof.
  intros Hx Hk. unfold pcg. pose proof (pr0_R x xr Hx) as Hr0.
  destruct (psmall_R _ _ Hr0) as (ok & Es & Hok). rewrite Es. cbn [bind]. destruct ok; [eexists; reflexivity|].
  apply (loop_ends (fun i => residual xr i) k 0 x xr); auto; [|lia].
  intros i Hi. replace i with 0 by lia. cbn [rp fst].
  destruct (small_false (fun i => residual xr i)) as [Hsm|Hn]; [|exact Hn].
  exfalso. assert (false = true); [|discriminate]. apply Hok. exact Hsm.
Qed.
End R.

(** J W J^T applied factor by factor *)
Lemma pmul_R dbg n m blk (v : nat -> nat -> nat -> R) D w (x : nat -> cell (RT dbg)) xr :
  blocks_inside 3 2 n m blk -> sums 3 2 n m blk v D -> lifts dbg m x xr ->
  lifts dbg m (pmul (tg := RT dbg) m blk (fun r e k => Some (v r e k)) (fun i => Some (w i)) x) (mulv m (JWJt n D w) xr).
Proof.
  intros Hin HD Hx i Hi. unfold pmul.
  rewrite (srow_ext (tg := RT dbg) 3 2 _ (fun e k => Some (v i e k)) (fun e k => Some (v i e k)) _
    (fun c => (Some (w c * Rsum m (fun r => D r c * xr r)))%R : cell (RT dbg)) n).
  - rewrite (srow_dense dbg 3 2 n m blk v D _ i Hin HD Hi). f_equal. unfold mulv, JWJt.
    rewrite (Rsum_ext n _ (fun k => Rsum m (fun c => D i k * w k * D c k * xr c))%R).
    + rewrite Rsum_swap. apply Rsum_ext. intros c Hc. now rewrite Rsum_scal_r.
    + intros k Hk. rewrite <- !Rsum_scal_l. apply Rsum_ext. intros; ring.
  - reflexivity.
  - intros e He. apply (inside_of 3 2 n m blk Hin); assumption.
  - intros c Hc. rewrite (stcol_ext (tg := RT dbg) 3 2 m blk _ (fun r e k => Some (v r e k)) x (fun i => Some (xr i)) c); [|reflexivity|exact Hx].
    match goal with |- cmul _ ?z = _ => assert (E : z = Some (Rsum m (fun r => D r c * xr r)%R))
      by exact (stcol_dense dbg 3 2 n m blk v D xr c HD Hc); rewrite E end. reflexivity.
Qed.

Section Props.
Variables (dbg : bool) (priv : nat -> bool) (hp : heap (RT dbg)) (g : cg_solver (RT dbg)).
Variables (J W right : nat) (previous : option nat) (result n m : nat) (D : nat -> nat -> R) (w b x : nat -> R) (me mi : R).
Hypothesis Hr : hreach priv hp.
Hypothesis Hn : cg_names g W right result previous.
Hypothesis Hpriv : cg_private g priv.
Hypothesis Hs : systemR hp J W right n m D w b.
Hypothesis Hst : start_cg hp previous m (fun i => Some (x i)).
Hypothesis Hme : cg_max_error g = Some me.
Hypothesis Hmi : cg_min_error g = Some mi.

Lemma cg_residual_small hp' : cg_solve g J W right previous result hp = Ok (hp', true) ->
  exists x', showsR (hm hp') result 1 m (fun r _ => x' r) /\
    forall i, i < m -> (Rabs (b i - mulv m (JWJt n D w) x' i) <= Rmax (Rabs (me * b i)) mi)%R.
Proof.
  intros E. pose proof (hreach_inv _ _ Hr) as Hinv.
  destruct (systemR_system dbg hp J W right n m D w b Hs) as (blk & v & Hsy & HD & Hin & _).
  pose proof (cg_solve_sim priv hp g J W right previous result n m _ _ _ _ _ Hinv Hn Hpriv Hsy Hst) as HR.
  rewrite Hme, Hmi, E in HR.
  destruct (pcg _ _ _ _ _ _ _) as [[y ok]| | |] eqn:Ep; cbn [rel] in HR; try contradiction.
  destruct HR as (Eok & _ & Hsh). cbn [fst snd] in *. subst ok.
  destruct (pcg_true dbg m (JWJt n D w) b me mi _ _ (fun y yr => pmul_R dbg n m blk v D w y yr Hin HD) (fun i _ => eq_refl) _ _ x y (fun i _ => eq_refl) Ep)
    as (x' & Hx' & Hres).
  exists x'. split; [|exact Hres]. destruct (Hsh eq_refl) as (E1 & E2 & E3). split; [exact E1|]. split; [exact E2|].
  intros r c Hrr Hc. rewrite E3 by assumption. now rewrite Hx'.
Qed.

Lemma cg_terminates : positive_definite m (JWJt n D w) -> m <= cg_max_iterations g ->
  exists hp', cg_solve g J W right previous result hp = Ok (hp', true).
Proof.
  intros Hpd Hk. pose proof (hreach_inv _ _ Hr) as Hinv.
  destruct (systemR_system dbg hp J W right n m D w b Hs) as (blk & v & Hsy & HD & Hin & _).
  pose proof (cg_solve_sim priv hp g J W right previous result n m _ _ _ _ _ Hinv Hn Hpriv Hsy Hst) as HR.
  rewrite Hme, Hmi in HR.
  assert (Hsym : symmetric m (JWJt n D w)) by (intros r c Hrr Hc; apply Rsum_ext; intros; ring).
  destruct (pcg_ends dbg m (JWJt n D w) b me mi _ _ (fun y yr => pmul_R dbg n m blk v D w y yr Hin HD) (fun i _ => eq_refl) Hsym Hpd
    (cg_max_iterations g) _ x (fun i _ => eq_refl) Hk) as [x' Ex].
  match type of HR with rel _ ?q _ => assert (Ex' : q = Ok (x', true)) by exact Ex; rewrite Ex' in HR end.
  destruct (cg_solve g J W right previous result hp) as [[hp' ok]| | |]; cbn in HR; try contradiction.
  destruct HR as (Eok & _). cbn in Eok. subst ok. exists hp'. reflexivity.
Qed.
End Props.
