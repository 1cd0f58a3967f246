(** * Which objects the matrix operations and solvers leave untouched, whatever
      the outcome. *)

From Coq Require Import Reals.
From Verif Require Import Base Targets Matrix Sparse Sle State Logic MatrixFacts MatrixOps SpecMatrix MatrixHist
  SparseFacts SpecSparse SparseHist SpecSle SleHist SleGe.
Local Open Scope nat_scope.

(** f' differs from f at most at the names in l *)
Definition off {A} (l : list nat) (f f' : nat -> A) : Prop := forall i, ~ In i l -> f' i = f i.
Lemma off_refl {A} l (f : nat -> A) : off l f f.
Proof. now intros i _. Qed.
Lemma off_trans {A} l (f g h : nat -> A) : off l f g -> off l g h -> off l f h.
Proof. intros H1 H2 i Hi. now rewrite H2, H1. Qed.
Lemma off_upd {A} l (f g : nat -> A) t v : In t l -> off l f g -> off l f (upd g t v).
Proof. intros Ht H i Hi. rewrite upd_other; [now apply H|]. intros ->. contradiction. Qed.
Lemma off_weaken {A} l l' (f g : nat -> A) : (forall i, In i l -> In i l') -> off l f g -> off l' f g.
Proof. intros Hl H i Hi. apply H. auto. Qed.

Section S.
Context {tg : target}.
Implicit Types (ms : mats tg) (ss : sps tg).

Section M.
Variables (l : list nat) (ms0 : mats tg).

Lemma rset_off ms t r c v : In t l -> off l ms0 ms -> pc (rset ms t r c v) (off l ms0).
Proof. intros Ht H. apply pc_any; intros m. now apply off_upd. Qed.
Lemma mset_off ms t r c v : In t l -> off l ms0 ms -> pc (mset ms t r c v) (off l ms0).
Proof. intros Ht H. apply pc_any; intros m. now apply off_upd. Qed.
Lemma maddto_off ms t r c v : In t l -> off l ms0 ms -> pc (maddto ms t r c v) (off l ms0).
Proof. intros Ht H. apply pc_any; intros m. now apply off_upd. Qed.
Lemma mresize_off ms t r c : In t l -> off l ms0 ms -> pc (mresize ms t r c) (off l ms0).
Proof. intros Ht H. apply pc_any; intros m. now apply off_upd. Qed.
Lemma minit0_off ms t r c : In t l -> off l ms0 ms -> pc (minit0 ms t r c) (off l ms0).
Proof. intros Ht H. apply pc_any; intros m. now apply off_upd. Qed.
Lemma minit_val_off ms t r c v : In t l -> off l ms0 ms -> pc (minit_val ms t r c v) (off l ms0).
Proof. intros Ht H. apply pc_any; intros m. now apply off_upd. Qed.

Ltac offs := repeat first
  [ assumption
  | eapply pc_seq; [first [apply mresize_off | apply minit0_off | apply minit_val_off]; assumption|]; intros
  | apply rset_off; [assumption|]
  | apply mset_off; [assumption|]
  | apply maddto_off; [assumption|]
  | apply for2_pc; intros
  | apply for_pc; intros
  | apply pc_any; intros
  | match goal with |- pc (if ?b then _ else _) _ => destruct b end
  | match goal with |- pc (Ok _) _ => cbn [pc] end ].

Lemma mset_ref_off ms t b : In t l -> off l ms0 ms -> pc (mset_ref ms t b) (off l ms0).
Proof. intros Ht H. unfold mset_ref. offs. Qed.
Lemma mcomponent_off ms a b t : In t l -> off l ms0 ms -> pc (mcomponent ms a b t) (off l ms0).
Proof. intros Ht H. unfold mcomponent. do 2 (apply pc_any; intros _). offs. Qed.
Lemma mleft_scale_off ms a b t : In t l -> off l ms0 ms -> pc (mleft_scale ms a b t) (off l ms0).
Proof. intros Ht H. unfold mleft_scale. do 2 (apply pc_any; intros _). offs. Qed.
Lemma mscale_off ms a s t : In t l -> off l ms0 ms -> pc (mscale ms a s t) (off l ms0).
Proof. intros Ht H. unfold mscale. offs. Qed.
Lemma msubtract_off ms a b t : In t l -> off l ms0 ms -> pc (msubtract ms a b t) (off l ms0).
Proof. intros Ht H. unfold msubtract. do 2 (apply pc_any; intros _). offs. Qed.
Lemma madd2_off ms a b t : In t l -> off l ms0 ms -> pc (madd2 ms a b t) (off l ms0).
Proof. intros Ht H. unfold madd2. do 2 (apply pc_any; intros _). offs. Qed.
Lemma mnegate_off ms a t : In t l -> off l ms0 ms -> pc (mnegate ms a t) (off l ms0).
Proof. intros Ht H. unfold mnegate. offs. Qed.
Lemma mmadd_off ms t b s : In t l -> off l ms0 ms -> pc (mmadd ms t b s) (off l ms0).
Proof. intros Ht H. unfold mmadd. do 2 (apply pc_any; intros _). offs. Qed.
Lemma mpmadd_off ms t b s : In t l -> off l ms0 ms -> pc (mpmadd ms t b s) (off l ms0).
Proof. intros Ht H. unfold mpmadd. do 2 (apply pc_any; intros _). offs. Qed.
Lemma sp_multiply_off (s : sparse tg) ms b t : In t l -> off l ms0 ms -> pc (sp_multiply 3 2 s ms b t) (off l ms0).
Proof. intros Ht H. unfold sp_multiply. apply pc_any; intros _. offs. Qed.
Lemma sp_multiply_transpose_off (s s' : sparse tg) ms t : In t l -> off l ms0 ms -> pc (sp_multiply_transpose 3 2 s s' ms t) (off l ms0).
Proof. intros Ht H. unfold sp_multiply_transpose. apply pc_any; intros _. offs. Qed.
Lemma sp_tmv_off (s : sparse tg) ms b t : In t l -> off l ms0 ms -> pc (sp_transpose_multiply_vector 3 2 s ms b t) (off l ms0).
Proof. intros Ht H. unfold sp_transpose_multiply_vector. do 2 (apply pc_any; intros _). offs. Qed.
Lemma warm_start_off ms p t n : In t l -> off l ms0 ms -> pc (warm_start ms p t n) (off l ms0).
Proof. intros Ht H. unfold warm_start. destruct p; [|exact H]. destruct (Nat.eqb _ _); [now apply mset_ref_off|exact H]. Qed.

(** ** Gaussian elimination *)
Lemma ge_eliminate_off ms A m n h k : In A l -> off l ms0 ms -> pc (ge_eliminate ms A m n h k) (off l ms0).
Proof.
  intros Ht H. unfold ge_eliminate, for_range. apply for_from_pc; [|exact H]. intros i ms1 H1.
  do 2 (apply pc_any; intros ?). eapply pc_seq; [now apply mset_off|]. intros ms2 H2.
  apply for_from_pc; [|exact H2]. intros j ms3 H3. offs.
Qed.
Lemma ge_loop_off A m n : In A l -> forall fuel ms h k, off l ms0 ms -> pc (ge_loop fuel ms A m n h k) (off l ms0).
Proof.
  intros Ht. induction fuel as [|fuel IH]; intros ms h k H; cbn [ge_loop]; (destruct (_ && _); [|exact H]); [exact I|].
  apply pc_any; intros [i v]. apply pc_any; intros z. destruct z; [now apply IH|]. apply pc_any; intros a.
  eapply pc_seq; [apply ge_eliminate_off; [exact Ht|now apply off_upd]|]. intros ms1 H1. now apply IH.
Qed.
Lemma ge_back_off ms A result m n : In result l -> off l ms0 ms -> pc (ge_back_substitute ms A result m n) (off l ms0).
Proof.
  intros Ht H. unfold ge_back_substitute. do 2 (apply pc_any; intros ?). eapply pc_seq; [now apply mset_off|].
  intros ms1 H1. apply for_pc; [|exact H1]. intros t ms2 H2. do 4 (apply pc_any; intros ?). offs.
Qed.
(** ** Gauss-Seidel *)
Lemma gs_iteration_off ms a r kn k : In kn l -> off l ms0 ms -> pc (gs_iteration ms a r kn k) (fun x => off l ms0 (fst x)).
Proof.
  intros Ht H. unfold gs_iteration. apply for_pc; [|exact H]. intros i [ms1 md] H1. do 3 (apply pc_any; intros ?).
  eapply pc_seq; [now apply mset_off|]. intros ms2 H2. exact H2.
Qed.
Lemma gs_iteration_limits_off ms a r lim kn k : In kn l -> off l ms0 ms ->
  pc (gs_iteration_limits ms a r lim kn k) (fun x => off l ms0 (fst x)).
Proof.
  intros Ht H. unfold gs_iteration_limits. apply for_pc; [|exact H]. intros i [ms1 md] H1. do 5 (apply pc_any; intros ?).
  eapply pc_seq; [now apply mset_off|]. intros ms2 H2. exact H2.
Qed.
Lemma gs_iterate_off step mind iters :
  (forall ms, off l ms0 ms -> pc (step ms) (fun x => off l ms0 (fst x))) ->
  forall ms, off l ms0 ms -> pc (@gs_iterate tg step mind iters ms) (fun x => off l ms0 (fst x)).
Proof.
  intros Hs. induction iters as [|n IH]; intros ms H; cbn [gs_iterate]; [exact H|].
  eapply pc_seq; [apply Hs, H|]. intros [ms1 md] H1. apply pc_any; intros c. destruct c; [exact H1|now apply IH].
Qed.
(** ** Conjugate gradient *)
Lemma cg_multiply_off g (J : sparse tg) ms W x t : In t l -> In (cg_mreg0 g) l -> In (cg_mreg1 g) l -> off l ms0 ms ->
  pc (cg_multiply g J ms W x t) (off l ms0).
Proof.
  intros Ht H0 H1 H. unfold cg_multiply. eapply pc_seq; [now apply mresize_off|]. intros ms1 E1.
  eapply pc_seq; [now apply sp_tmv_off|]. intros ms2 E2.
  eapply pc_seq; [now apply mcomponent_off|]. intros ms3 E3. now apply sp_multiply_off.
Qed.
Definition cg_in (g : cg_solver tg) : Prop := forall i, In i [cg_mreg0 g; cg_mreg1 g; cg_Ap g; cg_x g; cg_r g; cg_p g] -> In i l.
Lemma cg_loop_off g (J : sparse tg) W right iters : cg_in g -> forall ms, off l ms0 ms ->
  pc (cg_loop g J W right iters ms) (fun x => off l ms0 (fst x)).
Proof.
  intros Hg. induction iters as [|n IH]; intros ms H; cbn [cg_loop]; [exact H|].
  eapply pc_seq; [apply cg_multiply_off; [apply Hg; cbn; auto 10..|exact H]|]. intros ms1 H1. do 2 (apply pc_any; intros ?).
  eapply pc_seq; [apply mmadd_off; [apply Hg; cbn; auto 10|exact H1]|]. intros ms2 H2.
  eapply pc_seq; [apply mmadd_off; [apply Hg; cbn; auto 10|exact H2]|]. intros ms3 H3. apply pc_any; intros s.
  destruct s; [exact H3|]. apply pc_any; intros ?.
  eapply pc_seq; [apply mpmadd_off; [apply Hg; cbn; auto 10|exact H3]|]. intros ms4 H4. now apply IH.
Qed.
End M.

Section P.
Variables (l : list nat) (ss0 : sps tg).
Lemma right_scale_off ss ms a b t : In t l -> off l ss0 ss -> pc (sp_right_scale 3 2 ss ms a b t) (off l ss0).
Proof.
  intros Ht H. unfold sp_right_scale. do 2 (apply pc_any; intros _). apply pc_any; intros t0.
  apply for2_pc; [|now apply off_upd]. intros i j s1 H1. apply pc_any; intros z. destruct (Z.eqb z 255); [exact H1|].
  apply pc_any; intros t1. apply for_pc; [|now apply off_upd]. intros k s2 H2. do 3 (apply pc_any; intros ?). now apply off_upd.
Qed.
Lemma left_scale_off ss ms a b t : In t l -> off l ss0 ss -> pc (sp_left_scale 3 2 ss ms a b t) (off l ss0).
Proof.
  intros Ht H. unfold sp_left_scale. do 2 (apply pc_any; intros _). apply pc_any; intros t0.
  apply for2_pc; [|now apply off_upd]. intros i j s1 H1. apply pc_any; intros z. destruct (Z.eqb z 255); [exact H1|].
  apply pc_any; intros t1. apply for_pc; [|now apply off_upd]. intros k s2 H2. do 3 (apply pc_any; intros ?). now apply off_upd.
Qed.
End P.

(** ** solvers *)
Lemma frame_off ids sids (hp hp' : heap tg) : frame ids sids hp hp' <-> off ids (hm hp) (hm hp') /\ off sids (hs hp) (hs hp').
Proof. reflexivity. Qed.

Lemma ge_solve_off g J W right a4 a5 (hp : heap tg) :
  pc (ge_solve g J W right a4 a5 hp) (fun x => frame [a5; ge_a g; ge_M g] [ge_reg g] hp (fst x)).
Proof.
  unfold ge_solve. set (l := [a5; ge_a g; ge_M g]).
  assert (I1 : In a5 l) by (cbn; auto). assert (I2 : In (ge_a g) l) by (cbn; auto). assert (I3 : In (ge_M g) l) by (cbn; auto).
  eapply pc_seq; [apply (right_scale_off [ge_reg g]); [now left|apply off_refl]|]. intros ss Hss.
  eapply pc_seq; [apply (sp_multiply_transpose_off l); [exact I3|apply off_refl]|]. intros ms1 H1. cbv zeta.
  apply pc_any; intros _. destruct (_ || _); [now split|].
  eapply pc_seq; [apply mresize_off; [exact I1|exact H1]|]. intros ms2 H2.
  eapply pc_seq; [apply mresize_off; [exact I2|exact H2]|]. intros ms3 H3.
  eapply (pc_seq _ _ (off l (hm hp))).
  { apply for_pc; [|exact H3]. intros i ms4 H4. eapply (pc_seq _ _ (off l (hm hp))).
    - apply for_pc; [|exact H4]. intros j ms5 H5. apply pc_any; intros ?. now apply mset_off.
    - intros ms5 H5. apply pc_any; intros ?. now apply mset_off. }
  intros ms4 H4. eapply pc_seq; [apply ge_loop_off; [exact I2|exact H4]|].
  intros ms5 H5. do 3 (apply pc_any; intros ?).
  eapply pc_seq; [apply ge_back_off; [exact I1|exact H5]|]. intros ms6 H6. apply pc_any; intros _. now split.
Qed.
Lemma gs_solve_off g J W right p r (hp : heap tg) :
  pc (gs_solve g J W right p r hp) (fun x => frame [r; gs_M g] [gs_reg g] hp (fst x)).
Proof.
  unfold gs_solve. set (l := [r; gs_M g]). assert (I1 : In r l) by (cbn; auto). assert (I2 : In (gs_M g) l) by (cbn; auto). cbv zeta.
  eapply pc_seq; [apply (mresize_off l); [exact I1|apply off_refl]|]. intros ms1 H1.
  eapply pc_seq; [apply warm_start_off; [exact I1|exact H1]|]. intros ms2 H2.
  eapply pc_seq; [apply (right_scale_off [gs_reg g]); [now left|apply off_refl]|]. intros ss Hss.
  eapply pc_seq; [apply sp_multiply_transpose_off; [exact I2|exact H2]|]. intros ms3 H3.
  eapply pc_seq; [apply gs_iterate_off; [intros; apply gs_iteration_off; [exact I1|assumption]|exact H3]|].
  intros [ms4 ok] H4. now split.
Qed.
Lemma gs_solve_limits_off g J W right lim r p (hp : heap tg) :
  pc (gs_solve_limits g J W right lim r p hp) (fun x => frame [r; gs_M g] [gs_reg g] hp (fst x)).
Proof.
  unfold gs_solve_limits. set (l := [r; gs_M g]). assert (I1 : In r l) by (cbn; auto). assert (I2 : In (gs_M g) l) by (cbn; auto). cbv zeta.
  eapply (pc_seq _ _ (off l (hm hp))); [destruct (negb _); [apply minit0_off; [exact I1|apply off_refl]|apply off_refl]|]. intros ms1 H1.
  eapply pc_seq; [apply warm_start_off; [exact I1|exact H1]|]. intros ms2 H2.
  eapply pc_seq; [apply (right_scale_off [gs_reg g]); [now left|apply off_refl]|]. intros ss Hss.
  eapply pc_seq; [apply sp_multiply_transpose_off; [exact I2|exact H2]|]. intros ms3 H3.
  eapply pc_seq; [apply gs_iterate_off; [intros; apply gs_iteration_limits_off; [exact I1|assumption]|exact H3]|].
  intros [ms4 ok] H4. now split.
Qed.
Lemma cg_solve_off g J W right p r (hp : heap tg) :
  pc (cg_solve g J W right p r hp)
    (fun x => frame [r; cg_mreg0 g; cg_mreg1 g; cg_Ap g; cg_x g; cg_r g; cg_p g] [] hp (fst x)).
Proof.
  unfold cg_solve. set (l := [r; cg_mreg0 g; cg_mreg1 g; cg_Ap g; cg_x g; cg_r g; cg_p g]). cbv zeta.
  assert (Hg : cg_in l g) by (intros i Hi; now right). assert (I1 : In r l) by (cbn; auto).
  eapply pc_seq; [apply (mresize_off l); [apply Hg; cbn; auto 10|apply off_refl]|]. intros msa Ha.
  eapply pc_seq; [apply mresize_off; [apply Hg; cbn; auto 10|exact Ha]|]. intros msb Hb.
  eapply pc_seq; [apply mresize_off; [apply Hg; cbn; auto 10|exact Hb]|]. intros msc Hc.
  eapply pc_seq; [apply minit0_off; [apply Hg; cbn; auto 10|exact Hc]|]. intros ms1 H1.
  eapply pc_seq; [apply warm_start_off; [apply Hg; cbn; auto 10|exact H1]|]. intros ms2 H2.
  eapply pc_seq; [apply mresize_off; [exact I1|exact H2]|]. intros ms3 H3.
  eapply pc_seq; [apply mset_ref_off; [apply Hg; cbn; auto 10|exact H3]|]. intros ms4 H4.
  eapply pc_seq; [apply cg_multiply_off; [apply Hg; cbn; auto 10..|exact H4]|]. intros ms5 H5.
  eapply pc_seq; [apply mmadd_off; [apply Hg; cbn; auto 10|exact H5]|]. intros ms6 H6. apply pc_any; intros s.
  eapply (pc_seq _ _ (fun x => off l (hm hp) (fst x))).
  { destruct s; [exact H6|]. eapply pc_seq; [apply mset_ref_off; [apply Hg; cbn; auto 10|exact H6]|]. intros ms7 H7.
    now apply cg_loop_off. }
  intros [ms7 ok] H7. cbn [fst] in H7. destruct ok; [|split; [exact H7|apply off_refl]].
  eapply pc_seq; [apply mset_ref_off; [exact I1|exact H7]|]. intros ms8 H8. split; [exact H8|apply off_refl].
Qed.
End S.
