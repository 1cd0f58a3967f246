(** * Registries, profiling and what process leaves alone (C30 - C32, C70, C73). *)

From Coq Require Import Reals Permutation.
From Verif Require Import Base Targets Matrix Sparse Sle State Ode Forces Constraints System Logic SpecState StateFacts SpecSys.
Local Open Scope nat_scope.

(** ** vectors of pointers *)
Lemma list_set_split {A} (u : list A) x r v : list_set (u ++ x :: r) (length u) v = Some (u ++ v :: r).
Proof. induction u as [|a u IH]; cbn; [reflexivity|]. now rewrite IH. Qed.

Lemma nth_error_mid {A} (u : list A) x r : nth_error (u ++ x :: r) (length u) = Some x.
Proof. rewrite nth_error_app2 by lia. now rewrite Nat.sub_diag. Qed.

Lemma reg_nil ix : registered (fun _ => false) ix [].
Proof. split; [constructor|]. split; [intros b; split; [easy|discriminate]|]. intros [|i] b; discriminate. Qed.

Lemma reg_ext p ix ix' l : registered p ix l -> (forall b, p b = true -> ix' b = ix b) -> registered p ix' l.
Proof.
  intros (N & P & X) E. split; [exact N|]. split; [exact P|]. intros i b Hi. rewrite E; [now apply X|].
  apply P. eapply nth_error_In; eauto.
Qed.

Lemma reg_add p ix l b : registered p ix l -> p b = false ->
  registered (upd p b true) (upd ix b (Some (Z.of_nat (length (l ++ [b])) - 1)%Z)) (l ++ [b]).
Proof.
  intros (N & P & X) Hb. assert (Nb : ~ In b l) by (intros I; apply P in I; congruence).
  split; [|split].
  - eapply Permutation_NoDup; [apply Permutation_cons_append|]. now constructor.
  - intros x. rewrite in_app_iff. cbn. unfold upd. destruct (Nat.eqb_spec x b) as [->|Nx]; [tauto|].
    rewrite P. intuition congruence.
  - intros i x Hi. rewrite app_length. cbn. unfold upd. destruct (Nat.eqb_spec x b) as [->|Nx].
    + destruct (Nat.lt_ge_cases i (length l)) as [L|L].
      * rewrite nth_error_app1 in Hi by exact L. apply nth_error_In in Hi. contradiction.
      * apply nth_error_lt in Hi. rewrite app_length in Hi. cbn in Hi. f_equal. lia.
    + destruct (Nat.lt_ge_cases i (length l)) as [L|L].
      * rewrite nth_error_app1 in Hi by exact L. now apply X.
      * rewrite nth_error_app2 in Hi by exact L. destruct (i - length l) as [|[|j]]; cbn in Hi; congruence.
Qed.

(** removing by swapping in the last one *)
Lemma reg_remove p ix l b : registered p ix l -> p b = true ->
  exists i last l1 l2, ix b = Some (Z.of_nat i) /\ vec_back l = Ok last /\ aset l (Z.of_nat i) last = Ok l1 /\
    aget l1 (Z.of_nat i) = Ok last /\ vec_drop_last l1 = Ok l2 /\
    registered (upd p b false) (upd ix last (Some (Z.of_nat i))) l2.
Proof.
  intros (N & P & X) Hb. apply P in Hb. destruct (In_nth_error _ _ Hb) as [i Hi].
  pose proof (X _ _ Hi) as Ei.
  destruct (exists_last (l := l)) as (u & last & ->); [intros ->; destruct Hb|].
  assert (Eb : vec_back (u ++ [last]) = Ok last).
  { unfold vec_back. destruct (u ++ [last]) eqn:E; [now destruct u|]. rewrite <- E. now rewrite last_last. }
  assert (ED : forall v : list nat, vec_drop_last (v ++ [last]) = Ok v).
  { intros v. unfold vec_drop_last. destruct (v ++ [last]) eqn:E; [now destruct v|]. rewrite <- E. now rewrite removelast_last. }
  assert (Nl : ~ In last u /\ NoDup u).
  { apply NoDup_remove in N. rewrite app_nil_r in N. tauto. }
  destruct Nl as [Nl Nu].
  destruct (Nat.lt_ge_cases i (length u)) as [L|L].
  - rewrite nth_error_app1 in Hi by exact L.
    destruct (nth_error_split _ _ Hi) as (u1 & u2 & Eu & Lu). subst u. clear Hi. subst i.
    exists (length u1), last, (u1 ++ last :: u2 ++ [last]), (u1 ++ last :: u2).
    split; [exact Ei|]. split; [exact Eb|]. split.
    { unfold aset. destruct (Z.ltb_spec (Z.of_nat (length u1)) 0); [lia|]. rewrite Nat2Z.id.
      rewrite <- app_assoc. cbn [app]. now rewrite list_set_split. }
    split; [rewrite aget_nat; now rewrite nth_error_mid|].
    split; [rewrite app_comm_cons, app_assoc; apply ED|].
    assert (Nb : ~ In b u1 /\ ~ In b u2 /\ NoDup (u1 ++ u2)).
    { apply NoDup_remove in Nu. rewrite in_app_iff in Nu. tauto. }
    destruct Nb as (Nb1 & Nb2 & Nu12).
    assert (Nlb : last <> b) by (intros ->; apply Nl; rewrite in_app_iff; cbn; auto).
    assert (Nl12 : ~ In last (u1 ++ u2)) by (intros I; apply Nl; rewrite in_app_iff in *; cbn; tauto).
    split; [|split].
    + eapply Permutation_NoDup; [apply Permutation_middle|]. now constructor.
    + intros x. unfold upd. destruct (Nat.eqb_spec x b) as [->|Nx].
      * rewrite in_app_iff. cbn. split; [intros [?|[?|?]]; [contradiction|congruence|contradiction]|discriminate].
      * rewrite <- P. rewrite !in_app_iff. cbn. intuition congruence.
    + intros j x Hj. unfold upd. destruct (Nat.eqb_spec x last) as [->|Nx].
      * f_equal. f_equal. destruct (Nat.eq_dec j (length u1)) as [->|Nj]; [reflexivity|]. exfalso. apply Nl12.
        rewrite in_app_iff. destruct (Nat.lt_ge_cases j (length u1)).
        -- rewrite nth_error_app1 in Hj by assumption. left. eapply nth_error_In; eauto.
        -- rewrite nth_error_app2 in Hj by assumption. destruct (j - length u1) as [|q] eqn:Eq; [lia|]. cbn in Hj.
           right. eapply nth_error_In; eauto.
      * apply X. rewrite <- app_assoc. cbn [app]. destruct (Nat.lt_ge_cases j (length u1)).
        -- rewrite nth_error_app1 in Hj |- * by assumption. exact Hj.
        -- rewrite nth_error_app2 in Hj |- * by assumption. destruct (j - length u1) as [|q] eqn:Eq; cbn in Hj |- *; [congruence|].
           rewrite nth_error_app1; [exact Hj|]. eapply nth_error_lt; eauto.
  - assert (i = length u) by (apply nth_error_lt in Hi; rewrite app_length in Hi; cbn in Hi; lia). subst i.
    rewrite nth_error_mid in Hi. injection Hi as <-.
    exists (length u), last, (u ++ [last]), u. split; [exact Ei|]. split; [exact Eb|]. split.
    { unfold aset. destruct (Z.ltb_spec (Z.of_nat (length u)) 0); [lia|]. rewrite Nat2Z.id. now rewrite list_set_split. }
    split; [rewrite aget_nat; now rewrite nth_error_mid|]. split; [apply ED|].
    split; [exact Nu|]. split.
    + intros x. unfold upd. destruct (Nat.eqb_spec x last) as [->|Nx]; [split; [contradiction|discriminate]|].
      rewrite <- P, in_app_iff. cbn. intuition congruence.
    + intros j x Hj. unfold upd. destruct (Nat.eqb_spec x last) as [->|Nx].
      * exfalso. apply Nl. eapply nth_error_In; eauto.
      * apply X. rewrite nth_error_app1; [exact Hj|]. eapply nth_error_lt; eauto.
Qed.

(** ** what process leaves alone (C73) *)
Section S.
Context {tg : target}.
Implicit Types (w : world tg) (y : sys tg) (s : sstate tg).

Definition same_reg y y' : Prop :=
  y_bodies y' = y_bodies y /\ y_cons y' = y_cons y /\ y_gens y' = y_gens y /\ y_sle y' = y_sle y /\ y_bias y' = y_bias y.
Definition same_b y w w' : Prop :=
  forall b, b_index (w_body w' b) = b_index (w_body w b) /\ b_f (w_body w' b) Bm = b_f (w_body w b) Bm /\
     b_f (w_body w' b) BI = b_f (w_body w b) BI /\ (~ In b (y_bodies y) -> w_body w' b = w_body w b).
Definition same_c y w w' : Prop :=
  forall c, c_kind (w_con w' c) = c_kind (w_con w c) /\ c_index (w_con w' c) = c_index (w_con w c) /\
     c_bodycount (w_con w' c) = c_bodycount (w_con w c) /\ c_bodies (w_con w' c) = c_bodies (w_con w c) /\
     c_count (w_con w' c) = c_count (w_con w c) /\ (~ In c (y_cons y) -> w_con w' c = w_con w c).
Lemma same_c_refl y w : same_c y w w.
Proof. now intros c. Qed.
Lemma same_b_refl y w : same_b y w w.
Proof. now intros c. Qed.
Lemma same_c_trans y w1 w2 w3 : same_c y w1 w2 -> same_c y w2 w3 -> same_c y w1 w3.
Proof.
  intros A B c. destruct (A c) as (A1 & A2 & A3 & A4 & A5 & A6), (B c) as (B1 & B2 & B3 & B4 & B5 & B6).
  repeat split; try congruence. intros I. rewrite B6, A6 by exact I. reflexivity.
Qed.

Lemma bodies_back_alone y s w :
  pc (bodies_back y s w) (fun w' => same_b y w w' /\ w_con w' = w_con w /\ w_gen w' = w_gen w).
Proof.
  unfold bodies_back. apply for_pc; [|now repeat split]. intros i t (H1 & H2 & H3).
  destruct (nth_error (y_bodies y) i) as [b|] eqn:Eb; cbn [lift_opt bind]; [|exact I].
  apply nth_error_In in Eb. do 6 (apply pc_any; intros ?). cbn. refine (conj _ (conj H2 H3)).
  intros x. unfold set_body, upd. cbn [w_body]. destruct (Nat.eqb_spec x b) as [->|N]; [|apply H1].
  cbn. destruct (H1 b) as (E1 & E2 & E3 & _). repeat split; try assumption. intros; contradiction.
Qed.
Lemma forces_back_alone f y s w :
  pc (forces_back f y s w) (fun w' => same_c y w w' /\ w_body w' = w_body w /\ w_gen w' = w_gen w).
Proof.
  unfold forces_back.
  eapply (pc_seq _ _ (fun x => same_c y w (fst x) /\ w_body (fst x) = w_body w /\ w_gen (fst x) = w_gen w));
    [|intros [w' n] H; exact H].
  apply for_pc; [|now repeat split]. intros i [t n] H.
  destruct (nth_error (y_cons y) i) as [c|] eqn:Ec; cbn [lift_opt bind]; [|exact I].
  apply nth_error_In in Ec. apply for_pc; [|exact H]. intros j [t1 n1] H1.
  eapply (pc_seq _ _ (fun w' => same_c y w w' /\ w_body w' = w_body w /\ w_gen w' = w_gen w));
    [|intros w' H'; exact H'].
  apply for_pc; [|exact H1]. clear - Ec. intros k t (A & B & C). do 3 (apply pc_any; intros ?). unfold con_set_force.
  destruct (_ && _); cbn; [|exact I]. refine (conj _ (conj B C)).
  intros x. unfold set_con, upd. cbn [w_con]. destruct (Nat.eqb_spec x c) as [->|N]; [|apply A]. cbn.
  destruct (A c) as (E1 & E2 & E3 & E4 & E5 & E6). repeat split; try assumption. intros; contradiction.
Qed.

Lemma propagate_alone f y s w :
  pc (let* w := bodies_back y s w in forces_back f y s w) (fun w' =>
    same_b y w w' /\ same_c y w w' /\ w_gen w' = w_gen w).
Proof.
  eapply pc_seq; [apply bodies_back_alone|]. intros w1 (A & B & C).
  eapply pc_mono; [apply forces_back_alone|]. intros w2 (A' & B' & C').
  split; [intros b; rewrite B'; apply A|]. split; [|congruence]. intros c. rewrite <- B. apply A'.
Qed.
Lemma record_profile_reg y t : pc (record_profile y t) (fun y' => same_reg y y' /\ y_state y' = y_state y /\ y_heap y' = y_heap y /\ y_ode y' = y_ode y /\ y_t y' = y_t y).
Proof. unfold record_profile. apply pc_any. intros p. cbn. now repeat split. Qed.

Lemma process_alone k dt steps t w y w' y' : process k dt steps t w y = Ok (w', y') -> left_alone w y w' y'.
Proof.
  intros E. unfold process in E.
  assert (K : forall f s y1 w1 y2, same_reg y y1 -> (let* w := bodies_back y1 s w in forces_back f y1 s w) = Ok w1 ->
     record_profile y1 t = Ok y2 -> left_alone w y w1 y2).
  { intros f s y1 w1 y2 R Ew Ey. pose proof (pc_elim _ _ _ Ew (propagate_alone f y1 s w)) as (A & B & C).
    pose proof (pc_elim _ _ _ Ey (record_profile_reg y1 t)) as ((D1 & D2 & D3 & D4 & D5) & _).
    destruct R as (R1 & R2 & R3 & R4 & R5). split; [repeat split; congruence|].
    split; [intros b; rewrite <- R1; apply A|]. split; [intros c; rewrite <- R2; apply B|]. intros g. now rewrite C. }
  destruct k.
  - unfold opt_process in E. destruct (populate_state w y) as [s0| | |]; try discriminate. cbn [bind] in E.
    destruct (populate_mass _ _ _) as [ms| | |]; try discriminate. cbn [bind] in E.
    destruct (the_ode _) as [o| | |]; try discriminate. cbn [bind] in E.
    destruct (ode_steps _ _ _ _ _ _ _ _) as [[[o' hp] s]| | |]; try discriminate. cbn [bind] in E.
    unfold opt_propagate in E.
    match type of E with bind (bind (bodies_back ?y1 _ _) _) _ = _ => set (y1' := y1) in * end.
    match type of E with bind ?x _ = _ => destruct x as [w1| | |] eqn:E1; try discriminate end. cbn [bind] in E.
    destruct (record_profile y1' t) as [y2| | |] eqn:E2; try discriminate. cbn [bind] in E. injection E as <- <-.
    assert (L : left_alone w y w1 y2) by (eapply K; [|exact E1|exact E2]; now repeat split). exact L.
  - unfold gen_process in E. destruct (populate_state w y) as [s0| | |]; try discriminate. cbn [bind] in E.
    destruct (populate_mass _ _ _) as [ms| | |]; try discriminate. cbn [bind] in E.
    match type of E with bind ?x _ = _ => assert (P : pc x (fun z => same_reg y (fst z))) end.
    { destruct steps; [now repeat split|]. apply pc_any. intros o. apply pc_any. intros [[o' hp] s]. now repeat split. }
    match type of E with bind ?x _ = _ => destruct x as [[y1 s]| | |]; try discriminate end. cbn [bind] in E. cbn in P.
    unfold gen_propagate in E.
    match type of E with bind ?x _ = _ => destruct x as [w1| | |] eqn:E1; try discriminate end. cbn [bind] in E.
    destruct (record_profile y1 t) as [y2| | |] eqn:E2; try discriminate. cbn [bind] in E. injection E as <- <-.
    eapply K; eauto.
Qed.

(** ** registries over histories (C30, C31) *)
Definition ib w b : option Z := Some (b_index (w_body w b)).
Definition ic w c : option Z := Some (c_index (w_con w c)).
Definition ig w g : option Z := g_index (w_gen w g).
Definition all_reg (m : books tg) w y : Prop :=
  registered (in_body m) (ib w) (y_bodies y) /\ registered (in_con m) (ic w) (y_cons y) /\ registered (in_gen m) (ig w) (y_gens y).

Lemma remove_body_ok m w y b : all_reg m w y -> in_body m b = true ->
  exists w' y', remove_body w y b = Ok (w', y') /\ all_reg (put_body m b false) w' y'.
Proof.
  intros (A & B & C) Hb. destruct (reg_remove _ _ _ _ A Hb) as (i & last & l1 & l2 & E1 & E2 & E3 & E4 & E5 & R).
  unfold ib in E1. injection E1 as E1.
  unfold remove_body, vec_get. cbv zeta. rewrite E2. cbn [bind]. rewrite E1, E3. cbn [bind]. rewrite E4. cbn [bind].
  rewrite E5. cbn [bind]. eexists; eexists. split; [reflexivity|]. split; [|split]; cbn; [|exact B|exact C].
  eapply reg_ext; [exact R|]. intros x _. unfold ib, upd, set_body. cbn. unfold upd. destruct (Nat.eqb x last); reflexivity.
Qed.
Lemma remove_con_ok m w y b : all_reg m w y -> in_con m b = true ->
  exists w' y', remove_con w y b = Ok (w', y') /\ all_reg (put_con m b false) w' y'.
Proof.
  intros (A & B & C) Hb. destruct (reg_remove _ _ _ _ B Hb) as (i & last & l1 & l2 & E1 & E2 & E3 & E4 & E5 & R).
  unfold ic in E1. injection E1 as E1.
  unfold remove_con, vec_get. cbv zeta. rewrite E2. cbn [bind]. rewrite E1, E3. cbn [bind]. rewrite E4. cbn [bind].
  rewrite E5. cbn [bind]. eexists; eexists. split; [reflexivity|]. split; [|split]; cbn; [exact A| |exact C].
  eapply reg_ext; [exact R|]. intros x _. unfold ic, upd, set_con. cbn. unfold upd. destruct (Nat.eqb x last); reflexivity.
Qed.
Lemma remove_gen_ok m w y b : all_reg m w y -> in_gen m b = true ->
  exists w' y', remove_gen w y b = Ok (w', y') /\ all_reg (put_gen m b false) w' y'.
Proof.
  intros (A & B & C) Hb. destruct (reg_remove _ _ _ _ C Hb) as (i & last & l1 & l2 & E1 & E2 & E3 & E4 & E5 & R).
  unfold ig in E1.
  unfold remove_gen, vec_get. cbv zeta. rewrite E2. cbn [bind]. rewrite E1. cbn [lift_opt bind]. rewrite E3. cbn [bind]. rewrite E4. cbn [bind].
  rewrite E5. cbn [bind]. eexists; eexists. split; [reflexivity|]. split; [|split]; cbn; [exact A|exact B|].
  eapply reg_ext; [exact R|]. intros x _. unfold ig, upd, set_gen. cbn. unfold upd. destruct (Nat.eqb x last); reflexivity.
Qed.

Lemma yreach_reg k priv m w y : yreach k priv m w y -> all_reg m w y.
Proof.
  induction 1 as [k w|k m w y l o y' H IH Hl E|k m w y b w' y' H IH Hb E|k m w y b w' y' H IH Hb E|k m w y b w' y' H IH Hb E
    |k m w y b w' y' H IH Hb E|k m w y b w' y' H IH Hb E|k m w y b w' y' H IH Hb E|k m w y H IH|k m w y dt steps t w' y' H IH Hg E
    |k m w y b x H IH Hx|k m w y b x H IH Hx|k m w y b x H IH Hx|k m w y v H IH
    |k m w y o hp2 H IH Ha E|k m w y k2 m2 w2 y2 H IH H2 IH2].
  - destruct k; (split; [|split]); apply reg_nil.
  - destruct k; cbn in E; [injection E as <-; exact IH|]. unfold gen_initialize in E.
    destruct (minit0 _ _ _ _); try discriminate. cbn in E. injection E as <-. exact IH.
  - unfold add_body in E. injection E as <- <-. destruct IH as (A & B & C). split; [|split]; cbn; [|exact B|exact C].
    eapply reg_ext; [apply reg_add; eassumption|]. intros x _. unfold ib. cbn. unfold upd. destruct (Nat.eqb x b); reflexivity.
  - destruct (remove_body_ok m w y b IH Hb) as (w1 & y1 & E1 & R). congruence.
  - unfold add_con in E. injection E as <- <-. destruct IH as (A & B & C). split; [|split]; cbn; [exact A| |exact C].
    eapply reg_ext; [apply reg_add; eassumption|]. intros x _. unfold ic. cbn. unfold upd. destruct (Nat.eqb x b); reflexivity.
  - destruct (remove_con_ok m w y b IH Hb) as (w1 & y1 & E1 & R). congruence.
  - unfold add_gen in E. injection E as <- <-. destruct IH as (A & B & C). split; [|split]; cbn; [exact A|exact B|].
    eapply reg_ext; [apply reg_add; eassumption|]. intros x _. unfold ig. cbn. unfold upd. destruct (Nat.eqb x b); reflexivity.
  - destruct (remove_gen_ok m w y b IH Hb) as (w1 & y1 & E1 & R). congruence.
  - split; [|split]; apply reg_nil.
  - apply process_alone in E. destruct E as ((E1 & E2 & E3 & _) & Eb & Ec & Eg). destruct IH as (A & B & C).
    split; [|split]; cbn; rewrite ?E1, ?E2, ?E3.
    + eapply reg_ext; [exact A|]. intros b _. unfold ib. f_equal. apply Eb.
    + eapply reg_ext; [exact B|]. intros b _. unfold ic. f_equal. apply Ec.
    + eapply reg_ext; [exact C|]. intros b _. unfold ig. now rewrite Eg.
  - destruct IH as (A & B & C). split; [|split]; cbn; [|exact B|exact C].
    eapply reg_ext; [exact A|]. intros z Hz. unfold ib. cbn. unfold upd. destruct (Nat.eqb_spec z b) as [->|]; [f_equal; auto|reflexivity].
  - destruct IH as (A & B & C). split; [|split]; cbn; [exact A| |exact C].
    eapply reg_ext; [exact B|]. intros z Hz. unfold ic. cbn. unfold upd. destruct (Nat.eqb_spec z b) as [->|]; [f_equal; auto|reflexivity].
  - destruct IH as (A & B & C). split; [|split]; cbn; [exact A|exact B|].
    eapply reg_ext; [exact C|]. intros z Hz. unfold ig. cbn. unfold upd. destruct (Nat.eqb_spec z b) as [->|]; [auto|reflexivity].
  - exact IH.
  - exact IH.
  - exact IH.
Qed.

Lemma full_count_sum w y : full_count w y = list_sum (map (fun c => c_count (w_con w c)) (y_cons y)).
Proof.
  unfold full_count. assert (K : forall l a, fold_left (fun count c => count + c_count (w_con w c)) l a = a + list_sum (map (fun c => c_count (w_con w c)) l)).
  { induction l as [|x l IH]; intros a; cbn [fold_left map]; [cbn; lia|]. rewrite IH. unfold list_sum. cbn [fold_right]. lia. }
  apply K.
Qed.

(** C30 *)
Lemma bodies_registered k priv m w y : yreach k priv m w y ->
  exists l, registered (in_body m) (fun b => Some (b_index (w_body w b))) l /\
    body_count y = length l /\ (forall i, get_body y (Z.of_nat i) =
      match nth_error l i with Some b => Ok b | None => if asserts_on tg then AssertFail else UB end) /\
    (forall b, in_body m b = true -> exists w' y', remove_body w y b = Ok (w', y')).
Proof.
  intros H. pose proof (yreach_reg _ _ _ _ _ H) as R. exists (y_bodies y). split; [apply R|]. split; [reflexivity|]. split.
  - intros i. unfold get_body, massert, vec_get. rewrite aget_nat. destruct (Z.leb_spec 0 (Z.of_nat i)); [|lia]. cbn [andb].
    destruct (nth_error (y_bodies y) i) as [b|] eqn:E.
    + pose proof (nth_error_lt _ _ _ E). destruct (Z.ltb_spec (Z.of_nat i) (Z.of_nat (length (y_bodies y)))); [|lia]. reflexivity.
    + apply nth_error_None in E. destruct (Z.ltb_spec (Z.of_nat i) (Z.of_nat (length (y_bodies y)))); [lia|].
      destruct (asserts_on tg); reflexivity.
  - intros b Hb. destruct (remove_body_ok m w y b R Hb) as (w' & y' & E & _). eauto.
Qed.
(** C31 *)
Lemma constraints_registered k priv m w y : yreach k priv m w y ->
  exists l, registered (in_con m) (fun c => Some (c_index (w_con w c))) l /\
    con_count y = length l /\ full_count w y = list_sum (map (fun c => c_count (w_con w c)) l) /\
    (forall c, in_con m c = true -> exists w' y', remove_con w y c = Ok (w', y')).
Proof.
  intros H. pose proof (yreach_reg _ _ _ _ _ H) as R. exists (y_cons y). split; [apply R|]. split; [reflexivity|].
  split; [apply full_count_sum|]. intros b Hb. destruct (remove_con_ok m w y b R Hb) as (w' & y' & E & _). eauto.
Qed.
Lemma generators_registered k priv m w y : yreach k priv m w y ->
  exists l, registered (in_gen m) (fun g => g_index (w_gen w g)) l /\ gen_count y = length l /\
    (forall g, in_gen m g = true -> exists w' y', remove_gen w y g = Ok (w', y')).
Proof.
  intros H. pose proof (yreach_reg _ _ _ _ _ H) as R. exists (y_gens y). split; [apply R|]. split; [reflexivity|].
  intros b Hb. destruct (remove_gen_ok m w y b R Hb) as (w' & y' & E & _). eauto.
Qed.

(** ** profiling and elapsed time (C70) *)
Definition ring {A} (frame : nat) (l : list A) : list A := skipn frame l ++ firstn frame l.

Lemma ring_step {A} (l : list A) i t l' : list_set l i t = Some l' -> i < length l ->
  ring (Nat.modulo (i + 1) (length l)) l' = tl (ring i l) ++ [t].
Proof.
  intros E L. destruct (nth_error_ex l i L) as [x Hx]. destruct (nth_error_split _ _ Hx) as (u & v & -> & <-).
  rewrite list_set_split in E. injection E as <-. clear Hx.
  assert (R : forall z, ring (length u) (u ++ z :: v) = z :: v ++ u).
  { intros z. unfold ring. rewrite skipn_app, firstn_app, skipn_all, firstn_all, Nat.sub_diag. cbn. now rewrite app_nil_r. }
  rewrite R. cbn [tl]. rewrite app_length in *. cbn [length] in *. destruct v as [|z v].
  - rewrite (Nat.add_comm (length u) 1). cbn [length Nat.add]. rewrite Nat.add_1_r, Nat.mod_same by lia.
    unfold ring. cbn. now rewrite app_nil_r.
  - cbn [length] in *. rewrite Nat.mod_small by lia. unfold ring.
    replace (u ++ t :: z :: v) with ((u ++ [t]) ++ z :: v) by now rewrite <- app_assoc.
    replace (length u + 1) with (length (u ++ [t])) by (rewrite app_length; reflexivity).
    rewrite skipn_app, firstn_app, skipn_all, firstn_all, Nat.sub_diag. cbn. rewrite app_nil_r.
    now rewrite app_comm_cons, app_assoc.
Qed.

Definition blank : timing := mkTiming (-1) (-1) (-1) (-1).
Definition times (m : books tg) : list timing := map snd (calls m).
Definition prof_inv (ts : list timing) y : Prop :=
  length (y_prof y) = profiling_samples /\ y_frame y < profiling_samples /\
  ring (y_frame y) (y_prof y) = repeat blank (profiling_samples - length ts) ++ rev (firstn profiling_samples ts).
Lemma firstn_S_snoc {A} (l : list A) n : n < length l -> exists x, firstn (S n) l = firstn n l ++ [x].
Proof.
  revert n. induction l as [|a l IH]; intros n H; cbn in H; [lia|]. destruct n; [now exists a|].
  destruct (IH n) as [x E]; [lia|]. exists x. cbn [firstn]. rewrite <- app_comm_cons. f_equal. exact E.
Qed.
Lemma record_profile_step ts y t : prof_inv ts y -> wp (record_profile y t) (prof_inv (t :: ts)).
Proof.
  intros (L & F & R). unfold record_profile.
  destruct (list_set_some (y_prof y) (y_frame y) t) as (p & E & Lp & _); [now rewrite L|]. rewrite E. cbn [lift_opt bind wp].
  assert (P : 0 < profiling_samples) by (unfold profiling_samples; lia).
  unfold prof_inv. cbn [y_prof y_frame]. split; [congruence|]. split; [apply Nat.mod_upper_bound; lia|].
  rewrite <- L at 1. rewrite (ring_step _ _ _ _ E) by (now rewrite L). rewrite R. clear R E Lp L F p.
  revert P. generalize profiling_samples. intros K P. destruct (Nat.lt_ge_cases (length ts) K) as [Lt|Ge].
  - replace (K - length ts) with (S (K - length (t :: ts))) by (cbn; lia). cbn [repeat app tl].
    rewrite (firstn_all2 ts) by lia. rewrite (firstn_all2 (t :: ts)) by (cbn; lia). cbn [rev]. now rewrite app_assoc.
  - replace (K - length ts) with 0 by lia. replace (K - length (t :: ts)) with 0 by (cbn; lia). cbn [repeat app].
    destruct K as [|K]; [lia|]. destruct (firstn_S_snoc ts K) as [x Ex]; [lia|].
    rewrite Ex, rev_app_distr. reflexivity.
Qed.
Lemma process_prof k dt steps t w y w' y' ts : process k dt steps t w y = Ok (w', y') -> prof_inv ts y ->
  prof_inv (t :: ts) y' /\ (k = Optimized -> y_t y' = cadd (y_t y) dt).
Proof.
  intros E R. unfold process in E.
  destruct k.
  - unfold opt_process in E. destruct (populate_state w y) as [s0| | |]; try discriminate. cbn [bind] in E.
    destruct (populate_mass _ _ _) as [ms| | |]; try discriminate. cbn [bind] in E.
    destruct (the_ode _) as [o| | |]; try discriminate. cbn [bind] in E.
    destruct (ode_steps _ _ _ _ _ _ _ _) as [[[o' hp] s]| | |]; try discriminate. cbn [bind] in E.
    destruct (opt_propagate _ _ _) as [w1| | |]; try discriminate. cbn [bind] in E.
    match type of E with bind (record_profile ?y1 _) _ = _ => assert (R1 : prof_inv ts y1) by exact R;
      apply (record_profile_step _ _ t) in R1; pose proof (record_profile_reg y1 t) as Q;
      destruct (record_profile y1 t) as [y2| | |]; try discriminate end.
    cbn [bind] in E. injection E as <- <-. split; [exact R1|]. intros _. cbn in *. destruct Q as (_ & _ & _ & _ & ->). reflexivity.
  - unfold gen_process in E. destruct (populate_state w y) as [s0| | |]; try discriminate. cbn [bind] in E.
    destruct (populate_mass _ _ _) as [ms| | |]; try discriminate. cbn [bind] in E.
    match type of E with bind ?x _ = _ => assert (P : pc x (fun z => prof_inv ts (fst z))) end.
    { destruct steps; [exact R|]. apply pc_any. intros o. apply pc_any. intros [[o' hp] s]. exact R. }
    match type of E with bind ?x _ = _ => destruct x as [[y1 s]| | |]; try discriminate end. cbn [bind] in E. cbn [pc fst] in P.
    destruct (gen_propagate _ _ _) as [w1| | |]; try discriminate. cbn [bind] in E.
    apply (record_profile_step _ _ t) in P.
    destruct (record_profile y1 t) as [y2| | |] eqn:E2; try discriminate. cbn [bind] in E. injection E as <- <-.
    split; [exact P|discriminate].
Qed.
Lemma yreach_prof k priv m w y : yreach k priv m w y ->
  prof_inv (times m) y /\ (k = Optimized -> y_t y = fold_right (fun c acc => cadd acc (fst c)) (cofZ 0) (calls m)).
Proof.
  induction 1 as [k w|k m w y l o y' H IH Hl E|k m w y b w' y' H IH Hb E|k m w y b w' y' H IH Hb E|k m w y b w' y' H IH Hb E
    |k m w y b w' y' H IH Hb E|k m w y b w' y' H IH Hb E|k m w y b w' y' H IH Hb E|k m w y H IH|k m w y dt steps t w' y' H IH Hg E
    |k m w y b x H IH Hx|k m w y b x H IH Hx|k m w y b x H IH Hx|k m w y v H IH
    |k m w y o hp2 H IH Ha E|k m w y k2 m2 w2 y2 H IH H2 IH2]; try exact IH.
  - split; [|destruct k; [reflexivity|discriminate]].
    assert (P : prof_inv [] (created k : sys tg)); [|exact P]. unfold prof_inv. destruct k; cbn [created sys_new y_prof y_frame];
      (split; [apply repeat_length|]; (split; [unfold profiling_samples; lia|]); unfold ring; rewrite firstn_nil;
       cbn [skipn firstn rev]; now rewrite Nat.sub_0_r).
  - destruct k; cbn in E; [injection E as <-; exact IH|]. unfold gen_initialize in E.
    destruct (minit0 _ _ _ _); try discriminate. cbn in E. injection E as <-. exact IH.
  - unfold add_body in E. injection E as <- <-. exact IH.
  - unfold remove_body in E. destruct (vec_back _); try discriminate. cbn [bind] in E. destruct (aset _ _ _); try discriminate.
    cbn [bind] in E. destruct (vec_get _ _); try discriminate. cbn [bind] in E. destruct (vec_drop_last _); try discriminate.
    cbn in E. injection E as <- <-. exact IH.
  - unfold add_con in E. injection E as <- <-. exact IH.
  - unfold remove_con in E. destruct (vec_back _); try discriminate. cbn [bind] in E. destruct (aset _ _ _); try discriminate.
    cbn [bind] in E. destruct (vec_get _ _); try discriminate. cbn [bind] in E. destruct (vec_drop_last _); try discriminate.
    cbn in E. injection E as <- <-. exact IH.
  - unfold add_gen in E. injection E as <- <-. exact IH.
  - unfold remove_gen in E. destruct (vec_back _); try discriminate. cbn [bind] in E. destruct (lift_opt (g_index _)); try discriminate.
    cbn [bind] in E. destruct (aset _ _ _); try discriminate.
    cbn [bind] in E. destruct (vec_get _ _); try discriminate. cbn [bind] in E. destruct (vec_drop_last _); try discriminate.
    cbn in E. injection E as <- <-. exact IH.
  - destruct IH as [IH1 IH2]. destruct (process_prof _ _ _ _ _ _ _ _ _ E IH1) as [P Q]. split; [exact P|].
    intros Ek. rewrite (Q Ek), (IH2 Ek). reflexivity.
Qed.

Lemma find_average_eq l : find_average l = totals (filter (fun x => negb (Z.eqb x (-1))) l).
Proof.
  unfold find_average, totals.
  assert (K : forall l a c, fold_left (fun '(accum, count) x => if negb (Z.eqb x (-1)) then ((accum + x)%Z, S count) else (accum, count)) l (a, c) =
    ((a + fold_right Z.add 0 (filter (fun x => negb (Z.eqb x (-1))) l))%Z, c + length (filter (fun x => negb (Z.eqb x (-1))) l))).
  { clear. induction l as [|x l IH]; intros a c; cbn [fold_left filter fold_right length]; [f_equal; lia|].
    destruct (negb (Z.eqb x (-1))); rewrite IH; cbn [fold_right length]; f_equal; lia. }
  rewrite K. f_equal; lia.
Qed.
Lemma totals_perm l l' : Permutation l l' -> totals l = totals l'.
Proof.
  intros P. unfold totals. f_equal; [|now apply Permutation_length].
  induction P; cbn; lia.
Qed.
Lemma filter_perm {A} (f : A -> bool) l l' : Permutation l l' -> Permutation (filter f l) (filter f l').
Proof.
  induction 1 as [|x l l' P IH|x z l|a b c P1 I1 P2 I2]; cbn; auto.
  - destruct (f x); auto.
  - destruct (f x), (f z); auto. constructor.
  - etransitivity; eauto.
Qed.
Lemma average_recent (f : timing -> Z) y ts : prof_inv ts y -> f blank = (-1)%Z -> (forall t, In t ts -> f t <> (-1)%Z) ->
  find_average (map f (y_prof y)) = totals (map f (firstn profiling_samples ts)).
Proof.
  intros (_ & _ & R) Fb Ft. rewrite find_average_eq.
  assert (P : Permutation (y_prof y) (ring (y_frame y) (y_prof y))).
  { unfold ring. rewrite <- (firstn_skipn (y_frame y) (y_prof y)) at 1. apply Permutation_app_comm. }
  rewrite R in P. rewrite (totals_perm _ (map f (firstn profiling_samples ts))); [reflexivity|].
  etransitivity; [apply filter_perm, Permutation_map, P|]. rewrite map_app, filter_app.
  replace (filter _ (map f (repeat blank _))) with (@nil Z).
  - cbn [app]. assert (E : filter (fun x => negb (Z.eqb x (-1))) (map f (rev (firstn profiling_samples ts))) = map f (rev (firstn profiling_samples ts))).
    { assert (G : forall l, (forall t, In t l -> f t <> (-1)%Z) -> filter (fun x => negb (Z.eqb x (-1))) (map f l) = map f l).
      { induction l as [|a l IH]; intros G; cbn; [reflexivity|]. destruct (Z.eqb_spec (f a) (-1)) as [E|E].
        - exfalso. exact (G a (or_introl eq_refl) E).
        - cbn. f_equal. apply IH. intros t Ht. apply G. now right. }
      apply G. intros t Ht. apply Ft. apply in_rev in Ht. revert Ht. clear. generalize profiling_samples. intros K.
      revert K. induction ts as [|a l IH]; intros [|K]; cbn; try easy. intros [->|H]; [now left|]. right. eauto. }
    rewrite E. apply Permutation_map. symmetry. apply Permutation_rev.
  - generalize (profiling_samples - length ts). induction n as [|n IH]; cbn [repeat map filter]; [reflexivity|].
    rewrite Fb. cbn. exact IH.
Qed.

(** C70 *)
Lemma elapsed priv m w y : yreach Optimized priv m w y ->
  y_t y = fold_right (fun c acc => cadd acc (fst c)) (cofZ 0) (calls m).
Proof. intros H. apply (yreach_prof _ _ _ _ _ H). reflexivity. Qed.
Lemma profiling k priv m w y : yreach k priv m w y ->
  y_frame y < length (y_prof y) /\
  ((forall c, In c (calls m) -> (0 <= t_ode (snd c) /\ 0 <= t_solve (snd c) /\ 0 <= t_force (snd c) /\ 0 <= t_eval (snd c))%Z) ->
   let recent := map snd (firstn 600 (calls m)) in
   ode_microseconds y = totals (map t_ode recent) /\ solve_microseconds y = totals (map t_solve recent) /\
   force_microseconds y = totals (map t_force recent) /\ eval_microseconds y = totals (map t_eval recent)).
Proof.
  intros H. destruct (yreach_prof _ _ _ _ _ H) as [P _]. split; [destruct P as (-> & ? & _); assumption|].
  intros C recent. assert (E : recent = firstn profiling_samples (times m)) by (unfold recent, times; now rewrite firstn_map).
  rewrite E. assert (Q : forall f : timing -> Z, f blank = (-1)%Z -> (forall c, In c (calls m) -> (0 <= f (snd c))%Z) ->
     find_average (map f (y_prof y)) = totals (map f (firstn profiling_samples (times m)))).
  { intros f Fb Ft. apply average_recent; auto. intros t Ht. unfold times in Ht. apply in_map_iff in Ht. destruct Ht as (c & <- & Hc).
    specialize (Ft c Hc). lia. }
  refine (conj (Q _ _ _) (conj (Q _ _ _) (conj (Q _ _ _) (Q _ _ _)))); try reflexivity; intros c Hc; destruct (C c Hc) as (? & ? & ? & ?); assumption.
Qed.

(** ** what a removed body keeps (C32) *)
Lemma removed_keeps k priv m w y b w' y' : yreach k priv m w y -> in_body m b = true -> remove_body w y b = Ok (w', y') ->
  exists i, b_index (w_body w b) = Z.of_nat i /\ b_index (w_body w' b) = Z.of_nat i /\
    (S i < body_count y -> exists b', b' <> b /\ in_body (put_body m b false) b' = true /\ b_index (w_body w' b') = Z.of_nat i).
Proof.
  intros H Hb E. pose proof (yreach_reg _ _ _ _ _ H) as (A & _ & _).
  destruct (reg_remove _ _ _ _ A Hb) as (i & last & l1 & l2 & E1 & E2 & E3 & E4 & E5 & R).
  unfold ib in E1. injection E1 as E1. exists i. split; [exact E1|].
  unfold remove_body, vec_get in E. cbv zeta in E. rewrite E2 in E. cbn [bind] in E. rewrite E1, E3 in E. cbn [bind] in E.
  rewrite E4 in E. cbn [bind] in E. rewrite E5 in E. cbn [bind] in E. injection E as <- <-.
  split; [unfold set_body, upd; cbn [w_body]; destruct (Nat.eqb_spec b last); [reflexivity|exact E1]|].
  intros L. exists last. destruct A as (N & P & X).
  assert (Hl : nth_error (y_bodies y) (body_count y - 1) = Some last).
  { unfold body_count in *. destruct (exists_last (l := y_bodies y)) as (u & z & Eu); [intros Q; rewrite Q in L; cbn in L; lia|].
    rewrite Eu in *. unfold vec_back in E2. destruct (u ++ [z]) eqn:Q; [now destruct u|]. rewrite <- Q in *. rewrite last_last in E2.
    injection E2 as <-. rewrite app_length. cbn [length]. replace (length u + 1 - 1) with (length u) by lia. apply nth_error_mid. }
  pose proof (X _ _ Hl) as Xl. unfold ib in Xl. injection Xl as Xl.
  assert (NE : last <> b) by (intros ->; rewrite E1 in Xl; lia). split; [exact NE|].
  split; [cbn; unfold upd; destruct (Nat.eqb_spec last b); [congruence|]; apply P; eapply nth_error_In; eauto|].
  unfold set_body, upd; cbn [w_body]. now rewrite Nat.eqb_refl.
Qed.
End S.
