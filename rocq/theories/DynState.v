(** * States, rows and reactions of a system being processed. *)

From Coq Require Import Reals.
From Verif Require Import Base Targets Matrix Sparse Sle State Ode Forces Constraints System Logic
  MatrixFacts MatrixOps SpecMatrix MatrixHist SparseFacts SpecSparse SparseHist SpecSle SleHist SleGe
  SpecState StateFacts SpecOde OdeFacts SpecSys SysFrame SysInv SpecDyn.
Local Open Scope nat_scope.

Section S.
Context {tg : target}.
Notation st := (sstate tg).
Implicit Types (ms : mats tg) (ss : sps tg) (hp : heap tg) (w : world tg) (y : sys tg).

(** ** a state read as a table *)
Definition looks (n nc : nat) (h : cell tg) (g : fld -> nat -> cell tg) (s : st) : Prop :=
  sized s /\ s_n s = n /\ s_nc s = nc /\ s_dt s = h /\
  forall f i, i < room n nc f -> ld s f (Z.of_nat i) = Ok (g f i).
Lemma looks_ld n nc h g s f i : looks n nc h g s -> i < room n nc f -> ld s f (Z.of_nat i) = Ok (g f i).
Proof. intros H; apply H. Qed.
Lemma looks_ext n nc h g g' s : looks n nc h g s -> (forall f i, i < room n nc f -> g f i = g' f i) -> looks n nc h g' s.
Proof. intros (A & B & C & D & E) H. do 4 (split; [assumption|]). intros f i Hi. rewrite <- H by exact Hi. now apply E. Qed.
Lemma looks_sized (s : st) : sized s -> looks (s_n s) (s_nc s) (s_dt s) (ldc s) s.
Proof.
  intros H. do 4 (split; [auto|]). intros f i Hi. unfold ldc. destruct (sized_ld s f i H Hi) as [x ->]. reflexivity.
Qed.
Lemma sto_looks n nc h g (s : st) f i v : looks n nc h g s -> i < room n nc f ->
  wp (sto s f (Z.of_nat i) v) (looks n nc h (tset g f i v)).
Proof.
  intros (A & B & C & D & E) Hi. destruct (sto_spec s f (Z.of_nat i) v _ (E f i Hi)) as (s' & Es & L & Len & N & NC & M & DT).
  eapply wp_eq; [exact Es|]. split; [eapply sto_sized; eauto|]. do 3 (split; [congruence|]).
  intros f' j Hj. rewrite L. unfold tset. destruct (fld_eqb f' f); cbn [andb]; [|now apply E].
  destruct (Z.eqb_spec (Z.of_nat j) (Z.of_nat i)), (Nat.eqb_spec j i); try lia; [reflexivity|now apply E].
Qed.
Lemma sto_add_looks n nc h g (s : st) f i v : looks n nc h g s -> i < room n nc f ->
  wp (sto_add s f (Z.of_nat i) v) (looks n nc h (tset g f i (cadd (g f i) v))).
Proof. intros H Hi. unfold sto_add. rewrite (looks_ld _ _ _ _ _ _ _ H Hi). cbn [bind]. now apply sto_looks. Qed.
Lemma tset_at g f i (v : cell tg) f' j : tset g f i v f' j = if fld_eqb f' f && Nat.eqb j i then v else g f' j.
Proof. reflexivity. Qed.

(** every round i replaces column i *)
Lemma column_loop n nc h g (N : nat) (F : nat -> fld -> cell tg) (f : nat -> st -> res st) s :
  looks n nc h g s ->
  (forall i s gi, i < N -> looks n nc h gi s -> (forall fl, gi fl i = g fl i) ->
     wp (f i s) (fun s' => exists g', looks n nc h g' s' /\ (forall fl j, j <> i -> g' fl j = gi fl j) /\ forall fl, g' fl i = F i fl)) ->
  wp (for_ N f s) (looks n nc h (fun fl j => if Nat.ltb j N then F j fl else g fl j)).
Proof.
  intros H Hf. apply (for_inv _ (fun k => looks n nc h (fun fl j => if Nat.ltb j k then F j fl else g fl j))).
  - eapply looks_ext; [exact H|]. intros fl j _. reflexivity.
  - intros i s' Hi Hs. eapply wp_mono; [apply (Hf i s' _ Hi Hs); intros fl; destruct (Nat.ltb_spec i i); [lia|reflexivity]|].
    intros s'' (g' & L & O & I). eapply looks_ext; [exact L|]. intros fl j _.
    destruct (Nat.eq_dec j i) as [->|Ne].
    + rewrite I. destruct (Nat.ltb_spec i (S i)); [reflexivity|lia].
    + rewrite O by exact Ne. destruct (Nat.ltb_spec j i), (Nat.ltb_spec j (S i)); auto; lia.
  - auto.
Qed.
(** the same when the round works on the table alone *)
Definition col_only (i : nat) (g g' : fld -> nat -> cell tg) : Prop := forall fl j, j <> i -> g' fl j = g fl j.
Lemma col_refl i g : col_only i g g.
Proof. now intros fl j Hj. Qed.
Lemma col_tset i g g' f v : col_only i g g' -> col_only i g (tset g' f i v).
Proof.
  intros H fl j Hj. unfold tset. destruct (fld_eqb fl f); cbn [andb]; [|now apply H].
  destruct (Nat.eqb_spec j i); [contradiction|now apply H].
Qed.

(** ** rows of constraints *)

(** a body slot: constraint, row in the constraint, slot, row in the system *)
Definition evt := (nat * nat * nat * nat)%type.
Definition e_c (e : evt) : nat := fst (fst (fst e)).
Definition e_j (e : evt) : nat := snd (fst (fst e)).
Definition e_k (e : evt) : nat := snd (fst e).
Definition e_r (e : evt) : nat := snd e.
Definition row_evs w (c j r : nat) : list evt := map (fun k => (c, j, k, r)) (seq 0 (c_bodycount (w_con w c))).
Definition con_evs w (c r : nat) : list evt := flat_map (fun j => row_evs w c j (r + j)) (seq 0 (c_count (w_con w c))).
Fixpoint all_evs w (l : list nat) (r : nat) : list evt :=
  match l with [] => [] | c :: l => con_evs w c r ++ all_evs w l (r + c_count (w_con w c)) end.
(** number of rows of the constraints in l *)
Fixpoint rows_of w (l : list nat) : nat := match l with [] => 0 | c :: l => c_count (w_con w c) + rows_of w l end.
Lemma rows_of_app w l l' : rows_of w (l ++ l') = rows_of w l + rows_of w l'.
Proof. induction l; cbn; lia. Qed.
Lemma full_count_rows w y : full_count w y = rows_of w (y_cons y).
Proof.
  unfold full_count. assert (G : forall l k, fold_left (fun count c => (count + c_count (w_con w c))%nat) l k = k + rows_of w l).
  { induction l as [|c l IH]; intros k; cbn; [lia|]. rewrite IH. lia. }
  now rewrite G.
Qed.
Lemma all_evs_app w l l' r : all_evs w (l ++ l') r = all_evs w l r ++ all_evs w l' (r + rows_of w l).
Proof.
  revert r. induction l as [|c l IH]; intros r; cbn [app all_evs rows_of]; [now rewrite Nat.add_0_r|].
  rewrite IH, app_assoc. do 2 f_equal. lia.
Qed.
Lemma firstn_snoc {A} (l : list A) i x : nth_error l i = Some x -> firstn (S i) l = firstn i l ++ [x].
Proof. revert i. induction l as [|a l IH]; intros [|i] E; try discriminate; cbn in *; [now injection E as ->|]. now rewrite (IH i E). Qed.
Definition offset w y (i : nat) : nat := rows_of w (firstn i (y_cons y)).
Lemma offset_S w y i c : nth_error (y_cons y) i = Some c -> offset w y (S i) = offset w y i + c_count (w_con w c).
Proof. intros E. unfold offset. rewrite (firstn_snoc _ _ _ E), rows_of_app. cbn. lia. Qed.
Lemma offset_full w y : offset w y (con_count y) = full_count w y.
Proof. unfold offset, con_count. now rewrite firstn_all, full_count_rows. Qed.
Lemma offset_le w y i j : i <= j -> offset w y i <= offset w y j.
Proof.
  intros H. unfold offset. rewrite <- (firstn_skipn i (firstn j (y_cons y))), firstn_firstn, Nat.min_l, rows_of_app by exact H. lia.
Qed.
Lemma row_lt w y i c j : nth_error (y_cons y) i = Some c -> j < c_count (w_con w c) -> offset w y i + j < full_count w y.
Proof.
  intros E Hj. rewrite <- offset_full. pose proof (offset_S w y i c E). pose proof (nth_error_lt _ _ _ E).
  pose proof (offset_le w y (S i) (con_count y) ltac:(unfold con_count; lia)). lia.
Qed.

(** slots are the events without their row *)
Definition forget (e : evt) : nat * nat * nat := fst e.
Lemma slots_evs w y : slots w y = map forget (all_evs w (y_cons y) 0).
Proof.
  unfold slots. generalize 0 at 3 as r. induction (y_cons y) as [|c l IH]; intros r; cbn [flat_map all_evs map]; [reflexivity|].
  rewrite map_app, <- (IH (r + c_count (w_con w c))). f_equal. unfold con_evs, row_evs.
  induction (seq 0 (c_count (w_con w c))) as [|j js IHj]; cbn [flat_map map]; [reflexivity|].
  rewrite map_app, <- IHj, map_map. reflexivity.
Qed.

(** the loop shape of processConstraints: rounds extend a list of events *)
Lemma for_app {S E} (n : nat) (f : nat -> S -> res S) (K : list E -> S -> Prop) (ev : nat -> list E) l s (Q : S -> Prop) :
  K l s -> (forall i l t, i < n -> K l t -> wp (f i t) (K (l ++ ev i))) ->
  (forall t, K (l ++ flat_map ev (seq 0 n)) t -> Q t) -> wp (for_ n f s) Q.
Proof.
  intros H0 Hf HQ. apply (for_inv _ (fun i => K (l ++ flat_map ev (seq 0 i)))); [cbn; now rewrite app_nil_r| |exact HQ].
  intros i t Hi Ht. eapply wp_mono; [apply Hf; [exact Hi|exact Ht]|]. intros t' Ht'.
  rewrite seq_S, flat_map_app, app_assoc. cbn [flat_map]. now rewrite app_nil_r.
Qed.
(** all (constraint, row, slot) in order, as the code visits them *)
Lemma slot_loop {S} w y (cn bc : S -> nat -> nat) (f : nat -> nat -> nat -> nat -> S -> res S) (K : list evt -> S -> Prop)
    (s : S) (Q : S -> Prop) (nest : nat -> S * nat -> res (S * nat)) :
  K [] s ->
  (forall i c t r, nth_error (y_cons y) i = Some c ->
     nest i (t, r) = for_ (cn t c) (fun j '(t, r) =>
        let* t := for_ (bc t c) (fun k t => f c j k r t) t in Ok (t, Datatypes.S r)) (t, r)) ->
  (forall l t c, K l t -> cn t c = c_count (w_con w c) /\ bc t c = c_bodycount (w_con w c)) ->
  (forall i c j k l t, nth_error (y_cons y) i = Some c -> j < c_count (w_con w c) -> k < c_bodycount (w_con w c) -> K l t ->
     wp (f c j k (offset w y i + j) t) (K (l ++ [(c, j, k, offset w y i + j)]))) ->
  (forall t, K (all_evs w (y_cons y) 0) t -> Q t) ->
  wp (for_ (con_count y) nest (s, 0)) (fun x => Q (fst x)).
Proof.
  intros H0 Hn Hc Hf HQ.
  apply (for_inv _ (fun i x => snd x = offset w y i /\ K (all_evs w (firstn i (y_cons y)) 0) (fst x))).
  - split; [reflexivity|exact H0].
  - intros i [t r] Hi [Er HK]. cbn [fst snd] in *. subst r.
    destruct (nth_error_ex (y_cons y) i Hi) as [c Ec]. rewrite (Hn i c t _ Ec), (proj1 (Hc _ _ c HK)).
    apply (for_inv _ (fun j x => snd x = offset w y i + j /\
      K (all_evs w (firstn i (y_cons y)) 0 ++ flat_map (fun j => row_evs w c j (offset w y i + j)) (seq 0 j)) (fst x))).
    + cbn. rewrite app_nil_r. split; [lia|exact HK].
    + intros j [t' r'] Hj [Er' HK']. cbn [fst snd] in *. subst r'. rewrite (proj2 (Hc _ _ c HK')).
      eapply (wp_seq _ _ (K (all_evs w (firstn i (y_cons y)) 0 ++ flat_map (fun j => row_evs w c j (offset w y i + j)) (seq 0 (Datatypes.S j))))).
      * eapply (for_app _ _ K (fun k => [(c, j, k, offset w y i + j)])); [exact HK'| |].
        -- intros k l t'' Hk HK''. exact (Hf i c j k l t'' Ec Hj Hk HK'').
        -- intros t'' HK''. rewrite seq_S, flat_map_app, app_assoc. cbn [flat_map]. rewrite app_nil_r. unfold row_evs at 2.
           replace (map (fun k => (c, j, k, offset w y i + j)) (seq 0 (c_bodycount (w_con w c))))
             with (flat_map (fun k => [(c, j, k, offset w y i + j)]) (seq 0 (c_bodycount (w_con w c)))); [exact HK''|].
           clear. induction (seq 0 (c_bodycount (w_con w c))) as [|a l IHl]; cbn; [reflexivity|now rewrite IHl].
      * intros t'' HK''. cbn [wp fst snd]. split; [lia|exact HK''].
    + intros [t' r'] [Er' HK']. cbn [fst snd] in *. split; [rewrite Er'; symmetry; now apply offset_S|].
      rewrite (firstn_snoc _ _ _ Ec), all_evs_app. cbn [all_evs]. rewrite app_nil_r, Nat.add_0_l. exact HK'.
  - intros [t r] [_ HK]. cbn [fst snd] in *. unfold con_count in HK. rewrite firstn_all in HK. now apply HQ.
Qed.

(** ** the numbering of rows *)
Lemma rows_app w (l1 l2 : list nat) : let R l := flat_map (fun c => map (fun j => (c, j)) (seq 0 (c_count (w_con w c)))) l in
  R (l1 ++ l2) = R l1 ++ R l2 /\ length (R l1) = rows_of w l1.
Proof.
  cbv zeta. split; [apply flat_map_app|]. induction l1 as [|a l IH]; cbn [flat_map]; [reflexivity|].
  rewrite app_length, map_length, seq_length, IH. reflexivity.
Qed.
Lemma row_list_at w y i c j : nth_error (y_cons y) i = Some c -> j < c_count (w_con w c) -> nth_error (row_list w y) (offset w y i + j) = Some (c, j).
Proof.
  intros E Hj. destruct (nth_error_split _ _ E) as (l1 & l2 & El & Hl). unfold row_list, offset. rewrite El.
  rewrite (proj1 (rows_app w l1 (c :: l2))). subst i. rewrite firstn_app, firstn_all, Nat.sub_diag. cbn [firstn]. rewrite app_nil_r.
  pose proof (proj2 (rows_app w l1 [])) as X. cbv zeta in X. rewrite <- X, nth_error_app2 by lia.
  rewrite Nat.add_comm, Nat.add_sub. cbn [flat_map]. rewrite nth_error_app1 by (now rewrite map_length, seq_length).
  rewrite nth_error_map, (nth_error_nth' _ 0) by (now rewrite seq_length). rewrite seq_nth by exact Hj. reflexivity.
Qed.
Lemma row_list_in w y r c j : nth_error (row_list w y) r = Some (c, j) ->
  exists i, nth_error (y_cons y) i = Some c /\ j < c_count (w_con w c) /\ r = offset w y i + j.
Proof.
  unfold row_list, offset. revert r. induction (y_cons y) as [|a l IH]; intros r E; cbn [flat_map] in E; [now destruct r|].
  destruct (Nat.ltb_spec r (c_count (w_con w a))).
  - rewrite nth_error_app1 in E by (now rewrite map_length, seq_length). rewrite nth_error_map, (nth_error_nth' _ 0) in E by (now rewrite seq_length).
    rewrite seq_nth in E by exact H. injection E as <- <-. exists 0. cbn. auto.
  - rewrite nth_error_app2 in E by (now rewrite map_length, seq_length). rewrite map_length, seq_length in E.
    destruct (IH _ E) as (i & E1 & E2 & E3). exists (S i). split; [exact E1|]. split; [exact E2|]. cbn. cbn in E3. lia.
Qed.
End S.
