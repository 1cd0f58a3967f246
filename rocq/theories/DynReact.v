(** * Reactions: from the products with J to accelerations and reported forces. *)

From Coq Require Import Reals.
From Verif Require Import Base Targets Matrix Sparse Sle State Ode Forces Constraints System Logic
  MatrixFacts MatrixOps SpecMatrix MatrixHist SparseFacts SpecSparse SparseHist SpecSle SleHist SleGe
  SpecState StateFacts SpecOde OdeFacts SpecSys RegFacts SysFrame SysInv SpecDyn DynState.
Local Open Scope nat_scope.

Definition is_acc (f : fld) : bool := match f with Fax | Fay | Fatheta => true | _ => false end.
(** direction of a field (0 for the masses) *)
Definition dir_of (f : fld) : nat :=
  match f with Fay | Fvy | Fpy | Ffy | Fry => 1 | Fatheta | Fvtheta | Ftheta | Ft | Frt => 2 | _ => 0 end.
Definition reaf (d : nat) : fld := match d with 0 => Frx | 1 => Fry | _ => Frt end.

Section S.
Context {tg : target}.
Notation st := (sstate tg).
Implicit Types (ms : mats tg) (ss : sps tg) (hp : heap tg) (w : world tg) (y : sys tg).

(** ** registration *)
Definition listed w y : Prop :=
  (forall i b, nth_error (y_bodies y) i = Some b -> b_index (w_body w b) = Z.of_nat i) /\
  (forall i c, nth_error (y_cons y) i = Some c -> c_index (w_con w c) = Z.of_nat i).
Lemma reg_listed m w y : all_reg m w y -> listed w y.
Proof.
  intros ((_ & _ & A) & (_ & _ & B) & _). split; intros i x E.
  - specialize (A i x E). unfold ib in A. congruence.
  - specialize (B i x E). unfold ic in B. congruence.
Qed.
Lemma listed_body_inj w y i j b : listed w y -> nth_error (y_bodies y) i = Some b -> nth_error (y_bodies y) j = Some b -> i = j.
Proof. intros [H _] A B. apply H in A. apply H in B. lia. Qed.
Lemma listed_con_inj w y i j c : listed w y -> nth_error (y_cons y) i = Some c -> nth_error (y_cons y) j = Some c -> i = j.
Proof. intros [_ H] A B. apply H in A. apply H in B. lia. Qed.

(** where the body of a slot is registered *)
Definition bi w (c k : nat) : nat :=
  match c_bodies (w_con w c) k with Some b => Z.to_nat (b_index (w_body w b)) | None => 0 end.
(** the first row of a constraint *)
Definition row0 w y (c : nat) : nat := offset w y (Z.to_nat (c_index (w_con w c))).
Lemma row0_at w y i c : listed w y -> nth_error (y_cons y) i = Some c -> row0 w y c = offset w y i.
Proof. intros [_ H] E. unfold row0. rewrite (H i c E), Nat2Z.id. reflexivity. Qed.
Lemma attached_bi w y c k : listed w y -> attached w y -> In c (y_cons y) -> k < c_bodycount (w_con w c) ->
  exists b, c_bodies (w_con w c) k = Some b /\ nth_error (y_bodies y) (bi w c k) = Some b /\ bi w c k < body_count y /\
    con_body_index (w_body w) (c_bodies (w_con w c)) k = Ok (Z.of_nat (bi w c k)).
Proof.
  intros [HL _] HA Hc Hk. destruct (HA c k Hc Hk) as (b & Eb & Hb). apply In_nth_error in Hb. destruct Hb as [i Ei].
  exists b. unfold bi, con_body_index, deref. rewrite Eb. cbn [bind]. pose proof (HL i b Ei) as X. rewrite X, Nat2Z.id.
  pose proof (nth_error_lt _ _ _ Ei). unfold body_count. auto.
Qed.

Lemma all_evs_in w l r e : In e (all_evs w l r) ->
  exists i, nth_error l i = Some (e_c e) /\ e_j e < c_count (w_con w (e_c e)) /\ e_k e < c_bodycount (w_con w (e_c e)) /\
    e_r e = r + rows_of w (firstn i l) + e_j e.
Proof.
  revert r. induction l as [|c l IH]; intros r; cbn [all_evs]; [intros []|]. intros H. apply in_app_iff in H. destruct H as [H|H].
  - unfold con_evs in H. apply in_flat_map in H. destruct H as (j & Hj & H). unfold row_evs in H.
    apply in_map_iff in H. destruct H as (k & <- & Hk). apply in_seq in Hj. apply in_seq in Hk.
    exists 0. cbn. repeat split; try lia.
  - destruct (IH _ H) as (i & A & B & C & D). exists (S i). cbn [nth_error firstn rows_of]. repeat split; auto. lia.
Qed.

(** ** the sums over slots *)
Definition adds w (r : evt -> cell tg) (l : list evt) (i : nat) (x0 : cell tg) : cell tg :=
  fold_left (fun a e => if Nat.eqb (bi w (e_c e) (e_k e)) i then cadd a (r e) else a) l x0.
Lemma adds_total w y (F : nat -> nat -> nat -> cell tg) (r : evt -> cell tg) i b x0 :
  listed w y -> attached w y -> nth_error (y_bodies y) i = Some b ->
  (forall e, In e (all_evs w (y_cons y) 0) -> r e = F (e_c e) (e_j e) (e_k e)) ->
  adds w r (all_evs w (y_cons y) 0) i x0 = total_on w y F b x0.
Proof.
  intros HL HA Hb HF. unfold adds, total_on. rewrite slots_evs.
  assert (G : forall e, In e (all_evs w (y_cons y) 0) -> r e = F (e_c e) (e_j e) (e_k e) /\
    Nat.eqb (bi w (e_c e) (e_k e)) i = binds w b (forget e)).
  { intros e He. split; [now apply HF|]. destruct (all_evs_in _ _ _ _ He) as (p & Hp & Hj & Hk & _).
    destruct (attached_bi w y (e_c e) (e_k e) HL HA (nth_error_In _ _ Hp) Hk) as (b' & Eb & En & _).
    destruct e as [[[c j] k] rr]. unfold forget, e_c, e_k in *. cbn [fst snd] in *. cbn [binds]. rewrite Eb.
    destruct (Nat.eqb_spec (bi w c k) i) as [E|E], (Nat.eqb_spec b' b) as [E'|E']; try reflexivity; exfalso.
    - rewrite E, Hb in En. congruence.
    - apply E. eapply listed_body_inj; [exact HL|exact En|]. now subst b'. }
  clear HF. revert x0. induction (all_evs w (y_cons y) 0) as [|e l IH]; intros x0; cbn [fold_left map]; [reflexivity|].
  destruct (G e) as [G1 G2]; [now left|]. rewrite IH by (intros; apply G; now right). f_equal.
  rewrite G2, G1. destruct (binds w b (forget e)); [|reflexivity]. destruct e as [[[c j] k] rr]. reflexivity.
Qed.
Lemma adds_ext w r r' l i x0 : (forall e, r e = r' e) -> adds w r l i x0 = adds w r' l i x0.
Proof.
  intros H. unfold adds. revert x0. induction l as [|e l IH]; intros x0; cbn [fold_left]; [reflexivity|]. rewrite IH, H. reflexivity.
Qed.
Lemma adds_snoc w r l e i x0 :
  adds w r (l ++ [e]) i x0 = if Nat.eqb (bi w (e_c e) (e_k e)) i then cadd (adds w r l i x0) (r e) else adds w r l i x0.
Proof. unfold adds. rewrite fold_left_app. reflexivity. Qed.

(** ** rmake: the loops after the reactions were stored *)
Definition rval (g : fld -> nat -> cell tg) (f : fld) (e : evt) : cell tg := g (reaf (dir_of f)) (e_r e * 2 + e_k e).
Definition accums w (g : fld -> nat -> cell tg) (l : list evt) : fld -> nat -> cell tg :=
  fun f i => if is_acc f then adds w (rval g f) l i (g f i) else g f i.

Definition react_ext (y : sys tg) (hp : heap tg) (s : st) : res st :=
  for_ (body_count y) (fun i s =>
    let z := Z.of_nat i in
    let* x := mget (hm hp) iFext 0 (i * 3 + 0)%nat in
    let* s := sto s Fax z x in
    let* x := mget (hm hp) iFext 0 (i * 3 + 1)%nat in
    let* s := sto s Fay z x in
    let* x := mget (hm hp) iFext 0 (i * 3 + 2)%nat in
    sto s Fatheta z x) s.
Definition react_add (w : world tg) (y : sys tg) (s : st) : res (st * nat) :=
  for_ (con_count y) (fun i '(s, j_f) =>
    let* c := nth_con w y i in
    for_ (c_count c) (fun j '(s, j_f) =>
      let* s := for_ (c_bodycount c) (fun k s =>
        let* body := con_body_index (w_body w) (c_bodies c) k in
        let z := Z.of_nat (j_f * 2 + k) in
        let* r := ld s Frx z in
        let* s := sto_add s Fax body r in
        let* r := ld s Fry z in
        let* s := sto_add s Fay body r in
        let* r := ld s Frt z in
        sto_add s Fatheta body r) s in
      Ok (s, S j_f)) (s, j_f)) (s, 0%nat).
Definition react_div (y : sys tg) (hp : heap tg) (s : st) : res st :=
  for_ (body_count y) (fun i s =>
    let z := Z.of_nat i in
    let* invMass := mget (hm hp) iMinv 0 (i * 3 + 0)%nat in
    let* invInertia := mget (hm hp) iMinv 0 (i * 3 + 2)%nat in
    let* a := ld s Fax z in
    let* s := sto s Fax z (cmul a invMass) in
    let* a := ld s Fay z in
    let* s := sto s Fay z (cmul a invMass) in
    let* a := ld s Fatheta z in
    sto s Fatheta z (cmul a invInertia)) s.
Definition react_set w y hp (s : st) : res st :=
  for2 (full_count w y) 2 (fun i j s =>
    let z := Z.of_nat (i * 2 + j) in
    let* x := sp_get 3 2 (hs hp ssreg0) i j 0 in
    let* s := sto s Frx z x in
    let* x := sp_get 3 2 (hs hp ssreg0) i j 1 in
    let* s := sto s Fry z x in
    let* x := sp_get 3 2 (hs hp ssreg0) i j 2 in
    sto s Frt z x) s.
Lemma apply_reactions_parts w y hp s : apply_reactions w y hp s =
  (let* s := react_set w y hp s in let* s := react_ext y hp s in let* (s, _) := react_add w y s in react_div y hp s).
Proof. reflexivity. Qed.

Lemma tset_same g f i (v : cell tg) : tset g f i v f i = v.
Proof. unfold tset. destruct f; cbn [fld_eqb andb]; now rewrite Nat.eqb_refl. Qed.
Lemma tset_col g f i (v : cell tg) f' : tset g f i v f' i = if fld_eqb f' f then v else g f' i.
Proof. unfold tset. rewrite Nat.eqb_refl. now destruct (fld_eqb f' f). Qed.

Lemma react_ext_looks n nc h g y hp s (fe : nat -> nat -> cell tg) :
  looks n nc h g s -> body_count y <= n ->
  (forall i d, i < body_count y -> d < 3 -> mget (hm hp) iFext 0 (i * 3 + d) = Ok (fe i d)) ->
  wp (react_ext y hp s) (looks n nc h (fun f j => if Nat.ltb j (body_count y) then (if is_acc f then fe j (dir_of f) else g f j) else g f j)).
Proof.
  intros H Hn Hf.
  pose proof (column_loop n nc h g (body_count y) (fun j f => if is_acc f then fe j (dir_of f) else g f j)) as X. cbv beta in X.
  apply X; [exact H|]. clear X. intros i t gi Hi Ht Hg. cbv zeta.
  rewrite (Hf i 0), (Hf i 1), (Hf i 2) by (try exact Hi; lia). cbn [bind].
  eapply wp_seq; [apply (sto_looks _ _ _ _ _ Fax i _ Ht); cbn; lia|]. intros s1 H1.
  eapply wp_seq; [apply (sto_looks _ _ _ _ _ Fay i _ H1); cbn; lia|]. intros s2 H2.
  eapply wp_mono; [apply (sto_looks _ _ _ _ _ Fatheta i _ H2); cbn; lia|]. intros s3 H3.
  eexists. split; [exact H3|]. split; [repeat apply col_tset; apply col_refl|].
  intros f. rewrite !tset_col. destruct f; cbn; auto.
Qed.
Lemma react_div_looks n nc h g y hp s (mi : nat -> nat -> cell tg) :
  looks n nc h g s -> body_count y <= n ->
  (forall i d, i < body_count y -> d < 3 -> mget (hm hp) iMinv 0 (i * 3 + d) = Ok (mi i d)) ->
  (forall i, i < body_count y -> mi i 1 = mi i 0) ->
  wp (react_div y hp s) (looks n nc h (fun f j => if Nat.ltb j (body_count y) then (if is_acc f then cmul (g f j) (mi j (dir_of f)) else g f j) else g f j)).
Proof.
  intros H Hn Hf H1.
  pose proof (column_loop n nc h g (body_count y) (fun j f => if is_acc f then cmul (g f j) (mi j (dir_of f)) else g f j)) as X. cbv beta in X.
  apply X; [exact H|]. clear X. intros i t gi Hi Ht Hg. cbv zeta.
  rewrite (Hf i 0), (Hf i 2) by (try exact Hi; lia). cbn [bind].
  rewrite (looks_ld _ _ _ _ _ Fax i Ht) by (cbn; lia). cbn [bind].
  eapply wp_seq; [apply (sto_looks _ _ _ _ _ Fax i _ Ht); cbn; lia|]. intros s1 S1.
  rewrite (looks_ld _ _ _ _ _ Fay i S1) by (cbn; lia). cbn [bind]. rewrite tset_col. cbn [fld_eqb].
  eapply wp_seq; [apply (sto_looks _ _ _ _ _ Fay i _ S1); cbn; lia|]. intros s2 S2.
  rewrite (looks_ld _ _ _ _ _ Fatheta i S2) by (cbn; lia). cbn [bind]. rewrite !tset_col. cbn [fld_eqb].
  eapply wp_mono; [apply (sto_looks _ _ _ _ _ Fatheta i _ S2); cbn; lia|]. intros s3 S3.
  eexists. split; [exact S3|]. split; [repeat apply col_tset; apply col_refl|].
  intros f. rewrite !tset_col. destruct f; cbn [fld_eqb is_acc dir_of]; rewrite ?Hg, ?(H1 i Hi); auto.
Qed.
Lemma react_add_looks n nc h g w y s :
  looks n nc h g s -> body_count y <= n -> full_count w y <= nc -> listed w y -> attached w y -> shaped w y ->
  wp (react_add w y s) (fun x => looks n nc h (accums w g (all_evs w (y_cons y) 0)) (fst x)).
Proof.
  intros H Hn Hnc HL HA HS. unfold react_add.
  eapply (slot_loop w y (fun _ c => c_count (w_con w c)) (fun _ c => c_bodycount (w_con w c))
    (fun c j k r s =>
        let* body := con_body_index (w_body w) (c_bodies (w_con w c)) k in
        let z := Z.of_nat (r * 2 + k) in
        let* r := ld s Frx z in
        let* s := sto_add s Fax body r in
        let* r := ld s Fry z in
        let* s := sto_add s Fay body r in
        let* r := ld s Frt z in
        sto_add s Fatheta body r) (fun l s => looks n nc h (accums w g l) s)).
  - eapply looks_ext; [exact H|]. intros f i _. unfold accums, adds. cbn [fold_left]. now destruct (is_acc f).
  - intros i c t r E. unfold nth_con. rewrite E. reflexivity.
  - auto.
  - intros i c j k l t Ec Hj Hk Ht. destruct (attached_bi w y c k HL HA (nth_error_In _ _ Ec) Hk) as (b & Eb & En & Lb & ->).
    cbn [bind]. cbv zeta. pose proof (row_lt w y i c j Ec Hj) as Hr. set (r := offset w y i + j) in *.
    destruct (HS c (nth_error_In _ _ Ec)) as [_ Hb2]. set (p := bi w c k) in *.
    assert (Rr : forall f, is_reaction f = true -> r * 2 + k < room n nc f) by (intros f Hf; unfold room; rewrite Hf; lia).
    rewrite (looks_ld _ _ _ _ _ Frx _ Ht) by (now apply Rr). cbn [bind].
    eapply wp_seq; [apply (sto_add_looks _ _ _ _ _ Fax p _ Ht); cbn; lia|]. intros s1 S1.
    rewrite (looks_ld _ _ _ _ _ Fry _ S1) by (now apply Rr). cbn [bind].
    eapply wp_seq; [apply (sto_add_looks _ _ _ _ _ Fay p _ S1); cbn; lia|]. intros s2 S2.
    rewrite (looks_ld _ _ _ _ _ Frt _ S2) by (now apply Rr). cbn [bind].
    eapply wp_mono; [apply (sto_add_looks _ _ _ _ _ Fatheta p _ S2); cbn; lia|]. intros s3 S3.
    eapply looks_ext; [exact S3|]. intros f q _. unfold accums. rewrite !tset_at.
    destruct f; cbn [fld_eqb andb is_acc]; try reflexivity;
      rewrite adds_snoc; unfold e_c, e_k, rval, e_r; cbn [fst snd reaf dir_of]; fold p; rewrite (Nat.eqb_sym q p);
      destruct (Nat.eqb_spec p q) as [<-|]; reflexivity.
  - auto.
Qed.

(** the reactions stored, whatever they are *)
Lemma react_set_some n nc h g w y hp s :
  looks n nc h g s -> full_count w y <= nc ->
  pc (react_set w y hp s) (fun s' => exists g', looks n nc h g' s' /\ forall f i, is_reaction f = false -> g' f i = g f i).
Proof.
  intros H Hnc. unfold react_set, for2, for_.
  set (I := fun s' : st => exists g', looks n nc h g' s' /\ forall f i, is_reaction f = false -> g' f i = g f i).
  apply (for_from_pci _ (fun _ => I)); [|exists g; auto]. intros i t Hi Ht.
  apply (for_from_pci _ (fun _ => I)); [|exact Ht]. clear t Ht. intros j t Hj (g1 & L1 & A1). cbv zeta.
  assert (Rr : forall f, is_reaction f = true -> i * 2 + j < room n nc f) by (intros f Hf; unfold room; rewrite Hf; lia).
  assert (step : forall f v g0 (t : st), is_reaction f = true -> looks n nc h g0 t -> (forall f i, is_reaction f = false -> g0 f i = g f i) ->
    pc (sto t f (Z.of_nat (i * 2 + j)) v) I).
  { intros f v g0 t0 Hf L A. apply wp_pc. eapply wp_mono; [apply sto_looks; [exact L|now apply Rr]|]. intros t' L'.
    eexists. split; [exact L'|]. intros f' i' Hf'. rewrite tset_at. destruct (fld_eqb f' f) eqn:E; cbn [andb]; [|now apply A].
    exfalso. destruct f, f'; cbn in *; congruence. }
  apply pc_any. intros x1. eapply pc_seq; [apply (step Frx x1 g1 t eq_refl L1 A1)|]. intros t1 (g2 & L2 & A2).
  apply pc_any. intros x2. eapply pc_seq; [apply (step Fry x2 g2 t1 eq_refl L2 A2)|]. intros t2 (g3 & L3 & A3).
  apply pc_any. intros x3. apply (step Frt x3 g3 t2 eq_refl L3 A3).
Qed.
(** the reactions stored, when they are known *)
Lemma react_set_looks n nc h g w y hp s (rv : nat -> nat -> nat -> cell tg) :
  looks n nc h g s -> full_count w y <= nc ->
  (forall r k d, r < full_count w y -> k < 2 -> d < 3 -> sp_get 3 2 (hs hp ssreg0) r k d = Ok (rv r k d)) ->
  wp (react_set w y hp s) (fun s' => exists g', looks n nc h g' s' /\ (forall f i, is_reaction f = false -> g' f i = g f i) /\
    forall r k d, r < full_count w y -> k < 2 -> d < 3 -> g' (reaf d) (r * 2 + k) = rv r k d).
Proof.
  intros H Hnc Hrv. unfold react_set.
  apply (for2_inv _ _ _ (fun i j s' => exists g', looks n nc h g' s' /\ (forall f i, is_reaction f = false -> g' f i = g f i) /\
    forall r k d, r < full_count w y -> k < 2 -> d < 3 -> r * 2 + k < i * 2 + j -> g' (reaf d) (r * 2 + k) = rv r k d)).
  - exists g. split; [exact H|]. split; [auto|]. intros; lia.
  - intros i j t Hi Hj (g1 & L1 & A1 & V1). cbv zeta.
    rewrite !Hrv by lia. cbn [bind].
    assert (Rr : forall f, is_reaction f = true -> i * 2 + j < room n nc f) by (intros f Hf; unfold room; rewrite Hf; lia).
    eapply wp_seq; [apply (sto_looks _ _ _ _ _ Frx _ _ L1); now apply Rr|]. intros s1 S1.
    eapply wp_seq; [apply (sto_looks _ _ _ _ _ Fry _ _ S1); now apply Rr|]. intros s2 S2.
    eapply wp_mono; [apply (sto_looks _ _ _ _ _ Frt _ _ S2); now apply Rr|]. intros s3 S3.
    eexists. split; [exact S3|]. split.
    + intros f p Hf. rewrite !tset_at. rewrite <- A1 by exact Hf. destruct f; cbn in Hf; try discriminate; reflexivity.
    + intros r k d Hr Hk Hd Hlt. rewrite !tset_at. destruct (Nat.eqb_spec (r * 2 + k) (i * 2 + j)) as [E|E].
      * assert (r = i /\ k = j) as [-> ->] by lia. destruct d as [|[|[|]]]; try lia; reflexivity.
      * rewrite !Bool.andb_false_r. apply V1; auto; lia.
  - intros i t Hi (g1 & L1 & A1 & V1). exists g1. split; [exact L1|]. split; [exact A1|]. intros r k d Hr Hk Hd Hlt. apply V1; auto; lia.
  - intros t (g1 & L1 & A1 & V1). exists g1. split; [exact L1|]. split; [exact A1|]. intros r k d Hr Hk Hd. apply V1; auto; lia.
Qed.

(** the table after applyReactions *)
Definition reacted w y (g : fld -> nat -> cell tg) (fe mi : nat -> nat -> cell tg) : fld -> nat -> cell tg :=
  fun f i => if Nat.ltb i (body_count y) && is_acc f
    then cmul (adds w (rval g f) (all_evs w (y_cons y) 0) i (fe i (dir_of f))) (mi i (dir_of f)) else g f i.
Lemma react_rest n nc h g w y hp s fe mi :
  looks n nc h g s -> body_count y <= n -> full_count w y <= nc -> listed w y -> attached w y -> shaped w y ->
  (forall i d, i < body_count y -> d < 3 -> mget (hm hp) iFext 0 (i * 3 + d) = Ok (fe i d)) ->
  (forall i d, i < body_count y -> d < 3 -> mget (hm hp) iMinv 0 (i * 3 + d) = Ok (mi i d)) ->
  (forall i, i < body_count y -> mi i 1 = mi i 0) ->
  wp (let* s := react_ext y hp s in let* (s, _) := react_add w y s in react_div y hp s)
    (looks n nc h (reacted w y g fe mi)).
Proof.
  intros H Hn Hnc HL HA HS Hf Hm H1.
  eapply wp_seq; [apply (react_ext_looks _ _ _ _ _ _ _ fe H Hn Hf)|]. intros s1 S1.
  eapply wp_seq; [apply (react_add_looks _ _ _ _ _ _ _ S1 Hn Hnc HL HA HS)|]. intros [s2 j] S2. cbn [fst] in S2.
  eapply wp_mono; [apply (react_div_looks _ _ _ _ _ _ _ mi S2 Hn Hm H1)|]. intros s3 S3.
  eapply looks_ext; [exact S3|]. intros f i Hi. unfold reacted, accums. destruct (is_acc f) eqn:E.
  - rewrite !Bool.andb_true_r. destruct (Nat.ltb_spec i (body_count y)) as [L|L].
    + f_equal. apply adds_ext. intros e. unfold rval.
      assert (A : is_acc (reaf (dir_of f)) = false) by (destruct f; reflexivity). rewrite A. now destruct (Nat.ltb _ _).
    + unfold adds. (* no slot is bound to a place beyond the bodies *)
      assert (G : forall l x0, (forall e, In e l -> bi w (e_c e) (e_k e) < body_count y) ->
        fold_left (fun a e => if Nat.eqb (bi w (e_c e) (e_k e)) i
          then cadd a (rval (fun f j => if Nat.ltb j (body_count y) then if is_acc f then fe j (dir_of f) else g f j else g f j) f e) else a) l x0 = x0).
      { induction l as [|e l IH]; intros x0 Hl; [reflexivity|]. cbn [fold_left]. rewrite IH by (intros; apply Hl; now right).
        pose proof (Hl e (or_introl eq_refl)). destruct (Nat.eqb_spec (bi w (e_c e) (e_k e)) i); [lia|reflexivity]. }
      rewrite G; [reflexivity|]. intros e He. destruct (all_evs_in _ _ _ _ He) as (p & Hp & _ & Hk & _).
      destruct (attached_bi w y (e_c e) (e_k e) HL HA (nth_error_In _ _ Hp) Hk) as (b & _ & _ & X & _). exact X.
  - rewrite !Bool.andb_false_r. now destruct (Nat.ltb i (body_count y)).
Qed.

(** ** reported forces *)
Definition told (w0 w : world tg) y (F : nat -> nat -> nat -> nat -> cell tg) (l : list evt) : Prop :=
  w_body w = w_body w0 /\ w_gen w = w_gen w0 /\
  (forall c, c_kind (w_con w c) = c_kind (w_con w0 c) /\ c_index (w_con w c) = c_index (w_con w0 c) /\
     c_bodycount (w_con w c) = c_bodycount (w_con w0 c) /\ c_bodies (w_con w c) = c_bodies (w_con w0 c) /\
     c_count (w_con w c) = c_count (w_con w0 c)) /\
  forall e d, In e l -> d < 3 -> c_force (w_con w (e_c e)) d (e_j e) (e_k e) = F d (e_c e) (e_j e) (e_k e).
Lemma forces_back_told n nc h g w y (s : st) at_ (F : nat -> nat -> nat -> nat -> cell tg) :
  looks n nc h g s -> listed w y -> shaped w y ->
  (forall c j k, In c (y_cons y) -> j < c_count (w_con w c) -> k < c_bodycount (w_con w c) ->
     at_ (row0 w y c + j) k < nc * 2 /\ forall d, d < 3 -> g (reaf d) (at_ (row0 w y c + j) k) = F d c j k) ->
  wp (forces_back at_ y s w) (fun w' => told w w' y F (all_evs w (y_cons y) 0)).
Proof.
  intros H HL HS HF. unfold forces_back.
  eapply (wp_seq _ _ (fun x => told w (fst x) y F (all_evs w (y_cons y) 0))); [|intros [w' i] X; exact X].
  eapply (slot_loop w y (fun w' c => c_count (w_con w' c)) (fun w' c => c_bodycount (w_con w' c))
    (fun c j k r w' =>
        let z := Z.of_nat (at_ r k) in
        let* fx := ld s Frx z in
        let* fy := ld s Fry z in
        let* ft := ld s Frt z in
        let* x := con_set_force (w_con w' c) j k fx fy ft in
        Ok (set_con w' c x)) (fun l w' => told w w' y F l) w (fun w' => told w w' y F (all_evs w (y_cons y) 0))).
  - repeat split. intros e d [].
  - intros i c t r E. rewrite E. reflexivity.
  - intros l t c (_ & _ & A & _). split; apply A.
  - intros i c j k l t Ec Hj Hk (A1 & A2 & A3 & A4). cbv zeta.
    pose proof (nth_error_In _ _ Ec) as Hc. destruct (HF c j k Hc Hj Hk) as [Hat Hv].
    rewrite <- (row0_at w y i c HL Ec). set (r := row0 w y c + j) in *.
    destruct (HS c Hc) as [Hc3 Hb2].
    rewrite (looks_ld _ _ _ _ _ Frx _ H) by exact Hat. rewrite (looks_ld _ _ _ _ _ Fry _ H) by exact Hat.
    rewrite (looks_ld _ _ _ _ _ Frt _ H) by exact Hat. cbn [bind].
    pose proof (Hv 0 ltac:(lia)) as V0. pose proof (Hv 1 ltac:(lia)) as V1. pose proof (Hv 2 ltac:(lia)) as V2. cbn [reaf] in V0, V1, V2.
    rewrite V0, V1, V2. unfold con_set_force. destruct (Nat.ltb_spec j 3), (Nat.ltb_spec k 2); try lia. cbn [andb bind wp].
    split; [exact A1|]. split; [exact A2|]. split.
    + intros c'. cbn [set_con w_con]. unfold upd. destruct (Nat.eqb_spec c' c) as [->|]; [cbn; apply A3|apply A3].
    + intros e d He Hd. cbn [set_con w_con]. unfold upd. apply in_app_iff in He.
      destruct (Nat.eqb_spec (e_c e) c) as [Ee|Ee].
      * destruct (Nat.eqb (e_j e) j && Nat.eqb (e_k e) k) eqn:Ejk.
        -- apply andb_prop in Ejk. destruct Ejk as [E1 E2]. apply Nat.eqb_eq in E1. apply Nat.eqb_eq in E2. rewrite Ee, E1, E2.
           destruct d as [|[|[|]]]; try lia; cbn [c_force c_Fx c_Fy c_Ft]; unfold upd2; rewrite !Nat.eqb_refl; reflexivity.
        -- destruct He as [He|[He|[]]].
           ++ rewrite <- (A4 e d He Hd), Ee. destruct d as [|[|[|]]]; try lia; cbn [c_force c_Fx c_Fy c_Ft]; unfold upd2; rewrite Ejk; reflexivity.
           ++ subst e. cbn in Ejk. rewrite !Nat.eqb_refl in Ejk. discriminate.
      * destruct He as [He|[He|[]]]; [now apply A4|]. subst e. now elim Ee.
  - auto.
Qed.

(** ** results back in the bodies *)
Definition moved (w0 w : world tg) y (K : kin tg) : Prop :=
  w_con w = w_con w0 /\ w_gen w = w_gen w0 /\
  (forall b, b_index (w_body w b) = b_index (w_body w0 b) /\ b_f (w_body w b) Bm = b_f (w_body w0 b) Bm /\
     b_f (w_body w b) BI = b_f (w_body w0 b) BI /\ (~ In b (y_bodies y) -> w_body w b = w_body w0 b)) /\
  forall b d, In b (y_bodies y) -> d < 3 -> b_pos (w_body w b) d = k_q K b d /\ b_vel (w_body w b) d = k_v K b d.
Lemma bodies_back_moved w y K h (s : st) : listed w y -> presents w y K h s ->
  wp (bodies_back y s w) (fun w' => moved w w' y K).
Proof.
  intros HL (_ & _ & _ & _ & HP). unfold bodies_back.
  apply (for_inv _ (fun i w' => w_con w' = w_con w /\ w_gen w' = w_gen w /\
    (forall b, b_index (w_body w' b) = b_index (w_body w b) /\ b_f (w_body w' b) Bm = b_f (w_body w b) Bm /\
     b_f (w_body w' b) BI = b_f (w_body w b) BI /\ (~ In b (y_bodies y) -> w_body w' b = w_body w b)) /\
    forall j b d, j < i -> nth_error (y_bodies y) j = Some b -> d < 3 -> b_pos (w_body w' b) d = k_q K b d /\ b_vel (w_body w' b) d = k_v K b d)).
  - repeat split; lia.
  - intros i w' Hi (A & B & C & D). cbv zeta. destruct (nth_error_ex (y_bodies y) i Hi) as [b Eb]. rewrite Eb. cbn [lift_opt bind].
    destruct (HP i b Eb) as [_ HP']. pose proof (HP' 0 ltac:(lia)) as (P0 & V0 & _). pose proof (HP' 1 ltac:(lia)) as (P1 & V1 & _).
    pose proof (HP' 2 ltac:(lia)) as (P2 & V2 & _). cbn [posf velf] in *. rewrite P0, P1, P2, V0, V1, V2. cbn [bind wp].
    split; [exact A|]. split; [exact B|]. split.
    + intros b'. cbn [set_body w_body]. unfold upd. destruct (Nat.eqb_spec b' b) as [->|]; [|apply C].
      split; [apply C|]. split; [apply C|]. split; [apply C|]. intros X. elim X. eapply nth_error_In; eauto.
    + intros j b' d Hj Ej Hd. cbn [set_body w_body]. unfold upd. destruct (Nat.eqb_spec b' b) as [->|Ne].
      * destruct d as [|[|[|]]]; try lia; split; reflexivity.
      * apply (D j); auto. assert (j <> i) by (intros ->; rewrite Eb in Ej; congruence). lia.
  - intros w' (A & B & C & D). split; [exact A|]. split; [exact B|]. split; [exact C|]. intros b d Hb Hd.
    apply In_nth_error in Hb. destruct Hb as [j Ej]. apply (D j); auto. apply nth_error_lt in Ej. exact Ej.
Qed.
End S.
