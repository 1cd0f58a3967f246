(** * The equation set up before a solve, whatever the constraints answer. *)

From Coq Require Import Reals.
From Verif Require Import Base Targets Matrix Sparse Sle State Ode Forces Constraints System Logic
  MatrixFacts MatrixOps SpecMatrix MatrixHist SparseFacts SpecSparse SparseHist SpecSle SleHist SleGe
  SpecSys SpecDyn SysFrame SysInv SysColumn DynState DynReact DynGather DynRight.
Local Open Scope nat_scope.

Section S.
Context {tg : target}.
Notation st := (sstate tg).
Implicit Types (ms : mats tg) (ss : sps tg) (hp : heap tg) (w : world tg) (y : sys tg).
Variable priv : nat -> bool.

Definition dims (a b : nat) (m : matrix tg) : Prop := m_w m = a /\ m_h m = b.

(** ** sizes of results *)
Lemma fill_dims ms (t a b : nat) (f : nat -> nat -> mats tg -> res (mats tg)) (hh ww : mats tg -> nat) :
  (forall i j ms0 ms1, keeps_size t ms0 ms1 -> pc (f i j ms1) (keeps_size t ms0)) ->
  pc (let* ms := mresize ms t a b in for2 (hh ms) (ww ms) f ms) (fun ms' => dims a b (ms' t)).
Proof.
  intros H. eapply pc_seq; [apply mresize_dims|]. intros ms1 D. eapply pc_mono.
  - apply (for2_pc _ _ _ (keeps_size t ms1)); [|apply keeps_size_refl]. intros i j ms2 H2. now apply H.
  - intros ms2 K. unfold keeps_size, same_dims, dims in *. intuition congruence.
Qed.
Lemma mscale_dims ms this s t : pc (mscale ms this s t) (fun ms' => dims (m_w (ms this)) (m_h (ms this)) (ms' t)).
Proof. unfold mscale. apply (fill_dims ms t _ _ _ (fun ms => m_h (ms this)) (fun ms => m_w (ms this))). intros; repeat first [now apply rset_size|apply pc_any; intros ?]. Qed.
Lemma mnegate_dims ms this t : pc (mnegate ms this t) (fun ms' => dims (m_w (ms this)) (m_h (ms this)) (ms' t)).
Proof. unfold mnegate. apply (fill_dims ms t _ _ _ (fun ms => m_h (ms this)) (fun ms => m_w (ms this))). intros; repeat first [now apply rset_size|apply pc_any; intros ?]. Qed.
Lemma mleft_scale_dims ms this b t : pc (mleft_scale ms this b t) (fun ms' => dims (m_w (ms this)) (m_h (ms this)) (ms' t)).
Proof. unfold mleft_scale. do 2 (apply pc_any; intros _). apply (fill_dims ms t _ _ _ (fun ms => m_h (ms this)) (fun ms => m_w (ms this))). intros; repeat first [now apply rset_size|apply pc_any; intros ?]. Qed.
Lemma msubtract_dims ms this b t : pc (msubtract ms this b t) (fun ms' => dims (m_w (ms this)) (m_h (ms this)) (ms' t)).
Proof. unfold msubtract. do 2 (apply pc_any; intros _). apply (fill_dims ms t _ _ _ (fun ms => m_h (ms this)) (fun ms => m_w (ms this))). intros; repeat first [now apply rset_size|apply pc_any; intros ?]. Qed.
Lemma madd2_dims ms this b t : pc (madd2 ms this b t) (fun ms' => dims (m_w (ms this)) (m_h (ms this)) (ms' t)).
Proof. unfold madd2. do 2 (apply pc_any; intros _). apply (fill_dims ms t _ _ _ (fun ms => m_h (ms this)) (fun ms => m_w (ms this))). intros; repeat first [now apply rset_size|apply pc_any; intros ?]. Qed.
Lemma sp_multiply_dims (s : sparse tg) ms b t : pc (sp_multiply 3 2 s ms b t) (fun ms' => dims (m_w (ms b)) (s_h s) (ms' t)).
Proof.
  unfold sp_multiply. cbv zeta. apply pc_any; intros _. eapply pc_seq; [apply minit0_dims|]. intros ms1 D. eapply pc_mono.
  - apply (for2_pc _ _ _ (keeps_size t ms1)); [|apply keeps_size_refl]. intros i j ms2 H2. apply pc_any; intros v. now apply mset_size.
  - intros ms2 K. unfold keeps_size, same_dims, dims in *. intuition congruence.
Qed.
Lemma gather3_size u n (s : st) fx fy ft id ms0 ms : keeps_size u ms0 ms -> pc (gather3 n s fx fy ft id ms) (keeps_size u ms0).
Proof.
  intros H. unfold gather3. apply for_pc; [|exact H]. intros i t K. apply pc_any; intros ?.
  eapply pc_seq; [apply mset_size, K|]. intros t1 K1. apply pc_any; intros ?.
  eapply pc_seq; [apply mset_size, K1|]. intros t2 K2. apply pc_any; intros ?. now apply mset_size.
Qed.
Lemma minit_val_dims ms t (a b : nat) v : pc (minit_val ms t a b v) (fun ms' => dims a b (ms' t)).
Proof.
  unfold minit_val, mat_init_val. eapply (pc_seq _ _ (dims a b)); [|intros m D; cbn [pc]; now rewrite upd_same].
  eapply pc_seq; [apply mat_resize_dims|]. intros m1 D. apply for2_pc; [|exact D]. intros i j m2 [A B].
  eapply pc_mono; [apply raw_set_dims|]. intros m3 [C E]. split; congruence.
Qed.
Lemma size_dims u a b ms ms' : keeps_size u ms ms' -> dims a b (ms u) -> dims a b (ms' u).
Proof. unfold keeps_size, same_dims, dims. intuition congruence. Qed.

(** ** the Jacobian *)
Definition Jok (n m : nat) (s : sparse tg) : Prop := exists blk v, is_sp 3 2 s n m blk v /\ blocks_inside 3 2 n m blk.
Lemma Jok_init n m (s : sparse tg) : swf 3 2 s -> pc (sp_init 3 2 s n m) (Jok n m).
Proof. intros H. apply wp_pc. eapply wp_mono; [apply (sp_init_spec 3 2), H|]. intros s' [v Hs]. exists (fun _ _ => 255%Z), v. split; [exact Hs|]. intros r e _ _. now left. Qed.
Lemma Jok_set n m (s : sparse tg) r e k x : r < m -> e < 2 -> k < 3 -> Jok n m s -> pc (sp_set 3 2 s r e k x) (Jok n m).
Proof.
  intros Hr He Hk (blk & v & Hs & Hi). apply wp_pc. eapply wp_mono; [eapply (sp_set_spec 3 2); eassumption|].
  intros s' H'. eexists _, _. split; [exact H'|exact Hi].
Qed.
Lemma Jok_blocks w y c R (s : sparse tg) : listed w y -> attached w y -> shaped w y -> In c (y_cons y) -> R < full_count w y ->
  Jok (3 * body_count y) (full_count w y) s -> pc (set_blocks w (w_con w c) R s) (Jok (3 * body_count y) (full_count w y)).
Proof.
  intros HL HA HS Hc HR H. unfold set_blocks. destruct (HS c Hc) as [_ H2].
  apply wp_pc. apply (for_inv _ (fun _ s => Jok (3 * body_count y) (full_count w y) s)); [exact H| |auto].
  intros e t He (blk & v & Ht & Hi). destruct (attached_bi w y c e HL HA Hc He) as (b & _ & _ & Lb & ->). cbn [bind].
  destruct (Z.eqb_spec (Z.of_nat (bi w c e)) (-1)); [lia|].
  pose proof (uint8_le (Z.of_nat (bi w c e)) ltac:(lia)) as U.
  eapply wp_mono; [apply (sp_set_block_spec 3 2 t _ _ _ v R e _ Ht HR); lia|].
  intros t' Ht'. eexists _, _. split; [exact Ht'|]. intros r e' Hr He'. unfold bset.
  destruct (Nat.eqb_spec r R), (Nat.eqb_spec e' e); cbn [andb]; try (now apply Hi). right. lia.
Qed.

(** ** rows *)
Lemma rows_loop w y (s : st) (rowf : constraint tg -> output tg -> nat -> nat -> heap tg -> res (nat * heap tg)) (Inv : heap tg -> Prop) hp :
  Inv hp ->
  (forall c R k o hp, In c (y_cons y) -> R < full_count w y -> Inv hp ->
     pc (rowf (w_con w c) o k R hp) (fun x => fst x = S R /\ Inv (snd x))) ->
  pc (for_ (con_count y) (fun j '(j_f, hp, o) =>
    let* c := nth_con w y j in
    let* o := calculate (w_body w) c o s in
    let* (j_f, hp) := for_ (c_count c) (fun k '(j_f, hp) => rowf c o k j_f hp) (j_f, hp) in
    Ok (j_f, hp, o)) (0, hp, out_new)) (fun x => Inv (snd (fst x))).
Proof.
  intros H0 Hf. unfold for_ at 1.
  eapply pc_mono; [apply (for_from_pci _ (fun i x => fst (fst x) = offset w y i /\ Inv (snd (fst x)))); [|split; [reflexivity|exact H0]]|].
  - intros i [[R hp1] o] Hi [Er HI]. cbn [fst snd] in *. subst R. unfold nth_con.
    destruct (nth_error_ex (y_cons y) i ltac:(unfold con_count in Hi; lia)) as [c Ec].
    rewrite Ec. cbn [lift_opt bind]. apply pc_any; intros o'.
    eapply (pc_seq _ _ (fun x => fst x = offset w y (S i) /\ Inv (snd x))); [|intros [R hp2] X; exact X].
    rewrite (offset_S w y i c Ec). unfold for_.
    eapply pc_mono; [apply (for_from_pci _ (fun j x => fst x = offset w y i + j /\ Inv (snd x))); [|cbn [fst snd]; split; [lia|exact HI]]|].
    + intros j [R hp2] Hj [Er HI2]. cbn [fst snd] in *. subst R.
      eapply pc_mono; [apply (Hf c _ _ _ hp2 (nth_error_In _ _ Ec)); [apply (row_lt w y i c j Ec); lia|exact HI2]|].
      intros x [A B]. split; [lia|exact B].
    + intros x [A B]. split; [rewrite A; lia|exact B].
  - intros x [_ X]. exact X.
Qed.

(** ** the optimized class *)
Lemma opt_gather_sys w y dt hp (s : st) : hinv priv hp -> listed w y -> attached w y -> shaped w y ->
  pc (opt_gather w y dt hp s) (fun hp' => Jok (3 * body_count y) (full_count w y) (hs hp' sJ) /\ dims 2 (full_count w y) (hm hp' ilimits)).
Proof.
  intros [Hm Hs] HL HA HS. unfold opt_gather. cbv zeta.
  eapply pc_seq; [apply Jok_init, Hs|]. intros J HJ. cbn [hupd_s hm hs]. do 2 (apply pc_any; intros ?).
  eapply pc_seq; [apply minit0_dims|]. intros ms D.
  set (Inv := fun hp' => Jok (3 * body_count y) (full_count w y) (hs hp' sJ) /\ dims 2 (full_count w y) (hm hp' ilimits)).
  eapply (pc_seq _ _ (fun x => Inv (snd (fst x)))); [|intros [[R hp1] o] X; exact X]. unfold opt_con_rows.
  apply (rows_loop w y s (fun c o k j_f hp =>
      let* J := set_blocks w c j_f (hs hp sJ) in
      let* J := for_ (c_bodycount c * 3) (fun i J =>
        let* index := con_body_index (w_body w) (c_bodies c) (i / 3)%nat in
        if Z.eqb index (-1) then Ok J
        else
          let* v := out2 (o_J o) 6 k i in
          sp_set 3 2 J j_f (i / 3)%nat (Nat.modulo i 3) v) J in
      let* v := out1 (o_vbias o) k in
      let* ms := mset (hm hp) ivbias 0 j_f v in
      let* v := out1 (o_C o) k in
      let* ms := mset ms iC 0 j_f v in
      let* v := out2 (o_limits o) 2 k 0 in
      let* ms := mset ms ilimits 0 j_f (cmul v dt) in
      let* v := out2 (o_limits o) 2 k 1 in
      let* ms := mset ms ilimits 1 j_f (cmul v dt) in
      Ok (S j_f, {| hm := ms; hs := upd (hs hp) sJ J |})) Inv).
  - split; cbn [with_hm hupd_s hm hs]; [rewrite upd_same; exact HJ|exact D].
  - clear J HJ a a0 ms D. intros c R k o hp1 Hc HR [HJ HD]. destruct (HS c Hc) as [_ H2].
    eapply pc_seq; [apply (Jok_blocks w y c R _ HL HA HS Hc HR HJ)|]. intros J1 HJ1.
    eapply (pc_seq _ _ (Jok (3 * body_count y) (full_count w y))).
    { eapply pc_mono; [apply (for_from_pci _ (fun _ => Jok (3 * body_count y) (full_count w y))); [|exact HJ1]|auto].
      intros i t Hi Ht. apply pc_any; intros ix. destruct (Z.eqb ix (-1)); [exact Ht|]. apply pc_any; intros v.
      apply Jok_set; [exact HR| |apply Nat.mod_upper_bound; lia|exact Ht]. apply Nat.div_lt_upper_bound; lia. }
    intros J2 HJ2. apply pc_any; intros ?. pose proof (keeps_size_refl ilimits (hm hp1)) as K.
    eapply pc_seq; [apply mset_size, K|]. clear K; intros ? K. apply pc_any; intros ?.
    eapply pc_seq; [apply mset_size, K|]. clear K; intros ? K. apply pc_any; intros ?.
    eapply pc_seq; [apply mset_size, K|]. clear K; intros ? K. apply pc_any; intros ?.
    eapply pc_seq; [apply mset_size, K|]. clear K; intros ? K.
    split; [reflexivity|]. split; cbn [snd hm hs]; [rewrite upd_same; exact HJ2|]. eapply size_dims; eassumption.
Qed.
Lemma off_dims l u a b ms ms' : off l ms ms' -> ~ In u l -> dims a b (ms u) -> dims a b (ms' u).
Proof. intros F N. apply size_dims. eapply off_size; eassumption. Qed.

(** each operation: the target gets a size, the others keep theirs *)
Lemma opt_right_sys w y dt hp (s : st) : pc (opt_right w y dt hp s) (fun hp' => dims 1 (s_h (hs hp sJ)) (hm hp' iright)).
Proof.
  unfold opt_right. cbv zeta. do 2 (apply pc_any; intros ?).
  eapply pc_seq; [apply minit_val_dims|]. intros m1 D1.
  eapply pc_seq; [apply (gather3_size iFext), keeps_size_refl|]. intros m2 K2. apply (size_dims _ _ _ _ _ K2) in D1. clear m1 K2.
  eapply pc_seq; [apply mscale_dims|]. intros m3 D3. rewrite (proj1 D1), (proj2 D1) in D3. clear D1.
  eapply pc_seq; [apply mleft_scale_dims|]. intros m4 D4. rewrite (proj1 D3), (proj2 D3) in D4. clear D3.
  eapply pc_seq; [apply madd2_dims|]. intros m5 D5. rewrite (proj1 D4), (proj2 D4) in D5. clear D4.
  eapply pc_seq; [apply (mscale_off [iberr] m5); [now left|apply off_refl]|]. intros m6 F6.
  apply (off_dims _ iqdotp _ _ _ _ F6) in D5; [|cbn; intuition discriminate].
  eapply pc_seq; [apply sp_multiply_dims|]. intros m7 D7. rewrite (proj1 D5) in D7. clear D5 F6.
  eapply pc_seq; [apply madd2_dims|]. intros m8 D8. rewrite (proj1 D7), (proj2 D7) in D8. clear D7.
  eapply pc_seq; [apply madd2_dims|]. intros m9 D9. rewrite (proj1 D8), (proj2 D8) in D9. clear D8.
  eapply pc_seq; [apply mnegate_dims|]. intros m10 D10. rewrite (proj1 D9), (proj2 D9) in D10. exact D10.
Qed.

(** ** the generic class *)
Lemma gen_gather_sys w y hp (s : st) : hinv priv hp -> listed w y -> attached w y -> shaped w y ->
  pc (gen_gather w y hp s) (fun hp' => Jok (3 * body_count y) (full_count w y) (hs hp' sJ) /\
    Jok (3 * body_count y) (full_count w y) (hs hp' sJdot) /\ dims 1 (body_count y * 3) (hm hp' iqdot)).
Proof.
  intros [Hm Hs] HL HA HS. unfold gen_gather. cbv zeta.
  eapply pc_seq; [apply mresize_dims|]. intros m1 D1.
  eapply pc_seq; [apply (gather3_size iqdot), keeps_size_refl|]. intros m2 K2. apply (size_dims _ _ _ _ _ K2) in D1. clear m1 K2.
  eapply pc_seq; [apply Jok_init, Hs|]. intros J HJ. eapply pc_seq; [apply Jok_init, Hs|]. intros Jd HJd.
  eapply pc_seq; [apply (minit0_off [iks; ikd; iC] m2); [cbn; auto|apply off_refl]|]. intros m3 F3.
  eapply pc_seq; [apply (minit0_off [iks; ikd; iC] m2); [cbn; auto|exact F3]|]. intros m4 F4.
  eapply pc_seq; [apply (minit0_off [iks; ikd; iC] m2); [cbn; auto|exact F4]|]. intros m5 F5.
  apply (off_dims _ iqdot _ _ _ _ F5) in D1; [|cbn; intuition discriminate]. clear m2 m3 m4 F3 F4 F5.
  set (Inv := fun hp' => Jok (3 * body_count y) (full_count w y) (hs hp' sJ) /\
    Jok (3 * body_count y) (full_count w y) (hs hp' sJdot) /\ dims 1 (body_count y * 3) (hm hp' iqdot)).
  eapply (pc_seq _ _ (fun x => Inv (snd (fst x)))); [|intros [[R hp1] o] X; exact X]. unfold gen_con_rows.
  apply (rows_loop w y s (fun c o k j_f hp =>
    let* J := set_blocks w c j_f (hs hp sJ) in
    let* Jd := set_blocks w c j_f (hs hp sJdot) in
    let* (J, Jd, ms) := for_ (c_bodycount c * 3) (fun i '(J, Jd, ms) =>
      let* index := con_body_index (w_body w) (c_bodies c) (i / 3)%nat in
      if Z.eqb index (-1) then Ok (J, Jd, ms)
      else
        let* v := out2 (o_J o) 6 k i in
        let* J := sp_set 3 2 J j_f (i / 3)%nat (Nat.modulo i 3) v in
        let* v := out2 (o_Jdot o) 6 k i in
        let* Jd := sp_set 3 2 Jd j_f (i / 3)%nat (Nat.modulo i 3) v in
        let* v := out1 (o_ks o) k in
        let* ms := mset ms iks 0 j_f v in
        let* v := out1 (o_kd o) k in
        let* ms := mset ms ikd 0 j_f v in
        let* v := out1 (o_C o) k in
        let* ms := mset ms iC 0 j_f v in
        Ok (J, Jd, ms)) (J, Jd, hm hp) in
    Ok (S j_f, {| hm := ms; hs := upd (upd (hs hp) sJ J) sJdot Jd |})) Inv).
  - split; [|split]; cbn [hm hs]; [|rewrite upd_same; exact HJd|exact D1]. rewrite upd_other by discriminate. rewrite upd_same. exact HJ.
  - clear J HJ Jd HJd m5 D1. intros c R k o hp1 Hc HR (HJ & HJd & HD). destruct (HS c Hc) as [_ H2].
    eapply pc_seq; [apply (Jok_blocks w y c R _ HL HA HS Hc HR HJ)|]. intros J1 HJ1.
    eapply pc_seq; [apply (Jok_blocks w y c R _ HL HA HS Hc HR HJd)|]. intros Jd1 HJd1.
    set (P := fun x : sparse tg * sparse tg * mats tg => Jok (3 * body_count y) (full_count w y) (fst (fst x)) /\
      Jok (3 * body_count y) (full_count w y) (snd (fst x)) /\ keeps_size iqdot (hm hp1) (snd x)).
    eapply (pc_seq _ _ P).
    { eapply pc_mono; [apply (for_from_pci _ (fun _ => P)); [|split; [exact HJ1|split; [exact HJd1|apply keeps_size_refl]]]|auto].
      intros i [[J Jd] t] Hi (A & B & K). cbn [fst snd] in *. apply pc_any; intros ix. destruct (Z.eqb ix (-1)); [split; [exact A|split; [exact B|exact K]]|]. apply pc_any; intros v.
      assert (I3 : i / 3 < 2) by (apply Nat.div_lt_upper_bound; lia). assert (M3 : i mod 3 < 3) by (apply Nat.mod_upper_bound; lia).
      eapply pc_seq; [apply Jok_set; [exact HR|exact I3|exact M3|exact A]|]. intros J2 A2. apply pc_any; intros v2.
      eapply pc_seq; [apply Jok_set; [exact HR|exact I3|exact M3|exact B]|]. intros Jd2 B2. apply pc_any; intros ?.
      eapply pc_seq; [apply mset_size, K|]. clear K; intros ? K. apply pc_any; intros ?.
      eapply pc_seq; [apply mset_size, K|]. clear K; intros ? K. apply pc_any; intros ?.
      eapply pc_seq; [apply mset_size, K|]. clear K; intros ? K. split; [exact A2|split; [exact B2|exact K]]. }
    intros [[J2 Jd2] m2] (A & B & K). cbn [fst snd] in *. split; [reflexivity|]. split; [|split]; cbn [snd hm hs].
    + rewrite upd_other by discriminate. rewrite upd_same. exact A.
    + rewrite upd_same. exact B.
    + eapply size_dims; eassumption.
Qed.
Lemma gen_right_sys w y hp (s : st) n : dims 1 n (hm hp iqdot) -> pc (gen_right w y hp s) (fun hp' => dims 1 (s_h (hs hp sJdot)) (hm hp' iright)).
Proof.
  intros D. unfold gen_right. cbv zeta. set (l := [ireg0; ikd; iks; iFext; ireg2]).
  eapply pc_seq; [apply (sp_multiply_off l (hm hp)); [cbn; auto|apply off_refl]|]. intros m1 F1.
  eapply (pc_seq _ _ (off l (hm hp))).
  { apply for_pc; [|exact F1]. intros i t F. do 2 (apply pc_any; intros ?). eapply pc_seq; [apply (mset_off l (hm hp)); [cbn; auto|exact F]|].
    intros t1 Ft. do 2 (apply pc_any; intros ?). apply mset_off; [cbn; auto|exact Ft]. }
  clear m1 F1. intros m2 F2.
  eapply pc_seq; [apply (minit_val_off l (hm hp)); [cbn; auto|exact F2]|]. clear m2 F2. intros m3 F3.
  eapply pc_seq; [apply (gather3_off l (hm hp)); [cbn; auto|exact F3]|]. clear m3 F3. intros m4 F4.
  eapply pc_seq; [apply (mleft_scale_off l (hm hp)); [cbn; auto 10|exact F4]|]. clear m4 F4. intros m5 F5.
  eapply pc_seq; [apply (sp_multiply_off l (hm hp)); [cbn; auto 10|exact F5]|]. clear m5 F5. intros m6 F6.
  apply (off_dims _ iqdot _ _ _ _ F6) in D; [|cbn; intuition discriminate].
  eapply pc_seq; [apply sp_multiply_dims|]. intros m7 D7. rewrite (proj1 D) in D7. clear D F6.
  eapply pc_seq; [apply mnegate_dims|]. intros m8 D8. rewrite (proj1 D7), (proj2 D7) in D8. clear D7.
  eapply pc_seq; [apply msubtract_dims|]. intros m9 D9. rewrite (proj1 D8), (proj2 D8) in D9. clear D8.
  eapply pc_seq; [apply msubtract_dims|]. intros m10 D10. rewrite (proj1 D9), (proj2 D9) in D10. clear D9.
  eapply pc_seq; [apply msubtract_dims|]. intros m11 D11. rewrite (proj1 D10), (proj2 D10) in D11. exact D11.
Qed.

(** ** what the solver gets *)
Lemma dims_shows hp id a b : hinv priv hp -> dims a b (hm hp id) -> exists f, shows (hm hp) id a b f.
Proof.
  intros H [A B]. destruct (wf_contents _ _ (proj1 H id)) as [f Hf]. rewrite A, B in Hf. apply is_mat_weaken in Hf. exists f.
  split; [exact A|]. split; [exact B|]. intros r c Hr Hc. apply (mget_spec _ _ _ _ _ _ _ _ Hf); lia.
Qed.
Lemma Jok_system hp n m : hinv priv hp -> Jok n m (hs hp sJ) -> dims 1 n (hm hp iMinv) -> dims 1 m (hm hp iright) ->
  exists blk v wt b, system hp sJ iMinv iright n m blk v wt b.
Proof.
  intros H (blk & v & Hs & Hi) D1 D2. destruct (dims_shows hp _ _ _ H D1) as [f1 H1]. destruct (dims_shows hp _ _ _ H D2) as [f2 H2].
  exists blk, v, (fun r => f1 r 0), (fun r => f2 r 0). split; [now apply is_sp_shows|]. split; [exact Hi|].
  split; [destruct H1 as (A & B & C)|destruct H2 as (A & B & C)]; (split; [exact A|]; split; [exact B|]); intros r c Hr Hc;
    replace c with 0 by lia; apply C; lia.
Qed.
Lemma dims_limits hp m : hinv priv hp -> dims 2 m (hm hp ilimits) -> exists lo hi, limits_are (hm hp) ilimits m lo hi.
Proof.
  intros H D. destruct (dims_shows hp _ _ _ H D) as [f (A & B & C)]. exists (fun r => f r 0), (fun r => f r 1).
  split; [exact A|]. split; [exact B|]. intros r c Hr Hc. rewrite (C r c Hr Hc). destruct c as [|[|]]; try lia; reflexivity.
Qed.
End S.
