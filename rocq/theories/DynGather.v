(** * What processConstraints gathers from the constraints. *)

From Coq Require Import Reals.
From Verif Require Import Base Targets Matrix Sparse Sle State Ode Forces Constraints System Logic
  MatrixFacts MatrixOps SpecMatrix MatrixHist SparseFacts SpecSparse SparseHist SpecSle SleHist SleGe
  SpecState StateFacts SpecOde OdeFacts SpecSys RegFacts SysFrame SysInv SpecDyn DynState DynReact DynRound DynStep.
Local Open Scope nat_scope.

Section S.
Context {tg : target}.
Notation st := (sstate tg).
Implicit Types (ms : mats tg) (ss : sps tg) (hp : heap tg) (w : world tg) (y : sys tg) (L : law tg).

(** ** the system by rows *)
Definition row_of w y (r : nat) : nat * nat := match nth_error (row_list w y) r with Some x => x | None => (0, 0) end.
Definition rc w y r := fst (row_of w y r).
Definition rj w y r := snd (row_of w y r).
Lemma row_list_length w y : length (row_list w y) = full_count w y.
Proof. rewrite full_count_rows. exact (proj2 (rows_app w (y_cons y) [])). Qed.
Lemma row_of_at w y i c j : nth_error (y_cons y) i = Some c -> j < c_count (w_con w c) -> rc w y (offset w y i + j) = c /\ rj w y (offset w y i + j) = j.
Proof. intros E H. unfold rc, rj, row_of. rewrite (row_list_at w y i c j E H). auto. Qed.
Lemma row_of_lt w y r : r < full_count w y -> exists i, nth_error (y_cons y) i = Some (rc w y r) /\ rj w y r < c_count (w_con w (rc w y r)) /\ r = offset w y i + rj w y r.
Proof.
  intros H. rewrite <- row_list_length in H. destruct (nth_error_ex _ _ H) as [[c j] E]. destruct (row_list_in _ _ _ _ _ E) as (i & A & B & C).
  exists i. unfold rc, rj, row_of. rewrite E. auto.
Qed.
(** the block an entry lies in: the index of its body, in 8 bits *)
Definition blkR w y (r e : nat) : Z :=
  if Nat.ltb e (c_bodycount (w_con w (rc w y r))) then to_uint8 (Z.of_nat (bi w (rc w y r) e)) else 255%Z.
(** J as gathered *)
Definition spJ w y (val : nat -> nat -> nat -> cell tg) (s : sparse tg) : Prop :=
  exists v, is_sp 3 2 s (3 * body_count y) (full_count w y) (blkR w y) v /\
    forall r e k, r < full_count w y -> e < c_bodycount (w_con w (rc w y r)) -> k < 3 -> v r e k = val (rc w y r) (rj w y r) (3 * e + k).

Lemma uint8_le z : (0 <= z)%Z -> (0 <= to_uint8 z <= z)%Z.
Proof. intros H. unfold to_uint8. split; [apply Z.mod_pos_bound; lia|]. apply Z.mod_le; lia. Qed.

Definition upto {A} (R : nat) (f g : nat -> A) (r : nat) : A := if Nat.ltb r R then f r else g r.
Lemma upto_S {A} R (f g : nat -> A) r : upto (S R) f g r = if Nat.eqb r R then f R else upto R f g r.
Proof. unfold upto. destruct (Nat.ltb_spec r (S R)), (Nat.eqb_spec r R), (Nat.ltb_spec r R); subst; try lia; reflexivity. Qed.

(** rows before R are filled *)
Definition partJ w y (val : nat -> nat -> nat -> cell tg) (R : nat) (s : sparse tg) : Prop :=
  exists v, is_sp 3 2 s (3 * body_count y) (full_count w y) (fun r e => upto R (fun r => blkR w y r e) (fun _ => 255%Z) r) v /\
    forall r e k, r < R -> e < c_bodycount (w_con w (rc w y r)) -> k < 3 -> v r e k = val (rc w y r) (rj w y r) (3 * e + k).
Lemma partJ_all w y val s : partJ w y val (full_count w y) s -> spJ w y val s.
Proof.
  intros (v & H & V). exists v. split; [|exact V]. eapply is_sp_ext; [exact H| |reflexivity].
  intros r e Hr _. cbv beta. unfold upto. destruct (Nat.ltb_spec r (full_count w y)); [reflexivity|lia].
Qed.

(** setting the blocks of one row *)
Lemma set_blocks_row w y val R (s : sparse tg) : listed w y -> attached w y -> shaped w y -> R < full_count w y -> partJ w y val R s ->
  wp (set_blocks w (w_con w (rc w y R)) R s) (fun s' => exists v,
    is_sp 3 2 s' (3 * body_count y) (full_count w y) (fun r e => upto (S R) (fun r => blkR w y r e) (fun _ => 255%Z) r) v /\
    forall r e k, r < R -> e < c_bodycount (w_con w (rc w y r)) -> k < 3 -> v r e k = val (rc w y r) (rj w y r) (3 * e + k)).
Proof.
  intros HL HA HS HR (v & H & V). unfold set_blocks. destruct (row_of_lt w y R HR) as (i & Ec & Hj & Er). set (c := rc w y R) in *.
  destruct (HS c (nth_error_In _ _ Ec)) as [_ H2].
  apply (for_inv _ (fun n s' => is_sp 3 2 s' (3 * body_count y) (full_count w y)
    (fun r e => if Nat.eqb r R then if Nat.ltb e n then blkR w y R e else 255%Z else upto R (fun r => blkR w y r e) (fun _ => 255%Z) r) v)).
  - eapply is_sp_ext; [exact H| |reflexivity]. intros r e Hr _. cbv beta. destruct (Nat.eqb_spec r R); [|reflexivity].
    subst r. unfold upto. destruct (Nat.ltb_spec R R); [lia|reflexivity].
  - intros e t He Ht. destruct (attached_bi w y c e HL HA (nth_error_In _ _ Ec) He) as (b & _ & _ & Lb & ->). cbn [bind].
    destruct (Z.eqb_spec (Z.of_nat (bi w c e)) (-1)); [lia|].
    eapply wp_mono; [apply (sp_set_block_spec 3 2 t _ _ _ v R e _ Ht HR); [lia|]|].
    + pose proof (uint8_le (Z.of_nat (bi w c e)) ltac:(lia)). lia.
    + intros t' Ht'. eapply is_sp_ext; [exact Ht'| |reflexivity]. intros r e' Hr He'. cbv beta. unfold bset.
      destruct (Nat.eqb_spec r R); cbn [andb]; [|reflexivity]. subst r.
      destruct (Nat.eqb_spec e' e), (Nat.ltb_spec e' (S e)), (Nat.ltb_spec e' e); subst; try lia; try reflexivity.
      unfold blkR. fold c. destruct (Nat.ltb_spec e (c_bodycount (w_con w c))); [reflexivity|lia].
  - intros s' H'. exists v. split; [|exact V]. eapply is_sp_ext; [exact H'| |reflexivity]. intros r e Hr He. cbv beta. rewrite upto_S.
    destruct (Nat.eqb_spec r R); [|reflexivity]. subst r. unfold blkR. fold c.
    destruct (Nat.ltb_spec e (c_bodycount (w_con w c))); [reflexivity|lia].
Qed.
(** the partly filled row: entries before i *)
Definition rowJ w y val R i (s : sparse tg) : Prop := exists v,
    is_sp 3 2 s (3 * body_count y) (full_count w y) (fun r e => upto (S R) (fun r => blkR w y r e) (fun _ => 255%Z) r) v /\
    (forall r e k, r < R -> e < c_bodycount (w_con w (rc w y r)) -> k < 3 -> v r e k = val (rc w y r) (rj w y r) (3 * e + k)) /\
    forall e k, 3 * e + k < i -> k < 3 -> v R e k = val (rc w y R) (rj w y R) (3 * e + k).
Lemma rowJ_0 w y val R s v :
    is_sp 3 2 s (3 * body_count y) (full_count w y) (fun r e => upto (S R) (fun r => blkR w y r e) (fun _ => 255%Z) r) v ->
    (forall r e k, r < R -> e < c_bodycount (w_con w (rc w y r)) -> k < 3 -> v r e k = val (rc w y r) (rj w y r) (3 * e + k)) -> rowJ w y val R 0 s.
Proof. intros A B. exists v. split; [exact A|]. split; [exact B|]. intros; lia. Qed.
Lemma rowJ_set w y val R i (s : sparse tg) : shaped w y -> R < full_count w y -> i < c_bodycount (w_con w (rc w y R)) * 3 -> rowJ w y val R i s ->
  wp (sp_set 3 2 s R (i / 3) (i mod 3) (val (rc w y R) (rj w y R) i)) (rowJ w y val R (S i)).
Proof.
  intros HS HR Hi (v & H & V & X). destruct (row_of_lt w y R HR) as (i0 & Ec & Hj & Er). destruct (HS _ (nth_error_In _ _ Ec)) as [_ H2].
  assert (D3 : i = 3 * (i / 3) + i mod 3) by (apply Nat.div_mod; lia). assert (M3 : i mod 3 < 3) by (apply Nat.mod_upper_bound; lia).
  eapply wp_mono; [apply (sp_set_spec 3 2 s _ _ _ _ R (i / 3) (i mod 3) _ H HR); lia|]. intros s' H'.
  eexists. split; [exact H'|]. unfold vset. split.
  - intros r e k Hr He Hk. destruct (Nat.eqb_spec r R); [lia|]. cbn [andb]. now apply V.
  - intros e k Hek Hk. rewrite Nat.eqb_refl. cbn [andb]. destruct (Nat.eqb_spec e (i / 3)), (Nat.eqb_spec k (i mod 3)); cbn [andb]; subst.
    + now rewrite <- D3.
    + apply X; lia.
    + apply X; [|exact M3]. assert (3 * e + i mod 3 <> i) by (intros Q; apply n; lia). lia.
    + apply X; [|exact Hk]. assert (3 * e + k <> i) by lia. lia.
Qed.
Lemma rowJ_done w y val R (s : sparse tg) : rowJ w y val R (c_bodycount (w_con w (rc w y R)) * 3) s -> partJ w y val (S R) s.
Proof.
  intros (v & H & V & X). exists v. split; [exact H|]. intros r e k Hr He Hk. destruct (Nat.eq_dec r R) as [->|]; [apply X; lia|]. apply V; auto; lia.
Qed.

(** a column of one number per row *)
Definition colM w y (val : nat -> nat -> cell tg) (m : matrix tg) : Prop :=
  is_mat false m 1 (full_count w y) (fun r _ => val (rc w y r) (rj w y r)).
Definition partM w y (cols : nat) (val : nat -> nat -> nat -> cell tg) (R : nat) (m : matrix tg) : Prop :=
  is_mat false m cols (full_count w y) (fun r q => upto R (fun r => val q (rc w y r) (rj w y r)) (fun _ => cofZ 0) r).
Lemma partM_all w y cols val m : partM w y cols val (full_count w y) m ->
  is_mat false m cols (full_count w y) (fun r q => val q (rc w y r) (rj w y r)).
Proof.
  intros H. eapply is_mat_ext; [exact H|]. intros r c Hr _. cbv beta. unfold upto. destruct (Nat.ltb_spec r (full_count w y)); [reflexivity|lia].
Qed.
Lemma partM_0 w y cols val m : is_mat false m cols (full_count w y) (fun _ _ => cofZ 0) -> partM w y cols val 0 m.
Proof. intros H. eapply is_mat_ext; [exact H|]. intros r c _ _. reflexivity. Qed.
Lemma partM_set w y val R ms t : R < full_count w y -> partM w y 1 (fun _ => val) R (ms t) ->
  wp (mset ms t 0 R (val (rc w y R) (rj w y R))) (fun ms' => only t ms ms' /\ partM w y 1 (fun _ => val) (S R) (ms' t)).
Proof.
  intros HR H. eapply wp_mono; [apply (mset_spec _ _ _ _ _ _ 0 R _ H); lia|]. intros ms' [O M]. split; [exact O|].
  eapply is_mat_ext; [exact M|]. intros r c Hr Hc. cbv beta. unfold fset. rewrite upto_S.
  destruct (Nat.eqb_spec r R), (Nat.eqb_spec c 0); cbn [andb]; subst; try lia; reflexivity.
Qed.
(** again: the row is already set *)
Lemma partM_again w y val R ms t : R < full_count w y -> partM w y 1 (fun _ => val) (S R) (ms t) ->
  wp (mset ms t 0 R (val (rc w y R) (rj w y R))) (fun ms' => only t ms ms' /\ partM w y 1 (fun _ => val) (S R) (ms' t)).
Proof.
  intros HR H. eapply wp_mono; [apply (mset_spec _ _ _ _ _ _ 0 R _ H); lia|]. intros ms' [O M]. split; [exact O|].
  eapply is_mat_ext; [exact M|]. intros r c Hr Hc. cbv beta. unfold fset. rewrite upto_S.
  destruct (Nat.eqb_spec r R), (Nat.eqb_spec c 0); cbn [andb]; subst; try lia; reflexivity.
Qed.

(** what one constraint answers *)
Definition says w L c (o : output tg) : Prop := forall j, j < c_count (w_con w c) ->
        o_C o j = l_C L c j /\ o_vbias o j = l_vb L c j /\
        o_limits o j 0 = l_lo L c j /\ o_limits o j 1 = l_hi L c j /\
        o_ks o j = l_ks L c j /\ o_kd o j = l_kd L c j /\
        forall i, i < c_bodycount (w_con w c) * 3 -> o_J o j i = l_J L c j i /\ o_Jdot o j i = l_Jd L c j i.

(** the loop over constraints and rows *)
Lemma gather_loop w y K h L (s : st) (rowf : constraint tg -> output tg -> nat -> nat -> heap tg -> res (nat * heap tg)) (Inv : nat -> heap tg -> Prop) hp :
  presents w y K h s -> answers w y K h L -> Inv 0 hp ->
  (forall R o hp, R < full_count w y -> says w L (rc w y R) o -> Inv R hp ->
     wp (rowf (w_con w (rc w y R)) o (rj w y R) R hp) (fun x => fst x = S R /\ Inv (S R) (snd x))) ->
  wp (for_ (con_count y) (fun j '(j_f, hp, o) =>
    let* c := nth_con w y j in
    let* o := calculate (w_body w) c o s in
    let* (j_f, hp) := for_ (c_count c) (fun k '(j_f, hp) => rowf c o k j_f hp) (j_f, hp) in
    Ok (j_f, hp, o)) (0, hp, out_new)) (fun x => Inv (full_count w y) (snd (fst x))).
Proof.
  intros HP HA H0 Hf. apply (for_inv _ (fun i x => fst (fst x) = offset w y i /\ Inv (offset w y i) (snd (fst x)))).
  - split; [reflexivity|exact H0].
  - intros i [[R hp1] o] Hi [Er HI]. cbn [fst snd] in *. subst R. destruct (nth_error_ex (y_cons y) i Hi) as [c Ec].
    unfold nth_con. rewrite Ec. cbn [lift_opt bind].
    destruct (HA s HP c o (nth_error_In _ _ Ec)) as (o' & Eo & So). rewrite Eo. cbn [bind].
    eapply (wp_seq _ _ (fun x => fst x = offset w y (S i) /\ Inv (offset w y (S i)) (snd x))); [|intros [R hp2] X; exact X].
    rewrite (offset_S w y i c Ec).
    apply (for_inv _ (fun j x => fst x = offset w y i + j /\ Inv (offset w y i + j) (snd x))).
    + rewrite Nat.add_0_r. auto.
    + intros j [R hp2] Hj [Er HI2]. cbn [fst snd] in *. subst R. destruct (row_of_at w y i c j Ec Hj) as [E1 E2].
      pose proof (Hf (offset w y i + j) o' hp2 (row_lt w y i c j Ec Hj)) as G. rewrite E1, E2 in G.
      eapply wp_mono; [apply (G So HI2)|]. intros x [A B]. rewrite A, Nat.add_succ_r. auto.
    + intros x X. exact X.
  - intros [[R hp1] o] [_ HI]. cbn [fst snd] in *. now rewrite offset_full in HI.
Qed.
Lemma out1_ok (f : nat -> cell tg) k : k < 3 -> out1 f k = Ok (f k).
Proof. intros H. unfold out1. destruct (Nat.ltb_spec k 3); [reflexivity|lia]. Qed.
Lemma out2_ok (f : nat -> nat -> cell tg) n k i : k < 3 -> i < n -> out2 f n k i = Ok (f k i).
Proof. intros H Hi. unfold out2. destruct (Nat.ltb_spec k 3), (Nat.ltb_spec i n); try lia; reflexivity. Qed.

(** ** the optimized class *)
Definition opt_part w y dt L R hp : Prop :=
  partJ w y (l_J L) R (hs hp sJ) /\
  partM w y 1 (fun _ => l_vb L) R (hm hp ivbias) /\ partM w y 1 (fun _ => l_C L) R (hm hp iC) /\
  partM w y 2 (fun q c j => cmul (match q with 0 => l_lo L c j | _ => l_hi L c j end) dt) R (hm hp ilimits).
Definition opt_gathered w y dt L hp : Prop :=
  spJ w y (l_J L) (hs hp sJ) /\ colM w y (l_vb L) (hm hp ivbias) /\ colM w y (l_C L) (hm hp iC) /\
  is_mat false (hm hp ilimits) 2 (full_count w y) (fun r q => cmul (match q with 0 => l_lo L (rc w y r) (rj w y r) | _ => l_hi L (rc w y r) (rj w y r) end) dt).

Lemma opt_gather_spec priv w y K h dt L hp (s : st) : hinv priv hp -> listed w y -> attached w y -> shaped w y ->
  presents w y K h s -> answers w y K h L -> wp (opt_gather w y dt hp s) (opt_gathered w y dt L).
Proof.
  intros [Hm Hs] HL HA HS HP HW. unfold opt_gather. cbv zeta.
  assert (W : forall i, wf false (hm hp i)) by (intros i; eapply wf_weaken; apply Hm).
  eapply wp_seq; [apply (sp_init_spec 3 2); apply Hs|]. intros J [v HJ]. cbn [hupd_s hm hs].
  eapply wp_seq; [apply (minit0_spec false); apply W|]. intros ms1 [O1 M1].
  eapply wp_seq; [apply (minit0_spec false); rewrite O1 by discriminate; apply W|]. intros ms2 [O2 M2].
  eapply wp_seq; [apply (minit0_spec false); rewrite O2, O1 by discriminate; apply W|]. intros ms3 [O3 M3].
  eapply wp_seq.
  { unfold opt_con_rows. apply (gather_loop w y K h L s (fun c o k j_f hp =>
      let* J := set_blocks w c j_f (hs hp sJ) in
      let* J := for_ (c_bodycount c * 3) (fun i J =>
        let* index := con_body_index (w_body w) (c_bodies c) (i / 3)%nat in
        if Z.eqb index (-1) then Ok J
        else
          let* v := out2 (o_J o) 6 k i in
          sp_set 3 2 J j_f (i / 3)%nat (Nat.modulo i 3) v) J in
      let* v := out1 (o_vbias o) k in
      let* ms := mset (hm hp) ivbias 0 j_f v in
      let* v := out1 (o_C o) k in
      let* ms := mset ms iC 0 j_f v in
      let* v := out2 (o_limits o) 2 k 0 in
      let* ms := mset ms ilimits 0 j_f (cmul v dt) in
      let* v := out2 (o_limits o) 2 k 1 in
      let* ms := mset ms ilimits 1 j_f (cmul v dt) in
      Ok (S j_f, {| hm := ms; hs := upd (hs hp) sJ J |})) (opt_part w y dt L)); [exact HP|exact HW| |].
    - cbn [with_hm hm hs]. split; [|split; [|split]]; cbn [with_hm hupd_s hm hs].
      + rewrite upd_same. exists v. split; [|intros; lia]. eapply is_sp_ext; [exact HJ|reflexivity|reflexivity].
      + apply partM_0. rewrite O3, O2 by discriminate. exact M1.
      + apply partM_0. rewrite O3 by discriminate. exact M2.
      + apply partM_0. exact M3.
    - intros R o hp1 HR SA (PJ & PV & PC & PL). destruct (row_of_lt w y R HR) as (i0 & Ec & Hj & Er). set (c := rc w y R) in *. set (j := rj w y R) in *.
      destruct (HS c (nth_error_In _ _ Ec)) as [H1 H2]. destruct (SA j Hj) as (SC & SV & SLo & SHi & _ & _ & SJ).
      eapply wp_seq; [apply (set_blocks_row w y _ R _ HL HA HS HR PJ)|]. intros J1 (v1 & A1 & B1). apply (rowJ_0 w y (l_J L)) in A1; [|exact B1]. clear v1 B1.
      eapply (wp_seq _ _ (partJ w y (l_J L) (S R))).
      { apply (for_inv _ (fun i J => rowJ w y (l_J L) R i J)); [exact A1| |intros J2 H'; now apply rowJ_done].
        intros i t Hi Ht. destruct (attached_bi w y c (i / 3) HL HA (nth_error_In _ _ Ec)) as (b & _ & _ & Lb & ->).
        { apply Nat.div_lt_upper_bound; lia. }
        cbn [bind]. destruct (Z.eqb_spec (Z.of_nat (bi w c (i / 3))) (-1)); [lia|].
        rewrite out2_ok by lia. cbn [bind]. rewrite (proj1 (SJ i Hi)). now apply rowJ_set. }
      intros J2 P2. rewrite out1_ok by lia. cbn [bind]. rewrite SV.
      eapply wp_seq; [apply (partM_set w y _ R _ _ HR PV)|]. intros m1 [Q1 N1]. rewrite out1_ok by lia. cbn [bind]. rewrite SC.
      assert (PC1 : partM w y 1 (fun _ => l_C L) R (m1 iC)) by (rewrite Q1 by discriminate; exact PC).
      eapply wp_seq; [apply (partM_set w y _ R _ _ HR PC1)|]. intros m2 [Q2 N2]. rewrite !out2_ok by lia. cbn [bind]. rewrite SLo, SHi.
      assert (PL1 : partM w y 2 (fun q c j => cmul (match q with 0 => l_lo L c j | _ => l_hi L c j end) dt) R (m2 ilimits)) by (rewrite Q2, Q1 by discriminate; exact PL).
      eapply wp_seq; [apply (mset_spec _ _ _ _ _ _ 0 R _ PL1); lia|]. intros m3 [Q3 N3].
      eapply wp_seq; [apply (mset_spec _ _ _ _ _ _ 1 R _ N3); lia|]. intros m4 [Q4 N4].
      cbn [wp fst snd hm hs]. split; [reflexivity|]. split; [|split; [|split]]; cbn [hm hs].
      + now rewrite upd_same.
      + rewrite Q4, Q3, Q2 by discriminate. exact N1.
      + rewrite Q4, Q3 by discriminate. exact N2.
      + eapply is_mat_ext; [exact N4|]. intros r q Hr Hq. cbv beta. unfold fset. rewrite upto_S.
        destruct (Nat.eqb_spec r R); cbn [andb]; [subst r|reflexivity]. destruct q as [|[|]]; try lia; reflexivity. }
  intros [[R hp1] o] (PJ & PV & PC & PL). cbn [fst snd wp] in *. split; [now apply partJ_all|]. split; [exact (partM_all _ _ _ _ _ PV)|].
  split; [exact (partM_all _ _ _ _ _ PC)|]. exact (partM_all _ _ _ _ _ PL).
Qed.
End S.
