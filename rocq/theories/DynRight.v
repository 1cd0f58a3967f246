(** * The linear systems processConstraints sets up. *)

From Coq Require Import Reals.
From Verif Require Import Base Targets Matrix Sparse Sle State Ode Forces Constraints System Logic
  MatrixFacts MatrixOps SpecMatrix MatrixHist SparseFacts SpecSparse SparseHist SpecSle SleHist SleGe
  SpecState StateFacts SpecOde OdeFacts SpecSys RegFacts SysFrame SysInv SpecDyn DynState DynReact DynRound DynStep DynGather.
Local Open Scope nat_scope.

Section S.
Context {tg : target}.
Notation st := (sstate tg).
Implicit Types (ms : mats tg) (ss : sps tg) (hp : heap tg) (w : world tg) (y : sys tg) (L : law tg).

Lemma blkR_inside w y : listed w y -> attached w y -> shaped w y -> blocks_inside 3 2 (3 * body_count y) (full_count w y) (blkR w y).
Proof.
  intros HL HA HS r e Hr He. unfold blkR. destruct (row_of_lt w y r Hr) as (i & Ec & _). destruct (Nat.ltb_spec e (c_bodycount (w_con w (rc w y r)))); [|now left].
  destruct (attached_bi w y _ e HL HA (nth_error_In _ _ Ec) H) as (b & _ & _ & Lb & _). right.
  pose proof (uint8_le (Z.of_nat (bi w (rc w y r) e)) ltac:(lia)). lia.
Qed.

(** velocities by body index *)
Definition vel_at y (K : kin tg) (i d : nat) : cell tg := match nth_error (y_bodies y) i with Some b => k_v K b d | None => cofZ 0 end.
Lemma presents_vel w y K h (s : st) i : presents w y K h s -> i < body_count y ->
  ld s Fvx (Z.of_nat i) = Ok (vel_at y K i 0) /\ ld s Fvy (Z.of_nat i) = Ok (vel_at y K i 1) /\ ld s Fvtheta (Z.of_nat i) = Ok (vel_at y K i 2).
Proof.
  intros (_ & _ & _ & _ & P) Hi. destruct (nth_error_ex (y_bodies y) i Hi) as [b Eb]. unfold vel_at. rewrite Eb. destruct (P i b Eb) as [_ Q].
  exact (conj (proj1 (proj2 (Q 0 ltac:(lia)))) (conj (proj1 (proj2 (Q 1 ltac:(lia)))) (proj1 (proj2 (Q 2 ltac:(lia)))))).
Qed.
(** the tables, by column 3 i + d *)
Definition V3 y K (c : nat) : cell tg := vel_at y K (c / 3) (c mod 3).
Definition F3 y f (c : nat) : cell tg := ext_at y f (c / 3) (c mod 3).
Definition W3 w y (c : nat) : cell tg := inv_mass w y (c / 3) (c mod 3).
(** q_dot_prime *)
Definition Q3 w y dt f K (c : nat) : cell tg := cadd (cmul (W3 w y c) (cmul dt (F3 y f c))) (V3 y K c).

Lemma opt_right_spec priv w y K h dt f val vb cf hp (s : st) v :
  hinv priv hp -> listed w y -> attached w y -> shaped w y -> presents w y K h s -> forced w y f s -> minv_ok w y (hm hp) ->
  is_sp 3 2 (hs hp sJ) (3 * body_count y) (full_count w y) (blkR w y) v ->
  (forall r e k, r < full_count w y -> e < c_bodycount (w_con w (rc w y r)) -> k < 3 -> v r e k = val (rc w y r) (rj w y r) (3 * e + k)) ->
  colM w y vb (hm hp ivbias) -> colM w y cf (hm hp iC) ->
  wp (opt_right w y dt hp s) (fun hp' => hs hp' = hs hp /\
    is_mat false (hm hp' iright) 1 (full_count w y) (fun r _ =>
      copp (cadd (cadd (srow 3 2 (blkR w y r) (v r) (Q3 w y dt f K)) (vb (rc w y r) (rj w y r))) (cmul (cdiv (y_bias y) dt) (cf (rc w y r) (rj w y r)))))).
Proof.
  intros [Hm Hs] HL HA HS HP HF HM HJ HV Hvb Hcf. unfold opt_right. cbv zeta.
  assert (W : forall i, wf false (hm hp i)) by (intros i; eapply wf_weaken; apply Hm).
  eapply wp_seq; [apply (mresize_spec false); apply W|]. intros ms1 [O1 [[g1 M1] _]]. rewrite Nat.mul_comm in M1.
  eapply wp_seq; [apply (gather3_spec _ _ _ _ _ _ _ _ _ (vel_at y K) M1); intros i Hi; eapply presents_vel; eauto|]. intros ms2 [O2 M2].
  assert (W2 : forall i, i <> iqdot -> wf false (ms2 i)) by (intros i Hi; rewrite O2, O1 by exact Hi; apply W).
  eapply wp_seq; [apply (minit_val_spec false); apply W2; discriminate|]. intros ms3 [O3 M3].
  eapply wp_seq; [apply (gather3_spec _ _ _ _ _ _ _ _ _ (ext_at y f) M3); intros i Hi; eapply forced_at; eauto|]. intros ms4 [O4 M4].
  assert (W4 : forall i, i <> iqdot -> i <> iFext -> ms4 i = hm hp i) by (intros i H1 H2; rewrite O4, O3, O2, O1 by assumption; reflexivity).
  eapply wp_seq; [apply (mscale_spec false _ _ _ _ _ _ _ M4); rewrite W4 by discriminate; apply W|]. intros ms5 [O5 M5].
  assert (MI : is_mat false (ms5 iMinv) 1 (3 * body_count y) (fun r _ => W3 w y r)) by (rewrite O5, W4 by discriminate; exact HM).
  eapply wp_seq; [apply (mleft_scale_spec false _ _ _ _ _ _ _ _ M5 MI); [rewrite O5, W4 by discriminate; apply W|discriminate]|]. intros ms6 [O6 M6].
  assert (MQ : is_mat false (ms6 iqdot) 1 (3 * body_count y) (fun r _ => V3 y K r)) by (rewrite O6, O5, O4, O3 by discriminate; exact M2).
  eapply wp_seq; [apply (madd2_spec false _ _ _ _ _ _ _ _ M6 MQ); rewrite O6, O5, W4 by discriminate; apply W|]. intros ms7 [O7 M7].
  assert (MC : colM w y cf (ms7 iC)) by (rewrite O7, O6, O5, W4 by discriminate; exact Hcf).
  eapply wp_seq; [apply (mscale_spec false _ _ _ _ _ _ _ MC); rewrite O7, O6, O5, W4 by discriminate; apply W|]. intros ms8 [O8 M8].
  assert (MP : is_mat false (ms8 iqdotp) 1 (3 * body_count y) (fun r _ => Q3 w y dt f K r)) by (rewrite O8 by discriminate; exact M7).
  assert (W8 : wf false (ms8 ireg0)) by (rewrite O8, O7, O6 by discriminate; eapply is_mat_wf; exact M5).
  eapply wp_seq; [apply (sp_multiply_spec 3 2 false _ _ _ _ _ _ _ _ _ _ HJ MP W8); [discriminate|]|].
  { intros r e Hr He. apply (inside_of 3 2 _ _ _ (blkR_inside w y HL HA HS)); assumption. }
  intros ms9 [O9 M9].
  assert (MV : colM w y vb (ms9 ivbias)) by (rewrite O9, O8, O7, O6, O5, W4 by discriminate; exact Hvb).
  assert (W9 : wf false (ms9 ireg1)) by (rewrite O9, O8, O7 by discriminate; eapply is_mat_wf; exact M6).
  eapply wp_seq; [apply (madd2_spec false _ _ _ _ _ _ _ _ M9 MV W9)|]. intros ms10 [O10 M10].
  assert (MB : is_mat false (ms10 iberr) 1 (full_count w y) (fun r _ => cmul (cdiv (y_bias y) dt) (cf (rc w y r) (rj w y r)))) by (rewrite O10, O9 by discriminate; exact M8).
  eapply wp_seq; [apply (madd2_spec false _ _ _ _ _ _ _ _ M10 MB); rewrite O10 by discriminate; eapply is_mat_wf; exact M9|]. intros ms11 [O11 M11].
  eapply wp_seq; [apply (mnegate_spec false _ _ _ _ _ _ M11); rewrite O11, O10, O9, O8, O7, O6, O5, W4 by discriminate; apply W|]. intros ms12 [O12 M12].
  cbn [wp with_hm hm hs]. split; [reflexivity|]. exact M12.
Qed.

(** ** the generic class *)
Definition gen_part w y L R hp : Prop :=
  partJ w y (l_J L) R (hs hp sJ) /\ partJ w y (l_Jd L) R (hs hp sJdot) /\
  partM w y 1 (fun _ => l_ks L) R (hm hp iks) /\ partM w y 1 (fun _ => l_kd L) R (hm hp ikd) /\ partM w y 1 (fun _ => l_C L) R (hm hp iC).
Definition gen_gathered w y L K hp : Prop :=
  spJ w y (l_J L) (hs hp sJ) /\ spJ w y (l_Jd L) (hs hp sJdot) /\
  colM w y (l_ks L) (hm hp iks) /\ colM w y (l_kd L) (hm hp ikd) /\ colM w y (l_C L) (hm hp iC) /\
  is_mat false (hm hp iqdot) 1 (3 * body_count y) (fun r _ => V3 y K r).

Lemma gen_gather_spec priv w y K h L hp (s : st) : hinv priv hp -> listed w y -> attached w y -> shaped w y ->
  (forall c, In c (y_cons y) -> 1 <= c_bodycount (w_con w c)) ->
  presents w y K h s -> answers w y K h L -> wp (gen_gather w y hp s) (gen_gathered w y L K).
Proof.
  intros [Hm Hs] HL HA HS HB HP HW. unfold gen_gather. cbv zeta.
  assert (W : forall i, wf false (hm hp i)) by (intros i; eapply wf_weaken; apply Hm).
  eapply wp_seq; [apply (mresize_spec false); apply W|]. intros ms1 [O1 [[g1 M1] _]]. rewrite Nat.mul_comm in M1.
  eapply wp_seq; [apply (gather3_spec _ _ _ _ _ _ _ _ _ (vel_at y K) M1); intros i Hi; eapply presents_vel; eauto|]. intros ms2 [O2 M2].
  assert (W2 : forall i, i <> iqdot -> wf false (ms2 i)) by (intros i Hi; rewrite O2, O1 by exact Hi; apply W).
  eapply wp_seq; [apply (sp_init_spec 3 2); apply Hs|]. intros J [v HJ].
  eapply wp_seq; [apply (sp_init_spec 3 2); apply Hs|]. intros Jd [vd HJd].
  eapply wp_seq; [apply (minit0_spec false); apply W2; discriminate|]. intros ms3 [O3 M3].
  eapply wp_seq; [apply (minit0_spec false); rewrite O3 by discriminate; apply W2; discriminate|]. intros ms4 [O4 M4].
  eapply wp_seq; [apply (minit0_spec false); rewrite O4, O3 by discriminate; apply W2; discriminate|]. intros ms5 [O5 M5].
  eapply wp_seq.
  { unfold gen_con_rows. apply (gather_loop w y K h L s (fun c o k j_f hp =>
      let* J := set_blocks w c j_f (hs hp sJ) in
      let* Jd := set_blocks w c j_f (hs hp sJdot) in
      let* (J, Jd, ms) := for_ (c_bodycount c * 3) (fun i '(J, Jd, ms) =>
        let* index := con_body_index (w_body w) (c_bodies c) (i / 3)%nat in
        if Z.eqb index (-1) then Ok (J, Jd, ms)
        else
          let* v := out2 (o_J o) 6 k i in
          let* J := sp_set 3 2 J j_f (i / 3)%nat (Nat.modulo i 3) v in
          let* v := out2 (o_Jdot o) 6 k i in
          let* Jd := sp_set 3 2 Jd j_f (i / 3)%nat (Nat.modulo i 3) v in
          let* v := out1 (o_ks o) k in
          let* ms := mset ms iks 0 j_f v in
          let* v := out1 (o_kd o) k in
          let* ms := mset ms ikd 0 j_f v in
          let* v := out1 (o_C o) k in
          let* ms := mset ms iC 0 j_f v in
          Ok (J, Jd, ms)) (J, Jd, hm hp) in
      Ok (S j_f, {| hm := ms; hs := upd (upd (hs hp) sJ J) sJdot Jd |}))
      (fun R hp => gen_part w y L R hp /\ is_mat false (hm hp iqdot) 1 (3 * body_count y) (fun r _ => V3 y K r))); [exact HP|exact HW| |].
    - cbn [hm hs]. split; [split; [|split; [|split; [|split]]]|]; cbn [hm hs].
      + rewrite upd_other, upd_same by discriminate. exists v. split; [|intros; lia]. eapply is_sp_ext; [exact HJ|reflexivity|reflexivity].
      + rewrite upd_same. exists vd. split; [|intros; lia]. eapply is_sp_ext; [exact HJd|reflexivity|reflexivity].
      + apply partM_0. rewrite O5, O4 by discriminate. exact M3.
      + apply partM_0. rewrite O5 by discriminate. exact M4.
      + apply partM_0. exact M5.
      + rewrite O5, O4, O3 by discriminate. exact M2.
    - intros R o hp1 HR SA ((PJ & PD & PK & PE & PC) & PQ). destruct (row_of_lt w y R HR) as (i0 & Ec & Hj & Er). set (c := rc w y R) in *. set (j := rj w y R) in *.
      destruct (HS c (nth_error_In _ _ Ec)) as [H1 H2]. destruct (SA j Hj) as (SC & _ & _ & _ & SK & SE & SJ). specialize (HB c (nth_error_In _ _ Ec)).
      eapply wp_seq; [apply (set_blocks_row w y _ R _ HL HA HS HR PJ)|]. intros J1 (v1 & A1 & B1). apply (rowJ_0 w y (l_J L)) in A1; [|exact B1]. clear v1 B1.
      eapply wp_seq; [apply (set_blocks_row w y _ R _ HL HA HS HR PD)|]. intros Jd1 (v1 & A2 & B1). apply (rowJ_0 w y (l_Jd L)) in A2; [|exact B1]. clear v1 B1.
      eapply (wp_seq _ _ (fun x => partJ w y (l_J L) (S R) (fst (fst x)) /\ partJ w y (l_Jd L) (S R) (snd (fst x)) /\
        partM w y 1 (fun _ => l_ks L) (S R) (snd x iks) /\ partM w y 1 (fun _ => l_kd L) (S R) (snd x ikd) /\ partM w y 1 (fun _ => l_C L) (S R) (snd x iC) /\
        is_mat false (snd x iqdot) 1 (3 * body_count y) (fun r _ => V3 y K r))).
      { apply (for_inv _ (fun i x => rowJ w y (l_J L) R i (fst (fst x)) /\ rowJ w y (l_Jd L) R i (snd (fst x)) /\
          let R' := match i with O => R | _ => S R end in
          partM w y 1 (fun _ => l_ks L) R' (snd x iks) /\ partM w y 1 (fun _ => l_kd L) R' (snd x ikd) /\ partM w y 1 (fun _ => l_C L) R' (snd x iC) /\
          is_mat false (snd x iqdot) 1 (3 * body_count y) (fun r _ => V3 y K r))).
        - cbn [fst snd]. auto 10.
        - intros i [[t td] m0] Hi (T1 & T2 & T3 & T4 & T5 & T6). cbn [fst snd] in *.
          destruct (attached_bi w y c (i / 3) HL HA (nth_error_In _ _ Ec)) as (b & _ & _ & Lb & ->); [apply Nat.div_lt_upper_bound; lia|].
          cbn [bind]. destruct (Z.eqb_spec (Z.of_nat (bi w c (i / 3))) (-1)); [lia|].
          rewrite !out2_ok by lia. cbn [bind]. rewrite (proj1 (SJ i Hi)), (proj2 (SJ i Hi)).
          eapply wp_seq; [apply (rowJ_set w y (l_J L) R i t HS HR Hi T1)|]. intros t' T1'.
          eapply wp_seq; [apply (rowJ_set w y (l_Jd L) R i td HS HR Hi T2)|]. intros td' T2'.
          rewrite !out1_ok by lia. cbn [bind]. rewrite SK, SE, SC.
          assert (G : forall val ms t0, partM w y 1 (fun _ => val) (match i with O => R | _ => S R end) (ms t0) ->
            wp (mset ms t0 0 R (val c j)) (fun ms' => only t0 ms ms' /\ partM w y 1 (fun _ => val) (S R) (ms' t0))).
          { intros val ms t0 X. destruct i; [now apply partM_set|now apply partM_again]. }
          eapply wp_seq; [apply (G (l_ks L)), T3|]. intros m1 [Q1 N1].
          eapply wp_seq; [apply (G (l_kd L)); rewrite Q1 by discriminate; exact T4|]. intros m2 [Q2 N2].
          eapply wp_seq; [apply (G (l_C L)); rewrite Q2, Q1 by discriminate; exact T5|]. intros m3 [Q3 N3].
          cbn [wp fst snd]. split; [exact T1'|]. split; [exact T2'|].
          split; [rewrite Q3, Q2 by discriminate; exact N1|]. split; [rewrite Q3 by discriminate; exact N2|]. split; [exact N3|].
          rewrite Q3, Q2, Q1 by discriminate. exact T6.
        - intros [[t td] m0] (T1 & T2 & T3). cbn [fst snd] in *. split; [now apply rowJ_done|]. split; [now apply rowJ_done|].
          fold c in T3. destruct (c_bodycount (w_con w c)); [lia|exact T3]. }
      intros [[J2 Jd2] m2] (T1 & T2 & T3 & T4 & T5 & T6). cbn [wp fst snd] in *. split; [reflexivity|]. split; [split; [|split; [|split; [|split]]]|]; cbn [hm hs].
      + now rewrite upd_other, upd_same by discriminate.
      + now rewrite upd_same.
      + exact T3.
      + exact T4.
      + exact T5.
      + exact T6. }
  intros [[R hp1] o] ((PJ & PD & PK & PE & PC) & PQ). cbn [fst snd wp] in *. split; [now apply partJ_all|]. split; [now apply partJ_all|].
  split; [exact (partM_all _ _ _ _ _ PK)|]. split; [exact (partM_all _ _ _ _ _ PE)|]. split; [exact (partM_all _ _ _ _ _ PC)|exact PQ].
Qed.

Lemma gen_right_spec priv w y K h f cf ks kd hp (s : st) v vd :
  hinv priv hp -> listed w y -> attached w y -> shaped w y -> presents w y K h s -> forced w y f s -> minv_ok w y (hm hp) ->
  is_sp 3 2 (hs hp sJ) (3 * body_count y) (full_count w y) (blkR w y) v ->
  is_sp 3 2 (hs hp sJdot) (3 * body_count y) (full_count w y) (blkR w y) vd ->
  colM w y ks (hm hp iks) -> colM w y kd (hm hp ikd) -> colM w y cf (hm hp iC) ->
  is_mat false (hm hp iqdot) 1 (3 * body_count y) (fun r _ => V3 y K r) ->
  wp (gen_right w y hp s) (fun hp' => hs hp' = hs hp /\
    is_mat false (hm hp' iright) 1 (full_count w y) (fun r _ =>
      csub (csub (csub (copp (srow 3 2 (blkR w y r) (vd r) (V3 y K))) (srow 3 2 (blkR w y r) (v r) (fun c => cmul (W3 w y c) (F3 y f c))))
        (cmul (ks (rc w y r) (rj w y r)) (cf (rc w y r) (rj w y r)))) (cmul (kd (rc w y r) (rj w y r)) (srow 3 2 (blkR w y r) (v r) (V3 y K))))).
Proof.
  intros [Hm Hs] HL HA HS HP HF HM HJ HD Hks Hkd Hcf HQ. unfold gen_right. cbv zeta.
  assert (W : forall i, wf false (hm hp i)) by (intros i; eapply wf_weaken; apply Hm).
  assert (IN : forall r e, r < full_count w y -> e < 2 -> inside 3 (3 * body_count y) (blkR w y r e)).
  { intros r e Hr He. apply (inside_of 3 2 _ _ _ (blkR_inside w y HL HA HS)); assumption. }
  eapply wp_seq; [apply (sp_multiply_spec 3 2 false _ _ _ _ _ _ _ _ _ _ HJ HQ (W ireg0)); [discriminate|exact IN]|]. intros ms1 [O1 M1].
  set (Jv := fun r => srow 3 2 (blkR w y r) (v r) (V3 y K)).
  set (col := fun (g : nat -> cell tg) (r _ : nat) => g r).
  set (kdf := fun r => kd (rc w y r) (rj w y r)). set (ksf := fun r => ks (rc w y r) (rj w y r)). set (cff := fun r => cf (rc w y r) (rj w y r)).
  eapply (wp_seq _ _ (fun ms => (forall i, i <> ikd -> i <> iks -> ms i = ms1 i) /\
    is_mat false (ms ikd) 1 (full_count w y) (fun r _ => cmul (kdf r) (Jv r)) /\ is_mat false (ms iks) 1 (full_count w y) (fun r _ => cmul (ksf r) (cff r)))).
  { apply (for_inv _ (fun R ms => (forall i, i <> ikd -> i <> iks -> ms i = ms1 i) /\
      is_mat false (ms ikd) 1 (full_count w y) (fun r _ => upto R (fun r => cmul (kdf r) (Jv r)) kdf r) /\
      is_mat false (ms iks) 1 (full_count w y) (fun r _ => upto R (fun r => cmul (ksf r) (cff r)) ksf r))).
    - split; [reflexivity|]. rewrite !O1 by discriminate. split; [exact Hkd|exact Hks].
    - intros R ms HR (X1 & X2 & X3). rewrite (mget_spec _ _ _ _ _ _ 0 R X2) by lia. cbn [bind].
      assert (Y1 : is_mat false (ms ireg0) 1 (full_count w y) (fun r _ => Jv r)) by (rewrite X1 by discriminate; exact M1).
      rewrite (mget_spec _ _ _ _ _ _ 0 R Y1) by lia. cbn [bind].
      eapply wp_seq; [apply (mset_spec _ _ _ _ _ _ 0 R _ X2); lia|]. intros ms' [Q1 N1].
      assert (X3' : is_mat false (ms' iks) 1 (full_count w y) (fun r _ => upto R (fun r => cmul (ksf r) (cff r)) ksf r)) by (rewrite Q1 by discriminate; exact X3).
      rewrite (mget_spec _ _ _ _ _ _ 0 R X3') by lia. cbn [bind].
      assert (Y2 : is_mat false (ms' iC) 1 (full_count w y) (fun r _ => cff r)) by (rewrite Q1, X1, O1 by discriminate; exact Hcf).
      rewrite (mget_spec _ _ _ _ _ _ 0 R Y2) by lia. cbn [bind].
      eapply wp_mono; [apply (mset_spec _ _ _ _ _ _ 0 R _ X3'); lia|]. intros ms'' [Q2 N2].
      assert (UR : forall (g g' : nat -> cell tg), upto R g g' R = g' R) by (intros g g'; unfold upto; destruct (Nat.ltb_spec R R); [lia|reflexivity]).
      split; [intros i A B; now rewrite Q2, Q1, X1 by assumption|]. split.
      + rewrite Q2 by discriminate. eapply is_mat_ext; [exact N1|]. intros r q Hr Hq. cbv beta. unfold fset. rewrite UR, upto_S.
        destruct (Nat.eqb_spec r R), (Nat.eqb_spec q 0); cbn [andb]; subst; try lia; reflexivity.
      + eapply is_mat_ext; [exact N2|]. intros r q Hr Hq. cbv beta. unfold fset. rewrite UR, upto_S.
        destruct (Nat.eqb_spec r R), (Nat.eqb_spec q 0); cbn [andb]; subst; try lia; reflexivity.
    - intros ms (X1 & X2 & X3). split; [exact X1|]. split.
      + eapply is_mat_ext; [exact X2|]. intros r q Hr Hq. cbv beta. unfold upto. destruct (Nat.ltb_spec r (full_count w y)); [reflexivity|lia].
      + eapply is_mat_ext; [exact X3|]. intros r q Hr Hq. cbv beta. unfold upto. destruct (Nat.ltb_spec r (full_count w y)); [reflexivity|lia]. }
  intros ms2 (X1 & X2 & X3).
  assert (W2 : forall i, i <> ikd -> i <> iks -> i <> ireg0 -> ms2 i = hm hp i) by (intros i A B C; rewrite X1, O1 by assumption; reflexivity).
  eapply wp_seq; [apply (minit_val_spec false); rewrite W2 by discriminate; apply W|]. intros ms3 [O3 M3].
  eapply wp_seq; [apply (gather3_spec _ _ _ _ _ _ _ _ _ (ext_at y f) M3); intros i Hi; eapply forced_at; eauto|]. intros ms4 [O4 M4].
  assert (W4 : forall i, i <> iFext -> ms4 i = ms2 i) by (intros i A; now rewrite O4, O3 by exact A).
  assert (MI : is_mat false (ms4 iMinv) 1 (3 * body_count y) (fun r _ => W3 w y r)) by (rewrite W4, W2 by discriminate; exact HM).
  eapply wp_seq; [apply (mleft_scale_spec false _ _ _ _ _ _ _ _ M4 MI); [rewrite W4, W2 by discriminate; apply W|discriminate]|]. intros ms5 [O5 M5].
  eapply wp_seq; [apply (sp_multiply_spec 3 2 false _ _ _ _ _ _ _ _ _ _ HJ M5); [rewrite O5, W4, X1 by discriminate; eapply is_mat_wf; exact M1|discriminate|exact IN]|]. intros ms6 [O6 M6].
  assert (MQ : is_mat false (ms6 iqdot) 1 (3 * body_count y) (fun r _ => V3 y K r)) by (rewrite O6, O5, W4, W2 by discriminate; exact HQ).
  eapply wp_seq; [apply (sp_multiply_spec 3 2 false _ _ _ _ _ _ _ _ _ _ HD MQ); [rewrite O6 by discriminate; eapply is_mat_wf; exact M5|discriminate|exact IN]|]. intros ms7 [O7 M7].
  eapply wp_seq; [apply (mnegate_spec false _ _ _ _ _ _ M7); rewrite O7, O6, O5, W4, W2 by discriminate; apply W|]. intros ms8 [O8 M8].
  assert (MR : is_mat false (ms8 ireg0) 1 (full_count w y) (fun r _ => srow 3 2 (blkR w y r) (v r) (fun c => cmul (W3 w y c) (F3 y f c)))) by (rewrite O8, O7 by discriminate; exact M6).
  eapply wp_seq; [apply (msubtract_spec false _ _ _ _ _ _ _ _ M8 MR); rewrite O8 by discriminate; eapply is_mat_wf; exact M7|]. intros ms9 [O9 M9].
  assert (MK : is_mat false (ms9 iks) 1 (full_count w y) (fun r _ => cmul (ksf r) (cff r))) by (rewrite O9, O8, O7, O6, O5, W4 by discriminate; exact X3).
  eapply wp_seq; [apply (msubtract_spec false _ _ _ _ _ _ _ _ M9 MK); rewrite O9 by discriminate; eapply is_mat_wf; exact MR|]. intros ms10 [O10 M10].
  assert (MD : is_mat false (ms10 ikd) 1 (full_count w y) (fun r _ => cmul (kdf r) (Jv r))) by (rewrite O10, O9, O8, O7, O6, O5, W4 by discriminate; exact X2).
  eapply wp_seq; [apply (msubtract_spec false _ _ _ _ _ _ _ _ M10 MD); rewrite O10, O9, O8, O7, O6, O5, W4, W2 by discriminate; apply W|]. intros ms11 [O11 M11].
  cbn [wp with_hm hm hs]. split; [reflexivity|]. exact M11.
Qed.
End S.
