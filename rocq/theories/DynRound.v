(** * One round of a system: forces, constraints, integration. *)

From Coq Require Import Reals.
From Verif Require Import Base Targets Matrix Sparse Sle State Ode Forces Constraints System Logic
  MatrixFacts MatrixOps SpecMatrix MatrixHist SparseFacts SpecSparse SparseHist SpecSle SleHist SleGe
  SpecState StateFacts SpecOde OdeFacts SpecSys RegFacts SysFrame SysInv SpecDyn DynState DynReact.
Local Open Scope nat_scope.

Section S.
Context {tg : target}.
Notation st := (sstate tg).
Implicit Types (ms : mats tg) (ss : sps tg) (hp : heap tg) (w : world tg) (y : sys tg).

Ltac als := repeat first
  [ assumption
  | match goal with |- pc (sto _ _ _ _) (alters ?p ?s0) => apply (sto_alters p s0); [reflexivity|assumption] end
  | match goal with |- pc (sto_add _ _ _ _) (alters ?p ?s0) => apply (sto_add_alters p s0); [reflexivity|assumption] end
  | match goal with |- pc (bind (sto _ _ _ _) _) (alters ?p ?s0) =>
      apply (pc_seq _ _ (alters p s0)); [apply sto_alters; [reflexivity|assumption]|]; intros ? ? end
  | match goal with |- pc (bind (sto_add _ _ _ _) _) (alters ?p ?s0) =>
      apply (pc_seq _ _ (alters p s0)); [apply sto_add_alters; [reflexivity|assumption]|]; intros ? ? end
  | apply pc_any; intros ? ].

(** ** forces *)
Definition isF (f : fld) : bool := match f with Ffx | Ffy | Ft => true | _ => false end.
Lemma apply_force_alters (s0 s : st) px py fx fy z : alters isF s0 s -> pc (st_apply_force s px py fx fy z) (alters isF s0).
Proof. intros H. unfold st_apply_force. apply pc_any; intros [wx wy]. als. Qed.
Lemma gen_apply_alters (g : gkind tg) bs (s : st) : gentle g -> pc (gen_apply g bs s) (alters isF s).
Proof.
  intros Ho. pose proof (alters_refl isF s) as R. destruct g as [g|f|p|p|f]; cbn [gen_apply].
  - unfold gravity_apply. apply for_pc; [|exact R]. intros i t H. als.
  - unfold static_apply. apply pc_any; intros b. now apply apply_force_alters.
  - unfold spring_apply. destruct (sp_b1 p), (sp_b2 p); try exact R.
    apply pc_any; intros [[[x1 y1] vx1] vy1]. apply pc_any; intros [[[x2 y2] vx2] vy2]. apply pc_any; intros far.
    eapply pc_seq; [apply apply_force_alters; exact R|]. intros s1 H1. now apply apply_force_alters.
  - unfold motor_apply. apply pc_any; intros b0. apply pc_any; intros [v1 a1]. apply pc_any; intros b1.
    do 2 (apply pc_any; intros ?). eapply (pc_seq _ _ (alters isF s)).
    + destruct (negb _); [|exact R]. als.
    + intros s1 H1. als.
  - apply pc_intro. intros s' E. destruct (Ho bs s s' E) as (A1 & A2 & A3 & A4 & A5 & A6). repeat split; auto.
    intros x Hx. apply A6; intros ->; discriminate.
Qed.
Lemma process_forces_alters w y s : all_gentle w y -> pc (process_forces w y s) (alters isF s).
Proof.
  intros Ho. pose proof (alters_refl isF s) as R. unfold process_forces. eapply (pc_seq _ _ (alters isF s)).
  - apply for_pc; [|exact R]. intros i t H. als.
  - intros s1 H1. apply for_pc; [|exact H1]. intros i t H.
    destruct (nth_error (y_gens y) i) as [g|] eqn:Eg; cbn [lift_opt bind]; [|exact I].
    eapply pc_mono; [apply gen_apply_alters, Ho; eapply nth_error_In; exact Eg|]. intros s2 H2. eapply alters_trans; eauto.
Qed.
Lemma gentle_orderly (g : gkind tg) : gentle g -> orderly g.
Proof. destruct g; cbn; auto. intros H bs s s' E. destruct (H bs s s' E) as (A1 & A2 & A3 & A4 & A5 & A6). rewrite A3. auto. Qed.

Lemma presents_alters w y K h (s s' : st) p :
  (forall d, p (posf d) = false /\ p (velf d) = false /\ p (accf d) = false) -> p Fm = false ->
  alters p s s' -> presents w y K h s -> presents w y K h s'.
Proof.
  intros Hp Hm A (P1 & P2 & P3 & P4 & P5). pose proof A as (A1 & A2 & A3 & A4 & A5 & A6).
  split; [eapply alters_sized; eauto|]. do 3 (split; [congruence|]).
  intros i b E. destruct (P5 i b E) as [M Q]. split; [now rewrite (alters_ld p _ _ _ _ A Hm)|].
  intros d Hd. destruct (Q d Hd) as (Q1 & Q2 & Q3). destruct (Hp d) as (p1 & p2 & p3).
  now rewrite !(alters_ld p _ _ _ _ A) by assumption.
Qed.
Lemma presents_forces w y K h (s s' : st) : alters isF s s' -> presents w y K h s -> presents w y K h s'.
Proof. apply presents_alters; [|reflexivity]. intros [|[|d]]; auto. Qed.
Lemma presents_dt w y K h h' (s : st) : presents w y K h s -> presents w y K h' (st_with_dt s h').
Proof. intros (P1 & P2 & P3 & P4 & P5). split; [exact P1|]. now do 3 (split; [assumption || reflexivity|]). Qed.

(** the reactions in a state, by constraint, row and slot *)
Definition reac w y (s : st) (d c j k : nat) : cell tg := ldc s (reaf d) ((row0 w y c + j) * 2 + k).
(** the forces in a state, by body *)
Definition frc w (s : st) (b d : nat) : cell tg := ldc s (frcf d) (Z.to_nat (b_index (w_body w b))).
Lemma frc_ld w y K h (s : st) i b d : listed w y -> presents w y K h s -> nth_error (y_bodies y) i = Some b -> d < 3 ->
  ld s (frcf d) (Z.of_nat i) = Ok (frc w s b d).
Proof.
  intros [HL _] (P1 & P2 & _) E Hd. unfold frc. rewrite (HL i b E), Nat2Z.id. unfold ldc.
  destruct (sized_ld s (frcf d) i P1) as [x ->]; [|reflexivity]. pose proof (nth_error_lt _ _ _ E). unfold body_count in P2.
  unfold room. destruct d as [|[|[|]]]; cbn; lia.
Qed.

(** ** gather3 *)
Lemma gather3_spec n (s : st) fx fy ft id ms k f0 (v : nat -> nat -> cell tg) :
  is_mat k (ms id) 1 (3 * n) f0 ->
  (forall i, i < n -> ld s fx (Z.of_nat i) = Ok (v i 0) /\ ld s fy (Z.of_nat i) = Ok (v i 1) /\ ld s ft (Z.of_nat i) = Ok (v i 2)) ->
  wp (gather3 n s fx fy ft id ms) (fun ms' => only id ms ms' /\ is_mat k (ms' id) 1 (3 * n) (fun r _ => v (r / 3) (r mod 3))).
Proof.
  intros H Hv. unfold gather3.
  apply (for_inv _ (fun i ms' => only id ms ms' /\ is_mat k (ms' id) 1 (3 * n) (fun r c => if Nat.ltb r (i * 3) then v (r / 3) (r mod 3) else f0 r c))).
  - split; [apply only_refl|]. eapply is_mat_ext; [exact H|]. intros r c Hr Hc. cbv beta. destruct (Nat.ltb_spec r (0 * 3)); [lia|reflexivity].
  - intros i ms1 Hi [O1 M1]. destruct (Hv i Hi) as (-> & -> & ->). cbn [bind].
    eapply wp_seq; [eapply mset_spec; [exact M1|lia|lia]|]. intros ms2 [O2 M2].
    eapply wp_seq; [eapply mset_spec; [exact M2|lia|lia]|]. intros ms3 [O3 M3].
    eapply wp_mono; [eapply mset_spec; [exact M3|lia|lia]|]. intros ms4 [O4 M4].
    split; [eapply only_trans; [exact O1|]; eapply only_trans; [exact O2|]; eapply only_trans; eauto|].
    eapply is_mat_ext; [exact M4|]. intros r c Hr Hc. unfold fset. assert (c = 0) by lia. subst c. rewrite !Bool.andb_true_r.
    destruct (Nat.eqb_spec r (i * 3 + 2)) as [->|]; [|destruct (Nat.eqb_spec r (i * 3 + 1)) as [->|]; [|destruct (Nat.eqb_spec r (i * 3 + 0)) as [->|]]].
    + destruct (Nat.ltb_spec (i * 3 + 2) (S i * 3)); [|lia]. rewrite Nat.div_add_l, (Nat.add_comm (i * 3)), Nat.mod_add by lia.
      cbn. now rewrite Nat.add_0_r.
    + destruct (Nat.ltb_spec (i * 3 + 1) (S i * 3)); [|lia]. rewrite Nat.div_add_l, (Nat.add_comm (i * 3)), Nat.mod_add by lia.
      cbn. now rewrite Nat.add_0_r.
    + destruct (Nat.ltb_spec (i * 3 + 0) (S i * 3)); [|lia]. rewrite Nat.div_add_l, (Nat.add_comm (i * 3)), Nat.mod_add by lia.
      cbn. now rewrite Nat.add_0_r.
    + destruct (Nat.ltb_spec r (i * 3)), (Nat.ltb_spec r (S i * 3)); auto; lia.
  - intros ms1 [O1 M1]. split; [exact O1|]. eapply is_mat_ext; [exact M1|]. intros r c Hr Hc. cbv beta.
    destruct (Nat.ltb_spec r (n * 3)); [reflexivity|lia].
Qed.
Lemma div3 i d : d < 3 -> (i * 3 + d) / 3 = i /\ (i * 3 + d) mod 3 = d.
Proof.
  intros H. rewrite Nat.div_add_l, (Nat.add_comm (i * 3)), Nat.mod_add, Nat.mod_small, Nat.div_small by lia. lia.
Qed.

(** ** populate *)
Lemma populate_state_presents w y : sized (y_state y) -> shaped w y ->
  wp (populate_state w y) (fun s => exists h, presents w y (kin_of w) h s).
Proof.
  intros H HS. unfold populate_state. set (s0 := st_resize (y_state y) (body_count y) (full_count w y)).
  assert (Z0 : sized s0) by now apply sized_resize.
  assert (B0 : body_count y <= s_n s0 /\ full_count w y <= s_nc s0).
  { destruct (resize_cases (y_state y) (body_count y) (full_count w y) H) as [(A & B & E)|(A & B & C & D)];
      unfold s0; [rewrite E; lia|rewrite B, C; lia]. }
  destruct B0 as [N0 C0]. pose proof (looks_sized s0 Z0) as L0.
  set (F := fun i f => match nth_error (y_bodies y) i with
    | Some b => match f with Fax | Fay | Fatheta => cofZ 0 | Fvx => b_f (w_body w b) Bvx | Fvy => b_f (w_body w b) Bvy
        | Fpx => b_f (w_body w b) Bpx | Fpy => b_f (w_body w b) Bpy | Fvtheta => b_f (w_body w b) Bvtheta
        | Ftheta => b_f (w_body w b) Btheta | Fm => b_f (w_body w b) Bm | _ => ldc s0 f i end
    | None => ldc s0 f i end).
  eapply wp_seq.
  { apply (column_loop _ _ _ _ (body_count y) F _ _ L0). intros i t gi Hi Ht Hg. cbv zeta.
    destruct (nth_error_ex (y_bodies y) i Hi) as [b Eb]. unfold nth_body. rewrite Eb. cbn [lift_opt bind].
    assert (Rm : forall f, is_reaction f = false -> i < room (s_n s0) (s_nc s0) f) by (intros f Hf; unfold room; rewrite Hf; lia).
    do 9 (eapply wp_seq; [eapply sto_looks; [eassumption|now apply Rm]|]; intros ? ?).
    eapply wp_mono; [eapply sto_looks; [eassumption|now apply Rm]|]. intros t' Ht'.
    eexists. split; [exact Ht'|]. split; [repeat apply col_tset; apply col_refl|].
    intros f. rewrite !tset_col. unfold F. rewrite Eb. destruct f; cbn [fld_eqb]; auto. }
  intros s1 L1. eapply (wp_seq _ _ (fun x => looks (s_n s0) (s_nc s0) (s_dt s0) (fun fl j => if Nat.ltb j (body_count y) then F j fl else ldc s0 fl j) (fst x))).
  - apply (for_inv _ (fun i x => looks (s_n s0) (s_nc s0) (s_dt s0) (fun fl j => if Nat.ltb j (body_count y) then F j fl else ldc s0 fl j) (fst x))); auto.
    intros i [t jf] Hi Ht. cbn [fst] in *. destruct (nth_error_ex (y_cons y) i Hi) as [c Ec]. unfold nth_con. rewrite Ec. cbn [lift_opt bind].
    pose proof Ht as ((T1 & T2) & T3 & T4 & T5 & T6).
    unfold aset. destruct (Z.ltb_spec (Z.of_nat i) 0); [lia|]. rewrite Nat2Z.id.
    assert (Hlen : i < length (s_imap t)).
    { rewrite T2, T4. eapply Nat.lt_le_trans; [|exact C0]. clear -HS Hi. rewrite full_count_rows. unfold con_count in Hi. unfold shaped in HS.
      assert (G : length (y_cons y) <= rows_of w (y_cons y)); [|lia]. clear Hi. induction (y_cons y) as [|c l IH]; cbn; [lia|].
      pose proof (HS c (or_introl eq_refl)). assert (length l <= rows_of w l) by (apply IH; intros; apply HS; now right). lia. }
    destruct (list_set_some (s_imap t) i (Some (Z.of_nat jf)) Hlen) as (im & E & L & _). rewrite E. cbn [lift_opt bind wp fst].
    split; [split; [exact T1|cbn; congruence]|]. repeat split; auto.
  - intros [s2 jf] (Z2 & N2 & C2 & D2 & L2). cbn [fst wp] in *. exists (s_dt s0).
    split; [exact Z2|]. split; [lia|]. split; [lia|]. split; [exact D2|].
    intros i b Eb. pose proof (nth_error_lt _ _ _ Eb) as Hi. unfold body_count in N0.
    assert (G : forall f, is_reaction f = false -> ld s2 f (Z.of_nat i) = Ok (F i f)).
    { intros f Hf. rewrite L2 by (unfold room; rewrite Hf; lia). unfold body_count. destruct (Nat.ltb_spec i (length (y_bodies y))); [reflexivity|lia]. }
    split; [rewrite G by reflexivity; unfold F; now rewrite Eb|].
    intros d Hd. destruct d as [|[|[|]]]; try lia; cbn [posf velf accf]; rewrite !G by reflexivity; unfold F; rewrite Eb; auto.
Qed.

Lemma populate_mass_spec k w y ms : wf k (ms iM) -> wf k (ms iMinv) ->
  wp (populate_mass w y ms) (fun ms' => (forall i, i <> iM -> i <> iMinv -> ms' i = ms i) /\ wf k (ms' iM) /\
    is_mat k (ms' iMinv) 1 (3 * body_count y) (fun r _ => match nth_error (y_bodies y) (r / 3) with
      Some b => cdiv (cofZ 1) (b_mass (w_body w b) (r mod 3)) | None => cofZ 0 end)).
Proof.
  intros H1 H2. unfold populate_mass. set (n := body_count y).
  eapply wp_seq; [apply minit0_spec; exact H1|]. intros ms1 [O1 M1].
  eapply wp_seq; [apply minit0_spec; rewrite O1 by discriminate; exact H2|]. intros ms2 [O2 M2].
  assert (M1' : is_mat k (ms2 iM) 1 (3 * n) (fun _ _ => cofZ 0)) by (rewrite O2 by discriminate; exact M1).
  set (V := fun r => match nth_error (y_bodies y) (r / 3) with
      Some b => cdiv (cofZ 1) (b_mass (w_body w b) (r mod 3)) | None => cofZ 0 end).
  apply (for_inv _ (fun i ms' => (forall i, i <> iM -> i <> iMinv -> ms' i = ms i) /\ (exists f, is_mat k (ms' iM) 1 (3 * n) f) /\
    is_mat k (ms' iMinv) 1 (3 * n) (fun r _ => if Nat.ltb r (i * 3) then V r else cofZ 0))).
  - split; [intros i A B; rewrite O2, O1 by assumption; reflexivity|]. split; [eauto|].
    eapply is_mat_ext; [exact M2|]. intros r c _ _. cbv beta. destruct (Nat.ltb_spec r (0 * 3)); [lia|reflexivity].
  - clear M1 M2 M1'. intros i ms3 Hi (O3 & [f M1] & M2). destruct (nth_error_ex (y_bodies y) i Hi) as [b Eb]. unfold nth_body. rewrite Eb. cbn [lift_opt bind].
    eapply wp_seq; [eapply mset_spec; [exact M1|lia|lia]|]. intros ms4 [O4 M4].
    eapply wp_seq; [eapply mset_spec; [exact M4|lia|lia]|]. intros ms5 [O5 M5].
    eapply wp_seq; [eapply mset_spec; [exact M5|lia|lia]|]. intros ms6 [O6 M6].
    assert (N6 : is_mat k (ms6 iMinv) 1 (3 * n) (fun r _ => if Nat.ltb r (i * 3) then V r else cofZ 0)) by (rewrite O6, O5, O4 by discriminate; exact M2).
    eapply wp_seq; [eapply mset_spec; [exact N6|lia|lia]|]. intros ms7 [O7 M7].
    eapply wp_seq; [eapply mset_spec; [exact M7|lia|lia]|]. intros ms8 [O8 M8].
    eapply wp_mono; [eapply mset_spec; [exact M8|lia|lia]|]. intros ms9 [O9 M9].
    split; [intros j A B; rewrite O9, O8, O7, O6, O5, O4 by assumption; now apply O3|].
    split; [rewrite O9, O8, O7 by discriminate; eauto|].
    eapply is_mat_ext; [exact M9|]. intros r c Hr Hc. assert (c = 0) by lia. subst c. unfold fset. rewrite !Bool.andb_true_r.
    destruct (div3 i 0 ltac:(lia)) as [D0 D0'], (div3 i 1 ltac:(lia)) as [D1 D1'], (div3 i 2 ltac:(lia)) as [D2 D2'].
    destruct (Nat.eqb_spec r (i * 3 + 2)) as [->|]; [|destruct (Nat.eqb_spec r (i * 3 + 1)) as [->|]; [|destruct (Nat.eqb_spec r (i * 3 + 0)) as [->|]]].
    + destruct (Nat.ltb_spec (i * 3 + 2) (S i * 3)); [|lia]. unfold V. rewrite D2, D2', Eb. reflexivity.
    + destruct (Nat.ltb_spec (i * 3 + 1) (S i * 3)); [|lia]. unfold V. rewrite D1, D1', Eb. reflexivity.
    + destruct (Nat.ltb_spec (i * 3 + 0) (S i * 3)); [|lia]. unfold V. rewrite D0, D0', Eb. reflexivity.
    + destruct (Nat.ltb_spec r (i * 3)), (Nat.ltb_spec r (S i * 3)); auto; lia.
  - intros ms3 (O3 & [f M1'']  & M2'). split; [exact O3|]. split; [eapply is_mat_wf; exact M1''|].
    eapply is_mat_ext; [exact M2'|]. intros r c Hr Hc. cbv beta. destruct (Nat.ltb_spec r (n * 3)); [reflexivity|lia].
Qed.
End S.
