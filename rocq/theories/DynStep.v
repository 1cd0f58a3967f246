(** * Steps of a system obey Newton's law with the forces it reports. *)

From Coq Require Import Reals Lra.
From Verif Require Import Base Targets Matrix Sparse Sle State Ode Forces Constraints System Logic
  MatrixFacts MatrixOps SpecMatrix MatrixHist SparseFacts SpecSparse SparseHist SpecSle SleHist SleGe
  SpecState StateFacts SpecOde OdeFacts SpecSys RegFacts SysFrame SysInv SysColumn SpecDyn DynState DynReact DynRound.
Local Open Scope nat_scope.

Section S.
Context {tg : target}.
Notation st := (sstate tg).
Implicit Types (ms : mats tg) (ss : sps tg) (hp : heap tg) (w : world tg) (y : sys tg).

Definition inv_mass w y (i d : nat) : cell tg :=
  match nth_error (y_bodies y) i with Some b => cdiv (cofZ 1) (b_mass (w_body w b) d) | None => cofZ 0 end.
Definition minv_ok w y ms : Prop :=
  is_mat false (ms iMinv) 1 (3 * body_count y) (fun r _ => inv_mass w y (r / 3) (r mod 3)).
Lemma minv_get w y ms i d : minv_ok w y ms -> i < body_count y -> d < 3 -> mget ms iMinv 0 (i * 3 + d) = Ok (inv_mass w y i d).
Proof.
  intros H Hi Hd. rewrite (mget_spec _ _ _ _ _ _ _ _ H) by lia. destruct (div3 i d Hd) as [-> ->]. reflexivity.
Qed.
(** the external force on the i-th body *)
Definition ext_at y (f : nat -> nat -> cell tg) (i d : nat) : cell tg :=
  match nth_error (y_bodies y) i with Some b => f b d | None => cofZ 0 end.
Definition with_acc (K : kin tg) (a : nat -> nat -> cell tg) : kin tg := mkKin (k_q K) (k_v K) a.
Definition acc_of w y (f : nat -> nat -> cell tg) (s : st) (b d : nat) : cell tg :=
  cmul (total_on w y (reac w y s d) b (f b d)) (cdiv (cofZ 1) (b_mass (w_body w b) d)).

Lemma looks_ldc n nc h g (s : st) f i : looks n nc h g s -> i < room n nc f -> ldc s f i = g f i.
Proof. intros H Hi. unfold ldc. now rewrite (looks_ld _ _ _ _ _ _ _ H Hi). Qed.

(** what applyReactions leaves, given the reactions it stores *)
Lemma reacted_presents w y K h f (s s' : st) g' :
  listed w y -> attached w y -> shaped w y -> presents w y K h s ->
  (forall fl i, is_reaction fl = false -> g' fl i = ldc s fl i) ->
  looks (s_n s) (s_nc s) (s_dt s) (reacted w y g' (ext_at y f) (inv_mass w y)) s' ->
  presents w y (with_acc K (acc_of w y f s')) h s'.
Proof.
  intros HL HA HS (P1 & P2 & P3 & P4 & P5) G L. pose proof L as (L1 & L2 & L3 & L4 & L5).
  split; [exact L1|]. do 3 (split; [congruence|]). intros i b Eb. pose proof (nth_error_lt _ _ _ Eb) as Hi. fold (body_count y) in Hi.
  destruct (P5 i b Eb) as [PM PD].
  assert (NA : forall fl, is_reaction fl = false -> is_acc fl = false -> forall x, ld s fl (Z.of_nat i) = Ok x -> ld s' fl (Z.of_nat i) = Ok x).
  { intros fl H1 H2 x E. rewrite L5 by (unfold room; rewrite H1; lia). unfold reacted. rewrite H2, Bool.andb_false_r, G by exact H1. unfold ldc. now rewrite E. }
  split; [apply NA; auto|]. intros d Hd. destruct (PD d Hd) as (Q1 & Q2 & Q3).
  assert (R1 : is_reaction (posf d) = false /\ is_acc (posf d) = false /\ is_reaction (velf d) = false /\ is_acc (velf d) = false /\
    is_reaction (accf d) = false /\ is_acc (accf d) = true /\ dir_of (accf d) = d) by (destruct d as [|[|[|]]]; repeat split; lia).
  destruct R1 as (R1 & R2 & R3 & R4 & R5 & R6 & R7).
  split; [now apply NA|]. split; [now apply NA|].
  rewrite L5 by (unfold room; rewrite R5; lia). f_equal. unfold reacted. rewrite R6, Bool.andb_true_r, R7.
  destruct (Nat.ltb_spec i (body_count y)); [|lia]. cbn [k_a with_acc]. unfold acc_of, ext_at, inv_mass. rewrite Eb. f_equal.
  apply adds_total; auto. intros e He. unfold rval. rewrite R7. unfold reac.
  destruct (all_evs_in _ _ _ _ He) as (p & Ep & Hj & Hk & Er). rewrite Nat.add_0_l in Er. fold (offset w y p) in Er.
  rewrite (row0_at w y p (e_c e) HL Ep), <- Er.
  assert (X : is_reaction (reaf d) = true /\ is_acc (reaf d) = false) by (destruct d as [|[|]]; split; reflexivity). destruct X as [X1 X2].
  pose proof (row_lt w y p (e_c e) (e_j e) Ep Hj) as RL. rewrite <- Er in RL. destruct (HS (e_c e) (nth_error_In _ _ Ep)) as [_ B2].
  rewrite (looks_ldc _ _ _ _ _ _ _ L) by (unfold room; rewrite X1; lia). unfold reacted. now rewrite X2, Bool.andb_false_r.
Qed.
Lemma inv_mass_same w y i : inv_mass w y i 1 = inv_mass w y i 0.
Proof. unfold inv_mass. now destruct (nth_error (y_bodies y) i). Qed.

Lemma apply_reactions_presents w y K h f hp (s : st) :
  listed w y -> attached w y -> shaped w y -> presents w y K h s ->
  (forall i d, i < body_count y -> d < 3 -> mget (hm hp) iFext 0 (i * 3 + d) = Ok (ext_at y f i d)) ->
  minv_ok w y (hm hp) ->
  pc (apply_reactions w y hp s) (fun s' => presents w y (with_acc K (acc_of w y f s')) h s').
Proof.
  intros HL HA HS HP HF HM. rewrite apply_reactions_parts. pose proof HP as (P1 & P2 & P3 & _).
  eapply pc_seq; [apply (react_set_some _ _ _ _ _ _ _ _ (looks_sized s P1) P3)|]. intros s1 (g' & L1 & G1).
  eapply pc_mono; [apply wp_pc, (react_rest _ _ _ _ _ _ _ _ (ext_at y f) (inv_mass w y) L1); auto|].
  - intros i d Hi Hd. now apply minv_get.
  - intros s' L'. eapply reacted_presents; eauto.
Qed.
(** the same when the reactions are known *)
Lemma apply_reactions_known w y K h f hp (s : st) (rv : nat -> nat -> nat -> cell tg) :
  listed w y -> attached w y -> shaped w y -> presents w y K h s ->
  (forall i d, i < body_count y -> d < 3 -> mget (hm hp) iFext 0 (i * 3 + d) = Ok (ext_at y f i d)) ->
  minv_ok w y (hm hp) ->
  (forall r k d, r < full_count w y -> k < 2 -> d < 3 -> sp_get 3 2 (hs hp ssreg0) r k d = Ok (rv r k d)) ->
  wp (apply_reactions w y hp s) (fun s' => presents w y (with_acc K (acc_of w y f s')) h s' /\
    forall c j k d, In c (y_cons y) -> j < c_count (w_con w c) -> k < 2 -> d < 3 -> reac w y s' d c j k = rv (row0 w y c + j) k d).
Proof.
  intros HL HA HS HP HF HM HR. rewrite apply_reactions_parts. pose proof HP as (P1 & P2 & P3 & _).
  eapply wp_seq; [apply (react_set_looks _ _ _ _ _ _ _ _ rv (looks_sized s P1) P3 HR)|]. intros s1 (g' & L1 & G1 & V1).
  eapply wp_mono; [apply (react_rest _ _ _ _ _ _ _ _ (ext_at y f) (inv_mass w y) L1); auto|].
  - intros i d Hi Hd. now apply minv_get.
  - intros s' L'. split; [eapply reacted_presents; eauto|]. intros c j k d Hc Hj Hk Hd. unfold reac.
    apply In_nth_error in Hc. destruct Hc as [i Ei]. rewrite (row0_at w y i c HL Ei). pose proof (row_lt w y i c j Ei Hj) as RL.
    assert (X : is_reaction (reaf d) = true /\ is_acc (reaf d) = false) by (destruct d as [|[|]]; split; reflexivity). destruct X as [X1 X2].
    rewrite (looks_ldc _ _ _ _ _ _ _ L') by (unfold room; rewrite X1; lia). unfold reacted. rewrite X2, Bool.andb_false_r. now apply V1.
Qed.

(** ** processConstraints: the external forces reach applyReactions *)
Variable priv : nat -> bool.
Definition fext_ok y f ms : Prop :=
  forall i d, i < body_count y -> d < 3 -> mget ms iFext 0 (i * 3 + d) = Ok (ext_at y f i d).
Definition forced w y f (s : st) : Prop :=
  forall i b d, nth_error (y_bodies y) i = Some b -> d < 3 -> ld s (frcf d) (Z.of_nat i) = Ok (f b d).
Lemma forced_at w y f s i : forced w y f s -> i < body_count y ->
  ld s Ffx (Z.of_nat i) = Ok (ext_at y f i 0) /\ ld s Ffy (Z.of_nat i) = Ok (ext_at y f i 1) /\ ld s Ft (Z.of_nat i) = Ok (ext_at y f i 2).
Proof.
  intros H Hi. destruct (nth_error_ex (y_bodies y) i Hi) as [b Eb]. unfold ext_at. rewrite Eb.
  exact (conj (H i b 0 Eb ltac:(lia)) (conj (H i b 1 Eb ltac:(lia)) (H i b 2 Eb ltac:(lia)))).
Qed.
Lemma gather_fext w y f s ms : wfs priv ms -> forced w y f s ->
  wp (let* ms := minit_val ms iFext 1 (3 * body_count y) (cofZ 0) in gather3 (body_count y) s Ffx Ffy Ft iFext ms)
    (fun ms' => only iFext ms ms' /\ is_mat (priv iFext) (ms' iFext) 1 (3 * body_count y) (fun r _ => ext_at y f (r / 3) (r mod 3))).
Proof.
  intros H HF. eapply wp_seq; [apply minit_val_spec, H|]. intros ms1 [O1 M1].
  eapply wp_mono; [apply (gather3_spec _ _ _ _ _ _ _ _ _ (ext_at y f) M1); intros i Hi; eapply forced_at; eauto|].
  intros ms2 [O2 M2]. split; [eapply only_trans; eauto|exact M2].
Qed.
Lemma fext_of k y f ms : is_mat k (ms iFext) 1 (3 * body_count y) (fun r _ => ext_at y f (r / 3) (r mod 3)) -> fext_ok y f ms.
Proof. intros H i d Hi Hd. rewrite (mget_spec _ _ _ _ _ _ _ _ H) by lia. destruct (div3 i d Hd) as [-> ->]. reflexivity. Qed.
Lemma fext_same y f ms ms' : ms' iFext = ms iFext -> fext_ok y f ms -> fext_ok y f ms'.
Proof. intros E H i d Hi Hd. unfold mget. rewrite E. now apply H. Qed.

Lemma opt_right_fext w y dt hp s f : hinv priv hp -> forced w y f s -> pc (opt_right w y dt hp s) (fun hp' => fext_ok y f (hm hp')).
Proof.
  intros [Hm Hs] HF. unfold opt_right. cbv zeta.
  eapply pc_seq; [apply mresize_pc, Hm|]. intros ms1 P1.
  eapply pc_seq; [apply gather3_wfs, P1|]. intros ms2 P2.
  pose proof (gather_fext w y f s ms2 P2 HF) as G. apply wp_ok in G. destruct G as (ms4 & E4 & _ & G4). apply fext_of in G4.
  destruct (minit_val ms2 iFext 1 (3 * body_count y) (cofZ 0)) as [ms3| | |]; try discriminate. cbn [bind] in *. rewrite E4. cbn [bind].
  set (l := [ireg0; ireg1; iqdotp; iberr; iright]).
  eapply pc_seq; [apply (mscale_off l ms4); [cbn; auto 10|apply off_refl]|]. intros ms5 P5.
  eapply pc_seq; [apply (mleft_scale_off l ms4); [cbn; auto 10|exact P5]|]. intros ms6 P6.
  eapply pc_seq; [apply (madd2_off l ms4); [cbn; auto 10|exact P6]|]. intros ms7 P7.
  eapply pc_seq; [apply (mscale_off l ms4); [cbn; auto 10|exact P7]|]. intros ms8 P8.
  eapply pc_seq; [apply (sp_multiply_off l ms4); [cbn; auto 10|exact P8]|]. intros ms9 P9.
  eapply pc_seq; [apply (madd2_off l ms4); [cbn; auto 10|exact P9]|]. intros ms10 P10.
  eapply pc_seq; [apply (madd2_off l ms4); [cbn; auto 10|exact P10]|]. intros ms11 P11.
  eapply pc_seq; [apply (mnegate_off l ms4); [cbn; auto 10|exact P11]|]. intros ms12 P12.
  cbn [pc with_hm hm]. eapply fext_same; [|exact G4]. apply P12. cbn. intuition discriminate.
Qed.
Lemma gen_right_fext w y hp s f : hinv priv hp -> forced w y f s -> pc (gen_right w y hp s) (fun hp' => fext_ok y f (hm hp')).
Proof.
  intros [Hm Hs] HF. unfold gen_right. cbv zeta.
  eapply pc_seq; [apply sp_multiply_pc, Hm|]. intros ms1 P1.
  eapply (pc_seq _ _ (wfs priv)).
  { apply for_pc; [|exact P1]. intros i t Ht. do 2 (apply pc_any; intros ?).
    eapply pc_seq; [apply mset_pc; exact Ht|]. intros t1 H1. do 2 (apply pc_any; intros ?). now apply mset_pc. }
  intros ms2 P2.
  pose proof (gather_fext w y f s ms2 P2 HF) as G. apply wp_ok in G. destruct G as (ms4 & E4 & _ & G4). apply fext_of in G4.
  destruct (minit_val ms2 iFext 1 (3 * body_count y) (cofZ 0)) as [ms3| | |]; try discriminate. cbn [bind] in *. rewrite E4. cbn [bind].
  set (l := [ireg0; ireg2; ireg1; iright]).
  eapply pc_seq; [apply (mleft_scale_off l ms4); [cbn; auto 10|apply off_refl]|]. intros ms5 P5.
  eapply pc_seq; [apply (sp_multiply_off l ms4); [cbn; auto 10|exact P5]|]. intros ms6 P6.
  eapply pc_seq; [apply (sp_multiply_off l ms4); [cbn; auto 10|exact P6]|]. intros ms7 P7.
  eapply pc_seq; [apply (mnegate_off l ms4); [cbn; auto 10|exact P7]|]. intros ms8 P8.
  eapply pc_seq; [apply (msubtract_off l ms4); [cbn; auto 10|exact P8]|]. intros ms9 P9.
  eapply pc_seq; [apply (msubtract_off l ms4); [cbn; auto 10|exact P9]|]. intros ms10 P10.
  eapply pc_seq; [apply (msubtract_off l ms4); [cbn; auto 10|exact P10]|]. intros ms11 P11.
  cbn [pc with_hm hm]. eapply fext_same; [|exact G4]. apply P11. cbn. intuition discriminate.
Qed.

Definition apart y : Prop := forall l, y_sle y = Some l -> solver_apart priv l.
(** what a call of processConstraints is good for *)
Definition evaluates w y (pcf : heap tg -> st -> res (heap tg * st)) h
    (P : kin tg -> (nat -> nat -> cell tg) -> (nat -> nat -> nat -> nat -> cell tg) -> Prop) : Prop :=
  forall hp s K f, hinv priv hp -> column (hm hp ilambda) -> minv_ok w y (hm hp) -> presents w y K h s -> forced w y f s ->
    pc (pcf hp s) (fun x => hinv priv (fst x) /\ minv_ok w y (hm (fst x)) /\ presents w y (with_acc K (acc_of w y f (snd x))) h (snd x) /\
      P K f (reac w y (snd x))).
(** such a claim reads the forces of the slots only *)
Definition by_slots w y (P : kin tg -> (nat -> nat -> cell tg) -> (nat -> nat -> nat -> nat -> cell tg) -> Prop) : Prop :=
  forall K f F F', (forall d c j k, F' d c j k = F d c j k) -> P K f F -> P K f F'.
Lemma minv_same w y ms ms' : ms' iMinv = ms iMinv -> minv_ok w y ms -> minv_ok w y ms'.
Proof. unfold minv_ok. now intros ->. Qed.
Lemma solver_off (l : sle tg) i : solver_apart priv l -> i < ilambda -> ~ In i (ilambda :: sle_mats l).
Proof. intros H Hi [E|E]; [lia|]. apply (solver_mats priv l i H) in E. unfold ilambda, ifree in *. lia. Qed.

Lemma opt_evaluates w y dt h : apart y -> listed w y -> attached w y -> shaped w y -> evaluates w y (opt_process_constraints w y dt) h (fun _ _ _ => True).
Proof.
  intros Hl HL HA HS hp s K f H _ HM HP HF. eapply pc_mono.
  { apply pc_and; [apply (opt_constraints_inv priv); [exact H|exact Hl]|].
    instantiate (1 := fun x => presents w y (with_acc K (acc_of w y f (snd x))) h (snd x)).
    unfold opt_process_constraints.
    eapply pc_seq; [apply opt_gather_keeps, H|]. intros hp1 [K1 [F1 _]].
    eapply pc_seq; [apply pc_and; [apply opt_right_keeps, K1|apply (opt_right_fext _ _ _ _ _ f K1 HF)]|]. intros hp2 [[K2 [F2 _]] X2].
    unfold the_sle. destruct (y_sle y) as [l|] eqn:El; [|exact I]. specialize (Hl l El). cbn [bind].
    eapply (pc_seq _ _ (fun x => keepsto priv (ilambda :: sle_mats l) (sle_sps l) hp2 (fst x))).
    { destruct (negb _); [now apply sle_solve_keeps|now apply sle_solve_limits_keeps]. }
    intros [hp3 ok] [K3 [F3 _]]. cbn [fst] in *. apply pc_any; intros _.
    eapply pc_seq; [apply (mscale_off [ireg0] (hm hp3)); [now left|apply off_refl]|]. intros ms4 F4. apply pc_any; intros ss4.
    eapply pc_seq; [apply (apply_reactions_presents w y K h f _ s HL HA HS HP)|intros s' X; exact X].
    - cbn [hm]. eapply fext_same; [|exact X2]. rewrite F4 by (cbn; intuition discriminate). apply F3, solver_off; [exact Hl|]. unfold iFext, ilambda; lia.
    - cbn [hm]. eapply minv_same; [|exact HM]. rewrite F4 by (cbn; intuition discriminate).
      rewrite F3 by (apply solver_off; [exact Hl|unfold iMinv, ilambda; lia]).
      rewrite F2 by (cbn; intuition discriminate). now rewrite F1 by (cbn; intuition discriminate). }
  intros x [(A & _ & B) C]. split; [exact A|]. split; [eapply minv_same; eauto|]. split; [exact C|exact I].
Qed.
Lemma gen_evaluates w y h : apart y -> listed w y -> attached w y -> shaped w y -> evaluates w y (gen_process_constraints w y) h (fun _ _ _ => True).
Proof.
  intros Hl HL HA HS hp s K f H _ HM HP HF. eapply pc_mono.
  { apply pc_and; [apply (gen_constraints_inv priv); [exact H|exact Hl]|].
    instantiate (1 := fun x => presents w y (with_acc K (acc_of w y f (snd x))) h (snd x)).
    unfold gen_process_constraints.
    eapply pc_seq; [apply gen_gather_keeps, H|]. intros hp1 [K1 [F1 _]].
    eapply pc_seq; [apply pc_and; [apply gen_right_keeps, K1|apply (gen_right_fext _ _ _ _ f K1 HF)]|]. intros hp2 [[K2 [F2 _]] X2].
    unfold the_sle. destruct (y_sle y) as [l|] eqn:El; [|exact I]. specialize (Hl l El). cbn [bind].
    eapply pc_seq; [apply (sle_solve_keeps priv); [exact Hl|exact K2]|].
    intros [hp3 ok] [K3 [F3 _]]. cbn [fst] in *. apply pc_any; intros _. apply pc_any; intros ss4.
    eapply pc_seq; [apply (apply_reactions_presents w y K h f _ s HL HA HS HP)|intros s' X; exact X].
    - cbn [hm]. eapply fext_same; [|exact X2]. apply F3, solver_off; [exact Hl|]. unfold iFext, ilambda; lia.
    - cbn [hm]. eapply minv_same; [|exact HM].
      rewrite F3 by (apply solver_off; [exact Hl|unfold iMinv, ilambda; lia]).
      rewrite F2 by (cbn; intuition discriminate). now rewrite F1 by (cbn; intuition discriminate). }
  intros x [(A & _ & B) C]. split; [exact A|]. split; [eapply minv_same; eauto|]. split; [exact C|exact I].
Qed.

(** ** integration *)
Definition moved_kin (z : scheme) (h : cell tg) (K : kin tg) : kin tg :=
  let v := fun b d => cadd (k_v K b d) (cmul (k_a K b d) h) in
  mkKin (fun b d => cadd (k_q K b d) (cmul (match z with Symplectic => v b d | Explicit => k_v K b d end) h)) v (k_a K).
Lemma solve_presents z w y K h0 h (s : st) : presents w y K h0 s ->
  wp (ode_solve (ode_of z h) s) (fun x => fst x = ode_of z h /\ presents w y (moved_kin z h K) h (snd x) /\
    (forall f i, is_reaction f = true -> ld (snd x) f i = ld s f i)).
Proof.
  intros (P1 & P2 & P3 & P4 & P5).
  assert (SH : shows_st s (s_n s) (ldc s)).
  { split; [reflexivity|]. intros f i Hf Hi. apply (looks_ld _ _ _ _ _ _ _ (looks_sized s P1)). unfold room. now rewrite Hf. }
  assert (G : exists s', ode_solve (ode_of z h) s = Ok (ode_of z h, s') /\
    shows_st s' (s_n s) (match z with Symplectic => nsv_table h (ldc s) | Explicit => euler_table h (ldc s) end) /\ same_beyond s s' (s_n s) /\ s_dt s' = h).
  { destruct z; cbn [ode_of ode_solve].
    - destruct (nsv_steps s (s_n s) (ldc s) h SH) as (s' & E & X). rewrite E. cbn [bind]. eauto.
    - destruct (euler_steps s (s_n s) (ldc s) h SH) as (s' & E & X). rewrite E. cbn [bind]. eauto. }
  destruct G as (s' & E & S & B & D). eapply wp_eq; [exact E|]. cbn [fst snd]. split; [reflexivity|].
  pose proof (pc_elim _ _ _ E (ode_solve_resized (ode_of z h) s)) as R. cbn [snd] in R. pose proof R as (R1 & R2 & _).
  destruct S as [S1 S2]. split.
  - split; [eapply resized_sized; eauto|]. do 2 (split; [congruence|]). split; [exact D|].
    intros i b Eb. destruct (P5 i b Eb) as [PM PD]. pose proof (nth_error_lt _ _ _ Eb) as Hi. fold (body_count y) in Hi.
    assert (C : forall f x, ld s f (Z.of_nat i) = Ok x -> ldc s f i = x) by (intros f x X; unfold ldc; now rewrite X).
    split; [rewrite S2 by (reflexivity || lia); f_equal; destruct z; cbn; now apply C|].
    intros d Hd. destruct (PD d Hd) as (Q1 & Q2 & Q3). apply C in Q1. apply C in Q2. apply C in Q3.
    destruct d as [|[|[|]]]; try lia; cbn [posf velf accf] in *; rewrite !S2 by (reflexivity || lia);
      destruct z; cbn [nsv_table euler_table rate moved_kin k_q k_v k_a]; rewrite ?Q1, ?Q2, ?Q3; auto.
  - intros f i Hf. apply B. now left.
Qed.

(** ** one round of NSV or Euler *)
Definition nice w y : Prop := apart y /\ listed w y /\ attached w y /\ shaped w y /\ all_gentle w y.
Lemma kicks_moved z w y h f (s s' : st) K :
  (forall d c j k, In c (y_cons y) -> j < c_count (w_con w c) -> k < c_bodycount (w_con w c) -> reac w y s' d c j k = reac w y s d c j k) ->
  kicks z w y h f (reac w y s') K (moved_kin z h (with_acc K (acc_of w y f s))).
Proof.
  intros HR. split.
  - intros b d Hb Hd. cbn [moved_kin with_acc k_a]. unfold acc_of. f_equal. unfold total_on.
    assert (G : forall e, In e (slots w y) -> let '(c, j, k) := e in In c (y_cons y) /\ j < c_count (w_con w c) /\ k < c_bodycount (w_con w c)).
    { intros e He. unfold slots in He. apply in_flat_map in He. destruct He as (c & Hc & He). apply in_flat_map in He. destruct He as (j & Hj & He).
      apply in_map_iff in He. destruct He as (k & <- & Hk). apply in_seq in Hj. apply in_seq in Hk. repeat split; auto; lia. }
    generalize (f b d). revert G. generalize (slots w y). induction l as [|[[c j] k] l IH]; intros G x0; cbn [fold_left]; [reflexivity|].
    destruct (G (c, j, k) (or_introl eq_refl)) as (G1 & G2 & G3). rewrite (HR d c j k G1 G2 G3). apply IH. intros e He. apply G. now right.
  - intros b d Hb Hd. cbn [moved_kin with_acc k_a k_v k_q]. destruct z; auto.
Qed.
Lemma reac_same w y (s s' : st) d c j k : (forall f i, is_reaction f = true -> ld s' f i = ld s f i) -> reac w y s' d c j k = reac w y s d c j k.
Proof. intros H. unfold reac, ldc. rewrite H; [reflexivity|]. now destruct d as [|[|]]. Qed.

Lemma round_kicks P z w y pcf h K h0 hp s fuel : nice w y -> evaluates w y pcf h P -> keeps_column priv pcf -> by_slots w y P ->
  hinv priv hp -> column (hm hp ilambda) -> minv_ok w y (hm hp) -> presents w y K h0 s ->
  pc (ode_rounds (S fuel) w y pcf (ode_of z h) hp s) (fun x => fst (fst x) = ode_of z h /\ hinv priv (snd (fst x)) /\ column (hm (snd (fst x)) ilambda) /\ minv_ok w y (hm (snd (fst x))) /\
    exists f K', forces_at w y K h f /\ kicks z w y h f (reac w y (snd x)) K K' /\ presents w y K' h (snd x) /\ P K f (reac w y (snd x))).
Proof.
  intros (Hl & HL & HA & HS & HG) HE HC HX H HL1 HM HP. cbn [ode_rounds].
  assert (E1 : ode_step (ode_of z h) s = Ok (ode_of z h, st_with_dt s h, true)) by (destruct z; reflexivity). rewrite E1. cbn [bind].
  pose proof (presents_dt w y K h0 h s HP) as P1.
  destruct (process_forces w y (st_with_dt s h)) as [s2| | |] eqn:E2; cbn [bind pc]; auto.
  pose proof (pc_elim _ _ _ E2 (process_forces_alters w y _ HG)) as A2.
  pose proof (presents_forces _ _ _ _ _ _ A2 P1) as P2.
  set (f := frc w s2).
  assert (F2 : forced w y f s2) by (intros i b d Eb Hd; eapply frc_ld; eauto).
  eapply pc_seq; [apply pc_and; [apply (HE hp s2 K f H HL1 HM P2 F2)|apply (HC hp s2 H HL1)]|]. intros [hp3 s3] ((H3 & M3 & P3 & Q3) & C3). cbn [fst snd] in *.
  pose proof (solve_presents z w y _ h h s3 P3) as G. apply wp_ok in G. destruct G as ([o4 s4] & E4 & O4 & P4 & R4).
  rewrite E4. cbn [bind pc fst snd] in *. split; [exact O4|]. split; [exact H3|]. split; [exact C3|]. split; [exact M3|].
  exists f, (moved_kin z h (with_acc K (acc_of w y f s3))). split; [|split; [|split; [exact P4|]]].
  - intros f' Hf' b d Hb Hd. apply In_nth_error in Hb. destruct Hb as [i Ei].
    destruct (Hf' (st_with_dt s h) P1) as (s2' & E2' & F'). rewrite E2 in E2'. injection E2' as <-.
    specialize (F2 i b d Ei Hd). rewrite (F' i b d Ei Hd) in F2. congruence.
  - apply kicks_moved. intros d c j k _ _ _. now apply reac_same.
  - eapply HX; [|exact Q3]. intros d c j k. now apply reac_same.
Qed.

(** ** many steps *)
Definition is_scheme (z : scheme) (o : ode tg) : Prop := exists h, o = ode_of z h.
Lemma motion_0 P z w y h K F : motion_by P z w y h 0 K K F.
Proof. exists (fun _ => K), (fun _ _ _ => cofZ 0), (fun _ _ _ _ _ => cofZ 0). repeat split; intros; lia. Qed.
Lemma motion_S P z w y h n K0 K1 K2 F1 F2 f : motion_by P z w y h n K0 K1 F1 -> forces_at w y K1 h f -> kicks z w y h f F2 K1 K2 -> P K1 f F2 ->
  motion_by P z w y h (S n) K0 K2 F2.
Proof.
  intros (Ks & fs & Fs & A & B & C & D) Hf Hk HP.
  exists (fun i => if Nat.leb i n then Ks i else K2), (fun i => if Nat.ltb i n then fs i else f), (fun i => if Nat.ltb i n then Fs i else F2).
  split; [exact A|]. split; [destruct (Nat.leb_spec (S n) n); [lia|reflexivity]|]. split.
  - intros i Hi. destruct (Nat.leb_spec i n); [|lia]. destruct (Nat.ltb_spec i n).
    + destruct (Nat.leb_spec (S i) n); [|lia]. apply C. lia.
    + assert (i = n) by lia. subst i. destruct (Nat.leb_spec (S n) n); [lia|]. rewrite B. auto.
  - intros _. cbn. rewrite Nat.sub_0_r. destruct (Nat.ltb_spec n n); [lia|reflexivity].
Qed.
Lemma steps_motion P z w y pcf dt K0 h0 n o hp s : nice w y ->
  evaluates w y (pcf (cdiv dt (cofZ (Z.of_nat n)))) (cdiv dt (cofZ (Z.of_nat n))) P -> keeps_column priv (pcf (cdiv dt (cofZ (Z.of_nat n)))) -> by_slots w y P -> is_scheme z o ->
  hinv priv hp -> column (hm hp ilambda) -> minv_ok w y (hm hp) -> presents w y K0 h0 s ->
  pc (ode_steps n dt w y pcf o hp s) (fun x => is_scheme z (fst (fst x)) /\ hinv priv (snd (fst x)) /\
    exists K h, presents w y K h (snd x) /\ motion_by P z w y (cdiv dt (cofZ (Z.of_nat n))) n K0 K (reac w y (snd x))).
Proof.
  intros HN HE HC HX Ho H HL1 HM HP. unfold ode_steps. cbv zeta. set (h := cdiv dt (cofZ (Z.of_nat n))) in *.
  assert (G : pc (for_ n (fun _ '(o, hp, s) =>
      let* o := ode_start o s h in
      let* (o, hp, s) := ode_rounds 8 w y (pcf h) o hp s in
      Ok (ode_end o, hp, s)) (o, hp, s)) (fun x => is_scheme z (fst (fst x)) /\ hinv priv (snd (fst x)) /\ column (hm (snd (fst x)) ilambda) /\ minv_ok w y (hm (snd (fst x))) /\
    exists K h1, presents w y K h1 (snd x) /\ motion_by P z w y h n K0 K (reac w y (snd x)))).
  2:{ eapply pc_mono; [exact G|]. intros x (A & B & _ & _ & C). auto. }
  unfold for_. apply (for_from_pci _ (fun i x => is_scheme z (fst (fst x)) /\ hinv priv (snd (fst x)) /\ column (hm (snd (fst x)) ilambda) /\ minv_ok w y (hm (snd (fst x))) /\
    exists K h1, presents w y K h1 (snd x) /\ motion_by P z w y h i K0 K (reac w y (snd x))) n 0).
  - clear o hp s Ho H HL1 HM HP. intros i [[o hp] s] Hi ([h1 Eo] & H & HL1 & HM & K & h2 & HP & HK). cbn [fst snd] in *. subst o.
    assert (E : ode_start (ode_of z h1) s h = Ok (ode_of z h)) by (destruct z; reflexivity). rewrite E. cbn [bind].
    eapply pc_seq; [apply (round_kicks P z w y (pcf h) h K h2 hp s 7 HN HE HC HX H HL1 HM HP)|].
    intros [[o1 hp1] s1] (O1 & H1 & C1 & M1 & f & K1 & F1 & Q1 & P1 & R1). cbn [fst snd pc] in *. subst o1.
    split; [exists h; destruct z; reflexivity|]. split; [exact H1|]. split; [exact C1|]. split; [exact M1|]. exists K1, h. split; [exact P1|].
    eapply motion_S; eauto.
  - cbn [fst snd]. split; [exact Ho|]. split; [exact H|]. split; [exact HL1|]. split; [exact HM|]. exists K0, h0. split; [exact HP|apply motion_0].
Qed.

(** ** process *)
Lemma con_evs_has w (l : list nat) c j k : In c l -> j < c_count (w_con w c) -> k < c_bodycount (w_con w c) ->
  forall r, exists r', In (c, j, k, r') (all_evs w l r).
Proof.
  intros Hc Hj Hk. induction l as [|a l IH]; [contradiction|]. intros r. cbn [all_evs]. destruct Hc as [->|Hc].
  - exists (r + j). apply in_app_iff. left. unfold con_evs. apply in_flat_map. exists j. split; [apply in_seq; lia|].
    unfold row_evs. apply in_map_iff. exists k. split; [reflexivity|apply in_seq; lia].
  - destruct (IH Hc (r + c_count (w_con w a))) as [r' H]. exists r'. apply in_app_iff. now right.
Qed.
Lemma propagate_tells w y K h (s : st) at_ F : listed w y -> shaped w y -> presents w y K h s ->
  (forall c j k, In c (y_cons y) -> j < c_count (w_con w c) -> k < c_bodycount (w_con w c) ->
     at_ (row0 w y c + j) k < s_nc s * 2 /\ forall d, d < 3 -> ldc s (reaf d) (at_ (row0 w y c + j) k) = F d c j k) ->
  wp (let* w := bodies_back y s w in forces_back at_ y s w) (fun w' =>
    arrives w' y K /\
    reports w w' y F).
Proof.
  intros HL HS HP HF. pose proof HP as (P1 & _).
  eapply wp_seq; [apply (bodies_back_moved w y K h s HL HP)|]. intros w1 (A & B & C & D).
  assert (HL1 : listed w1 y). { destruct HL as [L1 L2]. split; [intros i b E; rewrite (proj1 (C b)); now apply L1|intros i c E; rewrite A; now apply L2]. }
  assert (HS1 : shaped w1 y) by (intros c Hc; rewrite A; now apply HS).
  assert (R0 : forall c, row0 w1 y c = row0 w y c).
  { intros c. unfold row0, offset. rewrite A. clear -A. generalize (firstn (Z.to_nat (c_index (w_con w c))) (y_cons y)).
    induction l as [|x l IH]; cbn; [reflexivity|]. now rewrite A, IH. }
  eapply wp_mono; [apply (forces_back_told _ _ _ _ w1 y s at_ F (looks_sized s P1) HL1 HS1)|].
  - intros c j k Hc Hj Hk. rewrite A in Hj, Hk. rewrite R0. now apply HF.
  - intros w2 (T1 & T2 & T3 & T4). split; [intros b d Hb Hd; rewrite T1; now apply D|].
    intros c j k d Hc Hj Hk Hd. rewrite <- A in Hj, Hk. destruct (con_evs_has w1 (y_cons y) c j k Hc Hj Hk 0) as [r Hr].
    exact (T4 (c, j, k, r) d Hr Hd).
Qed.

Lemma same_kind_presents w y y' K h s : y_bodies y' = y_bodies y -> y_cons y' = y_cons y -> presents w y' K h s -> presents w y K h s.
Proof. intros A B (P1 & P2 & P3 & P4 & P5). unfold presents, body_count, full_count in *. rewrite A, B in *. auto. Qed.

(** the bodies after the call moved by [n] rounds, and the forces reported are
    those at the places [at_] *)
Definition outcome P z w y h n at_ (w' : world tg) : Prop :=
  exists K F (s : st), motion_by P z w y h n (kin_of w) K (reac w y s) /\
    arrives w' y K /\
    reports w w' y F /\ sized s /\ full_count w y <= s_nc s /\
    (forall c j k d, In c (y_cons y) -> j < c_count (w_con w c) -> k < c_bodycount (w_con w c) -> d < 3 ->
      F d c j k = ldc s (reaf d) (at_ (row0 w y c + j) k)).
Lemma opt_process_motion P dt n t w y w' y' : hinv priv (y_heap y) -> column (hm (y_heap y) ilambda) -> sized (y_state y) -> nice w y ->
  (forall s0, let y0 := with_state y s0 in let h := cdiv dt (cofZ (Z.of_nat n)) in evaluates w y0 (opt_process_constraints w y0 h) h P) -> by_slots w y P ->
  (exists o, y_ode y = Some o /\ is_scheme Symplectic o) ->
  opt_process dt n t w y = Ok (w', y') ->
  outcome P Symplectic w y (cdiv dt (cofZ (Z.of_nat n))) n (fun i k => i * 2 + k) w'.
Proof.
  intros H HL1 Hs HN HE HX (o & Eo & Ho) E. unfold opt_process in E. destruct HN as (Hl & HL & HA & HS & HG).
  pose proof (populate_state_presents w y Hs HS) as X. apply wp_ok in X. destruct X as (s0 & E0 & h0 & P0). rewrite E0 in E. cbn [bind] in E.
  set (y0 := with_state y s0) in E.
  pose proof (populate_mass_spec false w y0 (hm (y_heap y0)) ltac:(eapply wf_weaken; apply H) ltac:(eapply wf_weaken; apply H)) as X. apply wp_ok in X.
  destruct X as (ms & Em & _ & _ & Mm). rewrite Em in E. cbn [bind] in E. change (the_ode y0) with (the_ode y) in E.
  unfold the_ode in E. rewrite Eo in E. cbn [bind] in E.
  pose proof (pc_elim _ _ _ Em (populate_mass_wfs priv w y0 _ (proj1 H))) as Wm.
  pose proof (pc_elim _ _ _ Em (populate_mass_column w y0 (hm (y_heap y0)) HL1)) as Cm.
  destruct (ode_steps _ _ _ _ _ _ _ _) as [[[o1 hp1] s1]| | |] eqn:E1; try discriminate. cbn [bind] in E.
  assert (N0 : nice w y0) by (exact (conj Hl (conj HL (conj HA (conj HS HG))))).
  pose proof (pc_elim _ _ _ E1 (steps_motion P Symplectic w y0 (opt_process_constraints w y0) dt (kin_of w) h0 n o (with_hm (y_heap y0) ms) s0 N0
    (HE s0) (opt_constraints_column priv w y0 _ Hl) HX Ho ltac:(split; [exact Wm|apply H]) Cm Mm P0)) as (O1 & H1 & K & h & P1 & M1). cbn [fst snd] in *.
  set (y1 := with_ode _ _) in E.
  pose proof (propagate_tells w y1 K h s1 (fun i k => i * 2 + k) (reac w y s1) HL HS P1) as X. apply wp_ok in X.
  - destruct X as (w2 & E2 & B2 & T2). unfold opt_propagate in E. rewrite E2 in E. cbn [bind] in E.
    destruct (record_profile y1 t) as [y2| | |]; try discriminate. cbn [bind] in E. injection E as <- _.
    exists K, (reac w y s1), s1. split; [exact M1|]. split; [exact B2|]. split; [exact T2|]. destruct P1 as (Q1 & Q2 & Q3 & _).
    split; [exact Q1|]. split; [exact Q3|]. reflexivity.
  - intros c j k Hc Hj Hk. split; [|reflexivity]. destruct P1 as (Q1 & Q2 & Q3 & _). apply In_nth_error in Hc. destruct Hc as [i Ei].
    rewrite (row0_at w y1 i c HL Ei). pose proof (row_lt w y1 i c j Ei Hj). destruct (HS c (nth_error_In _ _ Ei)) as [_ B2].
    change (full_count w y1) with (full_count w y0) in *. lia.
Qed.
Lemma gen_process_motion P z dt n t w y w' y' : hinv priv (y_heap y) -> column (hm (y_heap y) ilambda) -> sized (y_state y) -> nice w y ->
  (forall s0, let y0 := with_state y s0 in let h := cdiv dt (cofZ (Z.of_nat n)) in evaluates w y0 (gen_process_constraints w y0) h P) -> by_slots w y P ->
  (exists o, y_ode y = Some o /\ is_scheme z o) ->
  gen_process dt n t w y = Ok (w', y') ->
  outcome P z w y (cdiv dt (cofZ (Z.of_nat n))) n (fun i k => i) w'.
Proof.
  intros H HL1 Hs HN HE HX (o & Eo & Ho) E. unfold gen_process in E. destruct HN as (Hl & HL & HA & HS & HG).
  pose proof (populate_state_presents w y Hs HS) as X. apply wp_ok in X. destruct X as (s0 & E0 & h0 & P0). rewrite E0 in E. cbn [bind] in E.
  set (y0 := with_state y s0) in E.
  pose proof (populate_mass_spec false w y0 (hm (y_heap y0)) ltac:(eapply wf_weaken; apply H) ltac:(eapply wf_weaken; apply H)) as X. apply wp_ok in X.
  destruct X as (ms & Em & _ & _ & Mm). rewrite Em in E. cbn [bind] in E.
  pose proof (pc_elim _ _ _ Em (populate_mass_wfs priv w y0 _ (proj1 H))) as Wm.
  pose proof (pc_elim _ _ _ Em (populate_mass_column w y0 (hm (y_heap y0)) HL1)) as Cm.
  assert (N0 : nice w y0) by (exact (conj Hl (conj HL (conj HA (conj HS HG))))).
  match type of E with bind ?x _ = _ => destruct x as [[y1 s1]| | |] eqn:E1 end; try discriminate. cbn [bind] in E.
  assert (G : y_bodies y1 = y_bodies y /\ y_cons y1 = y_cons y /\
    exists K h, presents w y K h s1 /\ motion_by P z w y (cdiv dt (cofZ (Z.of_nat n))) n (kin_of w) K (reac w y s1)).
  { destruct n as [|n'].
    - injection E1 as <- <-. split; [reflexivity|]. split; [reflexivity|]. exists (kin_of w), h0. split; [exact P0|apply motion_0].
    - unfold the_ode in E1. change (y_ode y0) with (y_ode y) in E1. rewrite Eo in E1. cbn [bind] in E1.
      destruct (ode_steps _ _ _ _ _ _ _ _) as [[[o1 hp1] s1']| | |] eqn:E2; try discriminate. cbn [bind] in E1. injection E1 as <- <-.
      pose proof (pc_elim _ _ _ E2 (steps_motion P z w y0 (fun _ => gen_process_constraints w y0) dt (kin_of w) h0 (S n') o (with_hm (y_heap y0) ms) s0 N0
        (HE s0) (gen_constraints_column priv w y0 Hl) HX Ho ltac:(split; [exact Wm|apply H]) Cm Mm P0)) as (O1 & H1 & K & h & P1 & M1). cbn [fst snd] in *.
      split; [reflexivity|]. split; [reflexivity|]. exists K, h. split; [exact P1|exact M1]. }
  destruct G as (B1 & C1 & K & h & P1 & M1).
  pose proof (propagate_tells w y K h s1 (fun i k => i) (fun d c j k => ldc s1 (reaf d) (row0 w y c + j)) HL HS P1) as X. apply wp_ok in X.
  - destruct X as (w2 & E2 & B2 & T2). unfold gen_propagate in E.
    assert (EQ : (let* w := bodies_back y1 s1 w in forces_back (fun i_f _ => i_f) y1 s1 w) = (let* w := bodies_back y s1 w in forces_back (fun i_f _ => i_f) y s1 w)).
    { unfold bodies_back, forces_back, body_count, con_count. now rewrite B1, C1. }
    rewrite EQ, E2 in E. cbn [bind] in E.
    destruct (record_profile y1 t) as [y2| | |]; try discriminate. cbn [bind] in E. injection E as <- _.
    exists K, (fun d c j k => ldc s1 (reaf d) (row0 w y c + j)), s1. split; [exact M1|]. split; [exact B2|]. split; [exact T2|].
    destruct P1 as (Q1 & Q2 & Q3 & _). split; [exact Q1|]. split; [exact Q3|]. reflexivity.
  - intros c j k Hc Hj Hk. split; [|reflexivity]. destruct P1 as (Q1 & Q2 & Q3 & _). apply In_nth_error in Hc. destruct Hc as [i Ei].
    rewrite (row0_at w y i c HL Ei). pose proof (row_lt w y i c j Ei Hj). lia.
Qed.

(** ** reachable systems *)
Lemma reach_nice k m w y : yreach k priv m w y -> attached w y -> shaped w y -> all_gentle w y -> nice w y.
Proof.
  intros H HA HS HG. destruct (yreach_inv priv k m w y H) as (_ & _ & Hl & _).
  split; [exact Hl|]. split; [eapply reg_listed, yreach_reg; eauto|]. auto.
Qed.
Lemma opt_motion_by P m dt n t w y w' y' : yreach Optimized priv m w y -> attached w y -> shaped w y -> all_gentle w y ->
  (forall s0, let y0 := with_state y s0 in let h := cdiv dt (cofZ (Z.of_nat n)) in evaluates w y0 (opt_process_constraints w y0 h) h P) -> by_slots w y P ->
  process Optimized dt n t w y = Ok (w', y') ->
  exists K F, motion_by P Symplectic w y (cdiv dt (cofZ (Z.of_nat n))) n (kin_of w) K F /\ arrives w' y K /\ reports w w' y F.
Proof.
  intros H HA HS HG HE HX E. pose proof (yreach_inv priv _ m w y H) as (Hh & Hs & Hl & Hk). destruct (Hk eq_refl) as (o & Eo & No).
  assert (So : is_scheme Symplectic o) by (destruct o; try contradiction; eexists; reflexivity).
  destruct (opt_process_motion P dt n t w y w' y' Hh (yreach_column priv _ m w y H) Hs (reach_nice _ _ _ _ H HA HS HG) HE HX (ex_intro _ o (conj Eo So)) E) as (K & F & s & M & A & T & _ & _ & X).
  exists K, (reac w y s). split; [exact M|]. split; [exact A|]. intros c j k d Hc Hj Hk' Hd. rewrite (T c j k d Hc Hj Hk' Hd). now apply X.
Qed.
Lemma opt_evaluates_any w y dt n s0 : nice w y -> let y0 := with_state y s0 in let h := cdiv dt (cofZ (Z.of_nat n)) in
  evaluates w y0 (opt_process_constraints w y0 h) h (fun _ _ _ => True).
Proof. intros (Hl & HL & HA & HS & _). exact (opt_evaluates w (with_state y s0) _ _ Hl HL HA HS). Qed.
Lemma gen_evaluates_any w y dt n s0 : nice w y -> let y0 := with_state y s0 in let h := cdiv dt (cofZ (Z.of_nat n)) in
  evaluates w y0 (gen_process_constraints w y0) h (fun _ _ _ => True).
Proof. intros (Hl & HL & HA & HS & _). exact (gen_evaluates w (with_state y s0) _ Hl HL HA HS). Qed.
Lemma opt_motion m dt n t w y w' y' : yreach Optimized priv m w y -> attached w y -> shaped w y -> all_gentle w y ->
  process Optimized dt n t w y = Ok (w', y') ->
  exists K F, motion Symplectic w y (cdiv dt (cofZ (Z.of_nat n))) n (kin_of w) K F /\ arrives w' y K /\ reports w w' y F.
Proof.
  intros H HA HS HG E. eapply opt_motion_by; eauto; [|intros ? ? ? ? _ _; exact I].
  intros s0. apply opt_evaluates_any. eapply reach_nice; eauto.
Qed.
Lemma gen_motion z m dt n t w y w' y' : yreach Generic priv m w y -> attached w y -> shaped w y -> all_gentle w y ->
  (exists h, y_ode y = Some (ode_of z h)) ->
  process Generic dt n t w y = Ok (w', y') ->
  exists K F, motion z w y (cdiv dt (cofZ (Z.of_nat n))) n (kin_of w) K F /\ arrives w' y K.
Proof.
  intros H HA HS HG [h0 Eo] E. pose proof (yreach_inv priv _ m w y H) as (Hh & Hs & Hl & Hk).
  pose proof (reach_nice _ _ _ _ H HA HS HG) as HN.
  destruct (gen_process_motion (fun _ _ _ => True) z dt n t w y w' y' Hh (yreach_column priv _ m w y H) Hs HN (fun s0 => gen_evaluates_any w y dt n s0 HN) ltac:(intros ? ? ? ? _ _; exact I) (ex_intro _ _ (conj Eo (ex_intro _ h0 eq_refl))) E) as (K & F & s & M & A & T & _ & _ & X).
  exists K, (reac w y s). split; [exact M|exact A].
Qed.
(** what the generic system reports: the force of row r is taken from row r/2,
    slot r mod 2, whatever the slot *)
Lemma gen_reports z m dt n t w y w' y' : yreach Generic priv m w y -> attached w y -> shaped w y -> all_gentle w y ->
  (exists h, y_ode y = Some (ode_of z h)) ->
  process Generic dt n t w y = Ok (w', y') ->
  exists K F, motion z w y (cdiv dt (cofZ (Z.of_nat n))) n (kin_of w) K F /\ arrives w' y K /\
    forall r c j k c' j' d, nth_error (row_list w y) r = Some (c, j) -> k < c_bodycount (w_con w c) ->
      nth_error (row_list w y) (r / 2) = Some (c', j') -> r mod 2 < c_bodycount (w_con w c') -> d < 3 ->
      c_force (w_con w' c) d j k = F d c' j' (r mod 2).
Proof.
  intros H HA HS HG [h0 Eo] E. pose proof (yreach_inv priv _ m w y H) as (Hh & Hs & Hl & Hk).
  pose proof (reach_nice _ _ _ _ H HA HS HG) as HN.
  destruct (gen_process_motion (fun _ _ _ => True) z dt n t w y w' y' Hh (yreach_column priv _ m w y H) Hs HN (fun s0 => gen_evaluates_any w y dt n s0 HN) ltac:(intros ? ? ? ? _ _; exact I) (ex_intro _ _ (conj Eo (ex_intro _ h0 eq_refl))) E) as (K & F & s & M & A & T & _ & _ & X).
  exists K, (reac w y s). split; [exact M|]. split; [exact A|]. intros r c j k c' j' d R1 Hb R2 Hb' Hd. destruct HN as (_ & HL & _).
  destruct (row_list_in _ _ _ _ _ R1) as (i & Ei & Hj & Er). destruct (row_list_in _ _ _ _ _ R2) as (i' & Ei' & Hj' & Er').
  pose proof (nth_error_In _ _ Ei) as Ic. rewrite (T c j k d Ic Hj Hb Hd), (X c j k d Ic Hj Hb Hd). unfold reac.
  rewrite (row0_at w y i c HL Ei), (row0_at w y i' c' HL Ei'), <- Er, <- Er'. f_equal. rewrite (Nat.div_mod r 2) at 1 by lia. lia.
Qed.

(** ** free bodies *)
Lemma total_unbound w y F b x0 : unbound w y b -> total_on w y F b x0 = x0.
Proof.
  intros U. unfold total_on. assert (G : forall e, In e (slots w y) -> binds w b e = false).
  { intros e He. unfold slots in He. apply in_flat_map in He. destruct He as (c & Hc & He). apply in_flat_map in He. destruct He as (j & Hj & He).
    apply in_map_iff in He. destruct He as (k & <- & Hk). apply in_seq in Hk. cbn [binds]. specialize (U c k Hc ltac:(lia)).
    destruct (c_bodies (w_con w c) k) as [b'|]; [|reflexivity]. destruct (Nat.eqb_spec b' b); [congruence|reflexivity]. }
  revert G. generalize (slots w y). induction l as [|e l IH]; intros G; cbn [fold_left]; [reflexivity|].
  rewrite (G e (or_introl eq_refl)). apply IH. intros; apply G; now right.
Qed.
Lemma motion_free P z w y h n K0 Kn F b : unbound w y b -> In b (y_bodies y) -> motion_by P z w y h n K0 Kn F ->
  exists (Ks : nat -> kin tg) fs, Ks 0 = K0 /\ Ks n = Kn /\ forall i, i < n -> forces_at w y (Ks i) h (fs i) /\
    moves z y h (Ks i) (Ks (S i)) /\
    forall d, d < 3 -> k_a (Ks (S i)) b d = cmul (fs i b d) (cdiv (cofZ 1) (b_mass (w_body w b) d)).
Proof.
  intros U Hb (Ks & fs & Fs & A & B & C & D). exists Ks, fs. split; [exact A|]. split; [exact B|]. intros i Hi.
  destruct (C i Hi) as (F1 & (N1 & M1) & _). split; [exact F1|]. split; [exact M1|]. intros d Hd.
  rewrite (N1 b d Hb Hd), total_unbound by exact U. reflexivity.
Qed.
Lemma process_motion k z m dt n t w y w' y' : yreach k priv m w y -> attached w y -> shaped w y -> all_gentle w y -> uses k z y ->
  process k dt n t w y = Ok (w', y') ->
  exists K F, motion z w y (cdiv dt (cofZ (Z.of_nat n))) n (kin_of w) K F /\ arrives w' y K.
Proof.
  intros H HA HS HG HU E. destruct k; cbn [uses] in HU.
  - subst z. destruct (opt_motion m dt n t w y w' y' H HA HS HG E) as (K & F & M & A & _). eauto.
  - eapply gen_motion; eauto.
Qed.
Lemma free_bodies k z m dt n t w y w' y' b : yreach k priv m w y -> attached w y -> shaped w y -> all_gentle w y -> uses k z y ->
  process k dt n t w y = Ok (w', y') -> In b (y_bodies y) -> unbound w y b ->
  let h := cdiv dt (cofZ (Z.of_nat n)) in
  exists (Ks : nat -> kin tg) fs, Ks 0 = kin_of w /\ arrives w' y (Ks n) /\
    forall i, i < n -> forces_at w y (Ks i) h (fs i) /\ moves z y h (Ks i) (Ks (S i)) /\
      forall d, d < 3 -> k_a (Ks (S i)) b d = cmul (fs i b d) (cdiv (cofZ 1) (b_mass (w_body w b) d)).
Proof.
  intros H HA HS HG HU E Hb U h. destruct (process_motion k z m dt n t w y w' y' H HA HS HG HU E) as (K & F & M & A).
  destruct (motion_free _ z w y h n (kin_of w) K F b U Hb M) as (Ks & fs & X1 & X2 & X3).
  exists Ks, fs. split; [exact X1|]. split; [now rewrite X2|exact X3].
Qed.
End S.

(** one step, in exact reals *)
Lemma free_step dbg priv k z m (dt : R) t (w : world (RT dbg)) (y : sys (RT dbg)) w' y' b d (f : nat -> nat -> cell (RT dbg)) (x v F mass : R) :
  yreach k priv m w y -> attached w y -> shaped w y -> all_gentle w y -> uses k z y ->
  process k (Some dt : cell (RT dbg)) 1 t w y = Ok (w', y') -> In b (y_bodies y) -> unbound w y b -> d < 3 ->
  pushes w y (kin_of w) (Some dt : cell (RT dbg)) f ->
  b_pos (w_body w b) d = Some x -> b_vel (w_body w b) d = Some v -> f b d = Some F -> b_mass (w_body w b) d = Some mass -> mass <> 0%R ->
  b_vel (w_body w' b) d = Some (v + F / mass * dt)%R /\
  b_pos (w_body w' b) d = Some (x + (match z with Symplectic => v + F / mass * dt | Explicit => v end) * dt)%R.
Proof.
  intros H HA HS HG HU E Hb U Hd HP Ex Ev EF Em Hm.
  destruct (free_bodies priv k z m _ 1 t w y w' y' b H HA HS HG HU E Hb U) as (Ks & fs & A & B & C).
  assert (Eh : cdiv (Some dt : cell (RT dbg)) (cofZ (Z.of_nat 1)) = Some dt).
  { cbn. unfold R_div. destruct (Req_EM_T 1 0); [lra|]. f_equal. field. }
  rewrite Eh in *. destruct (C 0 ltac:(lia)) as (F0 & M0 & N0). specialize (F0 f). rewrite A in F0. specialize (F0 HP b d Hb Hd).
  specialize (N0 d Hd). rewrite F0, EF, Em in N0.
  assert (Ei : cmul (Some F : cell (RT dbg)) (cdiv (cofZ 1) (Some mass : cell (RT dbg))) = Some (F / mass)%R).
  { cbn. unfold R_div. destruct (Req_EM_T mass 0); [contradiction|]. cbn. f_equal. field. exact Hm. }
  rewrite Ei in N0. destruct (M0 b d Hb Hd) as [MV MQ]. destruct (B b d Hb Hd) as [Bq Bv]. rewrite Bq, Bv, MV, MQ, A, N0. cbn [kin_of k_v k_q].
  split; [now rewrite Ev|]. rewrite Ex. destruct z; cbn [k_v kin_of]; [rewrite MV, A, N0; cbn [kin_of k_v]|]; rewrite Ev; reflexivity.
Qed.
