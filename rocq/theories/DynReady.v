(** * processConstraints, given what the linear solver returns. *)

From Coq Require Import Reals.
From Verif Require Import Base Targets Matrix Sparse Sle State Ode Forces Constraints System Logic
  MatrixFacts MatrixOps SpecMatrix MatrixHist SparseFacts SpecSparse SparseHist SpecSle SleHist SleGe
  SpecState StateFacts SpecOde OdeFacts SpecSys RegFacts SysFrame SysInv SysColumn SpecDyn DynState DynReact DynRound DynStep DynGather DynRight.
Local Open Scope nat_scope.

Lemma massert_off {A} tg b (k : unit -> res A) : (asserts_on tg = true -> b = true) -> bind (massert tg b) k = k tt.
Proof. intros H. unfold massert. destruct b; [reflexivity|]. destruct (asserts_on tg); [now discriminate H|reflexivity]. Qed.

Section S.
Context {tg : target}.
Notation st := (sstate tg).
Implicit Types (ms : mats tg) (ss : sps tg) (hp : heap tg) (w : world tg) (y : sys tg) (L : law tg).
Variable priv : nat -> bool.

Lemma blkR_small w y r e : listed w y -> attached w y -> body_count y <= 255 -> r < full_count w y ->
  e < c_bodycount (w_con w (rc w y r)) -> blkR w y r e = Z.of_nat (bi w (rc w y r) e) /\ blkR w y r e <> 255%Z.
Proof.
  intros HL HA HB Hr He. destruct (row_of_lt w y r Hr) as (i & Ec & _).
  destruct (attached_bi w y _ e HL HA (nth_error_In _ _ Ec) He) as (b & _ & _ & Lb & _).
  unfold blkR. destruct (Nat.ltb_spec e (c_bodycount (w_con w (rc w y r)))); [|lia]. unfold to_uint8.
  rewrite Z.mod_small by lia. split; [reflexivity|lia].
Qed.
Lemma row_at w y c j : listed w y -> In c (y_cons y) -> j < c_count (w_con w c) ->
  row0 w y c + j < full_count w y /\ rc w y (row0 w y c + j) = c /\ rj w y (row0 w y c + j) = j.
Proof.
  intros HL Hc Hj. apply In_nth_error in Hc. destruct Hc as [i Ei]. rewrite (row0_at w y i c HL Ei).
  split; [eapply row_lt; eauto|]. now apply row_of_at.
Qed.

(** J, M_inv and F_ext are in place *)
Definition prepared w y (val : nat -> nat -> nat -> cell tg) f hp : Prop :=
  hinv priv hp /\ minv_ok w y (hm hp) /\ fext_ok y f (hm hp) /\ spJ w y val (hs hp sJ).
Lemma prepared_same w y val f hp hp' : prepared w y val f hp -> hinv priv hp' ->
  hm hp' iMinv = hm hp iMinv -> hm hp' iFext = hm hp iFext -> hs hp' sJ = hs hp sJ -> prepared w y val f hp'.
Proof.
  intros (A & B & C & D) H E1 E2 E3. split; [exact H|]. split; [eapply minv_same; eauto|]. split; [eapply fext_same; eauto|]. now rewrite E3.
Qed.

(** the solver's column x, and the reactions it leads to *)
Definition reacted_by w y (val : nat -> nat -> nat -> cell tg) (x : nat -> cell tg) (F : nat -> nat -> nat -> nat -> cell tg) : Prop :=
  forall c j k d, In c (y_cons y) -> j < c_count (w_con w c) -> k < c_bodycount (w_con w c) -> d < 3 ->
    F d c j k = cmul (x (row0 w y c + j)) (val c j (3 * k + d)).
Definition solved w y K h f val x hp' (s' : st) : Prop :=
  hinv priv hp' /\ minv_ok w y (hm hp') /\ presents w y (with_acc K (acc_of w y f s')) h s' /\ reacted_by w y val x (reac w y s').

Lemma finish w y K h f val x hp (s : st) t : listed w y -> attached w y -> shaped w y -> body_count y <= 255 -> presents w y K h s ->
  prepared w y val f hp -> is_mat false (hm hp t) 1 (full_count w y) (fun r _ => x r) ->
  wp (let* ss := sp_left_scale 3 2 (hs hp) (hm hp) sJ t ssreg0 in
      let hp := {| hm := hm hp; hs := ss |} in
      let* s := apply_reactions w y hp s in Ok (hp, s)) (fun z => solved w y K h f val x (fst z) (snd z) /\ hm (fst z) = hm hp).
Proof.
  intros HL HA HS HB HP (H & HM & HF & v & HJ & HV) Hx. pose proof (blkR_inside w y HL HA HS) as HI.
  eapply wp_seq.
  { apply (sp_left_scale_spec 3 2 (hs hp) (hm hp) sJ t ssreg0 (3 * body_count y) (full_count w y) (blkR w y) v x); [discriminate|exact HJ|apply H|exact (blk_lt 3 2 _ _ _ ltac:(lia) HI)|left; eapply is_mat_w; exact Hx|eapply is_mat_h; exact Hx|].
    intros r Hr. rewrite (mget_spec _ _ _ _ _ _ 0 r Hx) by lia. reflexivity. }
  intros ss [O (v' & HS' & HV')]. cbv zeta.
  eapply wp_seq.
  { apply (apply_reactions_known w y K h f _ s v' HL HA HS HP); [exact HF|exact HM|]. intros r k d Hr Hk Hd. cbn [hs].
    eapply sp_get_spec; eauto. }
  intros s' (P' & R'). cbn [wp fst snd hm]. split; [|reflexivity]. split; [|split; [exact HM|split; [exact P'|]]].
  - split; [apply H|]. cbn [hs]. intros i. destruct (Nat.eq_dec i ssreg0) as [->|N]; [apply HS'|]. rewrite O by exact N. apply H.
  - intros c j k d Hc Hj Hk Hd. destruct (HS c Hc) as [_ B2]. rewrite R' by (auto; lia).
    destruct (row_at w y c j HL Hc Hj) as (Rl & Ec & Ej).
    destruct (blkR_small w y (row0 w y c + j) k HL HA HB Rl ltac:(now rewrite Ec)) as [_ N].
    rewrite HV' by (auto; lia). rewrite HV by (rewrite ?Ec; auto). now rewrite Ec, Ej.
Qed.

(** ** optimized *)
Definition opt_sides w y K dt f L (x : nat -> cell tg) : Prop := forall r, r < full_count w y -> exists v,
  (forall e k, e < c_bodycount (w_con w (rc w y r)) -> k < 3 -> v e k = l_J L (rc w y r) (rj w y r) (3 * e + k)) /\
  x r = copp (cadd (cadd (srow 3 2 (blkR w y r) v (Q3 w y dt f K)) (l_vb L (rc w y r) (rj w y r))) (cmul (cdiv (y_bias y) dt) (l_C L (rc w y r) (rj w y r)))).
Definition opt_ready w y K dt f L hp : Prop :=
  prepared w y (l_J L) f hp /\
  (exists b, opt_sides w y K dt f L b /\ is_mat false (hm hp iright) 1 (full_count w y) (fun r _ => b r)) /\
  is_mat false (hm hp ilimits) 2 (full_count w y) (fun r q => cmul (match q with 0 => l_lo L (rc w y r) (rj w y r) | _ => l_hi L (rc w y r) (rj w y r) end) dt).

Lemma opt_readies w y K h dt f L hp (s : st) : listed w y -> attached w y -> shaped w y -> presents w y K h s -> forced w y f s ->
  answers w y K h L -> hinv priv hp -> minv_ok w y (hm hp) ->
  wp (let* hp := opt_gather w y dt hp s in opt_right w y dt hp s) (fun hp' => opt_ready w y K dt f L hp' /\ hm hp' ilambda = hm hp ilambda).
Proof.
  intros HL HA HS HP HF HW H HM.
  pose proof (opt_gather_spec priv w y K h dt L hp s H HL HA HS HP HW) as G. apply wp_ok in G. destruct G as (hp1 & E1 & (v & HJ & HV) & Hvb & HC & Hlim).
  rewrite E1. cbn [bind]. pose proof (pc_elim _ _ _ E1 (opt_gather_keeps priv w y dt hp s H)) as [K1 [F1 _]].
  assert (M1 : minv_ok w y (hm hp1)) by (eapply minv_same; [|exact HM]; apply F1; cbn; intuition discriminate).
  pose proof (opt_right_spec priv w y K h dt f (l_J L) (l_vb L) (l_C L) hp1 s v K1 HL HA HS HP HF M1 HJ HV Hvb HC) as G. apply wp_ok in G.
  destruct G as (hp2 & E2 & S2 & R2). rewrite E2. cbn [wp].
  pose proof (pc_elim _ _ _ E2 (opt_right_keeps priv w y dt hp1 s K1)) as [K2 [F2 _]].
  pose proof (pc_elim _ _ _ E2 (opt_right_fext priv w y dt hp1 s f K1 HF)) as X2.
  split; [split; [|split]|].
  - split; [exact K2|]. split; [eapply minv_same; [|exact M1]; apply F2; cbn; intuition discriminate|]. split; [exact X2|]. rewrite S2. exists v. auto.
  - eexists. split; [|exact R2]. intros r Hr. exists (v r). split; [intros; now apply HV|reflexivity].
  - rewrite F2 by (cbn; intuition discriminate). exact Hlim.
  - rewrite F2, F1 by (cbn; intuition discriminate). reflexivity.
Qed.
(** what a call of the solver does *)
Definition opt_solve (l : sle tg) hp : res (heap tg * bool) :=
  if negb (supports_limits l) then sle_solve l sJ iMinv iright ilambda ilambda hp
  else sle_solve_limits l sJ iMinv iright ilimits ilambda ilambda hp.
Lemma opt_solve_keeps l hp : solver_apart priv l -> hinv priv hp ->
  pc (opt_solve l hp) (fun x => keepsto priv (ilambda :: sle_mats l) (sle_sps l) hp (fst x)).
Proof. intros Hl H. unfold opt_solve. destruct (negb _); [now apply sle_solve_keeps|now apply sle_solve_limits_keeps]. Qed.
Lemma prepared_solve w y val f (l : sle tg) hp hp' : solver_apart priv l -> prepared w y val f hp ->
  keepsto priv (ilambda :: sle_mats l) (sle_sps l) hp hp' -> prepared w y val f hp'.
Proof.
  intros Hl P [K1 [F1 S1]]. eapply prepared_same; [exact P|exact K1|..].
  - apply F1, (solver_off priv); [exact Hl|unfold iMinv, ilambda; lia].
  - apply F1, (solver_off priv); [exact Hl|unfold iFext, ilambda; lia].
  - apply S1. intros X. apply (solver_sps priv l sJ Hl) in X. unfold sJ, sfree in X. lia.
Qed.

Lemma opt_constraints_total w y K h dt f L hp (s : st) l (Q : (nat -> cell tg) -> Prop) :
  listed w y -> attached w y -> shaped w y -> body_count y <= 255 -> presents w y K h s -> forced w y f s ->
  answers w y K h L -> hinv priv hp -> minv_ok w y (hm hp) -> y_sle y = Some l -> solver_apart priv l ->
  (forall hp', opt_ready w y K dt f L hp' -> hm hp' ilambda = hm hp ilambda ->
     wp (opt_solve l hp') (fun z => (asserts_on tg = true -> snd z = true) /\ exists x, is_mat false (hm (fst z) ilambda) 1 (full_count w y) (fun r _ => x r) /\ Q x)) ->
  wp (opt_process_constraints w y dt hp s) (fun z => exists x, Q x /\ solved w y K h f (l_J L) (fun r => cmul (cdiv (cofZ 1) dt) (x r)) (fst z) (snd z) /\
    is_mat false (hm (fst z) ilambda) 1 (full_count w y) (fun r _ => x r)).
Proof.
  intros HL HA HS HB HP HF HW H HM El Hl HQ. unfold opt_process_constraints.
  pose proof (opt_readies w y K h dt f L hp s HL HA HS HP HF HW H HM) as G. apply wp_ok in G. destruct G as (hp2 & E2 & R2 & L2).
  destruct (opt_gather w y dt hp s) as [hp1| | |]; try discriminate. cbn [bind] in *. rewrite E2. cbn [bind].
  unfold the_sle. rewrite El. cbn [bind].
  specialize (HQ hp2 R2 L2). apply wp_ok in HQ. destruct HQ as ([hp3 ok] & E3 & T3 & x & X3 & Qx). cbn [fst snd] in *.
  fold (opt_solve l hp2). rewrite E3. cbn [bind]. rewrite (massert_off _ _ _ T3).
  pose proof (pc_elim _ _ _ E3 (opt_solve_keeps l hp2 Hl (proj1 (proj1 R2)))) as K3. cbn [fst] in K3.
  pose proof (prepared_solve _ _ _ _ _ _ _ Hl (proj1 R2) K3) as P3.
  assert (W : wfs priv (hm hp3)) by apply K3.
  pose proof (mscale_spec (priv ireg0) (hm hp3) ilambda (cdiv (cofZ 1) dt) ireg0 _ _ _ X3 (W ireg0)) as G. apply wp_ok in G. destruct G as (ms4 & E4 & O4 & M4).
  rewrite E4. cbn [bind].
  eapply wp_mono; [apply (finish w y K h f (l_J L) (fun r => cmul (cdiv (cofZ 1) dt) (x r)) {| hm := ms4; hs := hs hp3 |} s ireg0 HL HA HS HB HP)|].
  - eapply prepared_same; [exact P3|..]; cbn [hm hs]; try reflexivity; try (apply O4; discriminate).
    split; [|apply K3]. cbn [hm]. intros i. destruct (Nat.eq_dec i ireg0) as [->|N]; [eapply is_mat_wf; exact M4|]. rewrite O4 by exact N. apply W.
  - cbn [hm]. eapply is_mat_weaken; exact M4.
  - intros z [Z EZ]. exists x. split; [exact Qx|]. split; [exact Z|]. rewrite EZ. cbn [hm]. rewrite O4 by discriminate. exact X3.
Qed.

(** ** generic *)
Definition gen_sides w y K f L (x : nat -> cell tg) : Prop := forall r, r < full_count w y -> exists v vd,
  (forall e k, e < c_bodycount (w_con w (rc w y r)) -> k < 3 -> v e k = l_J L (rc w y r) (rj w y r) (3 * e + k)) /\
  (forall e k, e < c_bodycount (w_con w (rc w y r)) -> k < 3 -> vd e k = l_Jd L (rc w y r) (rj w y r) (3 * e + k)) /\
  x r = csub (csub (csub (copp (srow 3 2 (blkR w y r) vd (V3 y K))) (srow 3 2 (blkR w y r) v (fun c => cmul (W3 w y c) (F3 y f c))))
        (cmul (l_ks L (rc w y r) (rj w y r)) (l_C L (rc w y r) (rj w y r)))) (cmul (l_kd L (rc w y r) (rj w y r)) (srow 3 2 (blkR w y r) v (V3 y K))).
Definition gen_ready w y K f L hp : Prop :=
  prepared w y (l_J L) f hp /\
  (exists b, gen_sides w y K f L b /\ is_mat false (hm hp iright) 1 (full_count w y) (fun r _ => b r)).
Lemma gen_readies w y K h f L hp (s : st) : listed w y -> attached w y -> shaped w y ->
  (forall c, In c (y_cons y) -> 1 <= c_bodycount (w_con w c)) -> presents w y K h s -> forced w y f s ->
  answers w y K h L -> hinv priv hp -> minv_ok w y (hm hp) ->
  wp (let* hp := gen_gather w y hp s in gen_right w y hp s) (fun hp' => gen_ready w y K f L hp' /\ hm hp' ilambda = hm hp ilambda).
Proof.
  intros HL HA HS H1 HP HF HW H HM.
  pose proof (gen_gather_spec priv w y K h L hp s H HL HA HS H1 HP HW) as G. apply wp_ok in G.
  destruct G as (hp1 & E1 & (v & HJ & HV) & (vd & HD & HVD) & Hks & Hkd & HC & HQ).
  rewrite E1. cbn [bind]. pose proof (pc_elim _ _ _ E1 (gen_gather_keeps priv w y hp s H)) as [K1 [F1 _]].
  assert (M1 : minv_ok w y (hm hp1)) by (eapply minv_same; [|exact HM]; apply F1; cbn; intuition discriminate).
  pose proof (gen_right_spec priv w y K h f (l_C L) (l_ks L) (l_kd L) hp1 s v vd K1 HL HA HS HP HF M1 HJ HD Hks Hkd HC HQ) as G. apply wp_ok in G.
  destruct G as (hp2 & E2 & S2 & R2). rewrite E2. cbn [wp].
  pose proof (pc_elim _ _ _ E2 (gen_right_keeps priv w y hp1 s K1)) as [K2 [F2 _]].
  pose proof (pc_elim _ _ _ E2 (gen_right_fext priv w y hp1 s f K1 HF)) as X2.
  split; [split|].
  - split; [exact K2|]. split; [eapply minv_same; [|exact M1]; apply F2; cbn; intuition discriminate|]. split; [exact X2|]. rewrite S2. exists v. auto.
  - eexists. split; [|exact R2]. intros r Hr. exists (v r), (vd r). split; [intros; now apply HV|]. split; [intros; now apply HVD|reflexivity].
  - rewrite F2, F1 by (cbn; intuition discriminate). reflexivity.
Qed.
Lemma gen_constraints_total w y K h f L hp (s : st) l (Q : (nat -> cell tg) -> Prop) :
  listed w y -> attached w y -> shaped w y -> (forall c, In c (y_cons y) -> 1 <= c_bodycount (w_con w c)) ->
  body_count y <= 255 -> presents w y K h s -> forced w y f s ->
  answers w y K h L -> hinv priv hp -> minv_ok w y (hm hp) -> y_sle y = Some l -> solver_apart priv l ->
  (forall hp', gen_ready w y K f L hp' -> hm hp' ilambda = hm hp ilambda ->
     wp (sle_solve l sJ iMinv iright ilambda ilambda hp')
       (fun z => snd z = true /\ exists x, is_mat false (hm (fst z) ilambda) 1 (full_count w y) (fun r _ => x r) /\ Q x)) ->
  wp (gen_process_constraints w y hp s) (fun z => exists x, Q x /\ solved w y K h f (l_J L) x (fst z) (snd z)).
Proof.
  intros HL HA HS H1 HB HP HF HW H HM El Hl HQ. unfold gen_process_constraints.
  pose proof (gen_readies w y K h f L hp s HL HA HS H1 HP HF HW H HM) as G. apply wp_ok in G. destruct G as (hp2 & E2 & R2 & L2).
  destruct (gen_gather w y hp s) as [hp1| | |]; try discriminate. cbn [bind] in *. rewrite E2. cbn [bind].
  unfold the_sle. rewrite El. cbn [bind].
  specialize (HQ hp2 R2 L2). apply wp_ok in HQ. destruct HQ as ([hp3 ok] & E3 & T3 & x & X3 & Qx). cbn [fst snd] in *. subst ok.
  rewrite E3. cbn [bind]. rewrite bind_massert by reflexivity.
  pose proof (pc_elim _ _ _ E3 (sle_solve_keeps priv l _ _ _ _ _ hp2 Hl (proj1 (proj1 R2)))) as K3. cbn [fst] in K3.
  pose proof (prepared_solve _ _ _ _ _ _ _ Hl (proj1 R2) K3) as P3.
  eapply wp_mono; [apply (finish w y K h f (l_J L) x hp3 s ilambda HL HA HS HB HP P3 X3)|]. intros z [Z _]. eauto.
Qed.

(** ** one step that is known to succeed *)
Lemma round_total z w y pcf h K h0 hp s f fuel (Q : (nat -> nat -> nat -> nat -> cell tg) -> heap tg -> Prop) : nice priv w y -> pushes w y K h f ->
  (forall s, presents w y K h s -> forced w y f s ->
     wp (pcf hp s) (fun x => hinv priv (fst x) /\ minv_ok w y (hm (fst x)) /\ presents w y (with_acc K (acc_of w y f (snd x))) h (snd x) /\ Q (reac w y (snd x)) (fst x))) ->
  (forall F F' hp, (forall d c j k, F d c j k = F' d c j k) -> Q F hp -> Q F' hp) ->
  presents w y K h0 s ->
  wp (ode_rounds (S fuel) w y pcf (ode_of z h) hp s) (fun x => fst (fst x) = ode_of z h /\ hinv priv (snd (fst x)) /\ minv_ok w y (hm (snd (fst x))) /\
    exists K', kicks z w y h f (reac w y (snd x)) K K' /\ presents w y K' h (snd x) /\ Q (reac w y (snd x)) (snd (fst x))).
Proof.
  intros (Hl & HL & HA & HS & HG) HU HE HX HP. cbn [ode_rounds].
  assert (E1 : ode_step (ode_of z h) s = Ok (ode_of z h, st_with_dt s h, true)) by (destruct z; reflexivity). rewrite E1. cbn [bind].
  pose proof (presents_dt w y K h0 h s HP) as P1. destruct (HU _ P1) as (s2 & E2 & F2). rewrite E2. cbn [bind].
  pose proof (pc_elim _ _ _ E2 (process_forces_alters w y _ HG)) as A2.
  pose proof (presents_forces _ _ _ _ _ _ A2 P1) as P2.
  eapply wp_seq; [apply (HE s2 P2 F2)|]. intros [hp3 s3] (H3 & M3 & P3 & Q3). cbn [fst snd] in *.
  pose proof (solve_presents z w y _ h h s3 P3) as G. apply wp_ok in G. destruct G as ([o4 s4] & E4 & O4 & P4 & R4).
  rewrite E4. cbn [bind wp fst snd] in *. split; [exact O4|]. split; [exact H3|]. split; [exact M3|].
  exists (moved_kin z h (with_acc K (acc_of w y f s3))). split; [|split; [exact P4|]].
  - apply kicks_moved. intros d c j k _ _ _. now apply reac_same.
  - eapply HX; [|exact Q3]. intros d c j k. symmetry. now apply reac_same.
Qed.
Lemma record_ok (y : sys tg) t : y_frame y < length (y_prof y) -> exists y', record_profile y t = Ok y'.
Proof.
  intros H. unfold record_profile. destruct (list_set_some (y_prof y) (y_frame y) t H) as (l & E & _). rewrite E. cbn [lift_opt bind]. eauto.
Qed.
Definition good_step (k : flavour) z w y dt f Q : Prop :=
  forall t, exists w' y' K', process k dt 1 t w y = Ok (w', y') /\
    exists F, kicks z w y (cdiv dt (cofZ 1)) f F (kin_of w) K' /\ Q F (y_heap y') /\ arrives w' y K' /\ (k = Optimized -> reports w w' y F).

Lemma opt_total w y dt f (Q : (nat -> nat -> nat -> nat -> cell tg) -> heap tg -> Prop) : hinv priv (y_heap y) -> sized (y_state y) -> nice priv w y ->
  y_frame y < length (y_prof y) -> (exists o, y_ode y = Some o /\ is_scheme Symplectic o) ->
  let h := cdiv dt (cofZ 1) in
  pushes w y (kin_of w) h f ->
  (forall hp s, hinv priv hp -> minv_ok w y (hm hp) -> hm hp ilambda = hm (y_heap y) ilambda -> presents w y (kin_of w) h s -> forced w y f s ->
     wp (opt_process_constraints w y h hp s) (fun x => hinv priv (fst x) /\ minv_ok w y (hm (fst x)) /\
       presents w y (with_acc (kin_of w) (acc_of w y f (snd x))) h (snd x) /\ Q (reac w y (snd x)) (fst x))) ->
  (forall F F' hp, (forall d c j k, F d c j k = F' d c j k) -> Q F hp -> Q F' hp) ->
  good_step Optimized Symplectic w y dt f Q.
Proof.
  intros H Hs HN Hf (o & Eo & [h1 ->]) h HU HE HX t. cbn [process]. unfold opt_process. pose proof HN as (Hl & HL & HA & HS & HG).
  pose proof (populate_state_presents w y Hs HS) as X. apply wp_ok in X. destruct X as (s0 & E0 & h0 & P0). rewrite E0. cbn [bind].
  set (y0 := with_state y s0).
  pose proof (populate_mass_spec false w y0 (hm (y_heap y0)) ltac:(eapply wf_weaken; apply H) ltac:(eapply wf_weaken; apply H)) as X. apply wp_ok in X.
  destruct X as (ms & Em & _ & _ & Mm). rewrite Em. cbn [bind]. change (the_ode y0) with (the_ode y).
  unfold the_ode. rewrite Eo. cbn [bind].
  pose proof (pc_elim _ _ _ Em (populate_mass_wfs priv w y0 _ (proj1 H))) as Wm.
  assert (Hm : hinv priv (with_hm (y_heap y0) ms)) by (split; [exact Wm|apply H]).
  assert (Lm : hm (with_hm (y_heap y0) ms) ilambda = hm (y_heap y) ilambda) by (apply (pc_elim _ _ _ Em (populate_mass_off w y0 _)); cbn; intuition discriminate).
  pose proof (round_total Symplectic w y0 (opt_process_constraints w y0 h) h (kin_of w) h0 (with_hm (y_heap y0) ms) s0 f 7 Q HN HU
    (fun s => HE _ s Hm Mm Lm) HX P0) as G. apply wp_ok in G. destruct G as ([[o1 hp1] s1] & E1 & O1 & H1 & M1 & K' & KK & P1 & QQ). cbn [fst snd] in *.
  assert (ES : ode_steps 1 dt w y0 (opt_process_constraints w y0) (ode_of Symplectic h1) (with_hm (y_heap y0) ms) s0 = Ok (ode_end o1, hp1, s1)).
  { unfold ode_steps, for_. cbn [for_from Nat.sub]. change (Z.of_nat 1) with 1%Z. cbv zeta. fold h.
    change (ode_start (ode_of Symplectic h1) s0 h) with (Ok (ode_of Symplectic h)). cbn [bind]. rewrite E1. reflexivity. }
  rewrite ES. cbn [bind]. set (y1 := with_ode _ _).
  pose proof (propagate_tells w y1 K' h s1 (fun i k => i * 2 + k) (reac w y s1) HL HS P1) as X. apply wp_ok in X.
  - destruct X as (w2 & E2 & B2 & T2). unfold opt_propagate. rewrite E2. cbn [bind].
    destruct (record_ok y1 t Hf) as [y2 E3]. rewrite E3. cbn [bind]. do 3 eexists. split; [reflexivity|].
    pose proof (pc_elim _ _ _ E3 (record_profile_core y1 t)) as (HH & _).
    exists (reac w y s1). split; [exact KK|]. split; [cbn [y_heap]; rewrite HH; exact QQ|]. split; [exact B2|]. intros _. exact T2.
  - intros c j k Hc Hj Hk. split; [|reflexivity]. destruct P1 as (Q1 & Q2 & Q3 & _). apply In_nth_error in Hc. destruct Hc as [i Ei].
    rewrite (row0_at w y1 i c HL Ei). pose proof (row_lt w y1 i c j Ei Hj). destruct (HS c (nth_error_In _ _ Ei)) as [_ B2].
    change (full_count w y1) with (full_count w y0) in *. lia.
Qed.
Lemma gen_total z w y dt f (Q : (nat -> nat -> nat -> nat -> cell tg) -> heap tg -> Prop) : hinv priv (y_heap y) -> sized (y_state y) -> nice priv w y ->
  y_frame y < length (y_prof y) -> (exists o, y_ode y = Some o /\ is_scheme z o) ->
  let h := cdiv dt (cofZ 1) in
  pushes w y (kin_of w) h f ->
  (forall hp s, hinv priv hp -> minv_ok w y (hm hp) -> hm hp ilambda = hm (y_heap y) ilambda -> presents w y (kin_of w) h s -> forced w y f s ->
     wp (gen_process_constraints w y hp s) (fun x => hinv priv (fst x) /\ minv_ok w y (hm (fst x)) /\
       presents w y (with_acc (kin_of w) (acc_of w y f (snd x))) h (snd x) /\ Q (reac w y (snd x)) (fst x))) ->
  (forall F F' hp, (forall d c j k, F d c j k = F' d c j k) -> Q F hp -> Q F' hp) ->
  good_step Generic z w y dt f Q.
Proof.
  intros H Hs HN Hf (o & Eo & [h1 ->]) h HU HE HX t. cbn [process]. unfold gen_process. pose proof HN as (Hl & HL & HA & HS & HG).
  pose proof (populate_state_presents w y Hs HS) as X. apply wp_ok in X. destruct X as (s0 & E0 & h0 & P0). rewrite E0. cbn [bind].
  set (y0 := with_state y s0).
  pose proof (populate_mass_spec false w y0 (hm (y_heap y0)) ltac:(eapply wf_weaken; apply H) ltac:(eapply wf_weaken; apply H)) as X. apply wp_ok in X.
  destruct X as (ms & Em & _ & _ & Mm). rewrite Em. cbn [bind]. change (the_ode y0) with (the_ode y).
  unfold the_ode. rewrite Eo. cbn [bind].
  pose proof (pc_elim _ _ _ Em (populate_mass_wfs priv w y0 _ (proj1 H))) as Wm.
  assert (Hm : hinv priv (with_hm (y_heap y0) ms)) by (split; [exact Wm|apply H]).
  assert (Lm : hm (with_hm (y_heap y0) ms) ilambda = hm (y_heap y) ilambda) by (apply (pc_elim _ _ _ Em (populate_mass_off w y0 _)); cbn; intuition discriminate).
  pose proof (round_total z w y0 (gen_process_constraints w y0) h (kin_of w) h0 (with_hm (y_heap y0) ms) s0 f 7 Q HN HU
    (fun s => HE _ s Hm Mm Lm) HX P0) as G. apply wp_ok in G. destruct G as ([[o1 hp1] s1] & E1 & O1 & H1 & M1 & K' & KK & P1 & QQ). cbn [fst snd] in *.
  assert (ES : ode_steps 1 dt w y0 (fun _ => gen_process_constraints w y0) (ode_of z h1) (with_hm (y_heap y0) ms) s0 = Ok (ode_end o1, hp1, s1)).
  { unfold ode_steps, for_. cbn [for_from Nat.sub]. change (Z.of_nat 1) with 1%Z. cbv zeta. fold h.
    assert (E : ode_start (ode_of z h1) s0 h = Ok (ode_of z h)) by (destruct z; reflexivity). rewrite E. cbn [bind]. rewrite E1. reflexivity. }
  rewrite ES. cbn [bind]. set (y1 := with_ode _ _).
  pose proof (propagate_tells w y1 K' h s1 (fun i k => i) (fun d c j k => ldc s1 (reaf d) (row0 w y c + j)) HL HS P1) as X. apply wp_ok in X.
  - destruct X as (w2 & E2 & B2 & T2). unfold gen_propagate. rewrite E2. cbn [bind].
    destruct (record_ok y1 t Hf) as [y2 E3]. rewrite E3. cbn [bind]. do 3 eexists. split; [reflexivity|].
    pose proof (pc_elim _ _ _ E3 (record_profile_core y1 t)) as (HH & _).
    exists (reac w y s1). split; [exact KK|]. split; [cbn [y_heap]; rewrite HH; exact QQ|]. split; [exact B2|]. discriminate.
  - intros c j k Hc Hj Hk. split; [|reflexivity]. destruct P1 as (Q1 & Q2 & Q3 & _). apply In_nth_error in Hc. destruct Hc as [i Ei].
    rewrite (row0_at w y1 i c HL Ei). pose proof (row_lt w y1 i c j Ei Hj).
    change (full_count w y1) with (full_count w y0) in *. lia.
Qed.
End S.
