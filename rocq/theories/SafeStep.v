(** * process leaves determinate values. *)

From Coq Require Import Reals.
From Verif Require Import Base Targets Matrix Sparse Sle State Ode Forces Constraints System Logic
  MatrixFacts MatrixOps SpecMatrix MatrixHist SparseFacts SpecSparse SparseHist SpecSle SleHist SleGe
  SpecState StateFacts SpecOde OdeFacts SpecSys RegFacts SysFrame SysInv SysColumn SpecDyn DynState DynReact DynRound DynStep DynReady
  SpecRk RkStep RkReal RkOwn SpecSafe SafeCalc SafeForce SafeStage.
From Verif Require GeHist.
Local Open Scope nat_scope.

(** ** the kind of the integrator stays *)
Section K.
Context {tg : target}.
Definition same_ode (o o' : ode tg) : Prop :=
  match o, o' with
  | OdeBase _, OdeBase _ | OdeEuler _, OdeEuler _ | OdeNsv _, OdeNsv _ | OdeRk4 _, OdeRk4 _ => True
  | _, _ => False
  end.
Lemma same_ode_refl o : same_ode o o.
Proof. destruct o; exact I. Qed.
Lemma same_ode_trans o1 o2 o3 : same_ode o1 o2 -> same_ode o2 o3 -> same_ode o1 o3.
Proof. destruct o1, o2, o3; auto; contradiction. Qed.
Lemma start_ode o s h : pc (ode_start o s h) (same_ode o).
Proof. destruct o; cbn [ode_start]; try exact I. destruct (rk4_start r s h); exact I. Qed.
Lemma step_ode o s : pc (ode_step o s) (fun x => same_ode o (fst (fst x))).
Proof. destruct o; cbn [ode_step]; try exact I. destruct (rk4_step r s) as [[[? ?] ?]| | |]; exact I. Qed.
Lemma solve_ode o s : pc (ode_solve o s) (fun x => same_ode o (fst x)).
Proof. destruct o; cbn [ode_solve]; try exact I; [destruct (euler_solve dt s)|destruct (nsv_solve dt s)|destruct (rk4_solve r s) as [[? ?]| | |]]; exact I. Qed.
Lemma end_ode o : same_ode o (ode_end o).
Proof. destruct o; exact I. Qed.
Lemma rounds_ode fuel w y pcf : forall o hp s, pc (ode_rounds fuel w y pcf o hp s) (fun x : ode tg * heap tg * sstate tg => same_ode o (fst (fst x))).
Proof.
  induction fuel as [|fuel IH]; intros o hp s; cbn [ode_rounds]; [exact I|].
  eapply pc_seq; [apply step_ode|]. intros [[o1 s1] done] H1. cbn [fst] in H1.
  destruct (process_forces w y s1) as [s2| | |]; cbn [bind pc]; auto. destruct (pcf hp s2) as [[hp3 s3]| | |]; cbn [bind pc]; auto.
  eapply pc_seq; [apply solve_ode|]. intros [o4 s4] H4. cbn [fst] in H4. assert (H : same_ode o o4) by (eapply same_ode_trans; eauto).
  destruct done; [exact H|]. eapply pc_mono; [apply IH|]. intros x Hx. eapply same_ode_trans; eauto.
Qed.
Lemma steps_ode n dt w y pcf o hp s : pc (ode_steps n dt w y pcf o hp s) (fun x : ode tg * heap tg * sstate tg => same_ode o (fst (fst x))).
Proof.
  unfold ode_steps. cbv zeta. unfold for_. apply (for_from_pc _ (fun x : ode tg * heap tg * sstate tg => same_ode o (fst (fst x)))).
  - intros i [[o1 hp1] s1] H1. cbn [fst] in H1. eapply pc_seq; [apply start_ode|]. intros o2 H2. eapply pc_seq; [apply rounds_ode|].
    intros [[o3 hp3] s3] H3. cbn [pc fst] in *. eapply same_ode_trans; [|apply end_ode]. eapply same_ode_trans; [exact H1|]. eapply same_ode_trans; eauto.
  - apply same_ode_refl.
Qed.
Lemma gen_process_ode dt n t (w : world tg) y w' y' : 0 < n -> gen_process dt n t w y = Ok (w', y') ->
  exists o o', y_ode y = Some o /\ y_ode y' = Some o' /\ same_ode o o'.
Proof.
  intros Hn E. unfold gen_process in E. destruct (populate_state w y) as [s| | |]; try discriminate. cbn [bind] in E.
  destruct (populate_mass w (with_state y s) _) as [ms| | |]; try discriminate. cbn [bind] in E. destruct n as [|n]; [lia|].
  unfold the_ode in E. change (y_ode (with_state y s)) with (y_ode y) in E. destruct (y_ode y) as [o|]; try discriminate. cbn [bind] in E.
  destruct (ode_steps _ _ _ _ _ _ _ _) as [[[o1 hp1] s1]| | |] eqn:E1; try discriminate. cbn [bind] in E.
  pose proof (pc_elim _ _ _ E1 (steps_ode _ _ _ _ _ _ _ _)) as S1. cbn [fst] in S1.
  destruct (gen_propagate _ _ _) as [w2| | |]; try discriminate. cbn [bind] in E.
  destruct (record_profile _ t) as [y2| | |] eqn:E3; try discriminate. cbn [bind] in E. injection E as _ <-.
  pose proof (pc_elim _ _ _ E3 (record_profile_core _ t)) as (_ & _ & _ & EO). exists o, o1. split; [reflexivity|]. split; [now rewrite EO|exact S1].
Qed.
End K.

Section S.
Context {tg : target}.
Hypothesis TA : total_arithmetic tg.
Notation st := (sstate tg).
Implicit Types (hp : heap tg) (w : world tg) (y : sys tg) (K : kin tg).
Variable priv : nat -> bool.

Ltac dd := repeat first [apply GeHist.defined_cofZ|assumption|apply GeHist.defined_add|apply GeHist.defined_sub|
  apply GeHist.defined_mul|apply GeHist.defined_opp|apply (defined_over TA)].

(** what a call of process relies on *)
Definition safe k w y : Prop :=
  nice priv w y /\ body_count y <= 255 /\ masses_set w y /\ 0 < full_count w y /\ (forall c, In c (y_cons y) -> con_set (w_con w c)) /\
  (forall c, In c (y_cons y) -> 1 <= c_bodycount (w_con w c)) /\ (forall g, In g (y_gens y) -> gen_set w y (g_kind (w_gen w g))) /\
  defined (y_bias y) /\ exists l, y_sle y = Some l /\ solver_apart priv l /\ solver_set k l.
Definition pcf_of k w y h : heap tg -> st -> res (heap tg * st) :=
  match k with Optimized => opt_process_constraints w y h | Generic => gen_process_constraints w y end.
Lemma stage_safe k w y K h hp (s : st) : safe k w y -> kin_set y K -> defined h -> hinv priv hp -> lam_set (hm hp ilambda) -> minv_ok w y (hm hp) -> presents w y K h s ->
  hoare (tg := tg) Safe (let* s := process_forces w y s in pcf_of k w y h hp s) (fun x => stage_post priv w y K h x /\ s_n (snd x) = s_n s /\ s_nc (snd x) = s_nc s).
Proof.
  intros ((Hl & HL & HA & HS & HG) & HB & HM & Hm & HC & H1 & HGs & Hy & l & El & Hsa & HX) HK Hh H HLam HI HP.
  pose proof (process_forces_set TA w y K h s HL HK HM HGs HP) as G. apply wp_ok in G. destruct G as (s2 & E2 & P2 & F2). rewrite E2. cbn [bind].
  pose proof (pc_elim _ _ _ E2 (process_forces_alters w y _ HG)) as A2.
  assert (Hs : hoare (tg := tg) Safe (pcf_of k w y h hp s2) (stage_post priv w y K h)).
  { destruct k; [eapply opt_stage; eauto|eapply gen_stage; eauto]. }
  assert (HA3 : pc (pcf_of k w y h hp s2) (fun x => alters reacts s2 (snd x))).
  { destruct k; [eapply pc_mono; [apply (opt_constraints_inv priv w y h hp s2 H Hl)|]|eapply pc_mono; [apply (gen_constraints_inv priv w y hp s2 H Hl)|]]; intros x (_ & X & _); exact X. }
  eapply hoare_mono; [apply hoare_and; [exact Hs|exact HA3]|]. intros x [Q A3]. split; [exact Q|].
  pose proof (alters_resized _ _ _ A2) as (R1 & R2 & _). pose proof (alters_resized _ _ _ A3) as (R3 & R4 & _). split; congruence.
Qed.

(** ** NSV and Euler *)
Definition told w y (s : st) : Prop :=
  forall c j k d, In c (y_cons y) -> j < c_count (w_con w c) -> k < c_bodycount (w_con w c) -> d < 3 -> defined (reac w y s d c j k).
Definition going z w y (i : nat) (x : ode tg * heap tg * st) : Prop :=
  is_scheme z (fst (fst x)) /\ hinv priv (snd (fst x)) /\ lam_set (hm (snd (fst x)) ilambda) /\ minv_ok w y (hm (snd (fst x))) /\
  (exists K h, presents w y K h (snd x) /\ kin_set y K) /\ (0 < i -> told w y (snd x)).
Lemma round_safe k z w y h K h0 hp s fuel : safe k w y -> kin_set y K -> defined h -> hinv priv hp -> lam_set (hm hp ilambda) -> minv_ok w y (hm hp) -> presents w y K h0 s ->
  hoare (tg := tg) Safe (ode_rounds (S fuel) w y (pcf_of k w y h) (ode_of z h) hp s) (fun x => fst (fst x) = ode_of z h /\ going z w y 1 x).
Proof.
  intros HS HK Hh H HLam HI HP. cbn [ode_rounds].
  assert (E1 : ode_step (ode_of z h) s = Ok (ode_of z h, st_with_dt s h, true)) by (destruct z; reflexivity). rewrite E1. cbn [bind].
  pose proof (presents_dt w y K h0 h s HP) as P1.
  pose proof (stage_safe k w y K h hp _ HS HK Hh H HLam HI P1) as G.
  destruct (process_forces w y (st_with_dt s h)) as [s2| | |]; cbn [bind] in *; [|exact G..].
  eapply hoare_seq; [exact G|]. intros [hp3 s3] ((H3 & M3 & L3 & a & P3 & DA & R3) & _). cbn [fst snd] in *.
  pose proof (solve_presents z w y _ h h s3 P3) as G4. apply wp_ok in G4. destruct G4 as ([o4 s4] & E4 & O4 & P4 & R4).
  rewrite E4. cbn [bind fst snd] in *. subst o4. cbn [hoare]. split; [reflexivity|]. split; [exists h; reflexivity|]. cbn [fst snd]. do 3 (split; [assumption|]).
  split.
  - eexists _, h. split; [exact P4|]. intros b d Hb Hd. destruct (HK b d Hb Hd) as (D1 & D2 & _). pose proof (DA b d Hb Hd). cbn [moved_kin with_acc k_q k_v k_a].
    destruct z; repeat split; dd.
  - intros _ c j k' d Hc Hj Hk Hd. rewrite (reac_same w y s3 s4 d c j k' R4). now apply R3.
Qed.
Lemma steps_safe k z w y dt K0 h0 n o hp s : safe k w y -> is_scheme z o -> kin_set y K0 -> defined dt ->
  hinv priv hp -> lam_set (hm hp ilambda) -> minv_ok w y (hm hp) -> presents w y K0 h0 s ->
  hoare (tg := tg) Safe (ode_steps n dt w y (pcf_of k w y) o hp s) (going z w y n).
Proof.
  intros HS Ho HK Hd H HLam HI HP. unfold ode_steps. cbv zeta. set (h := cdiv dt (cofZ (Z.of_nat n))).
  assert (Hh : defined h) by (unfold h; dd). unfold for_. apply (hoare_for Safe _ (going z w y) n 0).
  - clear o hp s Ho H HLam HI HP. intros i [[o hp] s] ([h1 Eo] & H & HLam & HI & (K & h2 & HP & HK1) & _). cbn [fst snd] in *. subst o.
    assert (E : ode_start (ode_of z h1) s h = Ok (ode_of z h)) by (destruct z; reflexivity). rewrite E. cbn [bind].
    eapply hoare_seq; [apply (round_safe k z w y h K h2 hp s 7 HS HK1 Hh H HLam HI HP)|].
    intros [[o1 hp1] s1] (O1 & (A & B & C & D & E1 & F)). cbn [fst snd] in *. subst o1. cbn [hoare].
    split; [cbn [fst]; exists h; destruct z; reflexivity|]. cbn [fst snd]. do 4 (split; [assumption|]). intros _. apply F. lia.
  - split; [exact Ho|]. cbn [fst snd]. do 3 (split; [assumption|]). split; [exists K0, h0; auto|lia].
Qed.

(** ** process *)
Definition safe_out k w y n (x : world tg * sys tg) : Prop :=
  (forall b d, In b (y_bodies y) -> d < 3 -> defined (b_pos (w_body (fst x) b) d) /\ defined (b_vel (w_body (fst x) b) d)) /\
  lam_set (hm (y_heap (snd x)) ilambda) /\
  (k = Optimized -> 0 < n -> forall c j i d, In c (y_cons y) -> j < c_count (w_con w c) -> i < c_bodycount (w_con w c) -> d < 3 -> defined (c_force (w_con (fst x) c) d j i)).
Lemma opt_safe dt n t w y : safe Optimized w y -> kin_set y (kin_of w) -> defined dt -> hinv priv (y_heap y) -> lam_set (hm (y_heap y) ilambda) -> sized (y_state y) ->
  y_frame y < length (y_prof y) -> (exists o, y_ode y = Some o /\ is_scheme Symplectic o) ->
  hoare (tg := tg) Safe (opt_process dt n t w y) (safe_out Optimized w y n).
Proof.
  intros HF HK Hd H HLam Hs Hf (o & Eo & Ho). unfold opt_process. pose proof HF as ((Hl & HL & HA & HS & HG) & _).
  pose proof (populate_state_presents w y Hs HS) as X. apply wp_ok in X. destruct X as (s0 & E0 & h0 & P0). rewrite E0. cbn [bind].
  set (y0 := with_state y s0).
  pose proof (populate_mass_spec false w y0 (hm (y_heap y0)) ltac:(eapply wf_weaken; apply H) ltac:(eapply wf_weaken; apply H)) as X. apply wp_ok in X.
  destruct X as (ms & Em & _ & _ & Mm). rewrite Em. cbn [bind]. change (the_ode y0) with (the_ode y). unfold the_ode. rewrite Eo. cbn [bind].
  pose proof (pc_elim _ _ _ Em (populate_mass_wfs priv w y0 _ (proj1 H))) as Wm.
  assert (Hm : hinv priv (with_hm (y_heap y0) ms)) by (split; [exact Wm|apply H]).
  assert (Lm : lam_set (hm (with_hm (y_heap y0) ms) ilambda)) by (cbn [with_hm hm]; rewrite (pc_elim _ _ _ Em (populate_mass_off w y0 _)) by (cbn; intuition discriminate); exact HLam).
  eapply hoare_seq; [exact (steps_safe Optimized Symplectic w y0 dt (kin_of w) h0 n o (with_hm (y_heap y0) ms) s0 HF Ho HK Hd Hm Lm Mm P0)|].
  intros [[o1 hp1] s1] (O1 & H1 & L1 & M1 & (K & h & P1 & K1) & T1). cbn [fst snd] in *.
  set (y1 := with_ode _ _).
  pose proof (propagate_tells w y1 K h s1 (fun i k => i * 2 + k) (reac w y s1) HL HS P1) as X. apply wp_ok in X.
  - destruct X as (w2 & E2 & B2 & T2). unfold opt_propagate. rewrite E2. cbn [bind].
    destruct (record_ok y1 t Hf) as [y2 E3]. rewrite E3. cbn [bind hoare].
    pose proof (pc_elim _ _ _ E3 (record_profile_core y1 t)) as (HH & _). split; [|split]; cbn [fst snd y_heap].
    + intros b d Hb Hd'. destruct (B2 b d Hb Hd') as [-> ->]. destruct (K1 b d Hb Hd') as (? & ? & _). auto.
    + rewrite HH. exact L1.
    + intros _ Hn c j k d Hc Hj Hk Hd'. rewrite (T2 c j k d Hc Hj Hk Hd'). now apply T1.
  - intros c j k Hc Hj Hk. split; [|reflexivity]. destruct P1 as (Q1 & Q2 & Q3 & _). apply In_nth_error in Hc. destruct Hc as [i Ei].
    rewrite (row0_at w y1 i c HL Ei). pose proof (row_lt w y1 i c j Ei Hj). destruct (HS c (nth_error_In _ _ Ei)) as [_ B2].
    change (full_count w y1) with (full_count w y0) in *. lia.
Qed.
Lemma gen_safe z dt n t w y : safe Generic w y -> kin_set y (kin_of w) -> defined dt -> hinv priv (y_heap y) -> lam_set (hm (y_heap y) ilambda) -> sized (y_state y) ->
  y_frame y < length (y_prof y) -> (exists o, y_ode y = Some o /\ is_scheme z o) ->
  hoare (tg := tg) Safe (gen_process dt n t w y) (safe_out Generic w y n).
Proof.
  intros HF HK Hd H HLam Hs Hf (o & Eo & Ho). unfold gen_process. pose proof HF as ((Hl & HL & HA & HS & HG) & _).
  pose proof (populate_state_presents w y Hs HS) as X. apply wp_ok in X. destruct X as (s0 & E0 & h0 & P0). rewrite E0. cbn [bind].
  set (y0 := with_state y s0).
  pose proof (populate_mass_spec false w y0 (hm (y_heap y0)) ltac:(eapply wf_weaken; apply H) ltac:(eapply wf_weaken; apply H)) as X. apply wp_ok in X.
  destruct X as (ms & Em & _ & _ & Mm). rewrite Em. cbn [bind].
  pose proof (pc_elim _ _ _ Em (populate_mass_wfs priv w y0 _ (proj1 H))) as Wm.
  assert (Hm : hinv priv (with_hm (y_heap y0) ms)) by (split; [exact Wm|apply H]).
  assert (Lm : lam_set (hm (with_hm (y_heap y0) ms) ilambda)) by (cbn [with_hm hm]; rewrite (pc_elim _ _ _ Em (populate_mass_off w y0 _)) by (cbn; intuition discriminate); exact HLam).
  eapply (hoare_seq _ _ _ (fun x => y_bodies (fst x) = y_bodies y /\ y_cons (fst x) = y_cons y /\ y_prof (fst x) = y_prof y /\ y_frame (fst x) = y_frame y /\ lam_set (hm (y_heap (fst x)) ilambda) /\
    exists K h', presents w y K h' (snd x) /\ kin_set y K)).
  - destruct n as [|n'].
    + cbn [hoare fst snd]. do 4 (split; [reflexivity|]). split; [exact Lm|]. exists (kin_of w), h0. auto.
    + unfold the_ode. change (y_ode y0) with (y_ode y). rewrite Eo. cbn [bind].
      eapply hoare_seq; [exact (steps_safe Generic z w y0 dt (kin_of w) h0 (S n') o (with_hm (y_heap y0) ms) s0 HF Ho HK Hd Hm Lm Mm P0)|].
      intros [[o1 hp1] s1] (O1 & H1 & L1 & M1 & (K & h & P1 & K1) & T1). cbn [fst snd hoare] in *. do 4 (split; [reflexivity|]). split; [exact L1|]. exists K, h. auto.
  - intros [y1 s1] (B1 & C1 & R1 & F1 & L1 & K & h' & P1 & K1). cbn [fst snd] in *.
    pose proof (propagate_tells w y K h' s1 (fun i k => i) (fun d c j k => ldc s1 (reaf d) (row0 w y c + j)) HL HS P1) as X. apply wp_ok in X.
    + destruct X as (w2 & E2 & B2 & T2). unfold gen_propagate.
      assert (EQ : (let* w := bodies_back y1 s1 w in forces_back (fun i_f _ => i_f) y1 s1 w) = (let* w := bodies_back y s1 w in forces_back (fun i_f _ => i_f) y s1 w)).
      { unfold bodies_back, forces_back, body_count, con_count. now rewrite B1, C1. }
      rewrite EQ, E2. cbn [bind]. destruct (record_ok y1 t ltac:(now rewrite R1, F1)) as [y2 E3]. rewrite E3. cbn [bind hoare].
      pose proof (pc_elim _ _ _ E3 (record_profile_core y1 t)) as (HH & _). split; [|split]; cbn [fst snd].
      * intros b d Hb Hd'. destruct (B2 b d Hb Hd') as [-> ->]. destruct (K1 b d Hb Hd') as (? & ? & _). auto.
      * rewrite HH. exact L1.
      * discriminate.
    + intros c j k Hc Hj Hk. split; [|reflexivity]. destruct P1 as (Q1 & Q2 & Q3 & _). apply In_nth_error in Hc. destruct Hc as [i Ei].
      rewrite (row0_at w y i c HL Ei). pose proof (row_lt w y i c j Ei Hj). lia.
Qed.

(** ** the fourth-order solver *)
Lemma set_half y K h a : kin_set y K -> defined h -> (forall b d, In b (y_bodies y) -> d < 3 -> defined (a b d)) -> kin_set y (half_way h K a).
Proof. intros HK Hh HA b d Hb Hd. destruct (HK b d Hb Hd) as (D1 & D2 & _). pose proof (HA b d Hb Hd). cbn [half_way k_q k_v k_a]. repeat split; dd. Qed.
Lemma set_whole y K h a : kin_set y K -> defined h -> (forall b d, In b (y_bodies y) -> d < 3 -> defined (a b d)) -> kin_set y (whole_way h K a).
Proof. intros HK Hh HA b d Hb Hd. destruct (HK b d Hb Hd) as (D1 & D2 & _). pose proof (HA b d Hb Hd). cbn [whole_way k_q k_v k_a]. repeat split; dd. Qed.
Definition some_acc y : kin tg -> cell tg -> (nat -> nat -> cell tg) -> Prop := fun _ _ a => forall b d, In b (y_bodies y) -> d < 3 -> defined (a b d).
Lemma rk_stage_safe w y K h : safe Generic w y -> kin_set y K -> defined h ->
  stage_good priv lam_set Safe w y (gen_process_constraints w y) (some_acc y) K h.
Proof.
  intros HF HK Hh hp s H HL HI HP. eapply hoare_mono; [exact (stage_safe Generic w y K h hp s HF HK Hh H HL HI HP)|].
  intros x ((A & B & C & a & D & E & _) & F & G). do 5 (split; [assumption|]). exists a. split; [exact D|exact E].
Qed.
Lemma blend_set h (x x1 x2 x3 x4 : cell tg) : defined h -> defined x -> defined x1 -> defined x2 -> defined x3 -> defined x4 -> defined (blend h x x1 x2 x3 x4).
Proof. intros. unfold blend. dd. Qed.
Lemma rk_safe dt n t w y r : safe Generic w y -> kin_set y (kin_of w) -> defined dt -> hinv priv (y_heap y) -> lam_set (hm (y_heap y) ilambda) -> sized (y_state y) ->
  y_frame y < length (y_prof y) -> y_bodies y <> [] -> y_ode y = Some (OdeRk4 r) -> sized (rk_init r) -> sized (rk_acc r) -> (forall s, populate_state w y = Ok s -> rk_fits r s) ->
  hoare (tg := tg) Safe (gen_process dt n t w y) (safe_out Generic w y n).
Proof.
  intros HF HK Hd H HLam Hs Hf Hb Eo Zi Za Ht. set (h := cdiv dt (cofZ (Z.of_nat n))). assert (Hh : defined h) by (unfold h; dd).
  assert (H2 : defined (cdiv h (cofZ 2))) by dd.
  eapply hoare_mono; [apply (rk_process priv lam_set Safe w y dt n t (some_acc y) (kin_set y) r H HLam Hs (proj1 HF) (fun _ => Hf) Eo Zi Za (fun _ => Ht) Hb HK)|].
  - intros s0 K y0 HI. fold h. assert (F0 : safe Generic w y0) by exact HF.
    assert (RS : forall K h, kin_set y K -> defined h -> stage_good priv lam_set Safe w y0 (gen_process_constraints w y0) (some_acc y) K h)
      by exact (fun K h HK Hh => rk_stage_safe w y0 K h F0 HK Hh).
    split; [apply RS; auto; dd|]. intros a1 A1. assert (I2 : kin_set y (half_way h K a1)) by (apply set_half; auto).
    split; [apply RS; auto|]. intros a2 A2. assert (I3 : kin_set y (half_way h K a2)) by (apply set_half; auto).
    split; [apply RS; auto|]. intros a3 A3. apply RS; auto. apply set_whole; auto.
  - intros K K' HI (a1 & a2 & a3 & a4 & A1 & A2 & A3 & A4 & ->). fold h in A1, A2, A3, A4 |- *. intros b d Hb' Hd'.
    destruct (HI b d Hb' Hd') as (D1 & D2 & _). pose proof (A1 b d Hb' Hd'). pose proof (A2 b d Hb' Hd'). pose proof (A3 b d Hb' Hd'). pose proof (A4 b d Hb' Hd').
    cbn [k_q k_v k_a half_way whole_way]. repeat split; [apply blend_set..|]; dd.
  - intros x ((K & (Ks & B0 & Bn & HS) & HA) & HL). split; [|split; [exact HL|discriminate]].
    assert (I : forall i, i <= n -> kin_set y (Ks i)).
    { induction i as [|i IH]; intros Hi; [rewrite B0; exact HK|]. specialize (IH ltac:(lia)). destruct (HS i ltac:(lia)) as (a1 & a2 & a3 & a4 & A1 & A2 & A3 & A4 & ->).
      fold h in A1, A2, A3, A4 |- *. intros b d Hb' Hd'.
      destruct (IH b d Hb' Hd') as (D1 & D2 & _). pose proof (A1 b d Hb' Hd'). pose proof (A2 b d Hb' Hd'). pose proof (A3 b d Hb' Hd'). pose proof (A4 b d Hb' Hd').
      cbn [k_q k_v k_a half_way whole_way]. repeat split; [apply blend_set..|]; dd. }
    intros b d Hb' Hd'. destruct (HA b d Hb' Hd') as [-> ->]. specialize (I n ltac:(lia)). rewrite Bn in I. destruct (I b d Hb' Hd') as (? & ? & _). auto.
Qed.

(** ** reachable systems *)
Lemma con_shape (c : constraint tg) : con_set c -> 1 <= c_count c <= 3 /\ 1 <= c_bodycount c <= 2.
Proof. intros [E P]. destruct (c_kind c); cbn in E; try contradiction; try discriminate; injection E as <- <-; lia. Qed.
Lemma gens_orderly w y : (forall g, In g (y_gens y) -> gen_set w y (g_kind (w_gen w g))) -> forall g, In g (y_gens y) -> orderly (g_kind (w_gen w g)).
Proof. intros H g Hg. specialize (H g Hg). destruct (g_kind (w_gen w g)); cbn in *; auto; contradiction. Qed.
Lemma lam_multipliers y : lam_set (hm (y_heap y) ilambda) -> multipliers_set y.
Proof. intros [_ H] r c Hr Hc. exact (H r c Hr Hc). Qed.
Lemma multipliers_lam k m w y : yreach k priv m w y -> multipliers_set y -> lam_set (hm (y_heap y) ilambda).
Proof. intros HR H. split; [eapply yreach_column; exact HR|]. intros r c Hr Hc. exact (H r c Hr Hc). Qed.
Lemma determinate_safe k m w y : yreach k priv m w y -> all_determinate k w y -> safe k w y.
Proof.
  intros HR ((HB & HC & HA & HG & Hn & H255 & Hy & _) & l & El & Hl). split.
  - eapply reach_nice; eauto; [|now apply gens_gentle]. intros c Hc. pose proof (con_shape _ (HC c Hc)). lia.
  - split; [exact H255|]. split; [intros b d Hb Hd; now apply HB|]. split.
    { destruct (y_cons y) as [|c l0] eqn:Ec; [congruence|]. pose proof (con_shape _ (HC c (or_introl eq_refl))).
      pose proof (row_lt w y 0 c 0 ltac:(now rewrite Ec) ltac:(lia)). lia. }
    split; [exact HC|]. split; [intros c Hc; pose proof (con_shape _ (HC c Hc)); lia|]. split; [exact HG|]. split; [exact Hy|].
    exists l. split; [exact El|]. split; [|exact Hl]. destruct (yreach_inv priv _ _ _ _ HR) as (_ & _ & X & _). now apply X.
Qed.
Lemma process_safe k m dt n t w y : yreach k priv m w y -> integrator_set priv k y -> all_determinate k w y -> defined dt ->
  hoare (tg := tg) Safe (process k dt n t w y) (safe_out k w y n).
Proof.
  intros HR HI HD Hd. pose proof (determinate_safe _ _ _ _ HR HD) as HF. destruct (yreach_inv priv _ _ _ _ HR) as (H & Hs & _ & Ho).
  pose proof (proj1 (profiling _ _ _ _ _ HR)) as Hf. pose proof HD as ((HB & HC & HA & _ & Hn & _ & _ & HM) & _).
  pose proof (multipliers_lam _ _ _ _ HR HM) as HL.
  assert (HK : kin_set y (kin_of w)). { intros b d Hb Hd'. destruct (HB b Hb d Hd') as (? & ? & _). cbn [kin_of k_q k_v k_a]. repeat split; dd. }
  destruct k; cbn [process integrator_set] in *.
  - destruct (Ho eq_refl) as (o & Eo & No). apply opt_safe; auto. exists o. split; [exact Eo|]. destruct o; try contradiction; eexists; reflexivity.
  - destruct HI as [(z & h & Eo)|(HO & r & Eo)].
    + apply (gen_safe z); auto. exists (ode_of z h). split; [exact Eo|]. eexists; reflexivity.
    + destruct (lone_rk priv m w y r HR HO Eo) as (Zi & Za & Zf). apply (rk_safe dt n t w y r); auto.
      destruct (y_cons y) as [|c l0] eqn:Ec; [congruence|]. pose proof (con_shape _ (HC c (or_introl eq_refl))).
      destruct (HA c 0 ltac:(rewrite Ec; now left) ltac:(lia)) as (b & _ & Hb). intros E. now rewrite E in Hb.
Qed.
(** the next call finds the same *)
Lemma process_again k m dt n t w y w' y' : yreach k priv m w y -> integrator_set priv k y -> all_determinate k w y -> defined dt -> 0 < n ->
  process k dt n t w y = Ok (w', y') ->
  (exists m', yreach k priv m' w' y') /\ integrator_set priv k y' /\ all_determinate k w' y'.
Proof.
  intros HR HI HD Hd Hn E. pose proof (process_safe k m dt n t w y HR HI HD Hd) as G. rewrite E in G. cbn [hoare] in G. destruct G as (GB & GL & _). cbn [fst snd] in *.
  pose proof HD as ((HB & HC & HA & HG & HN & H255 & Hy & HM) & l & El & Hl).
  pose proof (process_alone k dt n t w y w' y' E) as ((Q1 & Q2 & Q3 & Q4 & Q5) & QB & QC & QG).
  split; [|split].
  - eexists. eapply y_process; eauto. now apply gens_orderly.
  - destruct k; cbn [integrator_set process] in *; [exact I|]. destruct (gen_process_ode dt n t w y w' y' Hn E) as (o & o' & E1 & E2 & SO).
    destruct HI as [(z & h & Eo)|(HO & r & Eo)].
    + left. exists z. rewrite Eo in E1. injection E1 as <-. rewrite E2. destruct z, o'; try contradiction; eexists; reflexivity.
    + right. split; [|rewrite Eo in E1; injection E1 as <-; rewrite E2; destruct o'; try contradiction; eexists; reflexivity].
      eapply (lone_process priv m w y dt n t w' y'); eauto. now apply gens_orderly.
  - assert (KC : forall c, con_set (w_con w c) -> con_set (w_con w' c)). { intros c [X1 X2]. destruct (QC c) as (A & _ & B & _ & C & _). unfold con_set. rewrite A, B, C. auto. }
    split; [|rewrite Q4; eauto]. split; [|split; [|split; [|split]]].
    + rewrite Q1. intros b Hb d Hd'. destruct (GB b d Hb Hd') as [D1 D2]. split; [exact D1|]. split; [exact D2|]. destruct (HB b Hb d Hd') as (_ & _ & D3).
      destruct (QB b) as (_ & M1 & M2 & _). unfold b_mass in *. destruct d as [|[|d]]; [rewrite M1|rewrite M1|rewrite M2]; exact D3.
    + rewrite Q2. intros c Hc. apply KC. now apply HC.
    + intros c k' Hc Hk. rewrite Q2 in Hc. destruct (QC c) as (_ & _ & B & C & _). rewrite B in Hk. destruct (HA c k' Hc Hk) as (b & Eb & Hb). exists b. rewrite C, Q1. auto.
    + rewrite Q3. intros g Hg. rewrite QG. specialize (HG g Hg). destruct (g_kind (w_gen w g)); cbn [gen_set] in *; rewrite ?Q1; auto.
      destruct HG as (A & (b0 & E0 & H0) & B). split; [exact A|]. split; [|exact B]. exists b0. split; [exact E0|]. now rewrite (proj1 (QB b0)).
    + unfold body_count. rewrite Q1, Q2, Q5. split; [exact HN|]. split; [exact H255|]. split; [exact Hy|]. now apply lam_multipliers.
Qed.
Lemma process_ends k m dt n t w y : yreach k priv m w y -> integrator_set priv k y -> all_determinate k w y -> defined dt -> 0 < n ->
  ends_properly (process k dt n t w y) (fun w' y' => all_determinate k w' y' /\ integrator_set priv k y' /\ (k = Optimized -> forces_reported w y w')).
Proof.
  intros HR HI HD Hd Hn. pose proof (process_safe k m dt n t w y HR HI HD Hd) as G. unfold ends_properly.
  destruct (process k dt n t w y) as [[w' y']| | |] eqn:E; auto. destruct (process_again k m dt n t w y w' y' HR HI HD Hd Hn E) as (_ & A & B).
  split; [exact B|]. split; [exact A|]. destruct G as (_ & _ & G). intros Hk. exact (G Hk Hn).
Qed.
Lemma process_all_ends k l : forall m w y, yreach k priv m w y -> integrator_set priv k y -> all_determinate k w y ->
  Forall (fun x => defined (fst (fst x)) /\ 0 < snd (fst x)) l ->
  ends_properly (process_all k l w y) (fun w' y' => all_determinate k w' y').
Proof.
  induction l as [|[[dt n] t] l IH]; intros m w y HR HI HD HF; cbn [process_all]; [exact HD|]. inversion HF as [|x l' [Hd Hn] HF' E]; subst. cbn [fst snd] in *.
  pose proof (process_ends k m dt n t w y HR HI HD Hd Hn) as G. destruct (process k dt n t w y) as [[w' y']| | |] eqn:E; cbn [bind ends_properly] in *; auto.
  destruct (process_again k m dt n t w y w' y' HR HI HD Hd Hn E) as ((m' & HR') & A & B). eapply IH; eauto.
Qed.
End S.
