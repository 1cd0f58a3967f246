(** * Steps of the fourth-order solver in the generic class. *)

From Verif Require Import Base Matrix Sparse Sle State Ode Forces Constraints System Logic
  MatrixFacts MatrixOps SpecMatrix MatrixHist SparseFacts SpecSparse SparseHist SpecSle SleHist SleGe SleGs
  SpecState StateFacts SpecOde OdeFacts SpecForces SpecSys RegFacts SysFrame SysInv SysColumn SpecDyn DynState DynReact DynRound DynStep DynReady SpecRk.
Local Open Scope nat_scope.

Section S.
Context {tg : target}.
Notation st := (sstate tg).
Implicit Types (w : world tg) (y : sys tg) (K : kin tg) (h : cell tg) (a : nat -> nat -> cell tg).
Variable priv : nat -> bool.
(** what is known of lambda *)
Variable Lam : matrix tg -> Prop.

(** ** partial and total correctness, and safety, at once *)
Inductive mode := Partial | Total | Safe.
Definition hoare {A} (tot : mode) (r : res A) (Q : A -> Prop) : Prop :=
  match tot with
  | Partial => pc r Q
  | Total => wp r Q
  | Safe => match r with Ok a => Q a | AssertFail => asserts_on tg = true | _ => False end
  end.
Lemma hoare_wp {A} tot (r : res A) Q : wp r Q -> hoare tot r Q.
Proof. destruct tot; [apply wp_pc|exact (fun H => H)|]. destruct r; cbn; auto; contradiction. Qed.
Lemma hoare_seq {A B} tot (r : res A) (k : A -> res B) Q Q' : hoare tot r Q -> (forall u, Q u -> hoare tot (k u) Q') -> hoare tot (bind r k) Q'.
Proof. destruct tot; [apply pc_seq|apply wp_seq|]. destruct r; intros H HK; [exact (HK _ H)|exact H|contradiction..]. Qed.
Lemma hoare_mono {A} tot (r : res A) (Q Q' : A -> Prop) : hoare tot r Q -> (forall u, Q u -> Q' u) -> hoare tot r Q'.
Proof. destruct tot; [apply pc_mono|apply wp_mono|]. destruct r; cbn; auto. Qed.
Lemma hoare_and {A} tot (r : res A) (Q Q' : A -> Prop) : hoare tot r Q -> pc r Q' -> hoare tot r (fun u => Q u /\ Q' u).
Proof. destruct tot; destruct r; cbn; auto; contradiction. Qed.

Lemma hoare_for {X} tot (f : nat -> X -> res X) (P : nat -> X -> Prop) k : forall i x,
  (forall i x, P i x -> hoare tot (f i x) (P (S i))) -> P i x -> hoare tot (for_from k i f x) (P (i + k)).
Proof.
  induction k as [|k IH]; intros i x ST H; cbn [for_from]; [rewrite Nat.add_0_r; now apply hoare_wp|].
  eapply hoare_seq; [apply ST, H|]. intros x1 P1. rewrite <- Nat.add_succ_comm. apply IH; assumption.
Qed.

(** ** the tables the solver keeps *)
Definition tells y (g : fld -> nat -> cell tg) K : Prop :=
  forall i b d, nth_error (y_bodies y) i = Some b -> d < 3 -> g (posf d) i = k_q K b d /\ g (velf d) i = k_v K b d.
Definition holds y (r : rk4 tg) h n nc K K1 : Prop :=
  rk_dt r = h /\ sized (rk_init r) /\ sized (rk_acc r) /\ s_nc (rk_init r) = nc /\ s_nc (rk_acc r) = nc /\
  exists g0 ga, shows_st (rk_init r) n g0 /\ tells y g0 K /\ shows_st (rk_acc r) n ga /\ tells y ga K1.
Definition stage_kin (t : rk_stage) h K K1 : kin tg :=
  match t with Stage2 | Stage3 => half_way h K (k_a K1) | Stage4 => whole_way h K (k_a K1) | _ => K1 end.
Definition stage_dt (t : rk_stage) h : cell tg :=
  match t with Stage1 => cofZ 0 | Stage2 | Stage3 => cdiv h (cofZ 2) | _ => h end.
Definition add_stage (t : rk_stage) h K1 (Ks : kin tg) a : kin tg :=
  mkKin (fun b d => cadd (k_q K1 b d) (cmul (cmul (cdiv h (cofZ 6)) (k_v Ks b d)) (stage_weight t)))
        (fun b d => cadd (k_v K1 b d) (cmul (cmul (cdiv h (cofZ 6)) (a b d)) (stage_weight t))) a.

Lemma step_dt (r : rk4 tg) (s : st) r' s' b : rk4_step r s = Ok (r', s', b) -> rk_st r <> Complete -> rk_st r <> Undefined -> s_dt s' = stage_dt (rk_st r) (rk_dt r).
Proof.
  unfold rk4_step, stage_dt. destruct (rk_st r); intros E H1 H2; try congruence.
  - cbn [bind] in E. injection E as _ <- _. reflexivity.
  - match type of E with bind (bind ?x _) _ = _ => destruct x; try discriminate end. cbn [bind] in E. injection E as _ <- _. reflexivity.
  - match type of E with bind (bind ?x _) _ = _ => destruct x; try discriminate end. cbn [bind] in E. injection E as _ <- _. reflexivity.
  - match type of E with bind (bind ?x _) _ = _ => destruct x; try discriminate end. cbn [bind] in E. injection E as _ <- _. reflexivity.
Qed.
Lemma step_fields h g0 g K Kc t (r : rk4 tg) i b d y : tells y g0 K -> nth_error (y_bodies y) i = Some b -> d < 3 -> rk_dt r = h -> rk_st r = t -> t <> Complete -> t <> Undefined ->
  g (posf d) i = k_q Kc b d -> g (velf d) i = k_v Kc b d -> g (accf d) i = k_a Kc b d ->
  step_table r g0 g (posf d) i = k_q (stage_kin t h K Kc) b d /\ step_table r g0 g (velf d) i = k_v (stage_kin t h K Kc) b d /\
  step_table r g0 g (accf d) i = k_a (stage_kin t h K Kc) b d.
Proof.
  intros HT E Hd Eh Et N1 N2 A B C. unfold step_table. rewrite Et. subst h. destruct (HT i b d E Hd) as [T1 T2].
  destruct t; try congruence; cbn [stage_kin]; [auto| | |]; destruct d as [|[|[|]]]; try lia; cbn [posf velf accf] in *;
    unfold half_col, full_col; cbn [runcol rk_fs fld_eqb half_way whole_way k_q k_v k_a]; rewrite ?A, ?B, ?C, ?T1, ?T2; auto.
Qed.
Lemma step_mass (r : rk4 tg) g0 g i : step_table r g0 g Fm i = g Fm i.
Proof. unfold step_table. destruct (rk_st r); reflexivity. Qed.
Lemma presents_of w y K h0 (s s' : st) n g g' (K' : kin tg) : presents w y K h0 s -> s_n s = n -> shows_st s n g -> shows_st s' n g' -> sized s' -> s_nc s' = s_nc s ->
  (forall i, g' Fm i = g Fm i) ->
  (forall i b d, nth_error (y_bodies y) i = Some b -> d < 3 -> g (posf d) i = k_q K b d -> g (velf d) i = k_v K b d -> g (accf d) i = k_a K b d ->
     g' (posf d) i = k_q K' b d /\ g' (velf d) i = k_v K' b d /\ g' (accf d) i = k_a K' b d) ->
  presents w y K' (s_dt s') s'.
Proof.
  intros (P1 & P2 & P3 & P4 & P5) En [S1 S2] [T1 T2] Hz Ec HM HF. split; [exact Hz|]. split; [lia|]. split; [lia|]. split; [reflexivity|].
  intros i b E. pose proof (nth_error_lt _ _ _ E) as Hi. fold (body_count y) in Hi. assert (Hn : i < n) by lia. destruct (P5 i b E) as [PM PD].
  split; [rewrite (T2 Fm i eq_refl Hn), HM, <- (S2 Fm i eq_refl Hn); exact PM|]. intros d Hd. destruct (PD d Hd) as (Q1 & Q2 & Q3).
  assert (R : is_reaction (posf d) = false /\ is_reaction (velf d) = false /\ is_reaction (accf d) = false) by (destruct d as [|[|]]; repeat split).
  destruct R as (R1 & R2 & R3). rewrite S2 in Q1, Q2, Q3 by assumption. injection Q1 as Q1. injection Q2 as Q2. injection Q3 as Q3.
  destruct (HF i b d E Hd Q1 Q2 Q3) as (F1 & F2 & F3). rewrite !T2 by assumption. rewrite F1, F2, F3. auto.
Qed.
Lemma rk_step_presents w y (r : rk4 tg) t h h0 n nc K K1 Kc (s : st) : holds y r h n nc K K1 -> presents w y Kc h0 s -> s_n s = n -> s_nc s = nc ->
  rk_st r = t -> t <> Complete -> t <> Undefined ->
  exists s', ode_step (OdeRk4 r) s = Ok (OdeRk4 (with_next r), s', match t with Stage4 => true | _ => false end) /\
    presents w y (stage_kin t h K Kc) (stage_dt t h) s' /\ s_n s' = n /\ s_nc s' = nc.
Proof.
  intros (Eh & Zi & Za & Ni & Na & g0 & ga & S0 & T0 & Sa & Ta) HP En Ec Et N1 N2. pose proof HP as (Z & _).
  pose proof (sized_shows s Z) as SS. rewrite En in SS.
  destruct (rk4_step_spec r s n g0 (ldc s) S0 SS Z) as (s' & E & S' & Z' & C'). exists s'. cbn [ode_step]. rewrite E. cbn [bind].
  pose proof (step_dt _ _ _ _ _ E ltac:(congruence) ltac:(congruence)) as D. rewrite Et in *. rewrite Eh in D.
  split; [reflexivity|]. split; [|split; [apply S'|congruence]]. rewrite <- D.
  apply (presents_of w y Kc h0 s s' n (ldc s) (step_table r g0 (ldc s))); auto; [intros; apply step_mass|].
  intros i b d E' Hd A B C. now apply (step_fields h g0 (ldc s) K Kc t r i b d y).
Qed.
Lemma acc_fields h ga g K1 Ks t (r : rk4 tg) i b d y a : tells y ga K1 -> nth_error (y_bodies y) i = Some b -> d < 3 -> rk_dt r = h -> rk_st r = t ->
  g (velf d) i = k_v Ks b d -> g (accf d) i = a b d ->
  acc_table r ga g (posf d) i = k_q (add_stage t h K1 Ks a) b d /\ acc_table r ga g (velf d) i = k_v (add_stage t h K1 Ks a) b d.
Proof.
  intros HT E Hd Eh Et A B. subst h t. destruct (HT i b d E Hd) as [T1 T2]. unfold acc_table.
  destruct d as [|[|[|]]]; try lia; cbn [posf velf accf] in *; unfold acc_col; cbn [runcol rk_fs fld_eqb add_stage k_q k_v]; rewrite ?A, ?B, ?T1, ?T2; auto.
Qed.
Lemma rk_solve_presents w y (r : rk4 tg) t h h0 n nc K K1 Ks a (s : st) : holds y r h n nc K K1 -> presents w y (with_acc Ks a) h0 s -> s_n s = n -> s_nc s = nc -> rk_st r = t ->
  exists r' s', ode_solve (OdeRk4 r) s = Ok (OdeRk4 r', s') /\ rk_st r' = rk_next r /\ holds y r' h n nc K (add_stage t h K1 Ks a) /\
    presents w y (match t with Stage4 => add_stage t h K1 Ks a | _ => with_acc Ks a end) (s_dt s') s' /\ s_n s' = n /\ s_nc s' = nc.
Proof.
  intros (Eh & Zi & Za & Ni & Na & g0 & ga & S0 & T0 & Sa & Ta) HP En Ec Et. pose proof HP as (Z & _ & _ & _ & P5).
  pose proof (sized_shows s Z) as SS. rewrite En in SS.
  destruct (rk4_solve_spec r s n ga (ldc s) Sa Za ltac:(congruence) SS Z) as (r' & s' & E & R1 & R2 & R3 & R4 & R5 & R6 & R7 & R8 & R9).
  exists r', s'. cbn [ode_solve]. rewrite E. cbn [bind]. split; [reflexivity|]. split; [exact R2|].
  assert (AF : forall i b d, nth_error (y_bodies y) i = Some b -> d < 3 ->
    acc_table r ga (ldc s) (posf d) i = k_q (add_stage t h K1 Ks a) b d /\ acc_table r ga (ldc s) (velf d) i = k_v (add_stage t h K1 Ks a) b d).
  { intros i b d Ei Hd. destruct (P5 i b Ei) as [_ PD]. destruct (PD d Hd) as (Q1 & Q2 & Q3). apply (acc_fields h ga (ldc s) K1 Ks t r i b d y a); auto; unfold ldc; now rewrite ?Q2, ?Q3. }
  split.
  { split; [congruence|]. rewrite R3. split; [exact Zi|]. split; [exact R5|]. split; [exact Ni|]. split; [congruence|].
    exists g0, (acc_table r ga (ldc s)). auto. }
  split; [|split; [apply R7|congruence]].
  apply (presents_of w y (with_acc Ks a) h0 s s' n (ldc s) (emit_table r ga (ldc s))); auto.
  - intros i. unfold emit_table. destruct (rk_st r); reflexivity.
  - intros i b d Ei Hd A B C. unfold emit_table. rewrite Et. destruct (AF i b d Ei Hd) as [F1 F2].
    destruct t; auto. destruct d as [|[|[|]]]; try lia; cbn [posf velf accf] in *; unfold emit_col; cbn [runcol rk_fs fld_eqb]; auto.
Qed.

(** ** one stage *)
Definition stage_good tot w y pcf (A : kin tg -> cell tg -> (nat -> nat -> cell tg) -> Prop) K h : Prop :=
  forall hp (s : st), hinv priv hp -> Lam (hm hp ilambda) -> minv_ok w y (hm hp) -> presents w y K h s ->
    hoare tot (let* s := process_forces w y s in pcf hp s) (fun x => hinv priv (fst x) /\ Lam (hm (fst x) ilambda) /\ minv_ok w y (hm (fst x)) /\
      s_n (snd x) = s_n s /\ s_nc (snd x) = s_nc s /\
      exists a, presents w y (with_acc K a) h (snd x) /\ A K h a).
Lemma rk_round tot w y pcf A (r : rk4 tg) t h h0 n nc K K1 Kc hp (s : st) (Q : ode tg * heap tg * st -> Prop) fuel :
  holds y r h n nc K K1 -> presents w y Kc h0 s -> s_n s = n -> s_nc s = nc ->
  rk_st r = t -> t <> Complete -> t <> Undefined -> hinv priv hp -> Lam (hm hp ilambda) -> minv_ok w y (hm hp) ->
  stage_good tot w y pcf A (stage_kin t h K Kc) (stage_dt t h) ->
  (forall r' hp' s' a h', rk_st r' = next_stage t -> hinv priv hp' -> Lam (hm hp' ilambda) -> minv_ok w y (hm hp') ->
     A (stage_kin t h K Kc) (stage_dt t h) a -> holds y r' h n nc K (add_stage t h K1 (stage_kin t h K Kc) a) ->
     presents w y (match t with Stage4 => add_stage t h K1 (stage_kin t h K Kc) a | _ => with_acc (stage_kin t h K Kc) a end) h' s' -> s_n s' = n -> s_nc s' = nc ->
     hoare tot (if match t with Stage4 => true | _ => false end then Ok (OdeRk4 r', hp', s') else ode_rounds fuel w y pcf (OdeRk4 r') hp' s') Q) ->
  hoare tot (ode_rounds (S fuel) w y pcf (OdeRk4 r) hp s) Q.
Proof.
  intros HH HP En Ec Et N1 N2 H HC HM HG HQ. cbn [ode_rounds].
  destruct (rk_step_presents w y r t h h0 n nc K K1 Kc s HH HP En Ec Et N1 N2) as (s1 & E1 & P1 & En1 & Ec1). rewrite E1. cbn [bind].
  specialize (HG hp s1 H HC HM P1).
  assert (EQ : forall (k : heap tg * st -> res (ode tg * heap tg * st)), (let* s := process_forces w y s1 in let* x := pcf hp s in k x) = (let* x := (let* s := process_forces w y s1 in pcf hp s) in k x)).
  { intros k. destruct (process_forces w y s1); reflexivity. }
  rewrite EQ. eapply hoare_seq; [exact HG|]. intros [hp2 s2] (H2 & C2 & M2 & En2 & Ec2 & a & P2 & A2). cbn [fst snd] in *.
  assert (HH' : holds y (with_next r) h n nc K K1) by exact HH.
  destruct (rk_solve_presents w y (with_next r) t h _ n nc K K1 (stage_kin t h K Kc) a s2 HH' P2 ltac:(congruence) ltac:(congruence) Et) as (r3 & s3 & E3 & T3 & HH3 & P3 & En3 & Ec3).
  rewrite E3. cbn [bind]. apply (HQ r3 hp2 s3 a (s_dt s3)); auto. rewrite T3. cbn [with_next rk_next]. now rewrite Et.
Qed.

(** ** one step *)
Definition settled h n nc (x : ode tg * heap tg * st) : Prop := exists r, fst (fst x) = OdeRk4 r /\ sized (rk_init r) /\ sized (rk_acc r) /\
  s_n (rk_init r) = n /\ s_nc (rk_init r) = nc /\ s_n (rk_acc r) = n /\ s_nc (rk_acc r) = nc.
Lemma rk_four tot w y pcf A (r : rk4 tg) h h0 n nc K hp (s : st) :
  rk_dt r = h -> rk_st r = Stage1 -> sized (rk_init r) -> sized (rk_acc r) -> s_nc (rk_init r) = nc -> s_nc (rk_acc r) = nc ->
  shows_st (rk_init r) n (ldc s) -> shows_st (rk_acc r) n (ldc s) -> presents w y K h0 s -> s_n s = n -> s_nc s = nc ->
  hinv priv hp -> Lam (hm hp ilambda) -> minv_ok w y (hm hp) ->
  stage_good tot w y pcf A K (cofZ 0) ->
  (forall a1, A K (cofZ 0) a1 -> let K2 := half_way h K a1 in stage_good tot w y pcf A K2 (cdiv h (cofZ 2)) /\
     forall a2, A K2 (cdiv h (cofZ 2)) a2 -> let K3 := half_way h K a2 in stage_good tot w y pcf A K3 (cdiv h (cofZ 2)) /\
       forall a3, A K3 (cdiv h (cofZ 2)) a3 -> stage_good tot w y pcf A (whole_way h K a3) h) ->
  hoare tot (ode_rounds 8 w y pcf (OdeRk4 r) hp s) (fun x => settled h n nc x /\ hinv priv (snd (fst x)) /\ Lam (hm (snd (fst x)) ilambda) /\ minv_ok w y (hm (snd (fst x))) /\
    s_n (snd x) = n /\ s_nc (snd x) = nc /\ exists K' h', presents w y K' h' (snd x) /\ four_stages A h K K').
Proof.
  intros Eh Et Zi Za Ni Na Si Sa HP En Ec H HC HM G1 G2.
  assert (T0 : tells y (ldc s) K).
  { intros i b d Ei Hd. destruct HP as (_ & _ & _ & _ & P5). destruct (P5 i b Ei) as [_ PD]. destruct (PD d Hd) as (Q1 & Q2 & _). unfold ldc. now rewrite Q1, Q2. }
  assert (HH : holds y r h n nc K K).
  { split; [exact Eh|]. do 4 (split; [assumption|]). exists (ldc s), (ldc s). auto. }
  eapply (rk_round tot w y pcf A r Stage1); eauto; try discriminate.
  intros r1 hp1 s1 a1 h1 T1 H1 C1 M1 A1 HH1 P1 En1 Ec1. cbn [stage_kin stage_dt] in *. destruct (G2 a1 A1) as [G3 G4]. clear G2.
  eapply (rk_round tot w y pcf A r1 Stage2); eauto; try discriminate.
  intros r2 hp2 s2 a2 h2 T2 H2 C2 M2 A2 HH2 P2 En2 Ec2. cbn [stage_kin stage_dt] in *. change (k_a (with_acc K a1)) with a1 in *. destruct (G4 a2 A2) as [G5 G6]. clear G4.
  eapply (rk_round tot w y pcf A r2 Stage3); eauto; try discriminate.
  intros r3 hp3 s3 a3 h3 T3 H3 C3 M3 A3 HH3 P3 En3 Ec3. cbn [stage_kin stage_dt] in *. change (k_a (with_acc (half_way h K a1) a2)) with a2 in *. specialize (G6 a3 A3).
  eapply (rk_round tot w y pcf A r3 Stage4); eauto; try discriminate.
  intros r4 hp4 s4 a4 h4 T4 H4 C4 M4 A4 HH4 P4 En4 Ec4. cbn [stage_kin stage_dt] in *. change (k_a (with_acc (half_way h K a2) a3)) with a3 in *.
  apply hoare_wp. cbn [wp fst snd]. split.
  { destruct HH4 as (_ & Zi4 & Za4 & Ni4 & Na4 & g0 & ga & [S0 _] & _ & [S1 _] & _). exists r4. cbn [fst]. auto 10. }
  do 3 (split; [assumption|]). do 2 (split; [assumption|]). do 2 eexists. split; [exact P4|].
  exists a1, a2, a3, a4. cbv zeta. do 4 (split; [assumption|]). reflexivity.
Qed.

(** ** many steps *)
Lemma copy_was_fit (d s d' : st) : sized d -> sized s -> 0 < s_n s -> st_copy d s = Ok d' -> fits d s.
Proof.
  intros Hd Hs P E. split; [exact Hd|].
  destruct (Nat.lt_ge_cases (s_n d) (s_n s)) as [|L1]; [now left|]. destruct (Nat.lt_ge_cases (s_nc d) (s_nc s)) as [|L2]; [now right; left|]. right. right.
  rewrite st_copy_eq in E. cbv zeta in E. destruct (Nat.eqb_spec (s_n s) 0); [lia|].
  destruct (resize_cases d (s_n s) (s_nc s) Hd) as [(_ & _ & E0)|(A1 & _)]; [|lia]. rewrite E0 in E.
  unfold copy_rest in E. destruct Hs as [S1 S2], Hd as [T1 T2].
  destruct (Nat.lt_ge_cases (s_nc s) (s_nc d)) as [L|L]; [rewrite memcpy_ub in E by lia; discriminate|].
  rewrite memcpy_all in E by lia. cbn [bind] in E.
  destruct (Nat.lt_ge_cases (s_n s) (s_n d)) as [L'|L']; [|lia]. rewrite copy_arr_ub in E; [discriminate|]. rewrite S1. unfold room. cbn. lia.
Qed.
Definition chain tot w y pcf A h K : Prop := stage_good tot w y pcf A K (cofZ 0) /\
  forall a1, A K (cofZ 0) a1 -> let K2 := half_way h K a1 in stage_good tot w y pcf A K2 (cdiv h (cofZ 2)) /\
     forall a2, A K2 (cdiv h (cofZ 2)) a2 -> let K3 := half_way h K a2 in stage_good tot w y pcf A K3 (cdiv h (cofZ 2)) /\
       forall a3, A K3 (cdiv h (cofZ 2)) a3 -> stage_good tot w y pcf A (whole_way h K a3) h.
Lemma rk_start_hoare tot w y (r : rk4 tg) h h0 K (s : st) : sized (rk_init r) -> sized (rk_acc r) -> (tot <> Partial -> rk_fits r s) -> 0 < s_n s -> presents w y K h0 s ->
  hoare tot (ode_start (OdeRk4 r) s h) (fun o => exists r', o = OdeRk4 r' /\ rk_dt r' = h /\ rk_st r' = Stage1 /\
    shows_st (rk_init r') (s_n s) (ldc s) /\ shows_st (rk_acc r') (s_n s) (ldc s) /\ sized (rk_init r') /\ sized (rk_acc r') /\
    s_nc (rk_init r') = s_nc s /\ s_nc (rk_acc r') = s_nc s).
Proof.
  intros Zi Za Ht Hn (Z & _). cbn [ode_start].
  assert (G : rk_fits r s -> wp (let* r0 := rk4_start r s h in Ok (OdeRk4 r0)) (fun o => exists r', o = OdeRk4 r' /\ rk_dt r' = h /\ rk_st r' = Stage1 /\
    shows_st (rk_init r') (s_n s) (ldc s) /\ shows_st (rk_acc r') (s_n s) (ldc s) /\ sized (rk_init r') /\ sized (rk_acc r') /\
    s_nc (rk_init r') = s_nc s /\ s_nc (rk_acc r') = s_nc s)).
  { intros F. destruct (rk4_start_spec r s (s_n s) (ldc s) h F Z Hn (sized_shows s Z)) as (r' & E & X). rewrite E. cbn. exists r'. split; [reflexivity|exact X]. }
  destruct tot; [|apply hoare_wp, G, Ht; discriminate..]. unfold hoare. apply pc_intro. intros o E.
  assert (F : rk_fits r s).
  { unfold rk4_start in E. destruct (st_copy (rk_init r) s) as [i| | |] eqn:E1; try discriminate. cbn [bind] in E.
    destruct (st_copy (rk_acc r) s) as [c| | |] eqn:E2; try discriminate. split; eapply copy_was_fit; eauto. }
  specialize (G F). apply wp_ok in G. destruct G as (o' & E' & X). rewrite E in E'. injection E' as <-. exact X.
Qed.
Lemma rk_steps tot w y pcf A (Inv : kin tg -> Prop) dt K0 h0 n (r : rk4 tg) hp (s : st) :
  let h := cdiv dt (cofZ (Z.of_nat n)) in
  sized (rk_init r) -> sized (rk_acc r) -> (tot <> Partial -> rk_fits r s) -> 0 < body_count y ->
  hinv priv hp -> Lam (hm hp ilambda) -> minv_ok w y (hm hp) -> presents w y K0 h0 s ->
  Inv K0 -> (forall K, Inv K -> chain tot w y (pcf h) A h K /\ forall K', four_stages A h K K' -> Inv K') ->
  hoare tot (ode_steps n dt w y pcf (OdeRk4 r) hp s) (fun x => hinv priv (snd (fst x)) /\ Lam (hm (snd (fst x)) ilambda) /\
    exists K h', presents w y K h' (snd x) /\ rk_motion A h n K0 K).
Proof.
  intros h Zi Za Ht Hb H HC HM HP I0 IS. unfold ode_steps. cbv zeta. fold h.
  set (Post := fun i (x : ode tg * heap tg * st) => (exists r', fst (fst x) = OdeRk4 r' /\ sized (rk_init r') /\ sized (rk_acc r') /\ (tot <> Partial -> rk_fits r' (snd x))) /\
    hinv priv (snd (fst x)) /\ Lam (hm (snd (fst x)) ilambda) /\ minv_ok w y (hm (snd (fst x))) /\
    exists K h', presents w y K h' (snd x) /\ rk_motion A h i K0 K /\ Inv K).
  assert (P0 : Post 0 (OdeRk4 r, hp, s)).
  { split; [exists r; auto|]. cbn [fst snd]. do 3 (split; [assumption|]). exists K0, h0. split; [exact HP|]. split; [|exact I0]. exists (fun _ => K0). repeat split; intros; lia. }
  set (f := fun (_ : nat) '(o, hp, s) => let* o := ode_start o s h in let* (o, hp, s) := ode_rounds 8 w y (pcf h) o hp s in Ok (ode_end o, hp, s)).
  assert (ST : forall i x, Post i x -> hoare tot (f i x) (Post (S i))).
  { clear - Hb IS. intros i [[o hp] s] ((r & Eo & Zi & Za & Ht) & H & HC & HM & K & h' & HP & (Ks & B0 & Bi & HS) & HI). cbn [fst snd] in *. subst o. unfold f.
    assert (Hn : 0 < s_n s) by (destruct HP as (_ & X & _); lia).
    eapply hoare_seq; [apply (rk_start_hoare tot w y r h h' K s Zi Za Ht Hn HP)|].
    intros o (r' & -> & D1 & D2 & D3 & D4 & D5 & D6 & D7 & D8). destruct (IS K HI) as [[G1 G2] IN].
    eapply hoare_seq; [apply (rk_four tot w y (pcf h) A r' h h' (s_n s) (s_nc s) K hp s); auto|].
    intros [[o1 hp1] s1] ((r1 & E1 & X1 & X2 & X3 & X4 & X5 & X6) & H1 & C1 & M1 & N1 & N2 & K' & h1 & P1 & FS). cbn [fst snd] in *. subst o1.
    apply hoare_wp. cbn [wp]. split.
    { exists (rk4_end r1). cbn [fst snd ode_end rk4_end rk_init rk_acc]. split; [reflexivity|]. split; [exact X1|]. split; [exact X2|]. intros _.
      split; (split; [assumption|right; right; split; cbn in *; lia]). }
    cbn [fst snd]. do 3 (split; [assumption|]). exists K', h1. split; [exact P1|]. split; [|now apply IN].
    exists (fun j => if Nat.leb j i then Ks j else K'). split; [exact B0|]. split; [destruct (Nat.leb_spec (S i) i); [lia|reflexivity]|].
    intros j Hj. destruct (Nat.leb_spec j i); [|lia]. destruct (Nat.leb_spec (S j) i); [apply HS; lia|]. assert (j = i) by lia. subst j. rewrite Bi. exact FS. }
  assert (G : hoare tot (for_ n f (OdeRk4 r, hp, s)) (Post n)).
  { exact (hoare_for tot f Post n 0 _ (fun i x => ST i x) P0). }
  eapply hoare_mono; [exact G|]. intros x (_ & A1 & A2 & _ & K & h' & P & M & _). split; [exact A1|]. split; [exact A2|]. eauto.
Qed.

(** ** process *)
Lemma rk_process tot w y dt n t A (Inv : kin tg -> Prop) (r : rk4 tg) :
  let h := cdiv dt (cofZ (Z.of_nat n)) in
  hinv priv (y_heap y) -> Lam (hm (y_heap y) ilambda) -> sized (y_state y) -> nice priv w y -> (tot <> Partial -> y_frame y < length (y_prof y)) ->
  y_ode y = Some (OdeRk4 r) -> sized (rk_init r) -> sized (rk_acc r) ->
  (tot <> Partial -> forall s, populate_state w y = Ok s -> rk_fits r s) -> y_bodies y <> [] ->
  Inv (kin_of w) -> (forall s0 K, let y0 := with_state y s0 in Inv K -> chain tot w y0 (gen_process_constraints w y0) A h K) ->
  (forall K K', Inv K -> four_stages A h K K' -> Inv K') ->
  hoare tot (gen_process dt n t w y) (fun x => (exists K, rk_motion A h n (kin_of w) K /\ arrives (fst x) y K) /\ Lam (hm (y_heap (snd x)) ilambda)).
Proof.
  intros h H HC Hs HN Hf Eo Zi Za Ht HB I0 IC IS. unfold gen_process. pose proof HN as (Hl & HL & HA & HS & HG).
  pose proof (populate_state_presents w y Hs HS) as X. apply wp_ok in X. destruct X as (s0 & E0 & h0 & P0). rewrite E0. cbn [bind].
  set (y0 := with_state y s0).
  pose proof (populate_mass_spec false w y0 (hm (y_heap y0)) ltac:(eapply wf_weaken; apply H) ltac:(eapply wf_weaken; apply H)) as X. apply wp_ok in X.
  destruct X as (ms & Em & _ & _ & Mm). rewrite Em. cbn [bind].
  pose proof (pc_elim _ _ _ Em (populate_mass_wfs priv w y0 _ (proj1 H))) as Wm.
  assert (Cm : Lam (hm (with_hm (y_heap y0) ms) ilambda)) by (cbn [with_hm hm]; rewrite (pc_elim _ _ _ Em (populate_mass_off w y0 _)) by (cbn; intuition discriminate); exact HC).
  assert (Hb : 0 < body_count y0). { unfold body_count. cbn. destruct (y_bodies y); [congruence|cbn; lia]. }
  eapply (hoare_seq _ _ _ (fun x => y_bodies (fst x) = y_bodies y /\ y_cons (fst x) = y_cons y /\ y_prof (fst x) = y_prof y /\ y_frame (fst x) = y_frame y /\ Lam (hm (y_heap (fst x)) ilambda) /\
    exists K h', presents w y K h' (snd x) /\ rk_motion A h n (kin_of w) K)).
  - destruct n as [|n'].
    + apply hoare_wp. cbn [wp fst snd]. do 4 (split; [reflexivity|]). split; [exact Cm|]. exists (kin_of w), h0. split; [exact P0|]. exists (fun _ => kin_of w). repeat split; intros; lia.
    + unfold the_ode. change (y_ode y0) with (y_ode y). rewrite Eo. cbn [bind].
      eapply hoare_seq; [apply (rk_steps tot w y0 (fun _ => gen_process_constraints w y0) A Inv dt (kin_of w) h0 (S n') r (with_hm (y_heap y0) ms) s0 Zi Za
        (fun e => Ht e s0 E0) Hb ltac:(split; [exact Wm|apply H]) Cm Mm P0 I0)|].
      { intros K HI. split; [now apply IC|intros K' F; eapply IS; eauto]. }
      intros [[o1 hp1] s1] (_ & L1 & K & h' & P1 & M1). cbn [fst snd] in *. apply hoare_wp. cbn [wp fst snd]. do 4 (split; [reflexivity|]). split; [exact L1|]. exists K, h'. split; [exact P1|exact M1].
  - intros [y1 s1] (B1 & C1 & R1 & F1 & L1 & K & h' & P1 & M1). cbn [fst snd] in *.
    pose proof (propagate_tells w y K h' s1 (fun i k => i) (fun d c j k => ldc s1 (reaf d) (row0 w y c + j)) HL HS P1) as X. apply wp_ok in X.
    + destruct X as (w2 & E2 & B2 & T2). unfold gen_propagate.
      assert (EQ : (let* w := bodies_back y1 s1 w in forces_back (fun i_f _ => i_f) y1 s1 w) = (let* w := bodies_back y s1 w in forces_back (fun i_f _ => i_f) y s1 w)).
      { unfold bodies_back, forces_back, body_count, con_count. now rewrite B1, C1. }
      rewrite EQ, E2. cbn [bind].
      assert (T : tot <> Partial -> exists y2, record_profile y1 t = Ok y2) by (intros e; apply record_ok; rewrite R1, F1; now apply Hf).
      destruct tot.
      * apply pc_intro. intros [w3 y3] E4. destruct (record_profile y1 t) as [y2| | |] eqn:E3; try discriminate. cbn [bind] in E4. injection E4 as <- <-. cbn. split; [eauto|]. now rewrite (proj1 (pc_elim _ _ _ E3 (record_profile_core y1 t))).
      * destruct (T ltac:(discriminate)) as [y2 E3]. rewrite E3. cbn. split; [eauto|]. now rewrite (proj1 (pc_elim _ _ _ E3 (record_profile_core y1 t))).
      * destruct (T ltac:(discriminate)) as [y2 E3]. rewrite E3. cbn. split; [eauto|]. now rewrite (proj1 (pc_elim _ _ _ E3 (record_profile_core y1 t))).
    + intros c j k Hc Hj Hk. split; [|reflexivity]. destruct P1 as (Q1 & Q2 & Q3 & _). apply In_nth_error in Hc. destruct Hc as [i Ei].
      rewrite (row0_at w y i c HL Ei). pose proof (row_lt w y i c j Ei Hj). lia.
Qed.

End S.

Section S2.
Context {tg : target}.
Notation st := (sstate tg).
Implicit Types (w : world tg) (y : sys tg) (K : kin tg) (h : cell tg) (a : nat -> nat -> cell tg).
Variable priv : nat -> bool.

(** ** evaluations *)
Lemma stage_runs w y h P K : nice priv w y -> evaluates priv w y (gen_process_constraints w y) h (fun K f F => P K h f F) ->
  stage_good priv column Partial w y (gen_process_constraints w y) (feels w y P) K h.
Proof.
  intros (Hl & HL & HA & HS & HG) HE hp s H HC HM HP. unfold hoare.
  apply pc_intro. intros [hp3 s3] E. destruct (process_forces w y s) as [s2| | |] eqn:E2; try discriminate. cbn [bind] in E.
  pose proof (pc_elim _ _ _ E2 (process_forces_alters w y _ HG)) as A2.
  pose proof (presents_forces _ _ _ _ _ _ A2 HP) as P2.
  set (f := frc w s2).
  assert (F2 : forced w y f s2) by (intros i b d Eb Hd; eapply frc_ld; eauto).
  pose proof (pc_elim _ _ _ E (HE hp s2 K f H HC HM P2 F2)) as (H3 & M3 & P3 & Q3). cbn [fst snd] in *.
  pose proof (pc_elim _ _ _ E (gen_constraints_column priv w y Hl hp s2 H HC)) as C3.
  pose proof (pc_elim _ _ _ E (gen_constraints_inv priv w y hp s2 H Hl)) as (_ & A3 & _). cbn [fst snd] in *.
  split; [exact H3|]. split; [exact C3|]. split; [exact M3|].
  pose proof (alters_resized _ _ _ A2) as (R1 & R2 & _). pose proof (alters_resized _ _ _ A3) as (R3 & R4 & _).
  split; [congruence|]. split; [congruence|]. exists (acc_of w y f s3). split; [exact P3|]. exists f, (reac w y s3). split; [|split; [|exact Q3]].
  - intros f' Hf' b d Hb Hd. apply In_nth_error in Hb. destruct Hb as [i Ei].
    destruct (Hf' s HP) as (s2' & E2' & F'). rewrite E2 in E2'. injection E2' as <-.
    specialize (F2 i b d Ei Hd). rewrite (F' i b d Ei Hd) in F2. congruence.
  - intros b d Hb Hd. reflexivity.
Qed.
Lemma rk_runs P m dt n t w y w' y' : yreach Generic priv m w y -> attached w y -> shaped w y -> all_gentle w y -> uses_rk y -> y_bodies y <> [] ->
  (forall s0 h, let y0 := with_state y s0 in evaluates priv w y0 (gen_process_constraints w y0) h (fun K f F => P K h f F)) ->
  process Generic dt n t w y = Ok (w', y') ->
  exists K, rk_motion (feels w y P) (cdiv dt (cofZ (Z.of_nat n))) n (kin_of w) K /\ arrives w' y K.
Proof.
  intros HR HA HS HG (r & Eo & Zi & Za) HB HE E. destruct (yreach_inv priv _ _ _ _ HR) as (H & Hs & Hl & _).
  pose proof (reach_nice priv _ _ _ _ HR HA HS HG) as HN.
  pose proof (rk_process priv column Partial w y dt n t (feels w y P) (fun _ => True) r H (yreach_column priv _ _ _ _ HR) Hs HN ltac:(congruence) Eo Zi Za ltac:(congruence) HB I) as X.
  assert (G : forall s0 h K, let y0 := with_state y s0 in stage_good priv column Partial w y0 (gen_process_constraints w y0) (feels w y P) K h).
  { intros s0 h K y0. exact (stage_runs w y0 h P K HN (HE s0 h)). }
  assert (CH : forall s0 K, let y0 := with_state y s0 in True -> chain priv column Partial w y0 (gen_process_constraints w y0) (feels w y P) (cdiv dt (cofZ (Z.of_nat n))) K).
  { intros s0 K y0 _. split; [apply G|]. intros a1 _. split; [apply G|]. intros a2 _. split; [apply G|]. intros a3 _. apply G. }
  specialize (X CH ltac:(auto)). exact (proj1 (pc_elim _ _ _ E X)).
Qed.
End S2.
