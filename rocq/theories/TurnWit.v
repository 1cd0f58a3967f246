(** * A scene at two angles. *)

From Coq Require Import Reals Lra.
From Verif Require Import Base Targets Matrix Sparse Sle State Ode Forces Constraints System Logic RealSum SpecMatrix SpecState SpecForces SpecCon ConFacts
  SpecSle SpecSys RegFacts RegWit SpecDyn DynState DynReact DynRound DynStep SpecLimits SpecSolve SolveReal SolveStep SolveWit SpecLaw LawReal LawStep Assemble SpecMom MomForce MomStep MomWit
  SpecSub SpecLeast LeastReal LeastStep LeastPart LeastGal LeastWit SpecTurn TurnReal TurnStep.
Local Open Scope nat_scope.

(** body 0 hangs at a fixed point, body 1 is linked to it, a point of body 2
    stays on a line, body 3 keeps its angle and wheel 5 rolls on body 4; a
    spring joins bodies 1 and 2 and a force acts on body 3 *)
Definition kT (c : nat) : rkind :=
  match c with
  | 0 => RFixedPosition 1 0 1 2 10 1
  | 1 => RLink 0 1 1 0 100 10 1
  | 2 => RLine 0 1 0 0 1 0 10 1
  | 3 => RFixedRotation 1 10 1
  | _ => RRolling 0 0 1 0 1 10 1
  end.
Definition bT (c p : nat) : nat := match c, p with 0, _ => 0 | 1, 0 => 0 | 1, _ => 1 | 2, _ => 2 | 3, _ => 3 | _, 0 => 4 | _, _ => 5 end.
Definition gT (g : nat) : rgen := match g with 0 => VSpring rL 1 2 | _ => VStatic 1 0 3 4 3 end.
Definition onto (k : flavour) : list nat := match k with Optimized => [0; 1; 2; 3] | Generic => [0; 1; 2; 3; 4] end.

Section S.
Context {dbg : bool}.
Notation T := (RT dbg).
Notation cl := (cell T).
Definition wM (M : nat -> nat -> R) (kc : nat -> rkind) (kg : nat -> rgen) (q v : nat -> nat -> R) : world T :=
  {| w_body := fun b => {| b_f := fun f => match f with Bpx => (Some (q b 0) : cl) | Bpy => Some (q b 1) | Btheta => Some (q b 2)
        | Bvx => Some (v b 0) | Bvy => Some (v b 1) | Bvtheta => Some (v b 2) | Bm => Some (M b 0) | BI => Some (M b 2) end; b_index := (-1)%Z |};
     w_con := fun c => {| c_kind := kind_of dbg (kc c); c_index := (-1)%Z; c_bodycount := parties (kc c); c_bodies := fun p => Some (bT c p);
        c_Fx := fun _ _ => cofZ 0; c_Fy := fun _ _ => cofZ 0; c_Ft := fun _ _ => cofZ 0; c_count := rows (kc c) |};
     w_gen := fun g => {| g_kind := gen_of (kg g); g_index := None |} |}.
Definition wT := wM MD.
(** masses fit for a body *)
Definition heavy (M : nat -> nat -> R) : Prop := forall b d, d < 3 -> (0 < M b d)%R /\ M b 1 = M b 0.
Lemma MD_heavy : heavy MD.
Proof. intros b d Hd. split; [|reflexivity]. destruct d as [|[|[|]]]; cbn; lra || lia. Qed.

Section Any.
Variables (M : nat -> nat -> R) (kc : nat -> rkind) (kg : nat -> rgen) (q v : nat -> nat -> R) (w : world T) (y : sys T).
Hypothesis HS : same_objects (wM M kc kg q v) w.
Lemma T_bodies : heavy M -> bodies_are w y q v M.
Proof.
  intros HM b d _ Hd. destruct HS as (E & _). unfold b_pos, b_vel, b_mass. rewrite E. destruct (HM b d Hd) as [P Q].
  destruct d as [|[|[|]]]; cbn; rewrite ?Q; repeat split; try lra; lia.
Qed.
Lemma T_con c : c_kind (w_con w c) = kind_of dbg (kc c) /\ c_count (w_con w c) = rows (kc c) /\ c_bodycount (w_con w c) = parties (kc c) /\
  forall p, c_bodies (w_con w c) p = Some (bT c p).
Proof. destruct HS as (_ & E & _). destruct (E c) as (-> & -> & -> & ->). repeat split. Qed.
Lemma T_kinds : kinds_are w y kc.
Proof. intros c _. destruct (T_con c) as (A & B & C & _). auto. Qed.
Hypothesis HB : forall c p, In c (y_cons y) -> In (bT c p) (y_bodies y).
Hypothesis HG : forall g b, In g (y_gens y) -> In b (names (kg g)) -> In b (y_bodies y).
Lemma T_gens : gens_are w y kg.
Proof. intros g Hg. destruct HS as (_ & _ & E). rewrite E. split; [reflexivity|]. intros b Hb. now apply (HG g). Qed.
Lemma T_attached : attached w y.
Proof. intros c k Hc Hk. destruct (T_con c) as (_ & _ & _ & Eb). exists (bT c k). split; [apply Eb|]. now apply HB. Qed.
End Any.

(** any choice of these objects in any order *)
Lemma scene_m M kc kg q v k z bs cs gs : heavy M -> NoDup bs -> NoDup cs -> NoDup gs -> length bs <= 255 -> cs <> [] ->
  (forall c p, In c cs -> In (bT c p) bs) -> (forall g b, In g gs -> In b (names (kg g)) -> In b bs) ->
  exists m w y, yreach k nopriv m w y /\ side nopriv k (match k with Optimized => Symplectic | Generic => z end) kc kg 1%R M w y q v /\ same_objects (wM M kc kg q v) w /\
    y_bodies y = bs /\ y_cons y = cs /\ y_gens y = gs.
Proof.
  intros HM N1 N2 N3 HN HC HB HG.
  assert (HP : solver_apart nopriv (SleGe geS : sle T)) by (cbn; unfold ifree, sfree, nopriv; repeat split; lia).
  destruct (assembled nopriv k (wM M kc kg q v) (SleGe geS) (ode_of z (cofZ 0)) bs cs gs HP N1 N2 N3) as (m & w & y & H & HS & B & C & G & L & O & Bi).
  assert (HB' : forall c p, In c (y_cons y) -> In (bT c p) (y_bodies y)) by (rewrite B, C; exact HB).
  assert (HG' : forall g b, In g (y_gens y) -> In b (names (kg g)) -> In b (y_bodies y)) by (rewrite B, G; exact HG).
  exists m, w, y. split; [exact H|]. split; [|split; [exact HS|split; [exact B|split; [exact C|exact G]]]].
  constructor; eauto.
  - destruct k; cbn; [reflexivity|eexists; exact O].
  - now apply (T_attached M kc kg q v).
  - now apply (T_kinds M kc kg q v).
  - now apply (T_gens M kc kg q v).
  - unfold body_count. now rewrite B.
  - now rewrite C.
  - now apply (T_bodies M kc kg q v).
Qed.

Lemma scene kc kg q v k z bs cs gs : NoDup bs -> NoDup cs -> NoDup gs -> length bs <= 255 -> cs <> [] ->
  (forall c p, In c cs -> In (bT c p) bs) -> (forall g b, In g gs -> In b (names (kg g)) -> In b bs) ->
  exists m w y, yreach k nopriv m w y /\ side nopriv k (match k with Optimized => Symplectic | Generic => z end) kc kg 1%R MD w y q v /\ same_objects (wT kc kg q v) w /\
    y_bodies y = bs /\ y_cons y = cs /\ y_gens y = gs.
Proof. apply (scene_m MD). exact MD_heavy. Qed.

Section Alone.
Variables (M : nat -> nat -> R) (kc : nat -> rkind) (kg : nat -> rgen) (q v : nat -> nat -> R) (w : world T) (y : sys T).
Hypothesis HS : same_objects (wM M kc kg q v) w.
(** what the multipliers put on a body that only one constraint (with multipliers other than 0) holds *)
Lemma T_alone x b d c0 p0 : NoDup (y_cons y) -> In c0 (y_cons y) ->
  (forall c p, In c (y_cons y) -> p < parties (kc c) -> bT c p = b -> c = c0 /\ p = p0 \/ c <> c0 /\ forall j, j < rows (kc c) -> x c j = 0%R) -> p0 < parties (kc c0) -> bT c0 p0 = b ->
  forall q, acts w y (Jat w kc q) x b d = Lsum (seq 0 (rows (kc c0))) (fun j => Jat w kc q c0 j (3 * p0 + d)%nat * x c0 j)%R.
Proof.
  intros ND Hc0 HU Hp0 Eb q'. unfold acts. rewrite slots_sum.
  rewrite (Lsum_ext (y_cons y) _ (fun c => if Nat.eqb c c0 then Lsum (seq 0 (rows (kc c))) (fun j => Jat w kc q' c j (3 * p0 + d)%nat * x c j)%R else 0%R)).
  - now rewrite Lsum_one.
  - intros c Hc. destruct (T_con M kc kg q v w HS c) as (_ & -> & -> & E). destruct (Nat.eqb_spec c c0) as [->|N].
    + apply Lsum_ext. intros j _. rewrite (Lsum_ext _ _ (fun k => if Nat.eqb k p0 then Jat w kc q' c0 j (3 * k + d)%nat * x c0 j else 0)%R).
      * rewrite Lsum_one; [reflexivity|apply seq_NoDup|apply in_seq; lia].
      * intros k Hk. apply in_seq in Hk. unfold binds. rewrite E. destruct (Nat.eqb_spec (bT c0 k) b) as [X|X], (Nat.eqb_spec k p0) as [Y|Y]; subst; try reflexivity; try contradiction.
        destruct (HU c0 k Hc ltac:(lia) X) as [[_ ?]|[? _]]; contradiction.
    + rewrite (Lsum_ext _ _ (fun _ => 0%R)); [apply Lsum_zero|]. intros j Hj. apply in_seq in Hj. rewrite (Lsum_ext _ _ (fun _ => 0%R)); [apply Lsum_zero|]. intros k Hk. apply in_seq in Hk. unfold binds. rewrite E.
      destruct (Nat.eqb_spec (bT c k) b) as [X|X]; [|reflexivity]. destruct (HU c k Hc ltac:(lia) X) as [[? _]|[_ Z]]; [contradiction|]. rewrite Z by lia. ring.
Qed.
End Alone.
Section Ind.
Variables (M : nat -> nat -> R) (kg : nat -> rgen) (q v : nat -> nat -> R) (w : world T) (y : sys T).
Hypothesis HS : same_objects (wM M kT kg q v) w.
Hypothesis HB : forall c p, In c (y_cons y) -> In (bT c p) (y_bodies y).
Hypothesis HC : forall c, In c (y_cons y) -> c <= 4.
Ltac sole := let c := fresh "c" in let p := fresh "p" in let Hc := fresh "Hc" in let E := fresh "E" in
  intros c p Hc ? E; specialize (HC c Hc); destruct c as [|[|[|[|[|c]]]]]; try (exfalso; lia); destruct p as [|[|p]]; cbn in *; try lia; try discriminate E; auto.
Lemma T_independent q' : NoDup (y_cons y) -> independent w y (Jat w kT q').
Proof.
  intros ND x H.
  assert (X1 : In 1 (y_cons y) -> forall j, j < 2 -> x 1 j = 0%R).
  { intros Hc j Hj. pose proof (H 1 j (HB 1 1 Hc) ltac:(lia)) as A. rewrite (T_alone M kT kg q v w y HS x 1 j 1 1) in A; [|exact ND|exact Hc|sole|cbn; lia|reflexivity].
    unfold Jat in A. cbn [kT rows seq] in A. unfold Lsum in A. destruct j as [|[|]]; [| |lia]; cbn [fold_right J_of nth Nat.mul Nat.add] in A; lra. }
  assert (X0 : In 0 (y_cons y) -> forall j, j < 2 -> x 0 j = 0%R).
  { intros Hc j Hj. pose proof (H 0 j (HB 0 0 Hc) ltac:(lia)) as A. rewrite (T_alone M kT kg q v w y HS x 0 j 0 0) in A; [|exact ND|exact Hc|sole|cbn; lia|reflexivity].
    - unfold Jat in A. cbn [kT rows seq] in A. unfold Lsum in A. destruct j as [|[|]]; [| |lia]; cbn [fold_right J_of nth Nat.mul Nat.add] in A; lra. }
  assert (X2 : In 2 (y_cons y) -> x 2 0 = 0%R).
  { intros Hc. pose proof (H 2 1 (HB 2 0 Hc) ltac:(lia)) as A. rewrite (T_alone M kT kg q v w y HS x 2 1 2 0) in A; [|exact ND|exact Hc|sole|cbn; lia|reflexivity].
    unfold Jat in A. cbn [kT rows seq] in A. unfold Lsum in A. cbn [fold_right J_of nth Nat.mul Nat.add] in A. lra. }
  assert (X3 : In 3 (y_cons y) -> x 3 0 = 0%R).
  { intros Hc. pose proof (H 3 2 (HB 3 0 Hc) ltac:(lia)) as A. rewrite (T_alone M kT kg q v w y HS x 3 2 3 0) in A; [|exact ND|exact Hc|sole|cbn; lia|reflexivity].
    unfold Jat in A. cbn [kT rows seq] in A. unfold Lsum in A. cbn [fold_right J_of nth Nat.mul Nat.add] in A. lra. }
  assert (X4 : In 4 (y_cons y) -> forall j, j < 2 -> x 4 j = 0%R).
  { intros Hc j Hj.
    assert (K : forall d, d < 3 -> Lsum (seq 0 (rows (kT 4))) (fun j => Jat w kT q' 4%nat j (3 * 1 + d)%nat * x 4%nat j)%R = 0%R).
    { intros d Hd. pose proof (H 5 d (HB 4 1 Hc) Hd) as A. rewrite (T_alone M kT kg q v w y HS x 5 d 4 1) in A; [exact A|exact ND|exact Hc|sole|cbn; lia|reflexivity]. }
    pose proof (K 2 ltac:(lia)) as K2. pose proof (K 0 ltac:(lia)) as K0. pose proof (K 1 ltac:(lia)) as K1. unfold Jat in K0, K1, K2. cbn [kT rows seq] in K0, K1, K2. unfold Lsum in K0, K1, K2.
    cbn [fold_right J_of nth Nat.mul Nat.add] in K0, K1, K2. set (th := q_th (pose_at w q' 4 0)) in *.
    assert (Z0 : x 4 0 = 0%R) by lra. rewrite Z0 in *. destruct j as [|[|]]; [exact Z0| |lia].
    pose proof (sin2_cos2 th) as SC. unfold Rsqr in SC.
    assert (E : (x 4%nat 1%nat = (sin th * sin th + cos th * cos th) * x 4%nat 1%nat)%R) by (rewrite SC; ring). 
    assert (Ks : (sin th * x 4%nat 1%nat = 0)%R) by lra. assert (Kc : (cos th * x 4%nat 1%nat = 0)%R) by lra. rewrite E.
    transitivity (sin th * (sin th * x 4%nat 1%nat) + cos th * (cos th * x 4%nat 1%nat))%R; [ring|]. rewrite Ks, Kc. ring. }
  intros c j Hc Hj. destruct (T_con M kT kg q v w HS c) as (_ & E & _). rewrite E in Hj. pose proof (HC c Hc) as Le.
  destruct c as [|[|[|[|[|c]]]]]; try (exfalso; lia); cbn [kT rows] in Hj; auto; replace j with 0 by lia; auto.
Qed.
End Ind.

Lemma T_unsingular kg q v k m w y dt ts : yreach k nopriv m w y -> same_objects (wT kT kg q v) w -> (forall c p, In c (y_cons y) -> In (bT c p) (y_bodies y)) -> (forall c, In c (y_cons y) -> c <= 4) ->
  body_count y <= 255 -> gens_are w y kg -> unsingular k dt ts w y MD kT.
Proof.
  intros H HS HB HC B HG. pose proof (reg_listed _ _ _ (yreach_reg _ _ _ _ _ H)) as HL. pose proof (T_attached MD kT kg q v w y HS HB) as HA.
  apply (never_singular nopriv k dt ts kT MD m w y H HA (gens_orderly w y kg HG)).
  intros q'. apply (independent_regular w y); auto.
  - exact (kinds_shaped w y kT (T_kinds MD kT kg q v w y HS)).
  - intros b d _ Hd. destruct d as [|[|[|]]]; cbn; lra || lia.
  - apply (T_independent MD kg q v w y HS HB HC). now destruct (reach_nodup nopriv _ _ _ _ H) as (_ & N & _).
Qed.
Ltac nodup := repeat constructor; cbn; intuition lia.
Lemma T_reordered M kc kg q v M' kc' kg' q' v' (w1 w2 : world T) y1 y2 : same_objects (wM M kc kg q v) w1 -> same_objects (wM M' kc' kg' q' v') w2 ->
  (forall b, In b (y_bodies y1) <-> In b (y_bodies y2)) -> (forall c, In c (y_cons y1) <-> In c (y_cons y2)) -> (forall g, In g (y_gens y1) <-> In g (y_gens y2)) -> reordered w1 y1 w2 y2.
Proof.
  intros S1 S2 A B C. split; [exact A|]. split; [exact B|]. split; [exact C|]. intros c _ p.
  destruct (T_con _ _ _ _ _ w1 S1 c) as (_ & _ & _ & ->), (T_con _ _ _ _ _ w2 S2 c) as (_ & _ & _ & ->). reflexivity.
Qed.
Ltac listed_in := cbn; intros; intuition (subst; cbn in *; intuition).
Lemma turn_case k z (t ax ay : R) : exists (w1 : world T) y1 (w2 : world T) y2, let z := match k with Optimized => Symplectic | Generic => z end in
  side nopriv k z kT gT 1%R MD w1 y1 qD vD /\ side nopriv k z (fun c => turn_kind t ax ay (kT c)) (fun g => turn_gen t (gT g)) 1%R MD w2 y2 (placed t ax ay qD) (turned t vD) /\ reordered w1 y1 w2 y2 /\
  (forall c, In c (y_cons y1) -> k = Generic \/ no_rolling (kT c)) /\ (forall g, In g (y_gens y1) -> weightless (gT g)) /\ (forall dt ts, unsingular k (dt : cl) ts w1 y1 MD kT) /\
  y_bodies y1 = [0; 1; 2; 3; 4; 5] /\ y_cons y1 = onto k /\ y_gens y1 = [0; 1].
Proof.
  destruct (scene kT gT qD vD k z [0; 1; 2; 3; 4; 5] (onto k) [0; 1]) as (m1 & w1 & y1 & H1 & D1 & S1 & B1 & C1 & G1);
    [nodup|destruct k; nodup|nodup|cbn; lia|destruct k; discriminate| |listed_in|].
  { intros c p Hc. assert (c <= 4) by (destruct k; cbn in Hc; lia). destruct c as [|[|[|[|[|c]]]]]; try lia; destruct p as [|p]; cbn; tauto. }
  destruct (scene (fun c => turn_kind t ax ay (kT c)) (fun g => turn_gen t (gT g)) (placed t ax ay qD) (turned t vD) k z [5; 0; 4; 2; 1; 3] (rev (onto k)) [1; 0]) as (m2 & w2 & y2 & H2 & D2 & S2 & B2 & C2 & G2);
    [nodup|destruct k; nodup|nodup|cbn; lia|destruct k; discriminate| |listed_in|].
  { intros c p Hc. assert (c <= 4) by (destruct k; cbn in Hc; lia). destruct c as [|[|[|[|[|c]]]]]; try lia; destruct p as [|p]; cbn; tauto. }
  exists w1, y1, w2, y2. cbv zeta. split; [exact D1|]. split; [exact D2|]. split; [|split; [|split; [|split; [|auto]]]].
  - apply (T_reordered _ _ _ _ _ _ _ _ _ _ w1 w2 y1 y2 S1 S2); intros; rewrite ?B1, ?B2, ?C1, ?C2, ?G1, ?G2; [cbn; tauto|destruct k; cbn; tauto|cbn; tauto].
  - intros c Hc. rewrite C1 in Hc. destruct k; [right|now left]. destruct c as [|[|[|[|c]]]]; try exact I. cbn in Hc. lia.
  - intros g _. destruct g; exact I.
  - intros dt ts. apply (T_unsingular gT qD vD k m1); auto.
    + rewrite B1, C1. intros c p Hc. assert (c <= 4) by (destruct k; cbn in Hc; lia). destruct c as [|[|[|[|[|c]]]]]; try lia; destruct p as [|p]; cbn; tauto.
    + rewrite C1. intros c Hc. destruct k; cbn in Hc; lia.
    + exact (sd_255 D1).
    + exact (sd_gens D1).
Qed.

(** a wheel on a base that is free to move, and the same scene after a full turn *)
Definition qR (b d : nat) : R := match b, d with 5, 1 => 1%R | _, _ => 0%R end.
Definition vR (b d : nat) : R := 0%R.
Lemma full_turn : cos (2 * PI) = 1%R /\ sin (2 * PI) = 0%R.
Proof. split; [apply cos_2PI|apply sin_2PI]. Qed.
Lemma wheel_case (dt : R) : dt <> 0%R -> let t := (2 * PI)%R in
  exists (w1 : world T) y1 (w2 : world T) y2,
  side nopriv Optimized Symplectic kT gT 1%R MD w1 y1 qR vR /\ side nopriv Optimized Symplectic (fun c => turn_kind t 0 0 (kT c)) (fun g => turn_gen t (gT g)) 1%R MD w2 y2 (placed t 0 0 qR) (turned t vR) /\
  reordered w1 y1 w2 y2 /\ y_gens y1 = [] /\ (forall dt ts, unsingular Optimized (dt : cl) ts w1 y1 MD kT) /\
  (forall t1, exists w1' y1' q' v', process Optimized (Some dt : cl) 1 t1 w1 y1 = Ok (w1', y1') /\ ends w1' y1 q' v') /\
  forall t1 t2 w1' y1' w2' y2' q' v', process Optimized (Some dt : cl) 1 t1 w1 y1 = Ok (w1', y1') -> process Optimized (Some dt : cl) 1 t2 w2 y2 = Ok (w2', y2') ->
    ends w1' y1 q' v' -> ~ ends w2' y2 (placed t 0 0 q') (turned t v').
Proof.
  intros Ndt t.
  destruct (scene kT gT qR vR Optimized Symplectic [4; 5] [4] []) as (m1 & w1 & y1 & H1 & D1 & S1 & B1 & C1 & G1);
    [nodup|nodup|nodup|cbn; lia|discriminate| |listed_in|].
  { intros c p [<-|[]]. destruct p as [|p]; cbn; tauto. }
  destruct (scene (fun c => turn_kind t 0 0 (kT c)) (fun g => turn_gen t (gT g)) (placed t 0 0 qR) (turned t vR) Optimized Symplectic [4; 5] [4] []) as (m2 & w2 & y2 & H2 & D2 & S2 & B2 & C2 & G2);
    [nodup|nodup|nodup|cbn; lia|discriminate| |listed_in|].
  { intros c p [<-|[]]. destruct p as [|p]; cbn; tauto. }
  cbn [uses] in D1, D2.
  assert (HO : reordered w1 y1 w2 y2) by (apply (T_reordered _ _ _ _ _ _ _ _ _ _ w1 w2 y1 y2 S1 S2); intros; rewrite ?B1, ?B2, ?C1, ?C2, ?G1, ?G2; tauto).
  assert (HU : forall dt ts, unsingular Optimized (dt : cl) ts w1 y1 MD kT).
  { intros dt' ts. apply (T_unsingular gT qR vR Optimized m1); auto.
    + rewrite B1, C1. intros c p [<-|[]]. destruct p as [|p]; cbn; tauto.
    + rewrite C1. intros c [<-|[]]. lia.
    + exact (sd_255 D1).
    + exact (sd_gens D1). }
  exists w1, y1, w2, y2. split; [exact D1|]. split; [exact D2|]. split; [exact HO|]. split; [exact G1|]. split; [exact HU|].
  destruct D1 as [_ U1 (g1 & L1) A1 K1 GG1 X1 N1 E1 Q1], D2 as [_ U2 (g2 & L2) A2 K2 GG2 X2 N2 E2 Q2].
  pose proof (reg_listed _ _ _ (yreach_reg _ _ _ _ _ H1)) as HL1. pose proof (reg_listed _ _ _ (yreach_reg _ _ _ _ _ H2)) as HL2.
  destruct (reach_nodup nopriv _ _ _ _ H1) as (NB1 & ND1 & NG1), (reach_nodup nopriv _ _ _ _ H2) as (NB2 & ND2 & NG2).
  set (kc2 := fun c => turn_kind t 0 0 (kT c)) in *. assert (HT : forall c, kc2 c = turn_kind t 0 0 (kT c)) by reflexivity.
  assert (HR1 : regular w1 y1 MD (Jat w1 kT qR)).
  { apply (HU (Some dt : cl) [mkTiming 0 0 0 0]%Z [] (mkTiming 0 0 0 0)%Z [] w1 y1 qR vR eq_refl eq_refl). exact (are_ends _ _ _ _ _ Q1). }
  assert (HR2 : regular w2 y2 MD (Jat w2 kc2 (placed t 0 0 qR))).
  { apply (independent_regular w2 y2); auto; [exact (kinds_shaped w2 y2 kc2 K2)| |].
    - intros b d _ Hd. destruct d as [|[|[|]]]; cbn; lra || lia.
    - apply (turn_independent t 0 0 w1 y1 w2 y2 kT kc2 HO K1 K2 HT qR); auto. now apply (regular_independent w1 y1 (Jat w1 kT qR) MD). }
  assert (P1 : forall t1, exists w' y' u x, process Optimized (Some dt : cl) 1 t1 w1 y1 = Ok (w', y') /\ ends w' y1 (newq Optimized Symplectic qR vR u dt) u /\
    allowed w1 y1 (Jat w1 kT qR) (wanted Optimized w1 kT vR (Jat w1 kT qR) (fun c j i => Jd_of (kT c) (pose_at w1 qR c) (pose_at w1 vR c) j i) (fun c j => C_of (kT c) (pose_at w1 qR c) j) 1 dt) u /\ x = 0%R).
  { intros t1. destruct (ge_step nopriv Optimized Symplectic m1 dt t1 w1 y1 g1 1 qR vR MD _ kT (Jat w1 kT qR) (fun c j i => Jd_of (kT c) (pose_at w1 qR c) (pose_at w1 vR c) j i) (fun c j => C_of (kT c) (pose_at w1 qR c) j)
      H1 U1 L1 A1 K1 (gens_gentle _ _ _ GG1) X1 N1 Ndt E1 Q1 (gens_push w1 y1 gT dt qR vR MD HL1 Q1 GG1) HR1) as (w' & y' & u & x & P & En & AL & _).
    - intros c j Hc Hj. split; [reflexivity|]. intros i. split; reflexivity.
    - exists w', y', u, 0%R. auto. }
  split; [intros t1; destruct (P1 t1) as (w' & y' & u & x & P & En & _); eexists _, _, _, _; split; [exact P|exact En]|].
  intros t1 t2 w1' y1' w2' y2' q' v' F1 F2 En1 En2.
  destruct (P1 t1) as (w' & y' & u1 & x & P & En & AL1 & _). rewrite F1 in P. injection P as <- <-.
  destruct (ge_step nopriv Optimized Symplectic m2 dt t2 w2 y2 g2 1 _ _ MD _ kc2 (Jat w2 kc2 (placed t 0 0 qR)) (fun c j i => Jd_of (kc2 c) (pose_at w2 (placed t 0 0 qR) c) (pose_at w2 (turned t vR) c) j i) (fun c j => C_of (kc2 c) (pose_at w2 (placed t 0 0 qR) c) j)
      H2 U2 L2 A2 K2 (gens_gentle _ _ _ GG2) X2 N2 Ndt E2 Q2 (gens_push w2 y2 _ dt _ _ MD HL2 Q2 GG2) HR2) as (w' & y' & u2 & x2 & P & En' & AL2 & _).
  { intros c j Hc Hj. split; [reflexivity|]. intros i. split; reflexivity. }
  rewrite F2 in P. injection P as <- <-.
  assert (EU : forall b d, In b (y_bodies y2) -> d < 3 -> u2 b d = turned t u1 b d).
  { intros b d Hb Hd. destruct (En2 b d Hb Hd) as [_ Y1], (En' b d Hb Hd) as [_ Y2]. rewrite Y1 in Y2. injection Y2 as Y2. cbn [newv] in Y2. rewrite <- Y2.
    assert (V : forall d, d < 3 -> v' b d = u1 b d).
    { intros d' Hd'. assert (Hb1 : In b (y_bodies y1)) by now rewrite B1, <- B2. destruct (En1 b d' Hb1 Hd') as [_ Z1], (En b d' Hb1 Hd') as [_ Z2]. rewrite Z1 in Z2. now injection Z2. }
    destruct d as [|[|[|d]]]; try (exfalso; lia); cbn [turned]; rewrite ?(V 0), ?(V 1), ?(V 2) by lia; reflexivity. }
  assert (I1 : In 4 (y_cons y1)) by (rewrite C1; now left). assert (I2 : In 4 (y_cons y2)) by (rewrite C2; now left).
  pose proof (AL1 4 0 I1 ltac:(destruct (K1 4 I1) as (_ & -> & _); cbn; lia)) as R1. pose proof (AL2 4 0 I2 ltac:(destruct (K2 4 I2) as (_ & -> & _); cbn; lia)) as R2.
  cbv beta in R1, R2. rewrite (along_ext w2 _ u2 (turned t u1)) in R2.
  2:{ intros p d Hp Hd. apply EU; auto. destruct (A2 4 p I2 Hp) as (b & Eb & Hb). unfold who. now rewrite Eb. }
  rewrite (along_turn t 0 0 w1 y1 w2 y2 kT kc2 HO K1 K2 HT qR u1 4 0 I1 ltac:(cbn; lia)) in R2. cbn [kT mix] in R2. rewrite R1 in R2.
  unfold wanted in R2. rewrite HT in R2. rewrite (C_ext (turn_kind t 0 0 (kT 4)) (pose_at w2 (placed t 0 0 qR) 4) (fun p => put t 0 0 (pose_at w1 qR 4 p))) in R2 by (intros p; now apply (place_pose t 0 0 w1 y1 w2 y2)).
  assert (W : forall p, pose_at w1 qR 4 p = pose_of qR (bT 4 p)).
  { intros p. unfold pose_at, who, pose_of. destruct (T_con _ _ _ _ _ w1 S1 4) as (_ & _ & _ & ->). reflexivity. }
  rewrite (C_ext (kT 4) _ (fun p => pose_of qR (bT 4 p)) 0 W) in R2. rewrite (C_ext (turn_kind t 0 0 (kT 4)) (fun p => put t 0 0 (pose_at w1 qR 4 p)) (fun p => put t 0 0 (pose_of qR (bT 4 p)))) in R2 by (intros p; now rewrite W).
  cbn [kT turn_kind C_of nth bT bias_of] in R2. unfold at_x, at_y, world_x, world_y, put, pose_of, qR, t in R2. cbn [q_x q_y q_th] in R2.
  rewrite ?cos_plus, ?sin_plus, ?cos_2PI, ?sin_2PI, ?cos_0, ?sin_0 in R2.
  pose proof PI_RGT_0 as PP. assert (Z : (1 / dt * (2 * PI) = 0)%R) by lra.
  apply Rmult_integral in Z. destruct Z as [Z|Z]; [|lra]. apply (Rinv_neq_0_compat dt Ndt). lra.
Qed.
End S.
