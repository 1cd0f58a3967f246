(** * Pairs of linked bodies, alone and together, and their energy. *)

From Coq Require Import Reals Lra.
From Verif Require Import Base Targets Matrix Sparse Sle State Ode Forces Constraints System Logic RealSum SpecMatrix SpecState SpecForces SpecCon ConFacts
  SpecSle SpecSys RegFacts RegWit SpecDyn DynState DynReact DynRound DynStep SpecLimits SpecSolve SolveReal SolveStep SolveWit SpecLaw LawReal LawStep Assemble SpecMom MomForce MomStep MomWit
  SpecSub SpecLeast LeastReal LeastStep LeastPart LeastGal.
Local Open Scope nat_scope.

Section S.
Context {dbg : bool}.
Notation T := (RT dbg).
Notation cl := (cell T).

(** body b is at (b + a 0, a 1); constraint c links bodies 2 c and 2 c + 1; generator 0 is gravity,
    generator g + 1 a spring between bodies 2 g and 2 g + 1 *)
Definition gP (g : nat) : rgen := match g with 0 => VGravity 10 | S g => VSpring rL (2 * g) (2 * g + 1) end.
Definition wP (a u : nat -> R) : world T :=
  {| w_body := fun b => {| b_f := fun f => match f with Bpx => (Some (moved qD a b 0) : cl) | Bpy => Some (moved qD a b 1) | Btheta => Some (moved qD a b 2)
        | Bvx => Some (moved vD u b 0) | Bvy => Some (moved vD u b 1) | Bvtheta => Some (moved vD u b 2) | Bm => Some 2%R | BI => Some 3%R end; b_index := (-1)%Z |};
     w_con := fun c => {| c_kind := kind_of dbg (kL c); c_index := (-1)%Z; c_bodycount := 2; c_bodies := fun p => Some (2 * c + p);
        c_Fx := fun _ _ => cofZ 0; c_Fy := fun _ _ => cofZ 0; c_Ft := fun _ _ => cofZ 0; c_count := 2 |};
     w_gen := fun g => {| g_kind := gen_of (gP g); g_index := None |} |}.

Section Any.
Variables (a u : nat -> R) (w : world T) (y : sys T).
Hypothesis HS : same_objects (wP a u) w.
Lemma P_bodies : bodies_are w y (moved qD a) (moved vD u) MD.
Proof.
  intros b d _ Hd. destruct HS as (E & _). unfold b_pos, b_vel, b_mass. rewrite E.
  destruct d as [|[|[|]]]; cbn; repeat split; try lra; lia.
Qed.
Lemma P_con c : c_kind (w_con w c) = kind_of dbg (kL c) /\ c_count (w_con w c) = 2 /\ c_bodycount (w_con w c) = 2 /\
  forall p, c_bodies (w_con w c) p = Some (2 * c + p).
Proof. destruct HS as (_ & E & _). destruct (E c) as (-> & -> & -> & ->). repeat split. Qed.
Lemma P_kinds : kinds_are w y kL.
Proof. intros c _. destruct (P_con c) as (A & B & C & _). auto. Qed.
Hypothesis HB : forall c, In c (y_cons y) -> In (2 * c) (y_bodies y) /\ In (2 * c + 1) (y_bodies y).
Hypothesis HG : forall g, In (S g) (y_gens y) -> In (2 * g) (y_bodies y) /\ In (2 * g + 1) (y_bodies y).
Lemma P_gens : gens_are w y gP.
Proof.
  intros g Hg. destruct HS as (_ & _ & E). rewrite E. split; [reflexivity|]. intros b Hb. destruct g as [|g]; cbn [gP names] in Hb; [contradiction|].
  destruct (HG g Hg) as [I0 I1]. destruct Hb as [<-|[<-|[]]]; assumption.
Qed.
Lemma P_attached : attached w y.
Proof.
  intros c k Hc Hk. destruct (P_con c) as (_ & _ & E & Eb). rewrite E in Hk. exists (2 * c + k). split; [apply Eb|]. destruct (HB c Hc) as [I0 I1].
  destruct k as [|[|]]; [rewrite Nat.add_0_r|..]; auto; lia.
Qed.
Lemma P_independent q : NoDup (y_cons y) -> independent w y (fun c j i => J_of (kL c) (pose_at w q c) j i).
Proof.
  intros ND x H.
  assert (K : forall c, In c (y_cons y) -> forall d, d < 2 -> x c d = 0%R).
  { intros c Hc d Hd. destruct (HB c Hc) as [I0 _]. pose proof (H (2 * c) d I0 ltac:(lia)) as A. cbv beta in A.
    unfold acts in A. rewrite slots_sum in A.
    rewrite (Lsum_ext (y_cons y) _ (fun c' => if Nat.eqb c' c then (J_of (kL c') (pose_at w q c') 0 d * x c' 0%nat + J_of (kL c') (pose_at w q c') 1 d * x c' 1%nat)%R else 0%R)) in A.
    - rewrite Lsum_one in A by assumption. destruct d as [|[|]]; [| |lia]; cbn [kL J_of nth] in A; lra.
    - intros c' _. destruct (P_con c') as (_ & -> & -> & Eb). cbn [seq]. unfold Lsum. cbn [fold_right]. unfold binds. rewrite !Eb.
      destruct (Nat.eqb_spec c' c) as [->|N].
      + rewrite Nat.add_0_r, Nat.eqb_refl. destruct (Nat.eqb_spec (2 * c + 1) (2 * c)); [lia|]. cbn [Nat.mul Nat.add]. ring.
      + destruct (Nat.eqb_spec (2 * c' + 0) (2 * c)); [lia|]. destruct (Nat.eqb_spec (2 * c' + 1) (2 * c)); [lia|]. ring. }
  intros c j Hc Hj. destruct (P_con c) as (_ & E & _). rewrite E in Hj. now apply K.
Qed.
Lemma P_regular q : listed w y -> NoDup (y_cons y) -> body_count y <= 255 -> regular w y MD (Jat w kL q).
Proof.
  intros HL ND H255. unfold Jat. apply (independent_regular w y); auto using P_attached, P_independent, (kinds_shaped w y kL P_kinds).
  intros b d _ Hd. destruct d as [|[|[|]]]; cbn; lra || lia.
Qed.
End Any.

(** any choice of these objects in any order *)
Lemma pairs (a u : nat -> R) k z bs cs gs : NoDup bs -> NoDup cs -> NoDup gs -> length bs <= 255 -> cs <> [] ->
  (forall c, In c cs -> In (2 * c) bs /\ In (2 * c + 1) bs) -> (forall g, In (S g) gs -> In (2 * g) bs /\ In (2 * g + 1) bs) ->
  exists w y, side nopriv k (match k with Optimized => Symplectic | Generic => z end) kL gP 1%R MD w y (moved qD a) (moved vD u) /\ same_objects (wP a u) w /\
    y_bodies y = bs /\ y_cons y = cs /\ y_gens y = gs /\ forall dt ts, unsingular k dt ts w y MD kL.
Proof.
  intros N1 N2 N3 HN HC HB HG.
  assert (HP : solver_apart nopriv (SleGe geS : sle T)) by (cbn; unfold ifree, sfree, nopriv; repeat split; lia).
  destruct (assembled nopriv k (wP a u) (SleGe geS) (ode_of z (cofZ 0)) bs cs gs HP N1 N2 N3) as (m & w & y & H & HS & B & C & G & L & O & Bi).
  pose proof (reg_listed _ _ _ (yreach_reg _ _ _ _ _ H)) as HL.
  assert (HB' : forall c, In c (y_cons y) -> In (2 * c) (y_bodies y) /\ In (2 * c + 1) (y_bodies y)) by (rewrite B, C; exact HB).
  assert (HG' : forall g, In (S g) (y_gens y) -> In (2 * g) (y_bodies y) /\ In (2 * g + 1) (y_bodies y)) by (rewrite B, G; exact HG).
  pose proof (P_gens a u w y HS HG') as PG.
  assert (H255 : body_count y <= 255) by (unfold body_count; now rewrite B).
  exists w, y. split; [|split; [exact HS|split; [exact B|split; [exact C|split; [exact G|]]]]].
  - constructor; eauto using P_kinds, P_bodies, P_attached.
    + destruct k; cbn; [reflexivity|eexists; exact O].
    + now rewrite C.
  - intros dt ts. apply (never_singular nopriv k dt ts kL MD m w y H (P_attached a u w y HS HB') (gens_orderly w y gP PG)).
    intros q. apply (P_regular a u w y HS HB' q HL); auto. now rewrite C.
Qed.
Ltac nodup := repeat constructor; cbn; intuition lia.
Ltac found := cbn; intros n Hn; repeat (destruct Hn as [Hn|Hn]; [try discriminate Hn; try injection Hn as Hn; subst; cbn; tauto|]); destruct Hn.
Lemma pairs_part (a u : nat -> R) w1 y1 w2 y2 : same_objects (wP a u) w1 -> same_objects (wP a u) w2 ->
  y_bodies y1 = [0; 1] -> y_cons y1 = [0] -> y_gens y1 = [0; 1] -> y_bodies y2 = [3; 0; 2; 1] -> y_cons y2 = [1; 0] -> y_gens y2 = [2; 1; 0] ->
  part_of w1 y1 w2 y2 /\ gens_part y1 y2 gP.
Proof.
  intros S1 S2 B1 C1 G1 B2 C2 G2. split; split.
  - rewrite B1, B2. cbn. intuition.
  - rewrite B1, C1, C2. split.
    + intros c Hc. destruct (P_con a u w1 S1 c) as (_ & -> & -> & E1), (P_con a u w2 S2 c) as (_ & -> & -> & E2). split; [cbn in *; tauto|].
      split; [reflexivity|]. split; [reflexivity|]. intros k0. now rewrite E1, E2.
    + intros c p b Hc N Hp E. destruct (P_con a u w2 S2 c) as (_ & _ & E1 & E2). rewrite E2 in E. injection E as <-.
      assert (c = 1) as -> by (cbn in Hc, N; intuition). cbn. lia.
  - rewrite G1, G2. cbn. tauto.
  - rewrite B1, G1, G2. intros g b Hg N Hb X. assert (g = 2) as -> by (cbn in Hg, N; intuition). cbn in X, Hb. lia.
Qed.
Definition still (d : nat) : R := 0%R.
Lemma part_case k z : exists (w1 : world T) y1 (w2 : world T) y2 q v, let z := match k with Optimized => Symplectic | Generic => z end in
  side nopriv k z kL gP 1%R MD w1 y1 q v /\ side nopriv k z kL gP 1%R MD w2 y2 q v /\ part_of w1 y1 w2 y2 /\ gens_part y1 y2 gP /\
  (forall dt ts, unsingular k (dt : cl) ts w2 y2 MD kL) /\ y_bodies y1 = [0; 1] /\ y_gens y1 = [0; 1] /\ y_bodies y2 = [3; 0; 2; 1] /\ y_cons y2 = [1; 0] /\ y_gens y2 = [2; 1; 0].
Proof.
  destruct (pairs still still k z [0; 1] [0] [0; 1]) as (w1 & y1 & D1 & S1 & B1 & C1 & G1 & R1); [nodup|nodup|nodup|cbn; lia|discriminate|found|found|].
  destruct (pairs still still k z [3; 0; 2; 1] [1; 0] [2; 1; 0]) as (w2 & y2 & D2 & S2 & B2 & C2 & G2 & R2); [nodup|nodup|nodup|cbn; lia|discriminate|found|found|].
  destruct (pairs_part still still w1 y1 w2 y2 S1 S2 B1 C1 G1 B2 C2 G2) as [P1 P2].
  exists w1, y1, w2, y2, (moved qD still), (moved vD still). cbv zeta. auto 12.
Qed.
Lemma pairs_reordered (a u a' u' : nat -> R) w1 y1 w2 y2 : same_objects (wP a u) w1 -> same_objects (wP a' u') w2 ->
  y_bodies y1 = [0; 1; 2; 3] -> y_cons y1 = [0; 1] -> y_gens y1 = [0; 1; 2] -> y_bodies y2 = [3; 0; 2; 1] -> y_cons y2 = [1; 0] -> y_gens y2 = [2; 0; 1] ->
  reordered w1 y1 w2 y2.
Proof.
  intros S1 S2 B1 C1 G1 B2 C2 G2. split; [intros b; rewrite B1, B2; cbn; tauto|]. split; [intros b; rewrite C1, C2; cbn; tauto|]. split; [intros b; rewrite G1, G2; cbn; tauto|].
  intros c _ p. destruct (P_con a u w1 S1 c) as (_ & _ & _ & ->), (P_con a' u' w2 S2 c) as (_ & _ & _ & ->). reflexivity.
Qed.
Lemma moved_case k z (a u : nat -> R) : exists (w1 : world T) y1 (w2 : world T) y2, let z := match k with Optimized => Symplectic | Generic => z end in
  side nopriv k z kL gP 1%R MD w1 y1 (moved qD still) (moved vD still) /\ side nopriv k z kL gP 1%R MD w2 y2 (moved qD a) (moved vD u) /\ reordered w1 y1 w2 y2 /\
  (forall c, In c (y_cons y1) -> inner (kL c)) /\ (forall dt ts, unsingular k (dt : cl) ts w1 y1 MD kL) /\
  y_bodies y1 = [0; 1; 2; 3] /\ y_cons y1 = [0; 1] /\ y_gens y1 = [0; 1; 2] /\ y_bodies y2 = [3; 0; 2; 1] /\ y_cons y2 = [1; 0] /\ y_gens y2 = [2; 0; 1].
Proof.
  destruct (pairs still still k z [0; 1; 2; 3] [0; 1] [0; 1; 2]) as (w1 & y1 & D1 & S1 & B1 & C1 & G1 & R1); [nodup|nodup|nodup|cbn; lia|discriminate|found|found|].
  destruct (pairs a u k z [3; 0; 2; 1] [1; 0] [2; 0; 1]) as (w2 & y2 & D2 & S2 & B2 & C2 & G2 & R2); [nodup|nodup|nodup|cbn; lia|discriminate|found|found|].
  pose proof (pairs_reordered still still a u w1 y1 w2 y2 S1 S2 B1 C1 G1 B2 C2 G2) as HO.
  exists w1, y1, w2, y2. cbv zeta. do 3 (split; [assumption|]). split; [intros c _; exact I|]. auto 9.
Qed.
End S.
