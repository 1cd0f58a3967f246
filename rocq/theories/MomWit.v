(** * Two bodies joined by a link and a spring. *)

From Coq Require Import Reals Lra.
From Verif Require Import Base Targets Matrix Sparse Sle State Ode Forces Constraints System Logic SpecMatrix SpecState SpecForces SpecCon ConFacts
  SpecSle SpecSys RegFacts RegWit SpecDyn DynState DynReact DynRound DynStep SpecLimits SpecSolve SolveReal SolveStep SolveWit SpecLaw LawReal LawStep Assemble SpecMom MomForce MomStep.
Local Open Scope nat_scope.

Section S.
Context {dbg : bool}.
Notation T := (RT dbg).
Notation cl := (cell T).

Definition kL (c : nat) : rkind := RLink (1 / 2) 0 (- (1 / 2)) 0 100 10 1.
Definition rL : spring_pars := mkSp 2 10 0 0 1 0 1.
(** body b is at (b,0); constraint 0 links the bodies at (1/2,0); generator 0 is a spring between points above them, the others are gravity *)
Definition wL : world T :=
  {| w_body := w_body wD; w_con := fun c => conT (kind_of dbg (kL c)) (rows (kL c)) (parties (kL c));
     w_gen := fun g => {| g_kind := match g with 0 => GSpring (spring_of dbg rL 0 1) | _ => GGravity (Some 10%R : cl) end; g_index := None |} |}.
Definition eL (g d : nat) : R := match g, d with 0, _ => 0%R | _, 1 => (- (2 + (2 + 0)) * 10)%R | _, _ => 0%R end.

Section Any.
Variables (w : world T) (y : sys T).
Hypothesis HS : same_objects wL w.
Hypothesis HB : y_bodies y = [0; 1].
Hypothesis HC : y_cons y = [0].
Lemma L_bodies : bodies_are w y qD vD MD.
Proof.
  intros b d _ Hd. destruct HS as (E & _). unfold b_pos, b_vel, b_mass. rewrite E.
  destruct d as [|[|[|]]]; cbn; repeat split; try lra; lia.
Qed.
Lemma L_con c : c_kind (w_con w c) = kind_of dbg (kL c) /\ c_count (w_con w c) = 2 /\ c_bodycount (w_con w c) = 2 /\
  forall p, c_bodies (w_con w c) p = Some p.
Proof. destruct HS as (_ & E & _). destruct (E c) as (-> & -> & -> & ->). repeat split. Qed.
Lemma L_kinds : kinds_are w y kL.
Proof. intros c _. destruct (L_con c) as (A & B & C & _). auto. Qed.
Lemma L_attached : attached w y.
Proof.
  intros c k Hc Hk. destruct (L_con c) as (_ & _ & E & Eb). rewrite E in Hk. exists k. split; [apply Eb|]. rewrite HB.
  destruct k as [|[|]]; cbn; auto; lia.
Qed.
Lemma L_closed c : closed (kL c) (pose_at w qD c).
Proof.
  unfold closed, kL, at_x, at_y, world_x, world_y, pose_at, who. destruct (L_con c) as (_ & _ & _ & E). rewrite !E. cbn [q_x q_y q_th qD Z.of_nat]. rewrite cos_0, sin_0. cbn. lra.
Qed.
Lemma L_outer g : outer y MD (g_kind (w_gen w g)) (eL g).
Proof.
  destruct HS as (_ & _ & E). rewrite E. cbn [w_gen wL g_kind]. destruct g as [|g].
  - left. exists rL. split; [exists 0, 1; rewrite HB; cbn; auto|]. split; reflexivity.
  - right. left. exists 10%R. split; [reflexivity|]. split; [reflexivity|]. rewrite HB. unfold Lsum. cbn [fold_right MD eL]. ring.
Qed.
Lemma L_independent q : independent w y (fun c j i => J_of (kL c) (pose_at w q c) j i).
Proof.
  intros x H.
  assert (ES : slots w y = [(0, 0, 0); (0, 0, 1); (0, 1, 0); (0, 1, 1)]).
  { unfold slots. rewrite HC. cbn [flat_map]. destruct (L_con 0) as (_ & -> & -> & _). reflexivity. }
  assert (EB : forall b c j k, binds w b (c, j, k) = Nat.eqb k b).
  { intros b c j k. unfold binds. destruct (L_con c) as (_ & _ & _ & ->). reflexivity. }
  assert (A : forall b d, In b (y_bodies y) -> d < 3 -> acts w y (fun c j i => J_of (kL c) (pose_at w q c) j i) x b d = 0%R) by exact H.
  unfold acts in A. rewrite ES in A. unfold Lsum in A. cbn [fold_right] in A.
  assert (I0 : In 0 (y_bodies y)) by (rewrite HB; cbn; auto).
  pose proof (A 0 0 I0 ltac:(lia)) as A00. pose proof (A 0 1 I0 ltac:(lia)) as A01. clear A H.
  rewrite !EB in *. cbv beta iota zeta delta [Nat.eqb Nat.mul Nat.add kL J_of nth] in A00, A01.
  intros c j Hc Hj. destruct (L_con c) as (_ & E & _). rewrite E in Hj. rewrite HC in Hc. destruct Hc as [<-|[]].
  destruct j as [|[|]]; try lia; lra.
Qed.
Lemma L_regular q : listed w y -> regular w y MD (fun c j i => J_of (kL c) (pose_at w q c) j i).
Proof. intros HL. apply (independent_regular w y); auto using L_attached, L_independent, (kinds_shaped w y kL L_kinds).
  - unfold body_count. rewrite HB. cbn. lia.
  - intros b d _ Hd. destruct d as [|[|[|]]]; cbn; lra || lia.
Qed.
(** the first row of the link is at rest, the second is not *)
Lemma L_along v : (forall b d, In b (y_bodies y) -> d < 3 -> v b d = vD b d) -> along w (fun c j i => J_of (kL c) (pose_at w qD c) j i) v 0 1 <> 0%R.
Proof.
  intros H. unfold along, who. destruct (L_con 0) as (_ & _ & -> & E). cbn [Rsum]. rewrite !E. rewrite !H by (rewrite ?HB; cbn; auto; lia).
  unfold pose_at, who. rewrite ?E. cbn [qD vD kL J_of nth Nat.mul Nat.add q_th Z.of_nat Pos.of_succ_nat]. rewrite cos_0, sin_0. lra.
Qed.
End Any.
End S.

(** the two bodies in a system *)
Lemma linked {dbg} k o gs : NoDup gs -> exists m (w : world (RT dbg)) y, yreach k nopriv m w y /\ same_objects wL w /\ y_bodies y = [0; 1] /\ y_cons y = [0] /\
  y_gens y = gs /\ y_sle y = Some (SleGe geS) /\ y_ode y = Some (match k with Optimized => OdeNsv (cofZ 0) | Generic => o end) /\ y_bias y = cofZ 1.
Proof.
  intros HG. apply assembled; auto.
  - cbn. unfold ifree, sfree, nopriv. repeat split; lia.
  - repeat constructor; cbn; intuition lia.
  - repeat constructor; cbn; intuition lia.
Qed.
(** a step succeeds *)
Lemma linked_steps {dbg} k gs (dt : R) t : NoDup gs -> (0 < dt)%R -> exists m (w : world (RT dbg)) y w' y' q' v', yreach k nopriv m w y /\ uses k Symplectic y /\
  y_sle y = Some (SleGe geS) /\ supplied (SleGe (tg := RT dbg) geS) /\ attached w y /\ kinds_are w y kL /\ y_cons y = [0] /\ y_gens y = gs /\ y_bodies y = [0; 1] /\
  (forall c, joint (kL c) /\ closed (kL c) (pose_at w qD c)) /\
  (forall g, In g (y_gens y) -> outer y MD (g_kind (w_gen w g)) (eL g)) /\
  (forall g, In g (y_gens y) -> g = 0 -> inner_spring y rL (g_kind (w_gen w g))) /\ bodies_are w y qD vD MD /\
  process k (Some dt : cell (RT dbg)) 1 t w y = Ok (w', y') /\ ends w' y q' v' /\
  (k = Optimized -> ~ forall b d, In b (y_bodies y) -> d < 3 -> v' b d = vD b d).
Proof.
  intros HG Hdt. destruct (linked (dbg := dbg) k (OdeNsv (cofZ 0)) gs HG) as (m & w & y & H & S & B & C & G & L & O & Bi).
  pose proof (reg_listed _ _ _ (yreach_reg _ _ _ _ _ H)) as HL. pose proof (L_attached w y S B) as HA. pose proof (L_bodies w y S) as HB. pose proof (L_kinds w y S) as HK.
  assert (K0 : kin_is y (kin_of w) qD vD) by (intros b d Hb Hd; destruct (HB b d Hb Hd) as (X1 & X2 & _); now split).
  assert (HO : forall g, In g (y_gens y) -> outer y MD (g_kind (w_gen w g)) (eL g)) by (intros g _; now apply L_outer).
  destruct (outer_pushes w y (kin_of w) dt qD vD MD eL HL K0 (masses w y qD vD MD HB) HO) as (f & HP & _).
  pose proof (kinds_answer w y kL (kin_of w) (Some dt : cell (RT dbg)) qD vD HL HA HK K0) as HW.
  assert (HU : uses k Symplectic y) by (destruct k; [reflexivity|exists (cofZ 0); exact O]).
  assert (H255 : body_count y <= 255) by (unfold body_count; rewrite B; cbn; lia).
  assert (HC0 : y_cons y <> []) by (rewrite C; discriminate).
  assert (STEP : exists w' y' q' v', process k (Some dt : cell (RT dbg)) 1 t w y = Ok (w', y') /\ ends w' y q' v' /\
    (k = Optimized -> ~ forall b d, In b (y_bodies y) -> d < 3 -> v' b d = vD b d)).
  { destruct k.
    - destruct (opt_ge_step nopriv m dt t w y geS 1%R qD vD MD f (law_R w kL qD vD) (fun c j i => J_of (kL c) (pose_at w qD c) j i)
        (fun c j => C_of (kL c) (pose_at w qD c) j) (fun c j => bias_of (kL c)) H L HA (kinds_shaped w y kL HK) (outer_gentle w y MD eL HO) H255 HC0 ltac:(lra) Bi HB HW)
        as (w' & y' & v' & x & E & EN & ER & _); auto.
      + intros c j _ _ i _. reflexivity.
      + intros c j _ _. reflexivity.
      + intros c j _ _. reflexivity.
      + now apply L_regular.
      + exists w', y'. do 2 eexists. split; [exact E|]. split; [exact EN|]. intros _ X. apply (L_along w y S B v' X).
        assert (I0 : In 0 (y_cons y)) by (rewrite C; now left). specialize (ER 0 1 I0). destruct (L_con w S 0) as (_ & E2 & _ & Eb). rewrite E2 in ER. specialize (ER ltac:(lia)).
        cbv beta in ER. change (bias_of (kL 0)) with 0%R in ER.
        assert (EC : C_of (kL 0) (pose_at w qD 0) 1 = 0%R).
        { unfold C_of, kL, at_x, at_y, world_x, world_y, pose_at, who. rewrite !Eb. cbn [nth q_x q_y q_th qD Z.of_nat]. rewrite cos_0, sin_0. lra. }
        rewrite EC in ER. lra.
    - destruct (gen_ge_step nopriv Symplectic m dt t w y geS qD vD MD f (law_R w kL qD vD) (fun c j i => J_of (kL c) (pose_at w qD c) j i)
        (fun c j i => Jd_of (kL c) (pose_at w qD c) (pose_at w vD c) j i)
        (fun c j => C_of (kL c) (pose_at w qD c) j) (fun c j => ks_of (kL c) j) (fun c j => kd_of (kL c) j) H HU L HA (kinds_shaped w y kL HK) (kinds_parties w y kL HK)
        (outer_gentle w y MD eL HO) H255 HC0 HB HW) as (w' & y' & a & x & E & EN & _); auto.
      + intros c j _ _ i _. reflexivity.
      + intros c j _ _ i _. reflexivity.
      + intros c j _ _. reflexivity.
      + intros c j _ _. reflexivity.
      + intros c j _ _. reflexivity.
      + now apply L_regular.
      + exists w', y'. do 2 eexists. split; [exact E|]. split; [exact EN|]. discriminate. }
  destruct STEP as (w' & y' & q' & v' & E & EN & NV). exists m, w, y, w', y', q', v'.
  split; [exact H|]. split; [exact HU|]. split; [exact L|]. split; [exact I|]. split; [exact HA|]. split; [exact HK|]. split; [exact C|]. split; [exact G|]. split; [exact B|].
  split; [intros c; split; [exact I|now apply L_closed]|]. split; [exact HO|]. split; [|split; [exact HB|split; [exact E|split; [exact EN|exact NV]]]].
  intros g _ ->. destruct S as (_ & _ & S). rewrite S. exists 0, 1. rewrite B. cbn. auto.
Qed.
