(** * Runs of the fourth-order solver. *)

From Coq Require Import Reals Lra QArith Qabs.
From Verif Require Import Base Targets Matrix Sparse Sle State Ode Forces Constraints System Logic SpecMatrix SpecState StateFacts SpecOde SpecForces SpecCon ConFacts
  SpecSle SpecSys RegFacts RegWit SpecDyn DynState DynReact DynRound DynStep DynForce DynWit SpecLimits SpecSolve SolveReal SolveStep SolveWit SpecLaw LawReal LawStep Assemble
  SpecMom MomForce MomStep MomWit EdgeOut SpecRk RkStep RkOwn SpecRkR RkReal.
Local Open Scope nat_scope.

(** ** a shaft and a free body under gravity, rational numbers *)
Definition three_rk {tg} (dt : cell tg) : list (ev tg) :=
  [EInit (SleGe geS) (OdeRk4 rk4_new); EAddB 0; EAddB 2; EAddB 1; EAddC 4; EAddG 2; EProc dt 1 (t0 3)].
Definition all_fld : list fld := [Fatheta; Fvtheta; Ftheta; Fax; Fay; Fvx; Fvy; Fpx; Fpy; Ffx; Ffy; Ft; Fm; Frx; Fry; Frt].
Definition sizedb {tg} (s : sstate tg) : bool :=
  forallb (fun f => Nat.eqb (length (s_arr s f)) (room (s_n s) (s_nc s) f)) all_fld && Nat.eqb (length (s_imap s)) (s_nc s).
Lemma sizedb_ok {tg} (s : sstate tg) : sizedb s = true -> sized s.
Proof.
  unfold sizedb. rewrite andb_true_iff, forallb_forall, Nat.eqb_eq. intros [A B]. split; [|exact B].
  intros f. apply Nat.eqb_eq, A. destruct f; cbn; auto 20.
Qed.
Lemma three_rk_runs : exists m (w : world (QT true)) y w' y', yreach Generic nopriv m w y /\ attached w y /\ shaped w y /\ all_gentle w y /\
  uses_rk y /\ con_count y = 1 /\ gen_count y = 1 /\ In 2 (y_bodies y) /\ unbound w y 2 /\
  process Generic dtQ 2 (t0 7) w y = Ok (w', y') /\ b_vel (w_body w' 2) 1 <> b_vel (w_body w 2) 1.
Proof.
  destruct (runs_reach Generic nopriv wS (three_rk dtQ) (fun m w y => okays w y && Nat.eqb (con_count y) 1 && Nat.eqb (gen_count y) 1 &&
     existsb (Nat.eqb 2) (y_bodies y) && unboundb w y 2 &&
     match y_ode y with Some (OdeRk4 r) => sizedb (rk_init r) && sizedb (rk_acc r) | _ => false end &&
     match process Generic dtQ 2 (t0 7) w y with Ok (w', y') =>
       match b_vel (w_body w' 2) 1, b_vel (w_body w 2) 1 with Some a, Some b => negb (Qeq_bool a b) | _, _ => false end | _ => false end)) as (m & w & y & H & T).
  - vm_compute. reflexivity.
  - rewrite !andb_true_iff, !Nat.eqb_eq in T. destruct T as ((((((T1 & T2) & T3) & T4) & T5) & T6) & T7).
    destruct (process Generic dtQ 2 (t0 7) w y) as [[w' y']| | |] eqn:E; try discriminate. destruct (okays_ok _ _ T1) as (A & B & C).
    exists m, w, y, w', y'. do 4 (split; [assumption|]). split.
    { destruct (y_ode y) as [[|h|h|r]|] eqn:Eo; try discriminate. rewrite andb_true_iff in T6. exists r. split; [exact Eo|]. split; apply sizedb_ok, T6. }
    do 2 (split; [assumption|]). split.
    { apply existsb_exists in T4. destruct T4 as (x & Hx & Ex). apply Nat.eqb_eq in Ex. now subst x. }
    split; [now apply unboundb_ok|]. split; [exact E|]. intros X. rewrite X in T7.
    destruct (b_vel (w_body w 2) 1) as [a|]; [|discriminate]. apply negb_true_iff in T7. now rewrite Qeq_bool_refl in T7.
Qed.

(** ** histories with a solver of its own *)
Definition tame_rk {tg} (e : ev tg) : Prop :=
  match e with EInit _ o => forall r, o = OdeRk4 r -> r = rk4_new | EProc _ n _ => 0 < n | _ => True end.
Lemma evstep_lone {tg} priv m w (y : sys tg) e m' w' y' : lone priv y -> yreach Generic priv m w y -> tame_rk e ->
  evstep Generic priv (m, w, y) e = Ok (m', w', y') -> lone priv y'.
Proof.
  intros HL H HT E. destruct e; cbn [evstep] in E; cbn [tame_rk] in HT.
  - destruct (apartb priv l) eqn:A; [|discriminate]. destruct (initialize Generic y l o) eqn:E1; try discriminate. cbn in E. injection E as <- <- <-.
    eapply lone_initialize; eauto.
  - destruct (in_body m b); [discriminate|]. injection E as <- <- <-. eapply lone_other; [exact HL|reflexivity|reflexivity].
  - destruct (in_body m b); [|discriminate]. destruct (remove_body w y b) as [[w1 y1]| | |] eqn:E1; try discriminate. cbn [bind] in E. injection E as <- <- <-.
    unfold remove_body in E1. do 4 (apply bind_inv in E1; destruct E1 as (? & _ & E1)). injection E1 as _ <-. eapply lone_other; [exact HL|reflexivity|reflexivity].
  - destruct (in_con m c); [discriminate|]. injection E as <- <- <-. eapply lone_other; [exact HL|reflexivity|reflexivity].
  - destruct (in_con m c); [|discriminate]. destruct (remove_con w y c) as [[w1 y1]| | |] eqn:E1; try discriminate. cbn [bind] in E. injection E as <- <- <-.
    unfold remove_con in E1. do 4 (apply bind_inv in E1; destruct E1 as (? & _ & E1)). injection E1 as _ <-. eapply lone_other; [exact HL|reflexivity|reflexivity].
  - destruct (in_gen m g); [discriminate|]. injection E as <- <- <-. eapply lone_other; [exact HL|reflexivity|reflexivity].
  - destruct (in_gen m g); [|discriminate]. destruct (remove_gen w y g) as [[w1 y1]| | |] eqn:E1; try discriminate. cbn [bind] in E. injection E as <- <- <-.
    unfold remove_gen in E1. do 5 (apply bind_inv in E1; destruct E1 as (? & _ & E1)). injection E1 as _ <-. eapply lone_other; [exact HL|reflexivity|reflexivity].
  - injection E as <- <- <-. eapply lone_other; [exact HL|reflexivity|reflexivity].
  - destruct (forallb _ _) eqn:A; [|discriminate]. rewrite forallb_forall in A.
    destruct (process Generic dt steps t w y) as [[w1 y1]| | |] eqn:E1; try discriminate. cbn [bind] in E. injection E as <- <- <-.
    eapply lone_process; eauto. intros g Hg. now apply builtin_orderly, A.
  - injection E as <- <- <-. exact HL.
Qed.
Lemma evrun_lone {tg} priv es : forall m w (y : sys tg) m' w' y', lone priv y -> yreach Generic priv m w y -> Forall tame_rk es ->
  evrun Generic priv (m, w, y) es = Ok (m', w', y') -> lone priv y'.
Proof.
  induction es as [|e es IH]; intros m w y m' w' y' HL H HT E; cbn [evrun] in E; [now injection E as <- <- <-|].
  destruct (evstep Generic priv (m, w, y) e) as [[[m1 w1] y1]| | |] eqn:E1; try discriminate. cbn [bind] in E. inversion HT; subst.
  eapply IH; [| |eassumption|exact E]; [eapply evstep_lone; eauto|eapply evstep_reach; eauto].
Qed.
Lemma runs_lone {tg} priv (w : world tg) es t : Forall tame_rk es -> runs (evrun Generic priv (no_books, w, created Generic) es) t = true ->
  exists m w' y, yreach Generic priv m w' y /\ lone priv y /\ t m w' y = true.
Proof.
  intros HT. unfold runs. destruct (evrun _ _ _ _) as [[[m w'] y]| | |] eqn:E; try discriminate. intros T.
  exists m, w', y. split; [eapply evrun_reach; [apply y_created|exact E]|]. split; [|exact T].
  eapply evrun_lone; [apply lone_created|apply y_created|exact HT|exact E].
Qed.
Lemma three_tame {tg} (dt : cell tg) : Forall tame_rk (three_rk dt).
Proof. repeat constructor. intros r E. now injection E as ->. Qed.
(** after a step with three bodies and a constraint one body is removed *)
Lemma own_shrinks : exists m (w : world (QT true)) y r s, yreach Generic nopriv m w y /\ lone nopriv y /\ y_ode y = Some (OdeRk4 r) /\
  populate_state w y = Ok s /\ body_count y = 2 /\ s_n s = 3 /\ s_n (rk_init r) = 3.
Proof.
  destruct (runs_lone nopriv wS (three_rk dtQ ++ [ERemC 4; ERemB 2]) (fun m w y => match y_ode y, populate_state w y with Some (OdeRk4 r), Ok s =>
    Nat.eqb (body_count y) 2 && Nat.eqb (s_n s) 3 && Nat.eqb (s_n (rk_init r)) 3 | _, _ => false end)) as (m & w & y & H & L & T).
  - apply Forall_app. split; [apply three_tame|repeat constructor].
  - vm_compute. reflexivity.
  - destruct (y_ode y) as [[|h|h|r]|] eqn:Eo; try discriminate. destruct (populate_state w y) as [s| | |] eqn:E; try discriminate.
    rewrite !andb_true_iff, !Nat.eqb_eq in T. exists m, w, y, r, s. tauto.
Qed.

(** ** solvers that read too much *)
Lemma runs_ok {tg} (r : res (st3 tg)) t : runs r t = true -> exists m w y, r = Ok (m, w, y) /\ t m w y = true.
Proof. unfold runs. destruct r as [[[m w] y]| | |]; intros H; [exists m, w, y; auto|discriminate..]. Qed.
Definition alone {tg} (r : rk4 tg) : list (ev tg) := [EInit (SleGe geS) (OdeRk4 r); EAddB 0].
Definition is_ub {A} (r : res A) : bool := match r with UB => true | _ => false end.
Lemma is_ub_ok {A} (r : res A) : is_ub r = true -> r = UB.
Proof. now destruct r. Qed.
Lemma alone_ode {tg} (w : world tg) r m w' y : evrun Generic nopriv (no_books, w, created Generic) (alone r) = Ok (m, w', y) -> y_ode y = Some (OdeRk4 r).
Proof.
  unfold alone. cbn [evrun evstep]. intros E. apply bind_inv in E. destruct E as ([[m1 w1] y1] & E1 & E).
  destruct (apartb _ _); [|discriminate]. apply bind_inv in E1. destruct E1 as (y2 & E2 & E1). injection E1 as <- <- <-.
  cbn [initialize] in E2. unfold gen_initialize in E2. apply bind_inv in E2. destruct E2 as (ms & _ & E2). injection E2 as <-.
  apply bind_inv in E. destruct E as ([[m3 w3] y3] & E3 & E). injection E as <- <- <-. cbn [evstep in_body no_books] in E3. injection E3 as _ _ <-. reflexivity.
Qed.
(** the solver stepped three bodies in one system and is then given to another one with one body *)
Lemma shared_overreads : exists m1 (w1 : world (QT true)) y1 r m (w : world (QT true)) y,
  yreach Generic nopriv m1 w1 y1 /\ lone nopriv y1 /\ y_ode y1 = Some (OdeRk4 r) /\ body_count y1 = 3 /\
  yreach Generic nopriv m w y /\ y_ode y = Some (OdeRk4 r) /\ body_count y = 1 /\ con_count y = 0 /\ process Generic dtQ 1 (t0 7) w y = UB.
Proof.
  destruct (runs_lone nopriv wS (three_rk dtQ) (fun m w y => Nat.eqb (body_count y) 3 && match y_ode y with Some (OdeRk4 r) =>
    runs (evrun Generic nopriv (no_books, wS, created Generic) (alone r)) (fun m w y => Nat.eqb (body_count y) 1 && Nat.eqb (con_count y) 0 && is_ub (process Generic dtQ 1 (t0 7) w y))
    | _ => false end)) as (m1 & w1 & y1 & H1 & L1 & T).
  - apply three_tame.
  - vm_compute. reflexivity.
  - rewrite andb_true_iff, Nat.eqb_eq in T. destruct T as [T0 T]. destruct (y_ode y1) as [[|h|h|r]|] eqn:Eo; [discriminate|discriminate|discriminate| |discriminate].
    apply runs_ok in T. destruct T as (m & w & y & E & T).
    rewrite !andb_true_iff, !Nat.eqb_eq in T. destruct T as ((T1 & T2) & T3).
    exists m1, w1, y1, r, m, w, y. do 4 (split; [assumption|]). split; [eapply evrun_reach; [apply y_created|exact E]|]. split; [exact (alone_ode _ _ _ _ _ E)|].
    split; [exact T1|]. split; [exact T2|]. now apply is_ub_ok.
Qed.
(** a call with 0 steps leaves the solver behind the system's state *)
Definition skipped {tg} (dt : cell tg) : list (ev tg) := three_rk dt ++ [ERemB 2; EAddC 5; EProc dt 0 (t0 4); EAddB 2; ERemC 4; ERemC 5].
Lemma skipped_overreads : exists m (w : world (QT true)) y,
  evrun Generic nopriv (no_books, wS, created Generic) (skipped dtQ) = Ok (m, w, y) /\ process Generic dtQ 1 (t0 7) w y = UB.
Proof.
  assert (T : runs (evrun Generic nopriv (no_books, wS, created Generic) (skipped dtQ)) (fun m w y => is_ub (process Generic dtQ 1 (t0 7) w y)) = true) by (vm_compute; reflexivity).
  apply runs_ok in T. destruct T as (m & w & y & E & T). exists m, w, y. split; [exact E|now apply is_ub_ok].
Qed.

(** ** two linked bodies with a solver of their own, in the reals *)
Section Law.
Context {dbg : bool}.
Notation T := (RT dbg).
Notation cl := (cell T).
Variables (w : world T) (y : sys T) (kc : nat -> rkind).
Definition J_is : (nat -> nat -> R) -> (nat -> nat -> R) -> nat -> nat -> nat -> R := fun q _ c j i => J_of (kc c) (pose_at w q c) j i.
Definition Jd_is : (nat -> nat -> R) -> (nat -> nat -> R) -> nat -> nat -> nat -> R := fun q v c j i => Jd_of (kc c) (pose_at w q c) (pose_at w v c) j i.
Definition C_is : (nat -> nat -> R) -> (nat -> nat -> R) -> nat -> nat -> R := fun q _ c j => C_of (kc c) (pose_at w q c) j.
Lemma kinds_lawful M f : listed w y -> attached w y -> kinds_are w y kc ->
  (forall K h q v, real_kin y K q v -> pushesR w y K h (f q v)) -> (forall q, regular w y M (fun c j i => J_of (kc c) (pose_at w q c) j i)) ->
  lawful w y M f J_is Jd_is C_is (fun _ _ c j => ks_of (kc c) j) (fun _ _ c j => kd_of (kc c) j).
Proof.
  intros HL HA HK HP HR K h q v HQ. split; [now apply HP|]. split; [apply HR|]. exists (law_R w kc q v).
  split; [now apply kinds_answer|]. repeat split; intros c j _ _; try reflexivity; intros i _; reflexivity.
Qed.
End Law.
Lemma rk_bodies {dbg} (w : world (RT dbg)) y : same_objects wL w -> y_gens y = [1] -> forall K h, pushesR w y K h fD.
Proof.
  intros HS HG K h s HP.
  assert (EG : g_kind (w_gen w 1) = GGravity (cofZ 10)).
  { destruct HS as (_ & _ & E). now rewrite E. }
  destruct (gravity_pushes w y K (Some h : cell (RT dbg)) 1 (cofZ 10) HG EG s HP) as (s' & E & L).
  exists s'. split; [exact E|]. intros i b d Hi Hd. rewrite (L i b d Hi Hd). destruct HS as (F & _). rewrite F. destruct d as [|[|]]; reflexivity.
Qed.
Lemma linked_rk {dbg} : exists m (w : world (RT dbg)) y, yreach Generic nopriv m w y /\ lone nopriv y /\ y_ode y = Some (OdeRk4 rk4_new) /\ y_sle y = Some (SleGe geS) /\
  attached w y /\ kinds_are w y kL /\ shaped w y /\ (forall c, In c (y_cons y) -> 1 <= c_bodycount (w_con w c)) /\ all_gentle w y /\
  (forall g, In g (y_gens y) -> outer y MD (g_kind (w_gen w g)) (eL g)) /\ y_bodies y = [0; 1] /\ y_cons y = [0] /\ y_gens y = [1] /\ bodies_are w y qD vD MD /\
  lawful w y MD (fun _ _ => fD) (J_is w kL) (Jd_is w kL) (C_is w kL) (fun _ _ c j => ks_of (kL c) j) (fun _ _ c j => kd_of (kL c) j).
Proof.
  destruct (assembled_from (tg := RT dbg) nopriv Generic wL (SleGe geS) (OdeRk4 rk4_new) [0; 1] [0] [1]) as (m & w & y & H & S & B & C & G & L & O & _ & _ & y0 & I0 & R0).
  - cbn. unfold ifree, sfree, nopriv. repeat split; lia.
  - repeat constructor; cbn; intuition lia.
  - repeat constructor; cbn; intuition lia.
  - repeat constructor; cbn; intuition lia.
  - pose proof (reg_listed _ _ _ (yreach_reg _ _ _ _ _ H)) as HL. pose proof (L_attached w y S B) as HA. pose proof (L_kinds w y S) as HK.
    assert (HO : forall g, In g (y_gens y) -> outer y MD (g_kind (w_gen w g)) (eL g)) by (intros g _; now apply L_outer).
    exists m, w, y. split; [exact H|]. split.
    { apply (lone_other nopriv y0); [|apply R0|apply R0]. eapply lone_initialize; [apply lone_created| |exact I0]. intros r E. now injection E as ->. }
    do 4 (split; [assumption|]). split; [exact (kinds_shaped w y kL HK)|]. split; [exact (kinds_parties w y kL HK)|]. split; [exact (outer_gentle w y MD eL HO)|].
    do 4 (split; [assumption|]). split; [exact (L_bodies w y S)|]. apply kinds_lawful; auto.
    + intros K h q v _. now apply rk_bodies.
    + intros q. now apply L_regular.
Qed.
(** three sub-steps *)
Lemma linked_rk_steps {dbg} : exists m (w : world (RT dbg)) y w' y' K q' v', yreach Generic nopriv m w y /\ uses_rk y /\ y_sle y = Some (SleGe geS) /\
  supplied (SleGe (tg := RT dbg) geS) /\ attached w y /\ kinds_are w y kL /\ (forall c, In c (y_cons y) -> inner (kL c)) /\
  (forall g, In g (y_gens y) -> outer y MD (g_kind (w_gen w g)) (eL g)) /\ body_count y <= 255 /\ bodies_are w y qD vD MD /\
  process Generic (Some (1 / 60)%R : cell (RT dbg)) 3 (t0 7) w y = Ok (w', y') /\ ends w' y q' v' /\
  rk_motion (stabilised w y MD (fun _ _ => fD) (J_is w kL) (Jd_is w kL) (C_is w kL) (fun _ _ c j => ks_of (kL c) j) (fun _ _ c j => kd_of (kL c) j))
    (Some (1 / 60 / INR 3)%R : cell (RT dbg)) 3 (kin_of w) K /\
  y_cons y = [0] /\ y_gens y = [1] /\ Lsum (y_gens y) (fun g => eL g 1) = (-40)%R.
Proof.
  destruct (linked_rk (dbg := dbg)) as (m & w & y & H & HL & O & L & HA & HK & HS & H1 & HG & HO & B & C & G & HB & HW).
  assert (H255 : body_count y <= 255) by (unfold body_count; rewrite B; cbn; lia).
  destruct (stabilised_fourth nopriv m (1 / 60)%R 3 (t0 7) w y geS rk4_new qD vD MD _ _ _ _ _ _ H HL O L HA HS H1 HG H255 ltac:(rewrite C; discriminate) ltac:(rewrite B; discriminate) HB HW ltac:(lia))
    as (w' & y' & K & q' & v' & E & EN & _ & HM).
  destruct (lone_rk nopriv m w y rk4_new H HL O) as (Z1 & Z2 & _).
  exists m, w, y, w', y', K, q', v'. split; [exact H|]. split; [exists rk4_new; auto|]. split; [exact L|]. split; [exact I|]. do 2 (split; [assumption|]).
  split; [intros c _; exact I|]. do 8 (split; [assumption|]). rewrite G. unfold Lsum. cbn [fold_right eL]. lra.
Qed.
Lemma momentum_fourth_conserved dbg priv m (dt : R) n t (w : world (RT dbg)) y w' y' l q v M kc q' v' :
    yreach Generic priv m w y -> uses_rk y -> y_sle y = Some l -> supplied l -> attached w y -> kinds_are w y kc ->
    (forall c, In c (y_cons y) -> inner (kc c)) -> (forall g, In g (y_gens y) -> exists r, inner_spring y r (g_kind (w_gen w g))) ->
    body_count y <= 255 -> bodies_are w y q v M -> 0 < n ->
    process Generic (Some dt : cell (RT dbg)) n t w y = Ok (w', y') -> ends w' y q' v' ->
    forall d, d < 2 -> momentum y M v' d = momentum y M v d.
Proof.
  intros H U L Hs A K I G B Q N E En d Hd.
  rewrite (momentum_fourth priv m dt n t w y w' y' l q v M kc (fun _ _ => 0%R) q' v' H U L Hs A K I) with (d := d); auto.
  - rewrite Lsum_zero. ring.
  - intros g Hg. destruct (G g Hg) as [r X]. left. exists r. auto.
Qed.
