(** * A double pendulum, for the theorems about one step. *)

From Coq Require Import Reals Lra.
From Verif Require Import Base Targets Matrix Sparse Sle State Ode Forces Constraints System Logic SpecMatrix SpecState SpecForces SpecCon ConFacts
  SpecSle SpecSys RegFacts RegWit SpecDyn DynState DynReact DynRound DynStep DynForce DynWit SpecSolve SolveReal SpecLaw LawReal Assemble.
Local Open Scope nat_scope.

Section S.
Context {dbg : bool}.
Notation T := (RT dbg).
Notation cl := (cell T).

Definition qD (b d : nat) : R := match d with 0 => IZR (Z.of_nat b) | _ => 0%R end.
Definition vD (b d : nat) : R := match d with 0 => 1%R | 1 => (- 2)%R | _ => IZR (Z.of_nat b) end.
Definition MD (b d : nat) : R := match d with 0 | 1 => 2%R | _ => 3%R end.
Definition kD (c : nat) : rkind := match c with 0 => RFixedPosition (-1) 0 0 5 10 1 | _ => RLink 1 0 (-1) 0 100 10 1 end.
(** bodies 0 and 1; constraint 0 fixes a point of body 0, constraint 1 links the two bodies; gravity *)
Definition wD : world T :=
  {| w_body := fun b => {| b_f := fun f => match f with Bpx => (Some (qD b 0) : cl) | Bpy => Some (qD b 1) | Btheta => Some (qD b 2)
        | Bvx => Some (vD b 0) | Bvy => Some (vD b 1) | Bvtheta => Some (vD b 2) | Bm => Some 2%R | BI => Some 3%R end; b_index := (-1)%Z |};
     w_con := fun c => conT (kind_of dbg (kD c)) (rows (kD c)) (parties (kD c));
     w_gen := fun _ => {| g_kind := GGravity (cofZ 10); g_index := None |} |}.
Definition fD (b d : nat) : R := match d with 1 => (0 + - 2 * 10)%R | _ => 0%R end.

Section Any.
Variables (w : world T) (y : sys T).
Hypothesis HS : same_objects wD w.
Hypothesis HB : y_bodies y = [0; 1].
Hypothesis HC : y_cons y = [0; 1].
Hypothesis HG : y_gens y = [0].

Lemma D_bodies : bodies_are w y qD vD MD.
Proof.
  intros b d _ Hd. destruct HS as (E & _). unfold b_pos, b_vel, b_mass. rewrite E.
  destruct d as [|[|[|]]]; cbn; repeat split; try lra; lia.
Qed.
Lemma D_con c : c_kind (w_con w c) = kind_of dbg (kD c) /\ c_count (w_con w c) = rows (kD c) /\ c_bodycount (w_con w c) = parties (kD c) /\
  forall p, c_bodies (w_con w c) p = Some p.
Proof. destruct HS as (_ & E & _). destruct (E c) as (-> & -> & -> & ->). repeat split. Qed.
Lemma D_kinds : kinds_are w y kD.
Proof. intros c _. destruct (D_con c) as (A & B & C & _). auto. Qed.
Lemma D_two c : In c (y_cons y) -> c = 0 \/ c = 1.
Proof. rewrite HC. cbn. intuition. Qed.
Lemma D_attached : attached w y.
Proof.
  intros c k Hc Hk. destruct (D_con c) as (_ & _ & E & Eb). rewrite E in Hk. exists k. split; [apply Eb|]. rewrite HB.
  destruct (D_two c Hc) as [-> | ->]; cbn in Hk; destruct k as [|[|]]; cbn; auto; lia.
Qed.
Lemma D_shaped : shaped w y.
Proof. intros c Hc. destruct (D_con c) as (_ & E & E2 & _). rewrite E, E2. destruct (D_two c Hc) as [-> | ->]; cbn; lia. Qed.
Lemma D_parties c : In c (y_cons y) -> 1 <= c_bodycount (w_con w c).
Proof. intros Hc. destruct (D_con c) as (_ & _ & E2 & _). rewrite E2. destruct (D_two c Hc) as [-> | ->]; cbn; lia. Qed.
Lemma D_gentle : all_gentle w y.
Proof. intros g _. destruct HS as (_ & _ & E). rewrite E. exact I. Qed.
Lemma D_pushes h : pushesR w y (kin_of w) h fD.
Proof.
  intros s HP. destruct (gravity_pushes w y (kin_of w) (Some h : cl) 0 (cofZ 10) HG (proj2 (proj2 HS) 0) s HP) as (s' & E & L).
  exists s'. split; [exact E|]. intros i b d Hi Hd. rewrite (L i b d Hi Hd). destruct HS as (F & _). rewrite F. destruct d as [|[|]]; reflexivity.
Qed.
Lemma D_independent q : independent w y (fun c j i => J_of (kD c) (pose_at w q c) j i).
Proof.
  intros x H.
  assert (ES : slots w y = [(0, 0, 0); (0, 1, 0); (1, 0, 0); (1, 0, 1); (1, 1, 0); (1, 1, 1)]).
  { unfold slots. rewrite HC. cbn [flat_map]. destruct (D_con 0) as (_ & -> & -> & _), (D_con 1) as (_ & -> & -> & _). reflexivity. }
  assert (EB : forall b c j k, binds w b (c, j, k) = Nat.eqb k b).
  { intros b c j k. unfold binds. destruct (D_con c) as (_ & _ & _ & ->). reflexivity. }
  assert (A : forall b d, In b (y_bodies y) -> d < 3 -> acts w y (fun c j i => J_of (kD c) (pose_at w q c) j i) x b d = 0%R) by exact H.
  unfold acts in A. rewrite ES in A. unfold Lsum in A. cbn [fold_right] in A.
  assert (I0 : In 0 (y_bodies y)) by (rewrite HB; cbn; auto). assert (I1 : In 1 (y_bodies y)) by (rewrite HB; cbn; auto).
  pose proof (A 1 0 I1 ltac:(lia)) as A10. pose proof (A 1 1 I1 ltac:(lia)) as A11.
  pose proof (A 0 0 I0 ltac:(lia)) as A00. pose proof (A 0 1 I0 ltac:(lia)) as A01. clear A H.
  rewrite !EB in *. cbv beta iota zeta delta [Nat.eqb Nat.mul Nat.add kD J_of nth] in A10, A11, A00, A01.
  intros c j Hc Hj. destruct (D_con c) as (_ & E & _). rewrite E in Hj.
  destruct (D_two c Hc) as [-> | ->]; destruct j as [|[|]]; cbn in Hj; try lia; lra.
Qed.
Lemma D_regular q : listed w y -> regular w y MD (fun c j i => J_of (kD c) (pose_at w q c) j i).
Proof. intros HL. apply (independent_regular w y); auto using D_attached, D_shaped, D_independent.
  - unfold body_count. rewrite HB. cbn. lia.
  - intros b d _ Hd. destruct d as [|[|[|]]]; cbn; lra || lia.
Qed.
End Any.
End S.

(** ** the pendulum in a system *)
Lemma pendulum {dbg} k o : exists m (w : world (RT dbg)) y, yreach k nopriv m w y /\ same_objects wD w /\ y_bodies y = [0; 1] /\ y_cons y = [0; 1] /\
  y_gens y = [0] /\ y_sle y = Some (SleGe geS) /\ y_ode y = Some (match k with Optimized => OdeNsv (cofZ 0) | Generic => o end) /\ y_bias y = cofZ 1.
Proof.
  apply assembled.
  - cbn. unfold ifree, sfree, nopriv. repeat split; lia.
  - repeat constructor; cbn; intuition lia.
  - repeat constructor; cbn; intuition lia.
  - repeat constructor; cbn; intuition lia.
Qed.
(** every hypothesis of the theorems about one step *)
Lemma pendulum_step {dbg} k z : exists m (w : world (RT dbg)) y q v M f kc, yreach k nopriv m w y /\ uses k (match k with Optimized => Symplectic | Generic => z end) y /\
  y_sle y = Some (SleGe geS) /\ attached w y /\ shaped w y /\ kinds_are w y kc /\ (forall c, In c (y_cons y) -> 1 <= c_bodycount (w_con w c)) /\ all_gentle w y /\ body_count y = 2 /\
  con_count y = 2 /\ y_bias y = Some 1%R /\ bodies_are w y q v M /\ (forall dt, pushesR w y (kin_of w) dt f) /\
  (forall dt, answers w y (kin_of w) (Some dt : cell (RT dbg)) (law_R w kc q v)) /\ regular w y M (fun c j i => J_of (kc c) (pose_at w q c) j i).
Proof.
  destruct (pendulum (dbg := dbg) k (ode_of z (cofZ 0))) as (m & w & y & H & S & B & C & G & L & O & Bi).
  exists m, w, y, qD, vD, MD, fD, kD.
  pose proof (reg_listed _ _ _ (yreach_reg _ _ _ _ _ H)) as HL. pose proof (D_attached w y S B C) as HA.
  split; [exact H|]. split; [destruct k; cbn; [reflexivity|eexists; exact O]|]. split; [exact L|]. split; [exact HA|]. split; [now apply D_shaped|].
  split; [now apply D_kinds|]. split; [now apply D_parties|]. split; [now apply D_gentle|]. split; [unfold body_count; now rewrite B|].
  split; [unfold con_count; now rewrite C|]. split; [exact Bi|]. split; [now apply D_bodies|]. split; [intros dt; now apply D_pushes|].
  split; [|now apply D_regular]. intros dt. apply kinds_answer; auto; [now apply D_kinds|].
  intros b d Hb Hd. destruct (D_bodies w y S b d Hb Hd) as (E1 & E2 & _). auto.
Qed.
