(** * Concrete systems for the theorems about force limits. *)

From Coq Require Import Reals Lra QArith.
From Verif Require Import Base Targets Matrix Sparse Sle State Ode Forces Constraints System Logic SpecMatrix SpecState SpecForces SpecCon ConFacts
  SpecSle SpecSys RegFacts RegWit SpecDyn DynState DynReact DynStep DynForce DynWit SpecSolve SolveReal SpecLaw LawReal LawStep SpecLimits LimitStep Assemble SolveWit.
Local Open Scope nat_scope.

Definition gsW {tg} : gs_solver tg := gs_default 20 21.
Definition cgW {tg} : cg_solver tg := cg_default 20 21 22 23 24 25.
(** the shaft: two discs with different spins and a clutch that carries at most 5 *)
Definition slips {tg} (l : sle tg) : list (ev tg) := [EInit l (OdeNsv (cofZ 0)); EAddB 0; EAddB 1; EAddC 4; EAddG 2].
Definition is_q (x : cell (QT true)) (q : Q) : bool := match x with Some r => Qeq_bool r q | None => false end.
Lemma is_q_ok x q : is_q x q = true -> exists r, x = Some r /\ (r == q)%Q.
Proof. destruct x as [r|]; [|discriminate]. intros E. exists r. split; [reflexivity|]. now apply Qeq_bool_eq. Qed.
(** constraint c is a clutch that carries at most q *)
Definition clutch_of (w : world (QT true)) (c : nat) (q : Q) : Prop := exists k a b, c_kind (w_con w c) = KClutch k /\
  cl_max k = Some a /\ cl_min k = Some b /\ (a == q)%Q /\ (b == - q)%Q.
Definition slip_test (l : sle (QT true)) (T : cell (QT true) -> bool) : bool :=
  runs (evrun Optimized nopriv (no_books, wS, created Optimized) (slips l)) (fun m w y => okays w y && Nat.leb (body_count y) 255 && match y_cons y with [c] => Nat.eqb c 4 | _ => false end &&
    match y_sle y, l with Some (SleGe _), SleGe _ => true | Some (SleGs g), SleGs _ => Nat.ltb 0 (gs_max_iterations g) | _, _ => false end &&
    match c_kind (w_con w 4) with KClutch k => is_q (cl_max k) 5 && is_q (cl_min k) (-5) | _ => false end &&
    match process Optimized dtQ 1 (t0 7) w y with Ok (w', y') => T (c_force (w_con w' 4) 2 0 0) | _ => false end).
Lemma slips_to l T : slip_test l T = true -> exists m (w : world (QT true)) y w' y', yreach Optimized nopriv m w y /\ attached w y /\ shaped w y /\ all_gentle w y /\
  body_count y <= 255 /\ y_cons y = [4] /\ match y_sle y, l with Some (SleGe _), SleGe _ => True | Some (SleGs g), SleGs _ => 0 < gs_max_iterations g | _, _ => False end /\
  clutch_of w 4 5 /\   process Optimized dtQ 1 (t0 7) w y = Ok (w', y') /\ T (c_force (w_con w' 4) 2 0 0) = true.
Proof.
  intros E. destruct (runs_reach _ _ _ _ _ E) as (m & w & y & H & X). rewrite !andb_true_iff in X. destruct X as (((((X1 & X2) & X3) & X4) & X6) & X5).
  destruct (process Optimized dtQ 1 (t0 7) w y) as [[w' y']| | |] eqn:EP; try discriminate. destruct (okays_ok _ _ X1) as (A & B & C).
  exists m, w, y, w', y'. do 4 (split; [assumption|]). split; [now apply Nat.leb_le|]. split; [|split; [|split; [|auto]]].
  - destruct (y_cons y) as [|a [|]]; try discriminate. apply Nat.eqb_eq in X3. now subst a.
  - destruct (y_sle y) as [[]|], l; try discriminate; [exact I|now apply Nat.ltb_lt].
  - destruct (c_kind (w_con w 4)) as [| | | | | | |k| | |] eqn:Ek; try discriminate. rewrite andb_true_iff in X6. destruct X6 as [Y1 Y2].
    destruct (is_q_ok _ _ Y1) as (a & Ea & Qa), (is_q_ok _ _ Y2) as (b & Eb & Qb). exists k, a, b. auto.
Qed.
(** with Gauss-Seidel the clutch carries exactly 5, with Gaussian elimination 15 *)
Lemma gs_slips : exists m (w : world (QT true)) y w' y' g, yreach Optimized nopriv m w y /\ attached w y /\ shaped w y /\ all_gentle w y /\
  body_count y <= 255 /\ y_cons y = [4] /\ y_sle y = Some (SleGs g) /\ 0 < gs_max_iterations g /\ clutch_of w 4 5 /\
  process Optimized dtQ 1 (t0 7) w y = Ok (w', y') /\ exists q, c_force (w_con w' 4) 2 0 0 = Some q /\ (q == 5)%Q.
Proof.
  destruct (slips_to (SleGs gsW) (fun x => is_q x 5)) as (m & w & y & w' & y' & H & A & B & C & D & E & F & K & G & X).
  { vm_compute. reflexivity. }
  destruct (y_sle y) as [[| |g|]|] eqn:Es; try contradiction. exists m, w, y, w', y', g. do 9 (split; [assumption|]).
  split; [exact G|]. now apply is_q_ok.
Qed.
Lemma ge_carries : exists m (w : world (QT true)) y w' y' g, yreach Optimized nopriv m w y /\ attached w y /\ shaped w y /\ all_gentle w y /\
  body_count y <= 255 /\ y_cons y = [4] /\ y_sle y = Some (SleGe g) /\ clutch_of w 4 5 /\
  process Optimized dtQ 1 (t0 7) w y = Ok (w', y') /\ exists q, c_force (w_con w' 4) 2 0 0 = Some q /\ (q == 15)%Q.
Proof.
  destruct (slips_to (SleGe geS) (fun x => is_q x 15)) as (m & w & y & w' & y' & H & A & B & C & D & E & F & K & G & X).
  { vm_compute. reflexivity. }
  destruct (y_sle y) as [[|g| |]|] eqn:Es; try contradiction. exists m, w, y, w', y', g. do 8 (split; [assumption|]).
  split; [exact G|]. now apply is_q_ok.
Qed.

(** ** in the reals: the double pendulum with Gauss-Seidel, and a gear in neutral *)
Section R.
Context {dbg : bool}.
Notation T := (RT dbg).
Lemma pendulum_gs : exists m (w : world T) y q v M f kc, yreach Optimized nopriv m w y /\
  y_sle y = Some (SleGs gsW) /\ attached w y /\ kinds_are w y kc /\ all_gentle w y /\ body_count y = 2 /\
  y_cons y = [0; 1] /\ limits_of (kc 1) = Some ((-100)%R, 100%R) /\ y_bias y = Some 1%R /\ bodies_are w y q v M /\ (forall dt, pushesR w y (kin_of w) dt f) /\
  remembers w y /\ every_row w y (fun c j => mobility w y M (fun c j i => J_of (kc c) (pose_at w q c) j i) c j <> 0%R).
Proof.
  destruct (assembled_fresh nopriv Optimized (wD (dbg := dbg)) (SleGs gsW) (OdeNsv (cofZ 0)) [0; 1] [0; 1] [0]) as (m & w & y & H & S & B & C & G & L & O & Bi & Hh).
  - cbn. unfold ifree, sfree, nopriv. repeat split; lia.
  - repeat constructor; cbn; intuition lia.
  - repeat constructor; cbn; intuition lia.
  - repeat constructor; cbn; intuition lia.
  - pose proof (reg_listed _ _ _ (yreach_reg _ _ _ _ _ H)) as HL. pose proof (D_attached w y S B C) as HA.
    exists m, w, y, qD, vD, MD, fD, kD. split; [exact H|]. split; [exact L|]. split; [exact HA|]. split; [now apply D_kinds|]. split; [now apply D_gentle|].
    split; [unfold body_count; now rewrite B|]. split; [exact C|]. split; [reflexivity|]. split; [exact Bi|]. split; [now apply D_bodies|].
    split; [intros dt; now apply D_pushes|]. split; [intros r Hr Hr2; rewrite Hh in Hr; lia|].
    apply independent_mobile; auto; [now apply D_shaped|unfold body_count; rewrite B; cbn; lia| |now apply D_independent].
    intros b d _ Hd. destruct d as [|[|[|]]]; cbn; lra || lia.
Qed.
(** bodies 0 and 1, a gear in neutral between them *)
Definition wN : world T :=
  {| w_body := w_body wD; w_con := fun c => conT (kind_of dbg (RGear 2 true 10 1)) 1 2; w_gen := w_gen wD |}.
Lemma neutral_gs : exists m (w : world T) y q v M f kc, yreach Optimized nopriv m w y /\
  y_sle y = Some (SleGs gsW) /\ attached w y /\ kinds_are w y kc /\ all_gentle w y /\ body_count y = 2 /\
  y_cons y = [0] /\ kc 0 = RGear 2 true 10 1 /\ y_bias y = Some 1%R /\ bodies_are w y q v M /\ (forall dt, pushesR w y (kin_of w) dt f) /\
  remembers w y /\ every_row w y (fun c j => mobility w y M (fun c j i => J_of (kc c) (pose_at w q c) j i) c j <> 0%R).
Proof.
  destruct (assembled_fresh nopriv Optimized wN (SleGs gsW) (OdeNsv (cofZ 0)) [0; 1] [0] []) as (m & w & y & H & S & B & C & G & L & O & Bi & Hh).
  - cbn. unfold ifree, sfree, nopriv. repeat split; lia.
  - repeat constructor; cbn; intuition lia.
  - repeat constructor; cbn; intuition lia.
  - constructor.
  - pose proof (reg_listed _ _ _ (yreach_reg _ _ _ _ _ H)) as HL.
    assert (HK : c_kind (w_con w 0) = kind_of dbg (RGear 2 true 10 1) /\ c_count (w_con w 0) = 1 /\ c_bodycount (w_con w 0) = 2 /\ forall p, c_bodies (w_con w 0) p = Some p).
    { destruct S as (_ & S & _). destruct (S 0) as (-> & -> & -> & ->). repeat split. }
    destruct HK as (K1 & K2 & K3 & K4).
    assert (H1 : forall c, In c (y_cons y) -> c = 0) by (rewrite C; cbn; intuition).
    assert (HA : attached w y).
    { intros c k Hc Hk. rewrite (H1 c Hc) in *. exists k. split; [apply K4|]. rewrite B. rewrite K3 in Hk. destruct k as [|[|]]; cbn; auto; lia. }
    assert (HB : bodies_are w y qD vD MD).
    { intros b d _ Hd. destruct S as (E & _). unfold b_pos, b_vel, b_mass. rewrite E. destruct d as [|[|[|]]]; cbn; repeat split; try lra; lia. }
    exists m, w, y, qD, vD, MD, (fun _ _ => 0%R), (fun _ => RGear 2 true 10 1).
    split; [exact H|]. split; [exact L|]. split; [exact HA|]. split; [intros c Hc; rewrite (H1 c Hc); auto|]. split; [intros g Hg; rewrite G in Hg; contradiction|].
    split; [unfold body_count; now rewrite B|]. split; [exact C|]. split; [reflexivity|]. split; [exact Bi|]. split; [exact HB|].
    split; [|split; [intros r Hr Hr2; rewrite Hh in Hr; lia|]].
    + intros dt. exact (pushes_none w y (kin_of w) (Some dt : cell T) G).
    + apply independent_mobile; auto.
      * intros c Hc. rewrite (H1 c Hc), K2, K3. lia.
      * unfold body_count. rewrite B. cbn. lia.
      * intros b d _ Hd. destruct d as [|[|[|]]]; cbn; lra || lia.
      * intros x HX.
        assert (ES : slots w y = [(0, 0, 0); (0, 0, 1)]).
        { unfold slots. rewrite C. cbn [flat_map]. rewrite K2, K3. reflexivity. }
        assert (EB : forall b j k, binds w b (0, j, k) = Nat.eqb k b).
        { intros b j k. unfold binds. rewrite K4. reflexivity. }
        assert (A : acts w y (fun c j i => J_of (RGear 2 true 10 1) (pose_at w qD c) j i) x 0 2 = 0%R) by (apply HX; [rewrite B; cbn; auto|lia]).
        unfold acts in A. rewrite ES in A. unfold Lsum in A. cbn [fold_right] in A. rewrite !EB in A.
        cbv beta iota zeta delta [Nat.eqb Nat.mul Nat.add J_of nth] in A.
        intros c j Hc Hj. rewrite (H1 c Hc) in *. rewrite K2 in Hj. replace j with 0 by lia. lra.
Qed.
End R.
