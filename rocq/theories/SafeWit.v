(** * Determinate systems in binary64, and two that become indeterminate. *)

From Coq Require Import Reals QArith.
From Coq Require Import Floats.SpecFloat.
From Verif Require Import Base Targets Matrix Sparse Sle State Ode Forces Constraints System Logic SpecMatrix SpecSle SpecForces SpecState SpecSys RegFacts RegWit
  SpecDyn DynWit LimitWit EdgeWit SpecRk RkWit SpecSafe SafeCalc SafeForce SafeStage SafeStep.
Local Open Scope nat_scope.

Lemma f64_total b sn cs : (forall x, exists z, sn x = Some z) -> (forall x, exists z, cs x = Some z) -> total_arithmetic (F64_trig b sn cs).
Proof. intros H1 H2. split; [intros x y; cbn; eauto|]. split; [intros x; cbn; eauto|]. auto. Qed.

(** ** a test for determinate systems *)
Section B.
Context {tg : target}.
Definition is_set (x : cell tg) : bool := match x with Some _ => true | None => false end.
Lemma is_set_ok x : is_set x = true -> defined x.
Proof. now destruct x. Qed.
Definition sets (l : list (cell tg)) : bool := forallb is_set l.
Lemma sets_ok l : sets l = true -> all_set l.
Proof. unfold sets. rewrite forallb_forall. intros H x Hx. now apply is_set_ok, H. Qed.
Definition body_setb (b : body tg) : bool := forallb (fun d => is_set (b_pos b d) && is_set (b_vel b d) && is_set (b_mass b d)) (seq 0 3).
Lemma body_setb_ok b : body_setb b = true -> body_set b.
Proof.
  unfold body_setb. rewrite forallb_forall. intros H d Hd. specialize (H d ltac:(apply in_seq; lia)). rewrite !andb_true_iff in H.
  destruct H as ((A & B) & C). auto using is_set_ok.
Qed.
Definition par_list (k : ckind tg) : option (list (cell tg)) :=
  match k with
  | KFixedPosition p => Some [fp_lx p; fp_ly p; fp_wx p; fp_wy p; fp_ks p; fp_kd p]
  | KLine p => Some [li_lx p; li_ly p; li_p0x p; li_p0y p; li_dx p; li_dy p; li_ks p; li_kd p]
  | KLink p => Some [lk_x1 p; lk_y1 p; lk_x2 p; lk_y2 p; lk_max p; lk_ks p; lk_kd p]
  | KRolling p => Some [ro_lx p; ro_ly p; ro_dx p; ro_dy p; ro_radius p; ro_ks p; ro_kd p]
  | KFixedRotation p => Some [fr_rot p; fr_ks p; fr_kd p]
  | KConstantRotation p => Some [cr_speed p; cr_max p; cr_min p; cr_ks p; cr_kd p]
  | KClutch p => Some [cl_max p; cl_min p; cl_ks p; cl_kd p]
  | KFriction p => Some [rf_max p; rf_min p; rf_ks p; rf_kd p]
  | KGear p => Some [ge_ratio p; ge_ks p; ge_kd p]
  | KBase | KCustom _ => None
  end.
Definition con_setb (c : constraint tg) : bool :=
  match class_counts (c_kind c), par_list (c_kind c) with
  | Some (r, b), Some l => Nat.eqb r (c_count c) && Nat.eqb b (c_bodycount c) && sets l
  | _, _ => false
  end.
Lemma con_setb_ok c : con_setb c = true -> con_set c.
Proof.
  unfold con_setb, con_set. destruct (class_counts (c_kind c)) as [[r b]|]; [|discriminate]. destruct (par_list (c_kind c)) as [l|] eqn:E; [|discriminate].
  rewrite !andb_true_iff, !Nat.eqb_eq. intros ((-> & ->) & H). split; [reflexivity|]. apply sets_ok in H. destruct (c_kind c); cbn in E; try discriminate; injection E as <-; exact H.
Qed.
Definition has (l : list nat) (x : nat) : bool := existsb (Nat.eqb x) l.
Lemma has_ok l x : has l x = true -> In x l.
Proof. unfold has. rewrite existsb_exists. intros (z & Hz & E). apply Nat.eqb_eq in E. now subst z. Qed.
Definition gen_setb (w : world tg) (y : sys tg) (g : gkind tg) : bool :=
  match g with
  | GGravity x => is_set x
  | GStatic f => sets [sf_fx f; sf_fy f; sf_px f; sf_py f] && match sf_body f with Some b => has (y_bodies y) b | None => false end
  | GSpring p => sets [sp_rest p; sp_ks p; sp_kd p; sp_p1x p; sp_p1y p; sp_p2x p; sp_p2y p] &&
      match sp_b1 p, sp_b2 p with Some b1, Some b2 => has (y_bodies y) b1 && has (y_bodies y) b2 | _, _ => true end
  | GMotor p => sets [mo_ks p; mo_kd p; mo_max p; mo_speed p] &&
      match mo_b0 p with Some b => has (y_bodies y) b || Z.eqb (b_index (w_body w b)) (-1) | None => false end &&
      match mo_b1 p with Some b => has (y_bodies y) b | None => false end
  | GCustom _ => false
  end.
Lemma gen_setb_ok w y g : gen_setb w y g = true -> gen_set w y g.
Proof.
  destruct g as [x|f|p|p|f]; cbn [gen_setb gen_set]; rewrite ?andb_true_iff; [apply is_set_ok| | | |discriminate].
  - intros [A B]. split; [now apply sets_ok|]. destruct (sf_body f) as [b|]; [|discriminate]. exists b. split; [reflexivity|now apply has_ok].
  - intros [A B]. split; [now apply sets_ok|]. destruct (sp_b1 p), (sp_b2 p); auto. apply andb_true_iff in B. destruct B; split; now apply has_ok.
  - intros [[A B] C]. split; [now apply sets_ok|]. split.
    + destruct (mo_b0 p) as [b|]; [|discriminate]. exists b. split; [reflexivity|]. apply orb_true_iff in B. destruct B as [B|B]; [left; now apply has_ok|right; now apply Z.eqb_eq].
    + destruct (mo_b1 p) as [b|]; [|discriminate]. exists b. split; [reflexivity|]. now apply has_ok.
Qed.
Definition multipliers_setb (y : sys tg) : bool :=
  forallb (fun r => forallb (fun c => match mget (hm (y_heap y)) ilambda c r with Ok x => is_set x | _ => false end)
    (seq 0 (m_w (hm (y_heap y) ilambda)))) (seq 0 (m_h (hm (y_heap y) ilambda))).
Lemma multipliers_setb_ok y : multipliers_setb y = true -> multipliers_set y.
Proof.
  unfold multipliers_setb. rewrite forallb_forall. intros H r c Hr Hc. specialize (H r ltac:(apply in_seq; lia)). rewrite forallb_forall in H.
  specialize (H c ltac:(apply in_seq; lia)). destruct (mget _ _ _ _) as [x| | |]; try discriminate. exists x. split; [reflexivity|now apply is_set_ok].
Qed.
Definition solver_setb (k : flavour) (l : sle tg) : bool :=
  match l, k with
  | SleGe _, _ => true
  | SleGs g, Optimized => is_set (gs_min_delta g)
  | SleCg g, _ => is_set (cg_max_error g) && is_set (cg_min_error g) && asserts_on tg
  | _, _ => false
  end.
Lemma solver_setb_ok k l : solver_setb k l = true -> solver_set k l.
Proof.
  destruct l, k; cbn [solver_setb solver_set]; try discriminate; auto using is_set_ok; rewrite !andb_true_iff; intros [[A B] C]; auto using is_set_ok.
Qed.
(** all but the solver *)
Definition scene_setb (w : world tg) (y : sys tg) : bool :=
  forallb (fun b => body_setb (w_body w b)) (y_bodies y) && forallb (fun c => con_setb (w_con w c)) (y_cons y) && attachedb w y &&
  forallb (fun g => gen_setb w y (g_kind (w_gen w g))) (y_gens y) && match y_cons y with [] => false | _ => true end &&
  Nat.leb (body_count y) 255 && is_set (y_bias y) && multipliers_setb y.
Definition determinateb (k : flavour) (w : world tg) (y : sys tg) : bool :=
  scene_setb w y && match y_sle y with Some l => solver_setb k l | None => false end.
Lemma scene_setb_ok w y : scene_setb w y = true -> scene_determinate w y.
Proof.
  unfold scene_setb. rewrite !andb_true_iff, !forallb_forall, Nat.leb_le.
  intros (((((((A & B) & C) & D) & E) & F) & G) & H).
  split; [intros b Hb; now apply body_setb_ok, A|]. split; [intros c Hc; now apply con_setb_ok, B|]. split; [now apply attachedb_ok|].
  split; [intros g Hg; now apply gen_setb_ok, D|]. split; [intros X; now rewrite X in E|]. split; [exact F|]. split; [now apply is_set_ok|].
  now apply multipliers_setb_ok.
Qed.
Lemma determinateb_ok k w y : determinateb k w y = true -> all_determinate k w y.
Proof.
  unfold determinateb. rewrite andb_true_iff. intros [A I]. split; [now apply scene_setb_ok|]. destruct (y_sle y) as [l|]; [|discriminate]. exists l. split; [reflexivity|now apply solver_setb_ok].
Qed.
End B.

(** ** a double pendulum with a spring, and a turntable driven by a motor, in
    binary64 with a crude sine and cosine *)
Definition FT (dbg : bool) : target := F64_trig dbg (fun x => Some x) (fun _ => Some (f_ofZ 1)).
Lemma ft_total b : total_arithmetic (FT b).
Proof. apply f64_total; eauto. Qed.
Section W.
Context {tg : target}.
Definition bodyP (x y v : cell tg) : body tg :=
  {| b_f := fun f => match f with Bm => cofZ 2 | BI => cofZ 3 | Bpx => x | Bpy => y | Bvtheta => v | _ => cofZ 0 end; b_index := (-1)%Z |}.
Definition between (k : ckind tg) (rows parties a b : nat) : constraint tg :=
  {| c_kind := k; c_index := (-1)%Z; c_bodycount := parties; c_bodies := fun p => match p with 0 => Some a | _ => Some b end;
     c_Fx := fun _ _ => None; c_Fy := fun _ _ => None; c_Ft := fun _ _ => None; c_count := rows |}.
Definition wD : world tg :=
  {| w_body := fun i => match i with 0 => bodyP (cofZ 1) (cofZ 0) (cofZ 0) | 1 => bodyP (cofZ 3) (cofZ 0) (cofZ 1) | _ => bodyP (cofZ 7) (cofZ 8) (cofZ 4) end;
     w_con := fun c => match c with
       | 0 => between (KFixedPosition (mkFP (cofZ (-1)) (cofZ 0) (cofZ 0) (cofZ 0) (cofZ 1) (cofZ 1))) 2 1 0 0
       | 1 => between (KLink (mkLink (cofZ 1) (cofZ 0) (cofZ (-1)) (cofZ 0) cdblmax (cofZ 1) (cofZ 1))) 2 2 0 1
       | _ => between (KConstantRotation (mkCR (cofZ 3) (cofZ 9) (cofZ (-9)) (cofZ 1) (cofZ 1))) 1 1 2 2 end;
     w_gen := fun g => {| g_kind := match g with
       | 0 => GGravity (cofZ 10)
       | 1 => GSpring (mkSpring (cofZ 1) (cofZ 5) (cofZ 1) (cofZ 0) (cofZ 0) (cofZ 0) (cofZ 0) (Some 0) (Some 1))
       | 2 => GMotor (mkMotor (cofZ 1) (cofZ 1) (cofZ 20) (cofZ 5) (Some 9) (Some 2))
       | _ => GStatic (mkStatic (cofZ 1) (cofZ 2) (cofZ 0) (cofZ 1) (Some 1)) end; g_index := None |} |}.
Definition scene (l : sle tg) (o : ode tg) : list (ev tg) :=
  [EInit l o; EAddB 0; EAddB 1; EAddB 2; EAddC 0; EAddC 1; EAddC 2; EAddG 0; EAddG 1; EAddG 2; EAddG 3].
Definition dtF : cell tg := cdiv (cofZ 1) (cofZ 64).
End W.
Lemma scene_tame {tg} (l : sle tg) o : (forall r, o = OdeRk4 r -> r = rk4_new) -> Forall tame_rk (scene l o).
Proof. intros H. unfold scene. constructor; [exact H|]. repeat constructor. Qed.
Definition integratorb {tg} (k : flavour) (y : sys tg) : bool :=
  match k, y_ode y with Optimized, _ => true | Generic, Some (OdeNsv _ | OdeEuler _ | OdeRk4 _) => true | _, _ => false end.
Lemma scene_ok {tg} k (l : sle tg) o t : (forall r, o = OdeRk4 r -> r = rk4_new) ->
  runs (evrun k privc (no_books, wD, created k) (scene l o)) (fun m w y => integratorb k y && t m w y) = true ->
  exists m w y, yreach k privc m w y /\ integrator_set privc k y /\ t m w y = true.
Proof.
  intros Ho T. assert (G : exists m w y, yreach k privc m w y /\ (k = Generic -> lone privc y) /\ integratorb k y && t m w y = true).
  { destruct k.
    - destruct (runs_reach _ _ _ _ _ T) as (m & w & y & H & X). exists m, w, y. split; [exact H|]. split; [discriminate|exact X].
    - destruct (runs_lone _ _ _ _ (scene_tame l o Ho) T) as (m & w & y & H & L & X). exists m, w, y. auto. }
  destruct G as (m & w & y & H & L & X). rewrite !andb_true_iff in X. destruct X as (X2 & X3). exists m, w, y. split; [exact H|].
  split; [|exact X3]. unfold integratorb in X2. destruct k; cbn [integrator_set]; [exact I|]. specialize (L eq_refl).
  destruct (y_ode y) as [[|h|h|r]|]; try discriminate; [left; exists Explicit, h; reflexivity|left; exists Symplectic, h; reflexivity|right; split; [exact L|eauto]].
Qed.
Definition kind_no (i : nat) : flavour := match i with 0 | 1 | 2 => Optimized | _ => Generic end.
Definition sle_no {tg} (i : nat) : sle tg := match i with 0 | 3 | 4 => SleGe geS | 1 => SleGs (mkGs 20 3 500 (clit 1 10)) | _ => SleCg cgW end.
Definition ode_no {tg} (i : nat) : ode tg := match i with 4 => OdeRk4 rk4_new | 5 => OdeEuler (cofZ 0) | _ => OdeNsv (cofZ 0) end.
Definition moved {tg} (w w' : world tg) (b : nat) : bool :=
  match b_vel (w_body w b) 2, b_vel (w_body w' b) 2 with Some x, Some x' => n_ltb tg x x' || n_ltb tg x' x | _, _ => false end.
Definition two_calls {tg} : list (cell tg * nat * timing) := [(dtF, 2, t0 3); (dtF, 1, t0 5)].
Lemma SFltb_irr x : SFltb x x = false.
Proof.
  unfold SFltb, SFcompare. destruct x as [s|s| |s p e]; try reflexivity; destruct s; try reflexivity;
    rewrite Z.compare_refl, Pos.compare_cont_refl; reflexivity.
Qed.
Lemma moved_ok b (w w' : world (FT b)) i : moved w w' i = true -> b_vel (w_body w' i) 2 <> b_vel (w_body w i) 2.
Proof.
  unfold moved. intros H E. rewrite E in H. destruct (b_vel (w_body w i) 2) as [x|]; [|discriminate]. rewrite orb_diag in H. cbn [n_ltb FT F64_trig] in H.
  now rewrite SFltb_irr in H.
Qed.
Lemma scenes i : exists m (w : world (FT true)) y w' y', let k := kind_no i in yreach k privc m w y /\ integrator_set privc k y /\ all_determinate k w y /\
  body_count y = 3 /\ con_count y = 3 /\ gen_count y = 4 /\ Forall (fun x => defined (tg := FT true) (fst (fst x)) /\ 0 < snd (fst x)) two_calls /\
  process_all k two_calls w y = Ok (w', y') /\ b_vel (w_body w' 1) 2 <> b_vel (w_body w 1) 2 /\ b_vel (w_body w' 2) 2 <> b_vel (w_body w 2) 2.
Proof.
  destruct (scene_ok (kind_no i) (sle_no i : sle (FT true)) (ode_no i) (fun m w y => determinateb (kind_no i) w y && Nat.eqb (body_count y) 3 && Nat.eqb (con_count y) 3 && Nat.eqb (gen_count y) 4 &&
    match process_all (kind_no i) two_calls w y with Ok (w', y') => moved w w' 1 && moved w w' 2 | _ => false end)) as (m & w & y & A & B & D).
  - intros r. destruct i as [|[|[|[|[|[|i]]]]]]; cbn [ode_no]; try discriminate. now intros [= <-].
  - destruct i as [|[|[|[|[|[|i]]]]]]; vm_compute; reflexivity.
  - rewrite !andb_true_iff, !Nat.eqb_eq in D. destruct D as ((((C & D1) & D2) & D3) & D4). apply determinateb_ok in C.
    destruct (process_all (kind_no i) two_calls w y) as [[w' y']| | |] eqn:E; try discriminate. apply andb_true_iff in D4. destruct D4 as [D4 D5].
    exists m, w, y, w', y'. cbv zeta. do 6 (split; [assumption|]). split; [repeat constructor; discriminate|]. split; [exact E|]. split; now apply moved_ok.
Qed.

(** ** solvers that are not among them *)
(** Gauss-Seidel in the generic class: the first call *)
Definition sle_bad {tg} (i : nat) : sle tg :=
  match i with 0 => SleGs (mkGs 20 3 500 (clit 1 10)) | _ => SleCg (mkCg 20 21 22 23 24 25 1 (clit 1 100) (clit 1 1000)) end.
Lemma gs_undefined : exists m (w : world (FT false)) y g, yreach Generic privc m w y /\ integrator_set privc Generic y /\ scene_determinate w y /\
  y_sle y = Some (SleGs g) /\ defined (gs_min_delta g) /\ process Generic dtF 1 (t0 3) w y = UB.
Proof.
  destruct (scene_ok Generic (sle_bad 0 : sle (FT false)) (ode_no 0) (fun m w y => scene_setb w y && match y_sle y with Some (SleGs g) => is_set (gs_min_delta g) | _ => false end &&
    is_ub (process Generic dtF 1 (t0 3) w y))) as (m & w & y & A & B & D); [discriminate|vm_compute; reflexivity|].
  rewrite !andb_true_iff in D. destruct D as ((D1 & D2) & D3). destruct (y_sle y) as [[|?|g|?]|] eqn:E; try discriminate.
  exists m, w, y, g. do 2 (split; [assumption|]). split; [now apply scene_setb_ok|]. split; [exact E|]. split; [now apply is_set_ok|now apply is_ub_ok].
Qed.
(** conjugate gradients that do not converge, without assertions: the first
    call leaves indeterminate velocities, the second is undefined *)
Lemma cg_undefined k : exists m (w : world (FT false)) y g w' y', yreach k privc m w y /\ integrator_set privc k y /\ scene_determinate w y /\
  y_sle y = Some (SleCg g) /\ defined (cg_max_error g) /\ defined (cg_min_error g) /\
  process k dtF 1 (t0 3) w y = Ok (w', y') /\ ~ defined (b_vel (w_body w' 0) 0) /\ process k dtF 1 (t0 5) w' y' = UB.
Proof.
  destruct (scene_ok k (sle_bad 1 : sle (FT false)) (ode_no 0) (fun m w y => scene_setb w y && match y_sle y with Some (SleCg g) => is_set (cg_max_error g) && is_set (cg_min_error g) | _ => false end &&
    match process k dtF 1 (t0 3) w y with Ok (w', y') => negb (is_set (b_vel (w_body w' 0) 0)) && is_ub (process k dtF 1 (t0 5) w' y') | _ => false end)) as (m & w & y & A & B & D); [discriminate|destruct k; vm_compute; reflexivity|].
  rewrite !andb_true_iff in D. destruct D as ((D1 & D2) & D3). destruct (y_sle y) as [[|?|?|g]|] eqn:E; try discriminate. apply andb_true_iff in D2. destruct D2 as [D2 D4].
  destruct (process k dtF 1 (t0 3) w y) as [[w' y']| | |] eqn:EP; try discriminate. apply andb_true_iff in D3. destruct D3 as [D3 D5].
  exists m, w, y, g, w', y'. do 2 (split; [assumption|]). split; [now apply scene_setb_ok|]. split; [exact E|]. split; [now apply is_set_ok|]. split; [now apply is_set_ok|].
  split; [exact EP|]. split; [|now apply is_ub_ok]. destruct (b_vel (w_body w' 0) 0); [discriminate|]. intros X. now apply X.
Qed.

(** ** C93 *)
Lemma con_new_fits tg (k : ckind tg) n m : n <= 3 -> m <= 2 -> exists c, con_new k n m = Ok c /\ fresh_con k n m c.
Proof.
  intros Hn Hm. unfold con_new, massert. destruct (Nat.leb_spec n 3); [|lia]. destruct (Nat.leb_spec m 2); [|lia]. cbn [bind].
  eexists. split; [reflexivity|]. repeat split. now intros [|[|?]].
Qed.
Lemma con_new_else tg (k : ckind tg) n m : 3 < n \/ 2 < m ->
  if asserts_on tg then con_new k n m = AssertFail else exists c, con_new k n m = Ok c /\ fresh_con k n m c.
Proof.
  intros H. unfold con_new, massert. destruct (asserts_on tg).
  - destruct (Nat.leb_spec n 3); [|reflexivity]. destruct (Nat.leb_spec m 2); [lia|reflexivity].
  - destruct (Nat.leb n 3), (Nat.leb m 2); (eexists; split; [reflexivity|]; repeat split; now intros [|[|?]]).
Qed.
Lemma con_new_class tg (k : ckind tg) n m : class_counts k = Some (n, m) -> n <= 3 /\ m <= 2 /\ exists c, con_new k n m = Ok c /\ fresh_con k n m c /\ (pars_set k -> con_set c).
Proof.
  intros E. assert (B : n <= 3 /\ m <= 2) by (destruct k; cbn in E; try discriminate; injection E as <- <-; lia).
  split; [apply B|]. split; [apply B|]. destruct (con_new_fits tg k n m (proj1 B) (proj2 B)) as (c & Ec & F). exists c. split; [exact Ec|]. split; [exact F|].
  intros P. destruct F as (F1 & F2 & F3 & _). unfold con_set. rewrite F1, F2, F3. auto.
Qed.
(** a user's constraint with the given number of rows, of which it writes three *)
Definition holding {tg} : ckind tg := KCustom (fun _ _ _ _ => Ok {| o_C := fun _ => cofZ 0; o_J := fun i j => if Nat.eqb i j then cofZ 1 else cofZ 0; o_Jdot := fun _ _ => cofZ 0;
  o_vbias := fun _ => cofZ 0; o_limits := fun _ j => match j with 0 => copp cdblmax | _ => cdblmax end; o_ks := fun _ => cofZ 0; o_kd := fun _ => cofZ 0 |}).
Definition wH {tg} (c : constraint tg) : world tg := {| w_body := w_body wD; w_con := fun _ => {| c_kind := c_kind c; c_index := c_index c; c_bodycount := c_bodycount c;
  c_bodies := fun _ => Some 0; c_Fx := c_Fx c; c_Fy := c_Fy c; c_Ft := c_Ft c; c_count := c_count c |}; w_gen := w_gen wD |}.
Definition held {tg} : list (ev tg) := [EInit (SleGe geS) (OdeNsv (cofZ 0)); EAddB 0; EAddC 0; EAddG 0].
Definition held_by k n : res (st3 (FT false)) :=
  let* c := con_new (holding : ckind (FT false)) n 1 in evrun k privc (no_books, wH c, created k) held.
Lemma too_many k n : n = 3 \/ n = 4 -> exists c m (w : world (FT false)) y,
  con_new (holding : ckind (FT false)) n 1 = Ok c /\ yreach k privc m w y /\ y_cons y = [0] /\ c_kind (w_con w 0) = holding /\ c_count (w_con w 0) = n /\ c_bodycount (w_con w 0) = 1 /\
  match process k dtF 1 (t0 3) w y with Ok _ => n = 3 | UB => n = 4 | _ => False end.
Proof.
  intros Hn.
  assert (T : runs (held_by k n) (fun m w y => match y_cons y with [0] => true | _ => false end && Nat.eqb (c_count (w_con w 0)) n && Nat.eqb (c_bodycount (w_con w 0)) 1 &&
    match process k dtF 1 (t0 3) w y with Ok _ => Nat.eqb n 3 | UB => Nat.eqb n 4 | _ => false end) = true) by (destruct Hn as [-> | ->], k; vm_compute; reflexivity).
  assert (K : match held_by k n with Ok (_, w, _) => c_kind (w_con w 0) | _ => KBase end = holding) by (destruct Hn as [-> | ->], k; reflexivity).
  unfold runs in T. unfold held_by in *. destruct (con_new (holding : ckind (FT false)) n 1) as [c| | |] eqn:Ec; try discriminate. cbn [bind] in *.
  destruct (evrun k privc (no_books, wH c, created k) held) as [[[m w] y]| | |] eqn:E; try discriminate.
  rewrite !andb_true_iff, !Nat.eqb_eq in T. destruct T as (((A & B) & C) & D). exists c, m, w, y. split; [reflexivity|].
  split; [eapply evrun_reach; [apply y_created|exact E]|]. split; [destruct (y_cons y) as [|[|?] [|? ?]]; congruence|].
  split; [exact K|]. split; [exact B|]. split; [exact C|]. destruct (process k dtF 1 (t0 3) w y) as [?| | |]; try discriminate; now apply Nat.eqb_eq.
Qed.
Lemma sizes : exists c, con_new (KLink (mkLink (cofZ 1) (cofZ 0) (cofZ (-1)) (cofZ 0) cdblmax (cofZ 1) (cofZ 1)) : ckind (FT true)) 2 2 = Ok c /\ con_set c /\
  con_new (holding : ckind (FT true)) 4 1 = AssertFail /\ con_new (holding : ckind (FT true)) 3 3 = AssertFail.
Proof.
  eexists. split; [reflexivity|]. split; [|split; reflexivity]. split; [reflexivity|]. intros x H. cbn [In] in H. repeat (destruct H as [<- | H]; [discriminate|]). destruct H.
Qed.
