(** * Systems with a body that is not a number, and calls of length zero. *)

From Coq Require Import Reals QArith.
From Coq Require Import Floats.SpecFloat.
From Verif Require Import Base Targets Matrix Sparse Sle State Ode Forces Constraints System Logic SpecMatrix SpecSle SpecForces SpecState SpecSys RegFacts RegWit
  SpecDyn DynWit LimitWit EdgeWit SpecRk RkWit SpecSafe SafeCalc SafeForce SafeStage SafeStep SafeWit SpecIdle.
Local Open Scope nat_scope.

(** ** tests *)
Definition is_nan (x : option spec_float) : bool := match x with Some S754_nan => true | _ => false end.
Lemma is_nan_ok x : is_nan x = true -> x = Some S754_nan.
Proof. destruct x as [[]|]; try discriminate. reflexivity. Qed.
Definition is_fin (x : option spec_float) : bool := match x with Some (S754_zero _ | S754_finite _ _ _) => true | _ => false end.
Definition finb {dbg} (o : body (FT dbg)) : bool := forallb (fun d => is_fin (b_pos o d) && is_fin (b_vel o d)) [0; 1; 2].
Lemma is_fin_ok {dbg} (x : cell (FT dbg)) : is_fin x = true -> ~ lost x.
Proof. destruct x as [[]|]; cbn; try discriminate; auto. Qed.
Lemma finb_ok {dbg} (o : body (FT dbg)) : finb o = true -> body_finite o.
Proof.
  unfold finb. rewrite forallb_forall. intros H d Hd. specialize (H d). rewrite andb_true_iff in H. destruct H as [A B]; [destruct d as [|[|[|d]]]; cbn; [tauto|tauto|tauto|lia]|].
  split; now apply is_fin_ok.
Qed.
Section B.
Context {tg : target}.
Definition same_side (S : nat -> bool) (l : list (option nat)) : bool :=
  match l with Some b :: l => forallb (fun x => match x with Some b' => Bool.eqb (S b') (S b) | None => true end) l | _ => true end.
Definition apartb (w : world tg) (y : sys tg) (S : nat -> bool) : bool :=
  forallb (fun c => match c_bodycount (w_con w c) with 0 | 1 => true | 2 => same_side S [c_bodies (w_con w c) 0; c_bodies (w_con w c) 1] | _ => false end) (y_cons y) &&
  forallb (fun g => match g_kind (w_gen w g) with GSpring p => same_side S [sp_b1 p; sp_b2 p] | GMotor p => match mo_b0 p with Some b => negb (has (y_bodies y) b) | _ => true end | GCustom _ => false | _ => true end) (y_gens y).
Lemma same_two S b b' : same_side S [Some b; Some b'] = true -> S b = S b'.
Proof. cbn. rewrite andb_true_r. intros H. symmetry. now apply Bool.eqb_prop. Qed.
Lemma apartb_ok w y S : apartb w y S = true -> apart w y S.
Proof.
  unfold apartb. rewrite andb_true_iff, !forallb_forall. intros [A B]. split.
  - intros c p p' b b' Hc Hp Hp' E E'. specialize (A c Hc). destruct (c_bodycount (w_con w c)) as [|[|[|n]]]; [lia| | |discriminate].
    + replace p' with p in E' by lia. rewrite E in E'. now injection E' as <-.
    + assert (p = 0 \/ p = 1) as [->| ->] by lia; assert (p' = 0 \/ p' = 1) as [->| ->] by lia; try (rewrite E in E'; now injection E' as <-); rewrite E, E' in A.
      * now apply same_two.
      * symmetry. now apply same_two.
  - intros g Hg. specialize (B g Hg). destruct (g_kind (w_gen w g)) as [x|f|p|p|f]; [exact I|exact I| | |discriminate].
    + intros b b' E E'. rewrite E, E' in B. now apply same_two.
    + intros b b' E E' Hb. rewrite E in B. apply negb_true_iff in B. unfold has in B. assert (X : existsb (Nat.eqb b) (y_bodies y) = true) by (apply existsb_exists; exists b; split; [exact Hb|apply Nat.eqb_refl]). congruence.
Qed.
End B.

(** ** the scene of C92; body 2 has nothing to do with the others, and someone
    gives it another speed *)
Definition spun {tg} (w : world tg) (v : cell tg) : world tg := set_body w 2 (b_set (w_body w 2) Bvtheta v).
Definition nanF {dbg} : cell (FT dbg) := Some S754_nan.
Definition first_two (b : nat) : bool := Nat.ltb b 2.
Lemma spun_reach {tg} k priv m (w : world tg) y v : yreach k priv m w y -> yreach k priv m (spun w v) y.
Proof. intros H. apply y_edit_body; [exact H|reflexivity]. Qed.
Lemma spun_inside {tg} (w : world tg) v : same_inside w (spun w v) first_two.
Proof. split; [reflexivity|]. split; [reflexivity|]. intros b Hb. unfold spun, set_body, upd. cbn [w_body]. destruct (Nat.eqb_spec 2 b) as [<-|N]; [discriminate|]. destruct b as [|[|[|b]]]; try reflexivity; discriminate. Qed.

Definition all_are {dbg} (t : option spec_float -> bool) (w : world (FT dbg)) (bs : list nat) : bool := forallb (fun b => forallb (fun d => t (b_pos (w_body w b) d) && t (b_vel (w_body w b) d)) [0; 1; 2]) bs.
(** *** elimination: everything is lost *)
Lemma spreads k : exists m (w : world (FT false)) y w' y', yreach k privc m w y /\ integrator_set privc k y /\ all_determinate k w y /\ (exists g, y_sle y = Some (SleGe g)) /\
  apart w y first_two /\ y_bodies y = [0; 1; 2] /\ body_finite (w_body w 0) /\ body_finite (w_body w 1) /\
  process k dtF 1 (t0 3) w y = Ok (w', y') /\ forall b d, b < 2 -> d < 3 -> b_pos (w_body w' b) d = nanF /\ b_vel (w_body w' b) d = nanF.
Proof.
  destruct (scene_ok k (SleGe geS : sle (FT false)) (OdeNsv (cofZ 0)) (fun m w y => let w := spun w nanF in
    determinateb k w y && match y_sle y with Some (SleGe _) => true | _ => false end && apartb w y first_two &&
    (if list_eq_dec Nat.eq_dec (y_bodies y) [0; 1; 2] then true else false) && finb (w_body w 0) && finb (w_body w 1) &&
    match process k dtF 1 (t0 3) w y with Ok (w', y') => all_are is_nan w' [0; 1] | _ => false end)) as (m & w & y & A & B & D); [discriminate|destruct k; vm_compute; reflexivity|].
  cbv zeta in D. rewrite !andb_true_iff in D. destruct D as ((((((D1 & D2) & D3) & D4) & D5) & D6) & D7).
  destruct (process k dtF 1 (t0 3) (spun w nanF) y) as [[w' y']| | |] eqn:E; try discriminate. exists m, (spun w nanF), y, w', y'.
  split; [now apply spun_reach|]. split; [exact B|]. split; [now apply determinateb_ok|]. split; [destruct (y_sle y) as [[|?|?|?]|]; try discriminate; eauto|].
  split; [now apply apartb_ok|]. split; [destruct (list_eq_dec Nat.eq_dec (y_bodies y) [0; 1; 2]); [assumption|discriminate]|]. split; [now apply finb_ok|]. split; [now apply finb_ok|].
  split; [exact E|]. intros b d Hb Hd. unfold all_are in D7. rewrite forallb_forall in D7. specialize (D7 b ltac:(destruct b as [|[|b]]; cbn; [tauto|tauto|lia])). rewrite forallb_forall in D7.
  specialize (D7 d ltac:(destruct d as [|[|[|d]]]; cbn; [tauto|tauto|tauto|lia])). apply andb_true_iff in D7. destruct D7 as [X1 X2]. split; now apply is_nan_ok.
Qed.
(** with assertions the call stops at one *)
Lemma stops k : exists m (w : world (FT true)) y, yreach k privc m w y /\ integrator_set privc k y /\ all_determinate k w y /\ (exists g, y_sle y = Some (SleGe g)) /\
  apart w y first_two /\ y_bodies y = [0; 1; 2] /\ body_finite (w_body w 0) /\ body_finite (w_body w 1) /\ process k dtF 1 (t0 3) w y = AssertFail.
Proof.
  destruct (scene_ok k (SleGe geS : sle (FT true)) (OdeNsv (cofZ 0)) (fun m w y => let w := spun w nanF in
    determinateb k w y && match y_sle y with Some (SleGe _) => true | _ => false end && apartb w y first_two &&
    (if list_eq_dec Nat.eq_dec (y_bodies y) [0; 1; 2] then true else false) && finb (w_body w 0) && finb (w_body w 1) &&
    match process k dtF 1 (t0 3) w y with AssertFail => true | _ => false end)) as (m & w & y & A & B & D); [discriminate|destruct k; vm_compute; reflexivity|].
  cbv zeta in D. rewrite !andb_true_iff in D. destruct D as ((((((D1 & D2) & D3) & D4) & D5) & D6) & D7).
  exists m, (spun w nanF), y.
  split; [now apply spun_reach|]. split; [exact B|]. split; [now apply determinateb_ok|]. split; [destruct (y_sle y) as [[|?|?|?]|]; try discriminate; eauto|].
  split; [now apply apartb_ok|]. split; [destruct (list_eq_dec Nat.eq_dec (y_bodies y) [0; 1; 2]); [assumption|discriminate]|]. split; [now apply finb_ok|]. split; [now apply finb_ok|].
  now destruct (process k dtF 1 (t0 3) (spun w nanF) y).
Qed.
(** *** Gauss-Seidel: the other bodies are as before *)
Definition gsF {dbg} : sle (FT dbg) := SleGs (mkGs 20 3 500 (clit 1 10)).
Lemma contained : exists m (w : world (FT true)) y w' y', yreach Optimized privc m w y /\ attached w y /\ shaped w y /\ all_gentle w y /\ integrates Optimized y /\ all_determinate Optimized w y /\ y_bodies y = [0; 1; 2] /\
  b_vel (w_body w 2) 2 = nanF /\ process Optimized dtF 2 (t0 3) w y = Ok (w', y') /\ body_finite (w_body w' 0) /\ body_finite (w_body w' 1) /\ b_pos (w_body w' 2) 2 = nanF /\ b_vel (w_body w' 2) 2 = nanF.
Proof.
  destruct (scene_ok Optimized (gsF : sle (FT true)) (OdeNsv (cofZ 0)) (fun m w y => let w := spun w nanF in
    okays w y && determinateb Optimized w y && (if list_eq_dec Nat.eq_dec (y_bodies y) [0; 1; 2] then true else false) &&
    match process Optimized dtF 2 (t0 3) w y with Ok (w', y') => finb (w_body w' 0) && finb (w_body w' 1) && is_nan (b_pos (w_body w' 2) 2) && is_nan (b_vel (w_body w' 2) 2) | _ => false end))
    as (m & w & y & A & B & D); [discriminate|vm_compute; reflexivity|].
  cbv zeta in D. rewrite !andb_true_iff in D. destruct D as (((D1 & D0) & D4) & D5). apply okays_ok in D1. destruct D1 as (D1 & D2 & D3).
  destruct (process Optimized dtF 2 (t0 3) (spun w nanF) y) as [[w' y']| | |] eqn:E; try discriminate. rewrite !andb_true_iff in D5. destruct D5 as (((D5 & D6) & D7) & D8).
  exists m, (spun w nanF), y, w', y'. split; [now apply spun_reach|]. split; [exact D1|]. split; [exact D2|]. split; [exact D3|]. split; [left; exists Symplectic; reflexivity|]. split; [now apply determinateb_ok|].
  split; [destruct (list_eq_dec Nat.eq_dec (y_bodies y) [0; 1; 2]); [assumption|discriminate]|]. split; [reflexivity|]. split; [exact E|]. split; [now apply finb_ok|]. split; [now apply finb_ok|].
  split; now apply is_nan_ok.
Qed.
(** *** conjugate gradients: the others notice the speed of body 2 *)
Definition differ (a b : option spec_float) : bool := match a, b with Some x, Some x' => SFltb x x' || SFltb x' x | _, _ => false end.
Lemma differ_ok a b : differ a b = true -> a <> b.
Proof. intros H ->. destruct b as [x|]; [|discriminate]. cbn in H. rewrite SFltb_irr in H. discriminate. Qed.
Lemma noticed : exists m (w : world (FT true)) y w1 y1 w2 y2, let w' := spun w (cofZ 4000) in
  yreach Optimized privc m w y /\ yreach Optimized privc m w' y /\ all_determinate Optimized w y /\ all_determinate Optimized w' y /\ (exists g, y_sle y = Some (SleCg g)) /\
  apart w y first_two /\ same_inside w w' first_two /\ y_bodies y = [0; 1; 2] /\
  process Optimized dtF 1 (t0 3) w y = Ok (w1, y1) /\ process Optimized dtF 1 (t0 3) w' y = Ok (w2, y2) /\
  forall b, b < 2 -> b_vel (w_body w1 b) 0 <> b_vel (w_body w2 b) 0.
Proof.
  destruct (scene_ok Optimized (SleCg cgW : sle (FT true)) (OdeNsv (cofZ 0)) (fun m w y => let w' := spun w (cofZ 4000) in
    determinateb Optimized w y && determinateb Optimized w' y && match y_sle y with Some (SleCg _) => true | _ => false end && apartb w y first_two &&
    (if list_eq_dec Nat.eq_dec (y_bodies y) [0; 1; 2] then true else false) &&
    match process Optimized dtF 1 (t0 3) w y, process Optimized dtF 1 (t0 3) w' y with Ok (w1, _), Ok (w2, _) => forallb (fun b => differ (b_vel (w_body w1 b) 0) (b_vel (w_body w2 b) 0)) [0; 1] | _, _ => false end))
    as (m & w & y & A & B & D); [discriminate|vm_compute; reflexivity|].
  cbv zeta in D. rewrite !andb_true_iff in D. destruct D as (((((D1 & D2) & D3) & D4) & D5) & D6).
  destruct (process Optimized dtF 1 (t0 3) w y) as [[w1 y1]| | |] eqn:E; try discriminate. destruct (process Optimized dtF 1 (t0 3) (spun w (cofZ 4000)) y) as [[w2 y2]| | |] eqn:E2; try discriminate.
  exists m, w, y, w1, y1, w2, y2. cbv zeta. split; [exact A|]. split; [now apply spun_reach|]. split; [now apply determinateb_ok|]. split; [now apply determinateb_ok|].
  split; [destruct (y_sle y) as [[|?|?|?]|]; try discriminate; eauto|]. split; [now apply apartb_ok|]. split; [apply spun_inside|].
  split; [destruct (list_eq_dec Nat.eq_dec (y_bodies y) [0; 1; 2]); [assumption|discriminate]|]. split; [exact E|]. split; [exact E2|].
  intros b Hb. rewrite forallb_forall in D6. apply differ_ok. apply D6. destruct b as [|[|b]]; cbn; [tauto|tauto|lia].
Qed.

(** ** calls of length zero in the optimized class *)
Definition sle_zero {tg} (i : nat) : sle tg := match i with 0 => SleGs (mkGs 20 3 500 (clit 1 10)) | _ => SleGe geS end.
Lemma zero_nan i : exists m (w : world (FT false)) y w' y', yreach Optimized privc m w y /\ integrator_set privc Optimized y /\ all_determinate Optimized w y /\ y_bodies y = [0; 1; 2] /\
  body_finite (w_body w 0) /\ body_finite (w_body w 1) /\ body_finite (w_body w 2) /\ (exists l, y_sle y = Some l /\ match l, i with SleGs _, 0 => True | SleGe _, S _ => True | _, _ => False end) /\
  process Optimized (cofZ 0) 1 (t0 3) w y = Ok (w', y') /\ forall b d, b < 3 -> d < 3 -> b_pos (w_body w' b) d = nanF /\ b_vel (w_body w' b) d = nanF.
Proof.
  destruct (scene_ok Optimized (sle_zero i : sle (FT false)) (OdeNsv (cofZ 0)) (fun m w y =>
    determinateb Optimized w y && match y_sle y, i with Some (SleGs _), 0 => true | Some (SleGe _), S _ => true | _, _ => false end &&
    (if list_eq_dec Nat.eq_dec (y_bodies y) [0; 1; 2] then true else false) && finb (w_body w 0) && finb (w_body w 1) && finb (w_body w 2) &&
    match process Optimized (cofZ 0) 1 (t0 3) w y with Ok (w', y') => all_are is_nan w' [0; 1; 2] | _ => false end)) as (m & w & y & A & B & D); [discriminate|destruct i; vm_compute; reflexivity|].
  rewrite !andb_true_iff in D. destruct D as ((((((D1 & D2) & D3) & D4) & D5) & D6) & D7).
  destruct (process Optimized (cofZ 0) 1 (t0 3) w y) as [[w' y']| | |] eqn:E; try discriminate. exists m, w, y, w', y'.
  split; [exact A|]. split; [exact B|]. split; [now apply determinateb_ok|].
  split; [destruct (list_eq_dec Nat.eq_dec (y_bodies y) [0; 1; 2]); [assumption|discriminate]|]. split; [now apply finb_ok|]. split; [now apply finb_ok|]. split; [now apply finb_ok|].
  split; [destruct (y_sle y) as [l|]; [exists l; split; [reflexivity|]; destruct l, i; try discriminate; exact I|discriminate]|].
  split; [exact E|]. intros b d Hb Hd. unfold all_are in D7. rewrite forallb_forall in D7. specialize (D7 b ltac:(destruct b as [|[|[|b]]]; cbn; [tauto|tauto|tauto|lia])). rewrite forallb_forall in D7.
  specialize (D7 d ltac:(destruct d as [|[|[|d]]]; cbn; [tauto|tauto|tauto|lia])). apply andb_true_iff in D7. destruct D7 as [X1 X2]. split; now apply is_nan_ok.
Qed.
