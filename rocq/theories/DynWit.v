(** * Concrete systems for the dynamics theorems. *)

From Coq Require Import Reals QArith.
From Verif Require Import Base Targets Matrix Sparse Sle State Ode Forces Constraints System Logic SpecSle SpecSys RegFacts RegWit
  SpecDyn DynState DynReact DynRound DynStep DynForce.
Local Open Scope nat_scope.

Section S.
Context {tg : target}.
Implicit Types (w : world tg) (y : sys tg).
Definition attachedb w y : bool := forallb (fun c => forallb (fun k =>
  match c_bodies (w_con w c) k with Some b => existsb (Nat.eqb b) (y_bodies y) | None => false end) (seq 0 (c_bodycount (w_con w c)))) (y_cons y).
Lemma attachedb_ok w y : attachedb w y = true -> attached w y.
Proof.
  unfold attachedb. rewrite forallb_forall. intros H c k Hc Hk. specialize (H c Hc). rewrite forallb_forall in H.
  specialize (H k ltac:(apply in_seq; lia)). destruct (c_bodies (w_con w c) k) as [b|]; [|discriminate].
  apply existsb_exists in H. destruct H as (b' & Hb & E). apply Nat.eqb_eq in E. subst b'. eauto.
Qed.
Definition shapedb w y : bool := forallb (fun c =>
  Nat.leb 1 (c_count (w_con w c)) && Nat.leb (c_count (w_con w c)) 3 && Nat.leb (c_bodycount (w_con w c)) 2) (y_cons y).
Lemma shapedb_ok w y : shapedb w y = true -> shaped w y.
Proof.
  unfold shapedb. rewrite forallb_forall. intros H c Hc. specialize (H c Hc). rewrite !andb_true_iff, !Nat.leb_le in H. tauto.
Qed.
Definition builtins w y : bool := forallb (fun g => builtin (g_kind (w_gen w g))) (y_gens y).
Lemma builtins_ok w y : builtins w y = true -> all_gentle w y.
Proof. unfold builtins. rewrite forallb_forall. intros H g Hg. specialize (H g Hg). now destruct (g_kind (w_gen w g)). Qed.
Definition unboundb w y b : bool := forallb (fun c => forallb (fun k =>
  match c_bodies (w_con w c) k with Some b' => negb (Nat.eqb b' b) | None => true end) (seq 0 (c_bodycount (w_con w c)))) (y_cons y).
Lemma unboundb_ok w y b : unboundb w y b = true -> unbound w y b.
Proof.
  unfold unboundb. rewrite forallb_forall. intros H c k Hc Hk. specialize (H c Hc). rewrite forallb_forall in H.
  specialize (H k ltac:(apply in_seq; lia)). destruct (c_bodies (w_con w c) k) as [b'|]; [|discriminate].
  intros E. injection E as ->. now rewrite Nat.eqb_refl in H.
Qed.
Definition okays w y : bool := attachedb w y && shapedb w y && builtins w y.
Lemma okays_ok w y : okays w y = true -> attached w y /\ shaped w y /\ all_gentle w y.
Proof. unfold okays. rewrite !andb_true_iff. intros [[A B] C]. auto using attachedb_ok, shapedb_ok, builtins_ok. Qed.
End S.

(** a shaft (bodies 0 and 1, a clutch) and a free body 2 under gravity *)
Definition three {tg} (dt : cell tg) : list (ev tg) :=
  [EInit (SleGe geS) (OdeNsv (cofZ 0)); EAddB 0; EAddB 2; EAddB 1; EAddC 4; EAddG 2; EProc dt 1 (t0 3)].
Lemma three_runs k : exists m (w : world (QT true)) y w' y', yreach k nopriv m w y /\ attached w y /\ shaped w y /\ all_gentle w y /\
  uses k Symplectic y /\ con_count y = 1 /\ gen_count y = 1 /\ In 2 (y_bodies y) /\ unbound w y 2 /\
  process k dtQ 3 (t0 7) w y = Ok (w', y') /\ b_vel (w_body w' 2) 1 <> b_vel (w_body w 2) 1.
Proof.
  destruct (runs_reach k nopriv wS (three dtQ) (fun m w y => okays w y && Nat.eqb (con_count y) 1 && Nat.eqb (gen_count y) 1 &&
     existsb (Nat.eqb 2) (y_bodies y) && unboundb w y 2 &&
     match y_ode y with Some (OdeNsv _) => true | _ => false end &&
     match process k dtQ 3 (t0 7) w y with Ok (w', y') =>
       match b_vel (w_body w' 2) 1, b_vel (w_body w 2) 1 with Some a, Some b => negb (Qeq_bool a b) | _, _ => false end | _ => false end)) as (m & w & y & H & T).
  - destruct k; vm_compute; reflexivity.
  - rewrite !andb_true_iff, !Nat.eqb_eq in T. destruct T as ((((((T1 & T2) & T3) & T4) & T5) & T6) & T7).
    destruct (process k dtQ 3 (t0 7) w y) as [[w' y']| | |] eqn:E; try discriminate. destruct (okays_ok _ _ T1) as (A & B & C).
    exists m, w, y, w', y'. do 4 (split; [assumption|]). split.
    { destruct k; [reflexivity|]. destruct (y_ode y) as [[|h|h|r]|] eqn:Eo; try discriminate. exists h. exact Eo. }
    do 2 (split; [assumption|]). split.
    { apply existsb_exists in T4. destruct T4 as (x & Hx & Ex). apply Nat.eqb_eq in Ex. now subst x. }
    split; [now apply unboundb_ok|]. split; [exact E|]. intros X. rewrite X in T7.
    destruct (b_vel (w_body w 2) 1) as [a|]; [|discriminate]. apply negb_true_iff in T7. now rewrite Qeq_bool_refl in T7.
Qed.

(** gravity puts the force - m g on a body *)
Lemma gravity_pushes {tg} (w : world tg) y K h g gr : y_gens y = [g] -> g_kind (w_gen w g) = GGravity gr ->
  pushes w y K h (fun b d => match d with 1 => cadd (cofZ 0) (cmul (copp (b_f (w_body w b) Bm)) gr) | _ => cofZ 0 end).
Proof.
  intros Eg Ek. pose proof (pushes_effects w y K h (fun _ => add_weight w gr)) as G. rewrite Eg in G. apply G.
  - intros g' Hg'. rewrite Eg in Hg'. destruct Hg' as [<-|[]]. rewrite Ek. exact I.
  - intros g' [<-|[]]. rewrite Ek. apply gravity_effect.
Qed.

(** ** the generic class reports the wrong forces *)
Definition pair {tg} : list (ev tg) := [EInit (SleGe geS) (OdeNsv (cofZ 0)); EAddB 0; EAddB 1; EAddC 4].
(** the velocity body 1 would have, going by the reported forces *)
Definition told_v (w w' : world (QT true)) y : cell (QT true) :=
  cadd (b_vel (w_body w 1) 2) (cmul (cmul (total_on w y (fun c j k => c_force (w_con w' c) 2 j k) 1 (cofZ 0)) (cdiv (cofZ 1) (b_mass (w_body w 1) 2))) (cdiv dtQ (cofZ 1))).
Lemma reports_no_motion : exists m (w : world (QT true)) y w' y', yreach Generic nopriv m w y /\ attached w y /\ shaped w y /\ all_gentle w y /\
  (exists h, y_ode y = Some (ode_of Symplectic h)) /\ process Generic dtQ 1 (t0 7) w y = Ok (w', y') /\
  ~ exists K F, motion Symplectic w y (cdiv dtQ (cofZ (Z.of_nat 1))) 1 (kin_of w) K F /\ arrives w' y K /\ reports w w' y F.
Proof.
  destruct (runs_reach Generic nopriv wS pair (fun m w y => okays w y && (match y_gens y with [] => true | _ => false end) && existsb (Nat.eqb 1) (y_bodies y) &&
     match y_ode y with Some (OdeNsv _) => true | _ => false end &&
     match process Generic dtQ 1 (t0 7) w y with Ok (w', y') =>
       match b_vel (w_body w' 1) 2, told_v w w' y with Some a, Some b => negb (Qeq_bool a b) | _, _ => false end | _ => false end)) as (m & w & y & H & T).
  - vm_compute; reflexivity.
  - rewrite !andb_true_iff in T. destruct T as ((((T1 & T2) & T3) & T4) & T5).
    destruct (process Generic dtQ 1 (t0 7) w y) as [[w' y']| | |] eqn:E; try discriminate. destruct (okays_ok _ _ T1) as (A & B & C).
    exists m, w, y, w', y'. do 4 (split; [assumption|]). split.
    { destruct (y_ode y) as [[|h|h|r]|] eqn:Eo; try discriminate. now exists h. }
    split; [exact E|]. intros (K & F & (Ks & fs & Fs & M1 & M2 & M3 & M4) & AR & RP).
    assert (EG : y_gens y = []) by (destruct (y_gens y); [reflexivity|discriminate]).
    assert (HB : In 1 (y_bodies y)). { apply existsb_exists in T3. destruct T3 as (x & Hx & Ex). apply Nat.eqb_eq in Ex. now subst x. }
    destruct (M3 0 ltac:(lia)) as (F0 & (N0 & V0) & _). specialize (M4 ltac:(lia)). cbn [Nat.sub] in M4. rewrite M1, M2 in *.
    pose proof (F0 _ (pushes_none w y (kin_of w) _ EG) 1 2 HB ltac:(lia)) as F00.
    destruct (AR 1 2 HB ltac:(lia)) as [_ AV]. destruct (V0 1 2 HB ltac:(lia)) as [VV _]. rewrite (N0 1 2 HB ltac:(lia)), F00, M4 in VV.
    assert (X : b_vel (w_body w' 1) 2 = told_v w w' y).
    { rewrite AV, VV. unfold told_v. cbn [kin_of k_v]. change (Z.of_nat 1) with 1%Z. do 2 f_equal. f_equal. unfold total_on.
      assert (G : forall e, In e (slots w y) -> let '(c, j, k) := e in In c (y_cons y) /\ j < c_count (w_con w c) /\ k < c_bodycount (w_con w c)).
      { intros e He. unfold slots in He. apply in_flat_map in He. destruct He as (c & Hc & He). apply in_flat_map in He. destruct He as (j & Hj & He).
        apply in_map_iff in He. destruct He as (k & <- & Hk). apply in_seq in Hj. apply in_seq in Hk. repeat split; auto; lia. }
      generalize (cofZ 0 : cell (QT true)). revert G. generalize (slots w y). induction l as [|[[c j] k] l IH]; intros G x0; cbn [fold_left]; [reflexivity|].
      destruct (G (c, j, k) (or_introl eq_refl)) as (G1 & G2 & G3). rewrite (RP c j k 2 G1 G2 G3 ltac:(lia)). apply IH. intros e He. apply G. now right. }
    rewrite X in T5. destruct (told_v w w' y); [|discriminate]. now rewrite Qeq_bool_refl in T5.
Qed.
