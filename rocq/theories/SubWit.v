(** * Sub-stepping: witnesses. *)

From Coq Require Import Reals QArith.
From Coq Require Import Floats.SpecFloat.
From Verif Require Import Base Targets Matrix Sparse Sle State Ode Forces Constraints System Logic SpecForces SpecSle SpecSys RegFacts RegWit SpecDyn SolveStep SpecSub SubSim SubRun SubFloat.
Local Open Scope nat_scope.

(** over the reals dividing by one changes nothing *)
Lemma sub_stepping_R b k priv (dt : R) t ts m (w : world (RT b)) y : let h : cell (RT b) := Some (dt / IZR (Z.of_nat (length ts)))%R in
  yreach k priv m w y -> ts <> [] -> (forall g, In g (y_gens y) -> heedless (g_kind (w_gen w g))) -> (forall c, In c (y_cons y) -> heedless_con (c_kind (w_con w c))) ->
  (forall w1 y1, process k (Some dt : cell (RT b)) (length ts) t w y = Ok (w1, y1) -> exists w2 y2, calls_of k h ts w y = Ok (w2, y2) /\ same_scene w1 w2) /\
  (forall w2 y2, calls_of k h ts w y = Ok (w2, y2) -> exists w1 y1, process k (Some dt : cell (RT b)) (length ts) t w y = Ok (w1, y1) /\ same_scene w1 w2).
Proof.
  intros h HR Nz Hg Hc. assert (Nn : IZR (Z.of_nat (length ts)) <> 0%R).
  { intros E. apply (eq_IZR _ 0) in E. destruct ts; [congruence|discriminate]. }
  assert (E : cdiv (Some dt : cell (RT b)) (cofZ (Z.of_nat (length ts))) = h).
  { exact (divR (dbg := b) dt _ Nn). }
  pose proof (sub_stepping k priv (Some dt : cell (RT b)) t ts m w y HR Nz) as S. cbv zeta in S. rewrite E in S. apply S; auto.
  apply dt1.
Qed.

(** in binary64 a quotient is a double, and dividing it by one changes nothing *)
Lemma one_F b sn cs (x y : cell (F64_trig b sn cs)) : cdiv (cdiv x y) (cofZ 1) = cdiv x y.
Proof.
  destruct x as [x|], y as [y|]; try reflexivity. unfold cdiv, lift2p. cbn [n_div F64_trig]. change (cofZ 1 : cell (F64_trig b sn cs)) with (Some (f_ofZ 1)).
  change (f_ofZ 1) with (S754_finite false 4503599627370496 (-52)). cbn [n_div]. f_equal. apply div_one, div_valid.
Qed.
Lemma sub_stepping_F b sn cs k priv (dt : cell (F64_trig b sn cs)) t ts m (w : world (F64_trig b sn cs)) y : let h := cdiv dt (cofZ (Z.of_nat (length ts))) in
  yreach k priv m w y -> ts <> [] -> (forall g, In g (y_gens y) -> heedless (g_kind (w_gen w g))) -> (forall c, In c (y_cons y) -> heedless_con (c_kind (w_con w c))) ->
  (forall w1 y1, process k dt (length ts) t w y = Ok (w1, y1) -> exists w2 y2, calls_of k h ts w y = Ok (w2, y2) /\ same_scene w1 w2) /\
  (forall w2 y2, calls_of k h ts w y = Ok (w2, y2) -> exists w1 y1, process k dt (length ts) t w y = Ok (w1, y1) /\ same_scene w1 w2).
Proof. intros h HR Nz Hg Hc. apply (sub_stepping k priv dt t ts m w y HR Nz); auto. apply one_F. Qed.

Lemma f64_one : let dt : cell (F64 true) := cdiv (cofZ 1) (cofZ 60) in
  cdiv (cdiv dt (cofZ 8)) (cofZ 1) = cdiv dt (cofZ 8) /\ cdiv dt (cofZ 8) <> None.
Proof. split; vm_compute; [reflexivity|discriminate]. Qed.
(** a shaft with a clutch under gravity, two sub-steps *)
Lemma shaft_substeps k : exists m (w : world (QT true)) y w' y', yreach k nopriv m w y /\ con_count y = 1 /\ gen_count y = 1 /\
  (forall g, In g (y_gens y) -> heedless (g_kind (w_gen w g))) /\ (forall c, In c (y_cons y) -> heedless_con (c_kind (w_con w c))) /\
  cdiv (cdiv dtQ (cofZ 2)) (cofZ 1) = cdiv dtQ (cofZ 2) /\
  process k dtQ 2 (t0 7) w y = Ok (w', y') /\ b_f (w_body w' 0) Bvy <> b_f (w_body w 0) Bvy.
Proof.
  destruct (runs_reach k nopriv wS (shaft dtQ) (fun m w y => Nat.eqb (con_count y) 1 && Nat.eqb (gen_count y) 1 &&
     forallb (fun g => match g_kind (w_gen w g) with GGravity _ => true | _ => false end) (y_gens y) &&
     forallb (fun c => match c_kind (w_con w c) with KClutch _ => true | _ => false end) (y_cons y) &&
     match process k dtQ 2 (t0 7) w y with Ok (w', y') =>
       match b_f (w_body w' 0) Bvy, b_f (w_body w 0) Bvy with Some a, Some b => negb (Qeq_bool a b) | _, _ => false end | _ => false end)) as (m & w & y & H & T).
  - destruct k; vm_compute; reflexivity.
  - rewrite !andb_true_iff, !Nat.eqb_eq, !forallb_forall in T. destruct T as ((((T1 & T2) & T3) & T4) & T).
    destruct (process k dtQ 2 (t0 7) w y) as [[w' y']| | |] eqn:E; try discriminate.
    exists m, w, y, w', y'. split; [exact H|]. split; [exact T1|]. split; [exact T2|]. split; [|split; [|split; [vm_compute; reflexivity|split; [exact E|]]]].
    + intros g Hg. specialize (T3 g Hg). destruct (g_kind (w_gen w g)); try discriminate. exact I.
    + intros c Hc. specialize (T4 c Hc). destruct (c_kind (w_con w c)); try discriminate. exact I.
    + intros X. rewrite X in T. destruct (b_f (w_body w 0) Bvy) as [a|]; [|discriminate]. apply negb_true_iff in T. now rewrite Qeq_bool_refl in T.
Qed.

(** a disc turned by a speed motor *)
Definition spin {tg} : motor tg := @mkMotor tg (cofZ 1) (cofZ 1) (cofZ 100) (cofZ 10) (Some 9) (Some 0).
Definition wMo {tg} : world tg :=
  {| w_body := fun i => bodyT (cofZ 2) (cofZ 3) (cofZ 0) (cofZ 0);
     w_con := fun _ => conT (KClutch (@mkClutch tg (cofZ 5) (cofZ (-5)) (cofZ 1) (cofZ 1))) 1 2;
     w_gen := fun _ => {| g_kind := GMotor spin; g_index := None |} |}.
Definition spun {tg} : list (ev tg) := [EInit (SleGe geS) (OdeNsv (cofZ 0)); EAddB 0; EAddG 5].
Lemma motor_differs k : exists m (w : world (QT true)) y w1 y1 w2 y2 p a b, yreach k nopriv m w y /\
  y_bodies y = [0] /\ y_cons y = [] /\ y_gens y = [5] /\ g_kind (w_gen w 5) = GMotor p /\
  process k (cofZ 2) 2 (t0 7) w y = Ok (w1, y1) /\ calls_of k (cofZ 1) [t0 7; t0 7] w y = Ok (w2, y2) /\ cdiv (cofZ 2 : cell (QT true)) (cofZ 2) = cofZ 1 /\
  b_f (w_body w1 0) Bvtheta = Some a /\ b_f (w_body w2 0) Bvtheta = Some b /\ (a == 40 # 9)%Q /\ (b == 50 # 9)%Q.
Proof.
  destruct (runs_reach k nopriv wMo spun (fun (m : books (QT true)) (w : world (QT true)) (y : sys (QT true)) =>
     match y_bodies y, y_cons y, y_gens y, g_kind (w_gen w 5) with [0], [], [5], GMotor p => true | _, _, _, _ => false end &&
     match process k (cofZ 2) 2 (t0 7) w y, calls_of k (cofZ 1) [t0 7; t0 7] w y with Ok (w1, _), Ok (w2, _) =>
       match b_f (w_body w1 0) Bvtheta, b_f (w_body w2 0) Bvtheta with Some a, Some b => Qeq_bool a (40 # 9) && Qeq_bool b (50 # 9) | _, _ => false end | _, _ => false end)) as (m & w & y & H & T).
  - destruct k; vm_compute; reflexivity.
  - rewrite andb_true_iff in T. destruct T as [T1 T].
    destruct (y_bodies y) as [|[|] [|]] eqn:Y0; try discriminate. destruct (y_cons y) as [|] eqn:Y1; [|discriminate]. destruct (y_gens y) as [|n l] eqn:Y2; [discriminate|].
    do 6 (destruct n as [|n]; try discriminate). destruct l; [|discriminate].
    destruct (g_kind (w_gen w 5)) as [| | |p|] eqn:G; try discriminate.
    destruct (process k (cofZ 2) 2 (t0 7) w y) as [[w1 y1]| | |] eqn:E; try discriminate. destruct (calls_of k (cofZ 1) [t0 7; t0 7] w y) as [[w2 y2]| | |] eqn:E2; try discriminate.
    destruct (b_f (w_body w1 0) Bvtheta) as [a|] eqn:A; [|discriminate]. destruct (b_f (w_body w2 0) Bvtheta) as [b|] eqn:B; [|discriminate].
    apply andb_true_iff in T. destruct T as [Ta Tb]. apply Qeq_bool_iff in Ta, Tb.
    exists m, w, y, w1, y1, w2, y2, p, a, b. auto 20.
Qed.
