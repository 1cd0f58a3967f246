(** * Concrete systems for properties C65-C69. *)

From Coq Require Import Reals Lra QArith.
From Verif Require Import Base Targets Matrix Sparse Sle State Ode Forces Constraints System Destroy Logic SpecMatrix SpecState SpecForces SpecCon ConFacts
  SpecSle SpecSys RegFacts RegWit SpecDyn DynState DynReact DynStep DynForce DynWit SpecSolve SolveReal SpecLaw LawReal LawStep SpecLimits Assemble SolveWit LimitWit SpecEdge.
Local Open Scope nat_scope.

(** ** C65: the motor drives the body to the opposite speed *)
Definition is_one_con (y : sys (QT true)) (c : nat) : bool := match y_cons y with [c'] => Nat.eqb c' c | _ => false end.
Lemma is_one_con_ok y c : is_one_con y c = true -> y_cons y = [c].
Proof. unfold is_one_con. destruct (y_cons y) as [|a [|]]; try discriminate. intros E. apply Nat.eqb_eq in E. now subst a. Qed.
Definition is_ge (y : sys (QT true)) : bool := match y_sle y with Some (SleGe _) => true | _ => false end.
Lemma is_ge_ok y : is_ge y = true -> exists g, y_sle y = Some (SleGe g).
Proof. unfold is_ge. destruct (y_sle y) as [[]|]; try discriminate. eauto. Qed.
Definition wCR : world (QT true) :=
  {| w_body := fun i => bodyT (cofZ 2) (cofZ 3) (cofZ 0) (cofZ 1);
     w_con := fun _ => conT (KConstantRotation (@mkCR (QT true) (cofZ 3) (cofZ 500) (cofZ (-500)) (cofZ 0) (cofZ 2))) 1 1;
     w_gen := fun _ => {| g_kind := GGravity (cofZ 10); g_index := None |} |}.
Definition turns : list (ev (QT true)) := [EInit (SleGe geS) (OdeNsv (cofZ 0)); EAddB 0; EAddC 4; EAddG 2].
(** constraint c asks for the speed s, from its first body b *)
Definition asks (w : world (QT true)) (c b : nat) (s : Q) : Prop :=
  (exists k r, c_kind (w_con w c) = KConstantRotation k /\ cr_speed k = Some r /\ (r == s)%Q) /\ c_bodies (w_con w c) 0 = Some b.
Definition asks_test (w : world (QT true)) : bool :=
  match c_kind (w_con w 4), c_bodies (w_con w 4) 0 with KConstantRotation k, Some 0 => is_q (cr_speed k) 3 | _, _ => false end.
Lemma asks_ok w : asks_test w = true -> asks w 4 0 3.
Proof.
  unfold asks_test. destruct (c_kind (w_con w 4)) as [| | | | | |k| | | |] eqn:Ek; try discriminate. destruct (c_bodies (w_con w 4) 0) as [[|]|] eqn:Eb; try discriminate.
  intros H. destruct (is_q_ok _ _ H) as (r & Er & Qr). split; [|exact Eb]. exists k, r. auto.
Qed.
Lemma turns_wrong k : exists m (w : world (QT true)) y w' y' g q, yreach k nopriv m w y /\ attached w y /\ shaped w y /\ all_gentle w y /\
  y_bodies y = [0] /\ y_cons y = [4] /\ y_sle y = Some (SleGe g) /\ asks w 4 0 3 /\
  process k dtQ 1 (t0 7) w y = Ok (w', y') /\ b_f (w_body w' 0) Bvtheta = Some q /\ (q == match k with Optimized => - 3 | Generic => 4 # 5 end)%Q.
Proof.
  destruct (runs_reach k nopriv wCR turns (fun m w y => okays w y && match y_bodies y with [0] => true | _ => false end && is_one_con y 4 && is_ge y && asks_test w &&
    match process k dtQ 1 (t0 7) w y with Ok (w', y') => is_q (b_f (w_body w' 0) Bvtheta) (match k with Optimized => - 3 | Generic => 4 # 5 end) | _ => false end)) as (m & w & y & H & X).
  { destruct k; vm_compute; reflexivity. }
  rewrite !andb_true_iff in X. destruct X as (((((X1 & X2) & X3) & X4) & X5) & X6).
  destruct (process k dtQ 1 (t0 7) w y) as [[w' y']| | |] eqn:EP; try discriminate. destruct (okays_ok _ _ X1) as (A & B & C).
  destruct (is_ge_ok _ X4) as [g Eg]. destruct (is_q_ok _ _ X6) as (q & Eq & Qq). exists m, w, y, w', y', g, q. do 4 (split; [assumption|]).
  split; [destruct (y_bodies y) as [|[|] [|]]; congruence|]. split; [now apply is_one_con_ok|]. split; [exact Eg|]. split; [now apply asks_ok|auto].
Qed.

(** ** C66: a brake on body 256 of 257 *)
Definition last : nat := 256.
Definition on_body {tg} (b : nat) (c : constraint tg) : constraint tg :=
  {| c_kind := c_kind c; c_index := c_index c; c_bodycount := c_bodycount c; c_bodies := fun _ => Some b;
     c_Fx := c_Fx c; c_Fy := c_Fy c; c_Ft := c_Ft c; c_count := c_count c |}.
Definition wB : world (QT true) :=
  {| w_body := fun i => bodyT (cofZ 2) (cofZ 3) (cofZ 0) (cofZ (Z.of_nat i + 1));
     w_con := fun _ => on_body last (conT (KFriction (@mkFric (QT true) (cofZ 500) (cofZ (-500)) (cofZ 1) (cofZ 1))) 1 1);
     w_gen := fun _ => {| g_kind := GGravity (cofZ 10); g_index := None |} |}.
Definition crowd : list (ev (QT true)) := EInit (SleGe geS) (OdeNsv (cofZ 0)) :: map EAddB (seq 0 (S last)) ++ [EAddC 4].
Definition is_brake (w : world (QT true)) (c b : nat) : bool :=
  match c_kind (w_con w c), c_bodies (w_con w c) 0 with KFriction _, Some b' => Nat.eqb b' b | _, _ => false end.
Lemma is_brake_ok w c b : is_brake w c b = true -> (exists k, c_kind (w_con w c) = KFriction k) /\ c_bodies (w_con w c) 0 = Some b.
Proof.
  unfold is_brake. destruct (c_kind (w_con w c)); try discriminate. destruct (c_bodies (w_con w c) 0) as [b'|]; try discriminate.
  intros E. apply Nat.eqb_eq in E. subst b'. eauto.
Qed.
Lemma crowd_wrong : exists m (w : world (QT true)) y w' y' g q, yreach Optimized nopriv m w y /\ attached w y /\ shaped w y /\ all_gentle w y /\
  body_count y = S last /\ y_cons y = [4] /\ y_sle y = Some (SleGe g) /\ (exists k, c_kind (w_con w 4) = KFriction k) /\ c_bodies (w_con w 4) 0 = Some last /\
  process Optimized dtQ 1 (t0 7) w y = Ok (w', y') /\ b_f (w_body w' last) Bvtheta = Some q /\ (q == 256)%Q.
Proof.
  destruct (runs_reach Optimized nopriv wB crowd (fun m w y => okays w y && Nat.eqb (body_count y) (S last) && is_one_con y 4 && is_ge y && is_brake w 4 last &&
    match process Optimized dtQ 1 (t0 7) w y with Ok (w', y') => is_q (b_f (w_body w' last) Bvtheta) 256 | _ => false end)) as (m & w & y & H & X).
  { vm_compute; reflexivity. }
  rewrite !andb_true_iff in X. destruct X as (((((X1 & X2) & X3) & X4) & X5) & X6).
  destruct (process Optimized dtQ 1 (t0 7) w y) as [[w' y']| | |] eqn:EP; try discriminate. destruct (okays_ok _ _ X1) as (A & B & C).
  destruct (is_ge_ok _ X4) as [g Eg]. destruct (is_q_ok _ _ X6) as (q & Eq & Qq). destruct (is_brake_ok _ _ _ X5) as [K1 K2]. exists m, w, y, w', y', g, q. do 4 (split; [assumption|]).
  split; [now apply Nat.eqb_eq|]. split; [now apply is_one_con_ok|]. auto 8.
Qed.

(** ** C67: a clutch to a body that was never added *)
Definition half {tg} : list (ev tg) := [EInit (SleGe geS) (OdeNsv (cofZ 0)); EAddB 0; EAddC 4].
Lemma half_ub dbg k : exists m (w : world (QT dbg)) y, yreach k nopriv m w y /\ y_bodies y = [0] /\ y_cons y = [4] /\ 0 < c_count (w_con w 4) /\ 1 < c_bodycount (w_con w 4) /\
  slot_index w 4 1 = Some (-1)%Z /\ process k (cdiv (cofZ 1) (cofZ 10)) 1 (t0 7) w y = UB.
Proof.
  destruct (runs_reach k nopriv wS half (fun m w y => match y_bodies y, y_cons y with [0], [4] => true | _, _ => false end && Nat.ltb 0 (c_count (w_con w 4)) && Nat.ltb 1 (c_bodycount (w_con w 4)) &&
    match slot_index w 4 1 with Some (-1)%Z => true | _ => false end && match process k (cdiv (cofZ 1 : cell (QT dbg)) (cofZ 10)) 1 (t0 7) w y with UB => true | _ => false end)) as (m & w & y & H & X).
  { destruct dbg, k; vm_compute; reflexivity. }
  rewrite !andb_true_iff, !Nat.ltb_lt in X. destruct X as ((((X1 & X2) & X3) & X4) & X5). exists m, w, y. split; [exact H|].
  assert (E : y_bodies y = [0] /\ y_cons y = [4]).
  { destruct (y_bodies y) as [|[|] [|]]; try discriminate; destruct (y_cons y) as [|[|[|[|[|[]]]]] [|]]; try discriminate; auto. }
  destruct E as [E1 E2]. do 4 (split; [assumption|]). split.
  - destruct (slot_index w 4 1) as [[| |[]]|]; try discriminate. reflexivity.
  - destruct (process _ _ _ _ _ _); try discriminate. reflexivity.
Qed.

(** ** C68: after the last constraint is removed *)
Definition privc (i : nat) : bool := existsb (Nat.eqb i) [22; 24; 25].
Definition odeW {tg} : ode tg := OdeNsv (cofZ 0).
Definition gone {tg} (l : sle tg) (dt : cell tg) : list (ev tg) :=
  [EInit l odeW; EAddB 0; EAddB 1; EAddC 4; EProc dt 1 (t0 7); ERemC 4].
Definition never {tg} (l : sle tg) : list (ev tg) := [EInit l odeW; EAddB 0; EAddB 1].
Definition usesb (k : flavour) (y : sys (QT true)) : bool := match k, y_ode y with Optimized, _ | Generic, Some (OdeNsv _) => true | _, _ => false end.
Lemma usesb_ok k y : usesb k y = true -> exists z, uses k z y.
Proof.
  destruct k; cbn [usesb]; intros H; [exists Symplectic; reflexivity|]. destruct (y_ode y) as [[| | |]|] eqn:E; try discriminate.
  exists Symplectic. cbn. eauto.
Qed.
Definition empties (es : list (ev (QT true))) k priv (n : nat) (T : sle (QT true) -> matrix (QT true) -> bool) : bool :=
  runs (evrun k priv (no_books, wS, created k) es) (fun m w y => match y_bodies y, y_cons y, y_gens y with [0; 1], [], [] => true | _, _, _ => false end &&
    Nat.eqb (length (calls m)) n && usesb k y && match y_sle y with Some l => T l (hm (y_heap y) ilambda) | None => false end).
Lemma empties_ok es k priv n T : empties es k priv n T = true -> exists m (w : world (QT true)) y z l f, yreach k priv m w y /\ length (calls m) = n /\ y_bodies y = [0; 1] /\ y_cons y = [] /\
  uses k z y /\ y_sle y = Some l /\ T l (hm (y_heap y) ilambda) = true /\ all_gentle w y /\ forall h, pushes w y (kin_of w) h f.
Proof.
  intros E. destruct (runs_reach _ _ _ _ _ E) as (m & w & y & H & X). rewrite !andb_true_iff in X. destruct X as (((X1 & X2) & X3) & X4).
  destruct (usesb_ok _ _ X3) as [z Hz]. destruct (y_sle y) as [l|] eqn:El; try discriminate.
  assert (F : y_bodies y = [0; 1] /\ y_cons y = [] /\ y_gens y = []).
  { destruct (y_bodies y) as [|[|] [|[|[|]] [|]]]; try discriminate; destruct (y_cons y); try discriminate; destruct (y_gens y); try discriminate; auto. }
  destruct F as (F1 & F2 & F3). exists m, w, y, z, l, (fun _ _ => cofZ 0). split; [exact H|]. split; [now apply Nat.eqb_eq|]. do 5 (split; [assumption|]).
  split; [intros g Hg; rewrite F3 in Hg; contradiction|]. intros h. now apply pushes_none.
Qed.
Definition balksb (l : sle (QT true)) (lam : matrix (QT true)) : bool :=
  match l with SleGe _ => negb (Nat.eqb (m_h lam) 0) | SleCg _ => Nat.eqb (m_h lam) 0 && negb (Nat.eqb (m_w lam) 1) | _ => false end.
Lemma balksb_ok l lam : balksb l lam = true -> balks l lam.
Proof. destruct l; try discriminate; cbn [balksb balks]; rewrite ?andb_true_iff, ?negb_true_iff, ?Nat.eqb_eq, ?Nat.eqb_neq; auto. Qed.
Definition idlesb (l : sle (QT true)) (lam : matrix (QT true)) : bool :=
  match l with SleGe _ => Nat.eqb (m_h lam) 0 | SleCg _ => negb (Nat.eqb (m_h lam) 0) || Nat.eqb (m_w lam) 1
  | SleGs g => Nat.ltb 0 (gs_max_iterations g) && match clt (cofZ 0) (gs_min_delta g) with Ok b => b | _ => false end | _ => false end.
Lemma idlesb_ok l lam : idlesb l lam = true -> idles l lam.
Proof.
  destruct l; try discriminate; cbn [idlesb idles]; rewrite ?andb_true_iff, ?orb_true_iff, ?negb_true_iff, ?Nat.eqb_eq, ?Nat.eqb_neq, ?Nat.ltb_lt; auto.
  intros [A B]. split; [exact A|]. destruct (clt _ _) as [[]| | |]; try discriminate; reflexivity.
Qed.
Definition same_class (l l' : sle (QT true)) : bool :=
  match l, l' with SleGe _, SleGe _ | SleGs _, SleGs _ | SleCg _, SleCg _ => true | _, _ => false end.
(** Gaussian elimination: the last constraint is removed after a call *)
Lemma gone_balks k : exists m (w : world (QT true)) y z g f, yreach k nopriv m w y /\ length (calls m) = 1 /\ y_bodies y = [0; 1] /\ y_cons y = [] /\
  uses k z y /\ y_sle y = Some (SleGe g) /\ balks (SleGe (tg := QT true) g) (hm (y_heap y) ilambda) /\ all_gentle w y /\ forall h, pushes w y (kin_of w) h f.
Proof.
  destruct (empties_ok (gone (SleGe geS) dtQ) k nopriv 1 (fun l m => same_class l (SleGe geS) && balksb l m)) as (m & w & y & z & l & f & A & B & C & D & E & F & G & H & I).
  { destruct k; vm_compute; reflexivity. }
  apply andb_true_iff in G. destruct G as [G1 G2]. destruct l as [|g| |]; try discriminate. exists m, w, y, z, g, f. do 6 (split; [assumption|]).
  split; [now apply balksb_ok|auto].
Qed.
(** conjugate gradient: there has been no constraint yet *)
Lemma never_cg k : exists m (w : world (QT true)) y z g f, yreach k privc m w y /\ calls m = [] /\ y_bodies y = [0; 1] /\ y_cons y = [] /\
  uses k z y /\ y_sle y = Some (SleCg g) /\ all_gentle w y /\ forall h, pushes w y (kin_of w) h f.
Proof.
  destruct (empties_ok (never (SleCg cgW)) k privc 0 (fun l m => same_class l (SleCg cgW))) as (m & w & y & z & l & f & A & B & C & D & E & F & G & H & I).
  { destruct k; vm_compute; reflexivity. }
  destruct l as [| | |g]; try discriminate. exists m, w, y, z, g, f. split; [exact A|]. split; [now apply length_zero_iff_nil|]. auto 8.
Qed.
(** a state in which each solver copes; the last two after removals *)
Definition solver_no (i : nat) : sle (QT true) := match i with 0 => SleGe geS | 1 => SleGs gsW | _ => SleCg cgW end.
Lemma copes i : exists m (w : world (QT true)) y z l f, yreach Optimized privc m w y /\ length (calls m) = Nat.min i 1 /\ y_bodies y = [0; 1] /\ y_cons y = [] /\
  uses Optimized z y /\ y_sle y = Some l /\ same_class l (solver_no i) = true /\ idles l (hm (y_heap y) ilambda) /\ all_gentle w y /\ forall h, pushes w y (kin_of w) h f.
Proof.
  set (es := match i with 0 => never (solver_no i) | _ => gone (solver_no i) dtQ end).
  destruct (empties_ok es Optimized privc (Nat.min i 1) (fun l m => same_class l (solver_no i) && idlesb l m)) as (m & w & y & z & l & f & A & B & C & D & E & F & G & H & I).
  { unfold es. destruct i as [|[|i]]; vm_compute; reflexivity. }
  apply andb_true_iff in G. destruct G as [G1 G2]. exists m, w, y, z, l, f. do 7 (split; [assumption|]). split; [now apply idlesb_ok|auto].
Qed.
(** ** C69 *)
Lemma used_generic : exists m (w : world (QT true)) y, yreach Generic nopriv m w y /\ length (calls m) = 2 /\ gen_dtor y = AssertFail.
Proof.
  destruct (runs_reach Generic nopriv wS (shaft dtQ) (fun m w y => Nat.eqb (length (calls m)) 2 && match gen_dtor (y : sys (QT true)) with AssertFail => true | _ => false end)) as (m & w & y & H & X).
  { vm_compute; reflexivity. }
  apply andb_true_iff in X. destruct X as [X1 X2]. apply Nat.eqb_eq in X1. exists m, w, y. split; [exact H|]. split; [exact X1|]. destruct (gen_dtor y); congruence.
Qed.
Lemma fresh_generic : exists m (w : world (QT true)) y, yreach Generic nopriv m w y /\ calls m = [] /\ body_count y = 2 /\ gen_dtor y = Ok tt.
Proof.
  destruct (runs_reach Generic nopriv wS (never (SleGe geS)) (fun m w y => Nat.eqb (length (calls m)) 0 && Nat.eqb (body_count y) 2 && match gen_dtor (y : sys (QT true)) with Ok tt => true | _ => false end)) as (m & w & y & H & X).
  { vm_compute; reflexivity. }
  rewrite !andb_true_iff, !Nat.eqb_eq in X. destruct X as [[X1 X2] X3]. exists m, w, y. split; [exact H|]. split; [now apply length_zero_iff_nil|]. split; [exact X2|].
  destruct (gen_dtor y) as [[]| | |]; congruence.
Qed.

(** ** C65 in the reals: a lone motor *)
Section R.
Context {dbg : bool}.
Notation T := (RT dbg).
Definition kM : rkind := RConstantRotation 3 500 (-500) 0 2.
Definition wM : world T := {| w_body := w_body wD; w_con := fun c => conT (kind_of dbg kM) 1 1; w_gen := w_gen wD |}.
Lemma motor_ge : exists m (w : world T) y q v M f kc, yreach Optimized nopriv m w y /\
  y_sle y = Some (SleGe geS) /\ attached w y /\ kinds_are w y kc /\ all_gentle w y /\ body_count y = 2 /\
  y_cons y = [0] /\ kc 0 = kM /\ y_bias y = Some 1%R /\ bodies_are w y q v M /\ (forall dt, pushesR w y (kin_of w) dt f) /\
  regular w y M (fun c j i => J_of (kc c) (pose_at w q c) j i) /\ c_bodies (w_con w 0) 0 = Some 0.
Proof.
  destruct (assembled_fresh nopriv Optimized wM (SleGe geS) (OdeNsv (cofZ 0)) [0; 1] [0] []) as (m & w & y & H & S & B & C & G & L & O & Bi & Hh).
  - cbn. unfold ifree, sfree, nopriv. repeat split; lia.
  - repeat constructor; cbn; intuition lia.
  - repeat constructor; cbn; intuition lia.
  - constructor.
  - pose proof (reg_listed _ _ _ (yreach_reg _ _ _ _ _ H)) as HL.
    assert (HK : c_kind (w_con w 0) = kind_of dbg kM /\ c_count (w_con w 0) = 1 /\ c_bodycount (w_con w 0) = 1 /\ forall p, c_bodies (w_con w 0) p = Some p).
    { destruct S as (_ & S & _). destruct (S 0) as (-> & -> & -> & ->). repeat split. }
    destruct HK as (K1 & K2 & K3 & K4).
    assert (H1 : forall c, In c (y_cons y) -> c = 0) by (rewrite C; cbn; intuition).
    assert (HA : attached w y).
    { intros c k Hc Hk. rewrite (H1 c Hc) in *. exists k. split; [apply K4|]. rewrite B. rewrite K3 in Hk. destruct k as [|[|]]; cbn; auto; lia. }
    assert (HB : bodies_are w y qD vD MD).
    { intros b d _ Hd. destruct S as (E & _). unfold b_pos, b_vel, b_mass. rewrite E. destruct d as [|[|[|]]]; cbn; repeat split; try lra; lia. }
    exists m, w, y, qD, vD, MD, (fun _ _ => 0%R), (fun _ => kM).
    split; [exact H|]. split; [exact L|]. split; [exact HA|]. split; [intros c Hc; rewrite (H1 c Hc); auto|]. split; [intros g Hg; rewrite G in Hg; contradiction|].
    split; [unfold body_count; now rewrite B|]. split; [exact C|]. split; [reflexivity|]. split; [exact Bi|]. split; [exact HB|].
    split; [|split; [|apply K4]].
    + intros dt. exact (pushes_none w y (kin_of w) (Some dt : cell T) G).
    + apply (independent_regular w y); auto.
      * intros c Hc. rewrite (H1 c Hc), K2, K3. lia.
      * unfold body_count. rewrite B. cbn. lia.
      * intros b d _ Hd. destruct d as [|[|[|]]]; cbn; lra || lia.
      * intros x HX.
        assert (ES : slots w y = [(0, 0, 0)]).
        { unfold slots. rewrite C. cbn [flat_map]. rewrite K2, K3. reflexivity. }
        assert (EB : forall b j k, binds w b (0, j, k) = Nat.eqb k b).
        { intros b j k. unfold binds. rewrite K4. reflexivity. }
        assert (A : acts w y (fun c j i => J_of kM (pose_at w qD c) j i) x 0 2 = 0%R) by (apply HX; [rewrite B; cbn; auto|lia]).
        unfold acts in A. rewrite ES in A. unfold Lsum in A. cbn [fold_right] in A. rewrite !EB in A.
        cbv beta iota zeta delta [Nat.eqb Nat.mul Nat.add J_of kM nth] in A.
        intros c j Hc Hj. rewrite (H1 c Hc) in *. rewrite K2 in Hj. replace j with 0 by lia. lra.
Qed.
(** the law of the motor, spelt out *)
Lemma motor_law priv m (dt : R) t (w : world T) (y : sys T) g (beta : R) q v M f kc c b sp mx mn ks kd :
    yreach Optimized priv m w y -> y_sle y = Some (SleGe g) -> attached w y -> kinds_are w y kc -> all_gentle w y -> body_count y <= 255 ->
    dt <> 0%R -> y_bias y = Some beta -> bodies_are w y q v M -> pushesR w y (kin_of w) dt f ->
    regular w y M (fun c j i => J_of (kc c) (pose_at w q c) j i) ->
    In c (y_cons y) -> kc c = RConstantRotation sp mx mn ks kd -> c_bodies (w_con w c) 0 = Some b ->
    exists w' y', process Optimized (Some dt : cell T) 1 t w y = Ok (w', y') /\ b_f (w_body w' b) Bvtheta = Some (- sp)%R.
Proof.
  intros H L A K G B D E F P Rg Hc Ek Eb. assert (N : y_cons y <> []) by (intros X; rewrite X in Hc; contradiction).
  destruct (opt_ge_obeys priv m dt t w y g beta q v M f kc H L A K G B N D E F P Rg) as (w' & y' & v' & EP & EE & EO).
  exists w', y'. split; [exact EP|]. specialize (EO c Hc). rewrite Ek in EO. cbn [obeys] in EO. unfold pose_at, who in EO. rewrite Eb in EO. cbn [q_th] in EO.
  destruct (K c Hc) as (_ & _ & K3). rewrite Ek in K3. destruct (A c 0 Hc) as (b' & Eb' & Hb); [rewrite K3; cbn; lia|]. assert (b' = b) by congruence. subst b'.
  destruct (EE b 2 Hb ltac:(lia)) as [_ X]. etransitivity; [exact X|]. now rewrite EO.
Qed.
End R.
