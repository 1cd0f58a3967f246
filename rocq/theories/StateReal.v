(** * RigidBody and SystemState kinematics in exact arithmetic (C33 - C36). *)

From Coq Require Import Reals Lra.
From Verif Require Import Base Targets State Logic SpecState StateFacts.
Local Open Scope nat_scope.

Lemma Rdiv_some x y : y <> 0%R -> R_div x y = Some (x / y)%R.
Proof. intros N. unfold R_div. destruct (Req_EM_T y 0); [contradiction|reflexivity]. Qed.
Lemma clit_R dbg p q : IZR q <> 0%R -> (clit p q : cell (RT dbg)) = Some (IZR p / IZR q)%R.
Proof. intros N. unfold clit, cdiv, lift2p, cofZ. cbn. now apply Rdiv_some. Qed.

Ltac rt_unfold := unfold cadd, csub, cmul, copp, cdiv, csin, ccos, cabs, cfmin, cfmax, lift1, lift2, lift1p, lift2p;
  cbn [num n_add n_sub n_mul n_opp n_sin n_cos n_div n_abs n_sqrt n_fmin n_fmax RT].

(** ** C33 *)
Section Body.
Context {dbg : bool}.
Notation cl := (cell (RT dbg)).

Lemma b_l2w (o : body (RT dbg)) q (x y : R) : body_pose o q ->
  b_local_to_world o (Some x : cl) (Some y : cl) =
    ((Some (world_x (q_x q) (q_th q) x y) : cl), (Some (world_y (q_y q) (q_th q) x y) : cl)).
Proof.
  intros (H1 & H2 & H3). unfold b_local_to_world. rewrite H1, H2, H3. rt_unfold. unfold world_x, world_y.
  f_equal; f_equal; ring.
Qed.
Lemma b_w2l (o : body (RT dbg)) q (x y : R) : body_pose o q ->
  b_world_to_local o (Some x : cl) (Some y : cl) =
    ((Some (cos (q_th q) * (x - q_x q) + sin (q_th q) * (y - q_y q))%R : cl),
     (Some (- sin (q_th q) * (x - q_x q) + cos (q_th q) * (y - q_y q))%R : cl)).
Proof. intros (H1 & H2 & H3). unfold b_world_to_local. rewrite H1, H2, H3. reflexivity. Qed.

Lemma pair_some (a b c d : R) : a = c -> b = d -> ((Some a : cl), (Some b : cl)) = ((Some c : cl), (Some d : cl)).
Proof. now intros -> ->. Qed.
Lemma sc1 th : (sin th * sin th + cos th * cos th = 1)%R.
Proof. pose proof (sin2_cos2 th) as H. unfold Rsqr in H. exact H. Qed.

Lemma body_transforms (o : body (RT dbg)) q : body_pose o q ->
  (forall x y : R, b_local_to_world o (Some x : cl) (Some y : cl) =
    ((Some (world_x (q_x q) (q_th q) x y) : cl), (Some (world_y (q_y q) (q_th q) x y) : cl))) /\
  (forall x y wx wy : R, b_local_to_world o (Some x : cl) (Some y : cl) = ((Some wx : cl), (Some wy : cl)) <->
     b_world_to_local o (Some wx : cl) (Some wy : cl) = ((Some x : cl), (Some y : cl))) /\
  (forall x y x' y' wx wy wx' wy' : R,
     b_local_to_world o (Some x : cl) (Some y : cl) = ((Some wx : cl), (Some wy : cl)) ->
     b_local_to_world o (Some x' : cl) (Some y' : cl) = ((Some wx' : cl), (Some wy' : cl)) ->
     dist2 wx wy wx' wy' = dist2 x y x' y').
Proof.
  intros H. pose proof (sc1 (q_th q)) as S. split; [intros; now apply b_l2w|]. split.
  - intros x y wx wy. rewrite (b_l2w o q x y H), (b_w2l o q wx wy H). unfold world_x, world_y. split; intros E; inversion E; subst; clear E.
    + apply pair_some; [transitivity (x * (sin (q_th q) * sin (q_th q) + cos (q_th q) * cos (q_th q)))%R|
        transitivity (y * (sin (q_th q) * sin (q_th q) + cos (q_th q) * cos (q_th q)))%R]; first [rewrite S; ring | ring].
    + apply pair_some;
      [transitivity (q_x q + (wx - q_x q) * (sin (q_th q) * sin (q_th q) + cos (q_th q) * cos (q_th q)))%R|
       transitivity (q_y q + (wy - q_y q) * (sin (q_th q) * sin (q_th q) + cos (q_th q) * cos (q_th q)))%R]; first [rewrite S; ring | ring].
  - intros x y x' y' wx wy wx' wy'. rewrite (b_l2w o q x y H), (b_l2w o q x' y' H). intros E E'. inversion E. inversion E'.
    unfold dist2, world_x, world_y.
    transitivity (((x - x')^2 + (y - y')^2) * (sin (q_th q) * sin (q_th q) + cos (q_th q) * cos (q_th q)))%R; [ring|rewrite S; ring].
Qed.
End Body.

Lemma state_body_agree {tg} (s : sstate tg) i (o : body tg) x y :
  ld s Fpx i = Ok (b_f o Bpx) -> ld s Fpy i = Ok (b_f o Bpy) -> ld s Ftheta i = Ok (b_f o Btheta) ->
  st_local_to_world s x y i = Ok (b_local_to_world o x y).
Proof. intros H1 H2 H3. unfold st_local_to_world. rewrite H1, H2, H3. reflexivity. Qed.

(** ** C34 *)
Section St.
Context {dbg : bool}.
Notation cl := (cell (RT dbg)).

Lemma s_l2w (s : sstate (RT dbg)) i q (x y : R) : state_pose s i q ->
  st_local_to_world s (Some x : cl) (Some y : cl) i =
    Ok ((Some (world_x (q_x q) (q_th q) x y) : cl), (Some (world_y (q_y q) (q_th q) x y) : cl)).
Proof.
  intros (H1 & H2 & H3). unfold st_local_to_world. rewrite H1, H2, H3. cbn [bind]. rt_unfold. unfold world_x, world_y.
  f_equal; f_equal; f_equal; ring.
Qed.
Lemma s_vap (s : sstate (RT dbg)) i q v (x y : R) : state_pose s i q -> state_velocity s i v ->
  st_velocity_at_point s (Some x : cl) (Some y : cl) i =
    Ok ((Some (q_x v - q_th v * (world_y (q_y q) (q_th q) x y - q_y q))%R : cl),
        (Some (q_y v + q_th v * (world_x (q_x q) (q_th q) x y - q_x q))%R : cl)).
Proof.
  intros H (V1 & V2 & V3). unfold st_velocity_at_point. rewrite (s_l2w s i q x y H). destruct H as (H1 & H2 & H3).
  cbn [bind]. rewrite V3. cbn [bind]. rewrite H2. cbn [bind]. rewrite H1. cbn [bind]. rewrite V1. cbn [bind]. rewrite V2. cbn [bind].
  rt_unfold. f_equal; f_equal; f_equal; ring.
Qed.

Lemma dlim_eq f g t l : (forall t, f t = g t) -> derivable_pt_lim g t l -> derivable_pt_lim f t l.
Proof.
  intros E H eps He. destruct (H eps He) as [d Hd]. exists d. intros h Hh Hl. rewrite !E. now apply Hd.
Qed.
Lemma dlim_val f t l l' : l = l' -> derivable_pt_lim f t l -> derivable_pt_lim f t l'.
Proof. now intros ->. Qed.
Lemma dlim_cos f t l : derivable_pt_lim f t l -> derivable_pt_lim (fun t => cos (f t)) t (- sin (f t) * l)%R.
Proof. intros H. exact (derivable_pt_lim_comp f cos t l _ H (derivable_pt_lim_cos (f t))). Qed.
Lemma dlim_sin f t l : derivable_pt_lim f t l -> derivable_pt_lim (fun t => sin (f t)) t (cos (f t) * l)%R.
Proof. intros H. exact (derivable_pt_lim_comp f sin t l _ H (derivable_pt_lim_sin (f t))). Qed.
Lemma dlim_scal f t l c : derivable_pt_lim f t l -> derivable_pt_lim (fun t => c * f t)%R t (c * l)%R.
Proof. intros H. exact (derivable_pt_lim_scal f c t l H). Qed.
Lemma dlim_add f g t l k : derivable_pt_lim f t l -> derivable_pt_lim g t k -> derivable_pt_lim (fun t => f t + g t)%R t (l + k)%R.
Proof. intros H H'. exact (derivable_pt_lim_plus f g t l k H H'). Qed.
Lemma dlim_sub f g t l k : derivable_pt_lim f t l -> derivable_pt_lim g t k -> derivable_pt_lim (fun t => f t - g t)%R t (l - k)%R.
Proof. intros H H'. exact (derivable_pt_lim_minus f g t l k H H'). Qed.
Lemma dlim_mul f g t l k : derivable_pt_lim f t l -> derivable_pt_lim g t k -> derivable_pt_lim (fun t => f t * g t)%R t (l * g t + f t * k)%R.
Proof. intros H H'. exact (derivable_pt_lim_mult f g t l k H H'). Qed.
Lemma dlim_opp f t l : derivable_pt_lim f t l -> derivable_pt_lim (fun t => - f t)%R t (- l)%R.
Proof. intros H. exact (derivable_pt_lim_opp f t l H). Qed.
Lemma dlim_const c t : derivable_pt_lim (fun _ => c) t 0%R.
Proof. exact (derivable_pt_lim_const c t). Qed.

Lemma dlim_world_x m t v x y : moves m t v ->
  derivable_pt_lim (fun t => world_x (q_x (m t)) (q_th (m t)) x y) t
    (q_x v - q_th v * (world_y (q_y (m t)) (q_th (m t)) x y - q_y (m t)))%R.
Proof.
  intros (M1 & M2 & M3). unfold world_x, world_y. eapply dlim_val; cycle 1.
  - apply dlim_sub; [apply dlim_add; [exact M1|]|]; (eapply dlim_mul; [apply dlim_const|]).
    + apply (dlim_cos _ _ _ M3).
    + apply (dlim_sin _ _ _ M3).
  - cbn beta. ring.
Qed.
Lemma dlim_world_y m t v x y : moves m t v ->
  derivable_pt_lim (fun t => world_y (q_y (m t)) (q_th (m t)) x y) t
    (q_y v + q_th v * (world_x (q_x (m t)) (q_th (m t)) x y - q_x (m t)))%R.
Proof.
  intros (M1 & M2 & M3). unfold world_x, world_y. eapply dlim_val; cycle 1.
  - apply dlim_add; [apply dlim_add; [exact M2|]|]; (eapply dlim_mul; [apply dlim_const|]).
    + apply (dlim_sin _ _ _ M3).
    + apply (dlim_cos _ _ _ M3).
  - cbn beta. ring.
Qed.

Lemma velocity_at_point (S : R -> sstate (RT dbg)) i (m : R -> pose) t v (x y : R) (wx wy : R -> R) :
  (forall t, state_pose (S t) i (m t)) -> state_velocity (S t) i v -> moves m t v ->
  (forall t, st_local_to_world (S t) (Some x : cl) (Some y : cl) i = Ok ((Some (wx t) : cl), (Some (wy t) : cl))) ->
  exists vx vy, st_velocity_at_point (S t) (Some x : cl) (Some y : cl) i = Ok ((Some vx : cl), (Some vy : cl)) /\
    derivable_pt_lim wx t vx /\ derivable_pt_lim wy t vy.
Proof.
  intros HS HV HM HW. rewrite (s_vap (S t) i (m t) v x y (HS t) HV). do 2 eexists. split; [reflexivity|].
  assert (E : forall u, wx u = world_x (q_x (m u)) (q_th (m u)) x y /\ wy u = world_y (q_y (m u)) (q_th (m u)) x y).
  { intros u. specialize (HW u). rewrite (s_l2w (S u) i (m u) x y (HS u)) in HW. inversion HW. auto. }
  split; (eapply dlim_eq; [intros u; apply E|]).
  - now apply dlim_world_x.
  - now apply dlim_world_y.
Qed.

(** ** C35 *)
Lemma apply_force_R (s : sstate (RT dbg)) i q v (x y fx fy gx gy g : R) :
  state_pose s i q -> state_velocity s i v ->
  ld s Ffx i = Ok (Some gx : cl) -> ld s Ffy i = Ok (Some gy : cl) -> ld s Ft i = Ok (Some g : cl) ->
  let tq := ((world_x (q_x q) (q_th q) x y - q_x q) * fy - (world_y (q_y q) (q_th q) x y - q_y q) * fx)%R in
  exists s', st_apply_force s (Some x : cl) (Some y : cl) (Some fx : cl) (Some fy : cl) i = Ok s' /\
    ld s' Ffx i = Ok (Some (gx + fx)%R : cl) /\ ld s' Ffy i = Ok (Some (gy + fy)%R : cl) /\
    ld s' Ft i = Ok (Some (g + tq)%R : cl) /\
    exists ux uy, st_velocity_at_point s (Some x : cl) (Some y : cl) i = Ok ((Some ux : cl), (Some uy : cl)) /\
      (fx * q_x v + fy * q_y v + tq * q_th v = fx * ux + fy * uy)%R.
Proof.
  intros HP HV X Y T tq. unfold st_apply_force. rewrite (s_l2w s i q x y HP). cbn [bind].
  unfold sto_add. rewrite X. cbn [bind].
  destruct (sto_spec s Ffx i (cadd (Some gx : cl) (Some fx : cl)) _ X) as (s1 & -> & L1 & _). cbn [bind].
  rewrite L1. cbn [fld_eqb andb]. rewrite Y. cbn [bind].
  assert (Y1 : ld s1 Ffy i = Ok (Some gy : cl)) by (rewrite L1; exact Y).
  destruct (sto_spec s1 Ffy i (cadd (Some gy : cl) (Some fy : cl)) _ Y1) as (s2 & -> & L2 & _). cbn [bind].
  rewrite !L2, !L1. cbn [fld_eqb andb]. destruct HP as (P1 & P2 & P3). rewrite P1, P2, T. cbn [bind].
  assert (T2 : ld s2 Ft i = Ok (Some g : cl)) by (rewrite L2, L1; exact T).
  match goal with |- context [sto s2 Ft i ?val] => destruct (sto_spec s2 Ft i val _ T2) as (s3 & -> & L3 & _) end.
  exists s3. split; [reflexivity|]. rewrite !L3, !L2, !L1. cbn [fld_eqb andb]. rewrite Z.eqb_refl.
  split; [reflexivity|]. split; [reflexivity|]. split.
  - rt_unfold. unfold tq. do 2 f_equal. ring.
  - rewrite (s_vap s i q v x y (conj P1 (conj P2 P3)) HV). do 2 eexists. split; [reflexivity|]. unfold tq. ring.
Qed.
End St.

(** which elements applyForce touches, and when it is defined: every number format *)
Section Frame.
Context {tg : target}.

Lemma sto_add_cases (s : sstate tg) f z v :
  (ld s f z = UB /\ sto_add s f z v = UB) \/
  exists x s', ld s f z = Ok x /\ sto_add s f z v = Ok s' /\
    (forall g z', ld s' g z' = if fld_eqb g f && Z.eqb z' z then Ok (cadd x v) else ld s g z') /\
    (forall g, length (s_arr s' g) = length (s_arr s g)) /\
    s_n s' = s_n s /\ s_nc s' = s_nc s /\ s_imap s' = s_imap s /\ s_dt s' = s_dt s.
Proof.
  unfold sto_add. destruct (aget_cases (s_arr s f) z) as [[x E]|E]; unfold ld in *; rewrite E; cbn [bind]; [right|now left].
  destruct (sto_spec s f z (cadd x v) x E) as (s' & E' & K). exists x, s'. unfold ld in *. auto.
Qed.
Lemma apply_force_frame (s : sstate tg) x y fx fy i s' : st_apply_force s x y fx fy i = Ok s' ->
  (forall f z, ~ (z = i /\ (f = Ffx \/ f = Ffy \/ f = Ft)) -> ld s' f z = ld s f z) /\
  s_n s' = s_n s /\ s_nc s' = s_nc s /\ s_imap s' = s_imap s /\ s_dt s' = s_dt s.
Proof.
  intros E. unfold st_apply_force in E. destruct (st_local_to_world s x y i) as [[wx wy]| | |]; try discriminate. cbn [bind] in E.
  destruct (sto_add_cases s Ffx i fx) as [[_ K]|(x1 & s1 & _ & K & L1 & _ & A1 & A2 & A3 & A4)]; rewrite K in E; try discriminate. cbn [bind] in E. clear K.
  destruct (sto_add_cases s1 Ffy i fy) as [[_ K]|(x2 & s2 & _ & K & L2 & _ & B1 & B2 & B3 & B4)]; rewrite K in E; try discriminate. cbn [bind] in E. clear K.
  destruct (ld s2 Fpy i); try discriminate. cbn [bind] in E. destruct (ld s2 Fpx i); try discriminate. cbn [bind] in E.
  match type of E with sto_add s2 Ft i ?v = _ => destruct (sto_add_cases s2 Ft i v) as [[_ K]|(x3 & s3 & _ & K & L3 & _ & C1 & C2 & C3 & C4)] end;
    rewrite K in E; try discriminate. inversion E; subst s3. clear K E.
  split; [|repeat split; congruence]. intros f z N. rewrite L3, L2, L1.
  destruct (Z.eqb_spec z i); [|rewrite !andb_false_r; reflexivity]. subst.
  assert (fld_eqb f Ft = false) as -> by (apply fld_eqb_neq; intros ->; apply N; auto).
  assert (fld_eqb f Ffy = false) as -> by (apply fld_eqb_neq; intros ->; apply N; auto).
  assert (fld_eqb f Ffx = false) as -> by (apply fld_eqb_neq; intros ->; apply N; auto). reflexivity.
Qed.
Lemma sized_ldz (s : sstate tg) f z : sized s -> is_reaction f = false ->
  if ((0 <=? z) && (z <? Z.of_nat (s_n s)))%Z then exists x, ld s f z = Ok x else ld s f z = UB.
Proof.
  intros [H _] Hf. specialize (H f). unfold room in H. rewrite Hf in H.
  destruct (Z.leb_spec 0 z), (Z.ltb_spec z (Z.of_nat (s_n s))); cbn [andb].
  - rewrite <- (Z2Nat.id z) by lia. apply aget_ex. lia.
  - destruct (aget_cases (s_arr s f) z) as [[x E]|E]; [|exact E]. apply aget_range in E. lia.
  - destruct (aget_cases (s_arr s f) z) as [[x E]|E]; [|exact E]. apply aget_range in E. lia.
  - destruct (aget_cases (s_arr s f) z) as [[x E]|E]; [|exact E]. apply aget_range in E. lia.
Qed.
Lemma apply_force_defined (st : nat -> sstate tg) t x y fx fy i : streach st ->
  if ((0 <=? i) && (i <? Z.of_nat (s_n (st t))))%Z
  then exists s', st_apply_force (st t) x y fx fy i = Ok s' else st_apply_force (st t) x y fx fy i = UB.
Proof.
  intros H. pose proof (streach_sized st H t) as Hs. set (s := st t) in *. clearbody s.
  pose proof (fun f Hf => sized_ldz s f i Hs Hf) as L. destruct ((0 <=? i) && (i <? Z.of_nat (s_n s)))%Z.
  - unfold st_apply_force, st_local_to_world.
    destruct (L Fpx eq_refl) as [vpx Epx]. destruct (L Fpy eq_refl) as [vpy Epy]. destruct (L Ftheta eq_refl) as [vth Eth].
    rewrite Epx, Epy, Eth. cbn [bind].
    destruct (sto_add_cases s Ffx i fx) as [[K _]|(x1 & s1 & _ & -> & L1 & _)]; [destruct (L Ffx eq_refl) as [? E]; congruence|]. cbn [bind].
    destruct (sto_add_cases s1 Ffy i fy) as [[K _]|(x2 & s2 & _ & -> & L2 & _)].
    { rewrite L1 in K. cbn in K. destruct (L Ffy eq_refl) as [? E]; congruence. } cbn [bind].
    rewrite !L2, !L1. cbn [fld_eqb andb]. rewrite Epx, Epy. cbn [bind].
    match goal with |- context [sto_add s2 Ft i ?v] => destruct (sto_add_cases s2 Ft i v) as [[K _]|(x3 & s3 & _ & -> & L3 & _)] end; [|eauto].
    rewrite L2, L1 in K. cbn in K. destruct (L Ft eq_refl) as [? E]; congruence.
  - unfold st_apply_force, st_local_to_world. now rewrite (L Fpx eq_refl).
Qed.
End Frame.

(** ** C36 *)
Lemma energy_R {dbg} (o : body (RT dbg)) (m I vx vy w : R) :
  b_f o Bm = Some m -> b_f o BI = Some I -> b_f o Bvx = Some vx -> b_f o Bvy = Some vy -> b_f o Bvtheta = Some w ->
  b_energy o = (Some (m * (vx ^ 2 + vy ^ 2) / 2 + I * w ^ 2 / 2)%R : cell (RT dbg)).
Proof.
  intros H1 H2 H3 H4 H5. unfold b_energy. rewrite H1, H2, H3, H4, H5, clit_R by lra. rt_unfold. f_equal. field.
Qed.
Lemma kinetic_pos m I vx vy w : (0 <= m)%R -> (0 <= I)%R -> (0 <= m * (vx ^ 2 + vy ^ 2) / 2 + I * w ^ 2 / 2)%R.
Proof.
  intros Hm HI. pose proof (pow2_ge_0 vx). pose proof (pow2_ge_0 vy). pose proof (pow2_ge_0 w).
  assert (0 <= m * (vx ^ 2 + vy ^ 2))%R by (apply Rmult_le_pos; lra). assert (0 <= I * w ^ 2)%R by (apply Rmult_le_pos; lra). lra.
Qed.
Lemma sq0 x : (x ^ 2 = 0)%R -> x = 0%R.
Proof. intros H. destruct (Req_dec x 0); [auto|]. pose proof (Rsqr_pos_lt x H0). unfold Rsqr in H1. nra. Qed.
Lemma kinetic_def m I vx vy w : (0 < m)%R -> (0 < I)%R ->
  (m * (vx ^ 2 + vy ^ 2) / 2 + I * w ^ 2 / 2 = 0)%R <-> (vx = 0 /\ vy = 0 /\ w = 0)%R.
Proof.
  intros Hm HI. split; [|intros (-> & -> & ->); field].
  intros E. pose proof (pow2_ge_0 vx). pose proof (pow2_ge_0 vy). pose proof (pow2_ge_0 w).
  assert (A : (0 <= m * (vx ^ 2 + vy ^ 2))%R) by (apply Rmult_le_pos; lra). assert (B : (0 <= I * w ^ 2)%R) by (apply Rmult_le_pos; lra).
  assert (A0 : (m * (vx ^ 2 + vy ^ 2) = 0)%R) by lra. assert (B0 : (I * w ^ 2 = 0)%R) by lra.
  apply Rmult_integral in A0. apply Rmult_integral in B0. destruct A0 as [A0|A0]; [lra|]. destruct B0 as [B0|B0]; [lra|].
  split; [apply sq0; lra|]. split; [apply sq0; lra|now apply sq0].
Qed.
Lemma energy_only {tg} (o o' : body tg) :
  b_f o Bm = b_f o' Bm -> b_f o BI = b_f o' BI -> b_f o Bvx = b_f o' Bvx -> b_f o Bvy = b_f o' Bvy ->
  b_f o Bvtheta = b_f o' Bvtheta -> b_energy o = b_energy o'.
Proof. intros H1 H2 H3 H4 H5. unfold b_energy. now rewrite H1, H2, H3, H4, H5. Qed.
Lemma energy_all {dbg} (o : body (RT dbg)) (m I vx vy w : R) :
  b_f o Bm = Some m -> b_f o BI = Some I -> b_f o Bvx = Some vx -> b_f o Bvy = Some vy -> b_f o Bvtheta = Some w ->
  exists E, b_energy o = (Some E : cell (RT dbg)) /\ E = (m * (vx ^ 2 + vy ^ 2) / 2 + I * w ^ 2 / 2)%R /\
    ((0 <= m)%R -> (0 <= I)%R -> (0 <= E)%R) /\
    ((0 < m)%R -> (0 < I)%R -> (E = 0)%R <-> (vx = 0 /\ vy = 0 /\ w = 0)%R).
Proof.
  intros H1 H2 H3 H4 H5. eexists. split; [exact (energy_R o m I vx vy w H1 H2 H3 H4 H5)|]. split; [reflexivity|]. split; [apply kinetic_pos|apply kinetic_def].
Qed.
