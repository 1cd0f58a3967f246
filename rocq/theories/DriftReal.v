(** * Gaps over several calls. *)

From Coq Require Import Reals Lra Psatz.
From Verif Require Import Base Targets Matrix Sparse Sle State Ode Forces Constraints System Logic RealSum SpecMatrix SpecState SpecForces ForceFacts ForceReal SpecCon ConFacts SleHist
  SpecSys RegFacts SysInv SpecDyn DynState DynReact DynRound DynStep SpecSolve SolveReal SolveStep SpecLaw LawReal LawStep SpecMom MomForce MomStep SpecSub SubOde SubStep SubRun EdgeOut SpecLeast LeastReal LeastStep LeastPart SpecDrift.
Local Open Scope nat_scope.

(** ** sine and cosine close to their tangents *)
Open Scope R_scope.
Lemma cos_low x : 0 <= x * x - 2 * (1 - cos x).
Proof.
  assert (H : forall u, 0 <= u -> 0 <= u * u - 2 * (1 - cos u)).
  { intros u Hu. destruct (Rle_lt_or_eq_dec 0 u Hu) as [P|<-]; [|rewrite cos_0; lra].
    pose (f := fun u => u * u - 2 * (1 - cos u)).
    assert (D : forall c, derivable_pt_lim f c (2 * (c - sin c))).
    { intros c. unfold f. replace (2 * (c - sin c)) with ((1 * id c + id c * 1) - (0 * (1 - cos c) + 2 * (0 - - sin c))) by (unfold id; ring).
      apply derivable_pt_lim_minus; [apply derivable_pt_lim_mult; apply derivable_pt_lim_id|].
      apply (derivable_pt_lim_mult (fun _ => 2) (fun c => 1 - cos c)); [apply derivable_pt_lim_const|].
      apply (derivable_pt_lim_minus (fun _ => 1) cos); [apply derivable_pt_lim_const|apply derivable_pt_lim_cos]. }
    destruct (MVT_cor2 f (fun c => 2 * (c - sin c)) 0 u P (fun c _ => D c)) as (c & E & C1 & C2).
    unfold f in E. rewrite cos_0 in E.
    assert (S : sin c <= c) by (left; apply sin_lt_x; lra). nra. }
  destruct (Rle_dec 0 x) as [P|N]; [now apply H|]. specialize (H (- x) ltac:(lra)). rewrite cos_neg in H. nra.
Qed.
Lemma chord x : (cos x - 1) * (cos x - 1) + (sin x - x) * (sin x - x) <= (x * x / 2) * (x * x / 2).
Proof.
  assert (H : forall u, 0 <= u -> 0 <= u * u * (u * u) / 4 - 2 + 2 * cos u - u * u + 2 * (u * sin u)).
  { intros u Hu. destruct (Rle_lt_or_eq_dec 0 u Hu) as [P|<-]; [|rewrite cos_0, sin_0; lra].
    pose (f := fun u => u * u * (u * u) / 4 - 2 + 2 * cos u - u * u + 2 * (u * sin u)).
    pose (f' := fun c => c * (c * c - 2 * (1 - cos c))).
    assert (D : forall c, derivable_pt_lim f c (f' c)).
    { intros c. assert (Q : derivable_pt_lim (fun u => u * u) c (1 * id c + id c * 1)) by (apply (derivable_pt_lim_mult id id); apply derivable_pt_lim_id).
      unfold f, f'. replace (c * (c * c - 2 * (1 - cos c))) with
        (((1 * id c + id c * 1) * (c * c) + c * c * (1 * id c + id c * 1)) * (/ 4) + (c * c * (c * c)) * 0 - 0 + (0 * cos c + 2 * - sin c) - (1 * id c + id c * 1) + (0 * (c * sin c) + 2 * (1 * sin c + id c * cos c)))
        by (unfold id; field).
      apply (derivable_pt_lim_plus (fun u => u * u * (u * u) / 4 - 2 + 2 * cos u - u * u) (fun u => 2 * (u * sin u))).
      - apply (derivable_pt_lim_minus (fun u => u * u * (u * u) / 4 - 2 + 2 * cos u) (fun u => u * u)); [|exact Q].
        apply (derivable_pt_lim_plus (fun u => u * u * (u * u) / 4 - 2) (fun u => 2 * cos u)).
        + apply (derivable_pt_lim_minus (fun u => u * u * (u * u) * / 4) (fun _ => 2)); [|apply derivable_pt_lim_const].
          apply (derivable_pt_lim_mult (fun u => u * u * (u * u)) (fun _ => / 4)); [|apply derivable_pt_lim_const].
          apply (derivable_pt_lim_mult (fun u => u * u) (fun u => u * u)); exact Q.
        + apply (derivable_pt_lim_mult (fun _ => 2) cos); [apply derivable_pt_lim_const|apply derivable_pt_lim_cos].
      - apply (derivable_pt_lim_mult (fun _ => 2) (fun u => u * sin u)); [apply derivable_pt_lim_const|].
        apply (derivable_pt_lim_mult id sin); [apply derivable_pt_lim_id|apply derivable_pt_lim_sin]. }
    destruct (MVT_cor2 f f' 0 u P (fun c _ => D c)) as (c & E & C1 & C2).
    unfold f, f' in E. rewrite cos_0, sin_0 in E. pose proof (cos_low c) as L.
    assert (0 <= c * (c * c - 2 * (1 - cos c)) * (u - 0)) by (apply Rmult_le_pos; [apply Rmult_le_pos|]; lra). lra. }
  assert (G : forall u, 0 <= u -> (cos u - 1) * (cos u - 1) + (sin u - u) * (sin u - u) <= (u * u / 2) * (u * u / 2)).
  { intros u Hu. specialize (H u Hu). pose proof (sin2_cos2 u) as S. unfold Rsqr in S. nra. }
  destruct (Rle_dec 0 x) as [P|N]; [now apply G|]. specialize (G (- x) ltac:(lra)). rewrite cos_neg, sin_neg in G. nra.
Qed.

(** ** sizes of vectors *)
Lemma size_pos x : 0 <= size x.
Proof. apply sqrt_pos. Qed.
Lemma size_sq x : size x * size x = fst x * fst x + snd x * snd x.
Proof. apply sqrt_sqrt. nra. Qed.
Lemma size_le x r : 0 <= r -> fst x * fst x + snd x * snd x <= r * r -> size x <= r.
Proof. intros Hr H. unfold size. rewrite <- (sqrt_square r Hr). now apply sqrt_le_1_alt. Qed.
Lemma dot_size a b c d : a * c + b * d <= size (a, b) * size (c, d).
Proof.
  assert (P : 0 <= size (a, b) * size (c, d)) by (apply Rmult_le_pos; apply size_pos).
  apply Rsqr_incr_0_var; [|exact P]. unfold Rsqr.
  replace (size (a, b) * size (c, d) * (size (a, b) * size (c, d))) with ((size (a, b) * size (a, b)) * (size (c, d) * size (c, d))) by ring.
  rewrite !size_sq. cbn [fst snd]. pose proof (Rle_0_sqr (a * d - b * c)) as Z. unfold Rsqr in Z. clear P. nra.
Qed.
Lemma size_add a b c d : size (a + c, b + d) <= size (a, b) + size (c, d).
Proof.
  apply size_le; [pose proof (size_pos (a, b)); pose proof (size_pos (c, d)); lra|]. cbn [fst snd].
  pose proof (dot_size a b c d). pose proof (size_sq (a, b)). pose proof (size_sq (c, d)). cbn [fst snd] in *. nra.
Qed.
Lemma size_scale e a b : size (e * a, e * b) = Rabs e * size (a, b).
Proof.
  unfold size. cbn [fst snd]. replace (e * a * (e * a) + e * b * (e * b)) with (e * e * (a * a + b * b)) by ring.
  rewrite sqrt_mult by nra. f_equal. rewrite <- (sqrt_Rsqr_abs e). reflexivity.
Qed.
Lemma size_neg a b : size (- a, - b) = size (a, b).
Proof. unfold size. cbn [fst snd]. f_equal. ring. Qed.
Lemma size_one a : size (a, 0) = Rabs a.
Proof. unfold size. cbn [fst snd]. replace (a * a + 0 * 0) with (Rsqr a) by (unfold Rsqr; ring). apply sqrt_Rsqr_abs. Qed.

(** ** a point of a body that moves on with constant velocity *)
Definition later (q v : pose) (dt : R) : pose := mkPose (q_x q + q_x v * dt) (q_y q + q_y v * dt) (q_th q + q_th v * dt).
Definition off_x (q v : pose) dt lx ly := at_x (later q v dt) lx ly - at_x q lx ly - dt * vel_x q v lx ly.
Definition off_y (q v : pose) dt lx ly := at_y (later q v dt) lx ly - at_y q lx ly - dt * vel_y q v lx ly.
Lemma off_small q v dt lx ly : size (off_x q v dt lx ly, off_y q v dt lx ly) <= dt * dt / 2 * (size (lx, ly) * (q_th v * q_th v)).
Proof.
  set (h := q_th v * dt). set (s := size (lx, ly)).
  assert (Hs : 0 <= s) by apply size_pos.
  replace (dt * dt / 2 * (s * (q_th v * q_th v))) with (s * (h * h / 2)) by (unfold h; field).
  apply size_le; [apply Rmult_le_pos; [exact Hs|nra]|]. cbn [fst snd].
  assert (E : off_x q v dt lx ly * off_x q v dt lx ly + off_y q v dt lx ly * off_y q v dt lx ly =
    (lx * lx + ly * ly) * ((cos h - 1) * (cos h - 1) + (sin h - h) * (sin h - h))).
  { assert (Ex : off_x q v dt lx ly = lx * (cos (q_th q) * (cos h - 1) - sin (q_th q) * (sin h - h)) - ly * (sin (q_th q) * (cos h - 1) + cos (q_th q) * (sin h - h))).
    { unfold off_x, vel_x, at_x, at_y, world_x, world_y, later. cbn [q_x q_y q_th]. fold h. rewrite cos_plus, sin_plus. unfold h. ring. }
    assert (Ey : off_y q v dt lx ly = lx * (sin (q_th q) * (cos h - 1) + cos (q_th q) * (sin h - h)) + ly * (cos (q_th q) * (cos h - 1) - sin (q_th q) * (sin h - h))).
    { unfold off_y, vel_y, at_x, at_y, world_x, world_y, later. cbn [q_x q_y q_th]. fold h. rewrite cos_plus, sin_plus. unfold h. ring. }
    rewrite Ex, Ey. pose proof (sin2_cos2 (q_th q)) as S. unfold Rsqr in S.
    set (A := cos h - 1). set (B := sin h - h). set (ct := cos (q_th q)) in *. set (st := sin (q_th q)) in *.
    replace ((lx * lx + ly * ly) * (A * A + B * B)) with ((st * st + ct * ct) * ((lx * lx + ly * ly) * (A * A + B * B))) by (rewrite S; ring). ring. }
  rewrite E. replace (s * (h * h / 2) * (s * (h * h / 2))) with ((s * s) * ((h * h / 2) * (h * h / 2))) by ring.
  unfold s. rewrite size_sq. cbn [fst snd]. apply Rmult_le_compat_l; [nra|apply chord].
Qed.
Close Scope R_scope.

(** ** one step of one constraint *)
Open Scope R_scope.
Lemma gap_step k q v (dt beta : R) : dt <> 0 -> holds k = true -> obeys k q v (beta / dt) ->
  exists rx ry, gap k (fun p => later (q p) (v p) dt) = ((1 - beta) * fst (gap k q) + rx, (1 - beta) * snd (gap k q) + ry) /\
    size (rx, ry) <= dt * dt / 2 * (arm k 0 * (q_th (v 0%nat) * q_th (v 0%nat)) + arm k 1 * (q_th (v 1%nat) * q_th (v 1%nat))).
Proof.
  intros Nd Hk HO. destruct k as [lx ly wx wy ks kd|lx ly p0x p0y dx dy ks kd|x1 y1 x2 y2 mx ks kd| |rot ks kd| | | |]; try discriminate; cbn [obeys gap arm fst snd] in *.
  - exists (off_x (q 0%nat) (v 0%nat) dt lx ly), (off_y (q 0%nat) (v 0%nat) dt lx ly). destruct HO as [O1 O2]. split.
    + unfold off_x, off_y. rewrite O1, O2. f_equal; field; exact Nd.
    + rewrite Rmult_0_l, Rplus_0_r. apply off_small.
  - exists (off_x (q 0%nat) (v 0%nat) dt lx ly * - dy + off_y (q 0%nat) (v 0%nat) dt lx ly * dx), 0. split.
    + unfold off_x, off_y. f_equal; [|ring].
      replace ((1 - beta) * ((at_x (q 0%nat) lx ly - p0x) * - dy + (at_y (q 0%nat) lx ly - p0y) * dx)) with
        ((at_x (q 0%nat) lx ly - p0x) * - dy + (at_y (q 0%nat) lx ly - p0y) * dx + dt * (- (beta / dt) * ((at_x (q 0%nat) lx ly - p0x) * - dy + (at_y (q 0%nat) lx ly - p0y) * dx))) by (field; exact Nd).
      rewrite <- HO. ring.
    + rewrite Rmult_0_l, Rplus_0_r, size_one. set (a := off_x _ _ _ _ _). set (b := off_y _ _ _ _ _).
      pose proof (off_small (q 0%nat) (v 0%nat) dt lx ly) as S. fold a b in S.
      assert (B : Rabs (a * - dy + b * dx) <= size (a, b) * size (dx, dy)).
      { apply Rabs_le. pose proof (dot_size a b (- dy) dx) as D1. pose proof (dot_size a b dy (- dx)) as D2.
        assert (E1 : size (- dy, dx) = size (dx, dy)) by (unfold size; cbn [fst snd]; f_equal; ring).
        assert (E2 : size (dy, - dx) = size (dx, dy)) by (unfold size; cbn [fst snd]; f_equal; ring).
        rewrite E1 in D1. rewrite E2 in D2. lra. }
      pose proof (size_pos (dx, dy)) as P. eapply Rle_trans; [exact B|].
      replace (dt * dt / 2 * (size (lx, ly) * size (dx, dy) * (q_th (v 0%nat) * q_th (v 0%nat)))) with (dt * dt / 2 * (size (lx, ly) * (q_th (v 0%nat) * q_th (v 0%nat))) * size (dx, dy)) by ring.
      now apply Rmult_le_compat_r.
  - exists (off_x (q 0%nat) (v 0%nat) dt x1 y1 + - off_x (q 1%nat) (v 1%nat) dt x2 y2), (off_y (q 0%nat) (v 0%nat) dt x1 y1 + - off_y (q 1%nat) (v 1%nat) dt x2 y2). destruct HO as [O1 O2]. split.
    + unfold off_x, off_y. f_equal.
      * replace ((1 - beta) * (at_x (q 0%nat) x1 y1 - at_x (q 1%nat) x2 y2)) with (at_x (q 0%nat) x1 y1 - at_x (q 1%nat) x2 y2 + dt * (- (beta / dt) * (at_x (q 0%nat) x1 y1 - at_x (q 1%nat) x2 y2))) by (field; exact Nd).
        rewrite <- O1. ring.
      * replace ((1 - beta) * (at_y (q 0%nat) x1 y1 - at_y (q 1%nat) x2 y2)) with (at_y (q 0%nat) x1 y1 - at_y (q 1%nat) x2 y2 + dt * (- (beta / dt) * (at_y (q 0%nat) x1 y1 - at_y (q 1%nat) x2 y2))) by (field; exact Nd).
        rewrite <- O2. ring.
    + eapply Rle_trans; [apply size_add|]. rewrite size_neg. rewrite Rmult_plus_distr_l. apply Rplus_le_compat; apply off_small.
  - exists 0, 0. split.
    + cbn [later q_th]. rewrite HO. f_equal; [field; exact Nd|ring].
    + rewrite size_one, Rabs_R0. rewrite !Rmult_0_l, Rplus_0_r, Rmult_0_r. lra.
Qed.
Close Scope R_scope.

Section S.
Context {dbg : bool} (priv : nat -> bool).
Notation T := (RT dbg).
Notation cl := (cell T).
Implicit Types (w : world T) (y : sys T).

Lemma pose_later w (q v : nat -> nat -> R) c dt p : pose_at w (fun b d => q b d + v b d * dt)%R c p = later (pose_at w q c p) (pose_at w v c p) dt.
Proof. reflexivity. Qed.
Lemma drift_step kc kg (dt beta : R) M w y q v t : dt <> 0%R -> side priv Optimized Symplectic kc kg beta M w y q v -> regular w y M (Jat w kc q) ->
  exists w' y' q' v', process Optimized (Some dt : cl) 1 t w y = Ok (w', y') /\ ends w' y q' v' /\
    forall c, In c (y_cons y) -> holds (kc c) = true -> exists rx ry,
      gap (kc c) (pose_at w q' c) = ((1 - beta) * fst (gap (kc c) (pose_at w q c)) + rx, (1 - beta) * snd (gap (kc c) (pose_at w q c)) + ry)%R /\
      (size (rx, ry) <= dt * dt / 2 * (arm (kc c) 0 * (v' (who w c 0) 2%nat * v' (who w c 0) 2%nat) + arm (kc c) 1 * (v' (who w c 1) 2%nat * v' (who w c 1) 2%nat)))%R.
Proof.
  intros Ndt [(m & H) U (g & L) A K G B N E Q] HR.
  pose proof (reg_listed _ _ _ (yreach_reg _ _ _ _ _ H)) as HL.
  destruct (opt_ge_obeys priv m dt t w y g beta q v M _ kc H L A K (gens_gentle _ _ _ G) B N Ndt E Q (gens_push w y kg dt q v M HL Q G) HR) as (w' & y' & v' & P & En & O).
  exists w', y', (fun b d => q b d + v' b d * dt)%R, v'. split; [exact P|]. split; [exact En|]. intros c Hc Hk.
  destruct (gap_step (kc c) (pose_at w q c) (pose_at w v' c) dt beta Ndt Hk (O c Hc)) as (rx & ry & E1 & E2). exists rx, ry. split; [exact E1|exact E2].
Qed.

(** ** any number of calls *)
Lemma series_end e n : (series e (S n) = e ^ n + series e n)%R.
Proof. induction n as [|n IH]; [cbn; ring|]. change (series e (S (S n))) with (1 + e * series e (S n))%R. rewrite IH at 1. cbn [pow series]. ring. Qed.
Lemma series_pos e n : (0 <= e)%R -> (0 <= series e n)%R.
Proof. intros He. induction n as [|n IH]; cbn [series]; [lra|]. assert (0 <= e * series e n)%R by now apply Rmult_le_pos. lra. Qed.
Lemma series_below e n : (0 <= e < 1)%R -> (series e n <= / (1 - e))%R.
Proof.
  intros He. induction n as [|n IH]; cbn [series].
  - left. apply Rinv_0_lt_compat. lra.
  - apply Rle_trans with (1 + e * / (1 - e))%R; [apply Rplus_le_compat_l, Rmult_le_compat_l; lra|]. right. field. lra.
Qed.
Lemma arm_pos k p : (0 <= arm k p)%R.
Proof.
  destruct k; cbn [arm]; try lra; destruct p as [|[|p]]; try lra; try apply size_pos. apply Rmult_le_pos; apply size_pos.
Qed.
Lemma arm_slots k p : parties k <= p -> arm k p = 0%R.
Proof. destruct k; cbn [parties arm]; intros H; try reflexivity; destruct p as [|[|p]]; try lia; reflexivity. Qed.
Lemma turns_now h t ts w y c s w' y' q v : turns_within h (t :: ts) w y c s -> process Optimized h 1 t w y = Ok (w', y') -> ends w' y q v ->
  forall p b, p < c_bodycount (w_con w c) -> c_bodies (w_con w c) p = Some b -> (Rabs (v b 2%nat) <= s)%R.
Proof. intros H E En p b. apply (H [] t ts w' y' q v p b eq_refl); [|exact En]. cbn [app calls_of]. now rewrite E. Qed.
Lemma turns_next h t ts w y c s w' y' : turns_within h (t :: ts) w y c s -> process Optimized h 1 t w y = Ok (w', y') -> y_bodies y' = y_bodies y ->
  c_bodycount (w_con w' c) = c_bodycount (w_con w c) -> c_bodies (w_con w' c) = c_bodies (w_con w c) -> turns_within h ts w' y' c s.
Proof.
  intros H E EB E1 E2 pre t1 suf w1 y1 q v p b -> C1 En Hp Hb. rewrite E1 in Hp. rewrite E2 in Hb.
  apply (H (t :: pre) t1 suf w1 y1 q v p b eq_refl); auto.
  - cbn [app calls_of]. rewrite E. exact C1.
  - intros b' d Hb' Hd. apply En; [now rewrite EB|exact Hd].
Qed.
Definition remains (e beta : R) (n : nat) (k : rkind) (K : R) (g g' : R * R) : Prop :=
  (size g' <= e ^ n * size g + K * series e n)%R /\
  (arm k 0 = 0%R -> arm k 1 = 0%R -> g' = ((1 - beta) ^ n * fst g, (1 - beta) ^ n * snd g)%R).
Lemma drift_calls kc kg (dt beta : R) M : dt <> 0%R -> forall ts w y q v, side priv Optimized Symplectic kc kg beta M w y q v -> unsingular Optimized (Some dt : cl) ts w y M kc ->
  exists w' y' q' v', calls_of Optimized (Some dt : cl) ts w y = Ok (w', y') /\ ends w' y q' v' /\
    forall c s, In c (y_cons y) -> holds (kc c) = true -> turns_within (Some dt : cl) ts w y c s ->
      remains (Rabs (1 - beta)) beta (length ts) (kc c) (dt * dt / 2 * ((arm (kc c) 0 + arm (kc c) 1) * (s * s)))
        (gap (kc c) (pose_at w q c)) (gap (kc c) (pose_at w q' c)).
Proof.
  intros Ndt. induction ts as [|t ts IH]; intros w y q v SD HR.
  - exists w, y, q, v. split; [reflexivity|]. split; [eapply are_ends; eapply sd_are; exact SD|]. intros c s _ _ _. split.
    + cbn [length pow series]. rewrite Rmult_0_r, Rmult_1_l, Rplus_0_r. apply Rle_refl.
    + intros _ _. cbn [length pow]. rewrite !Rmult_1_l. apply surjective_pairing.
  - pose proof (unsingular_now _ _ _ _ _ _ _ _ q v HR (are_ends _ _ _ _ _ (sd_are SD))) as HR1.
    destruct (drift_step kc kg dt beta M w y q v t Ndt SD HR1) as (w1 & y1 & q1 & v1 & P1 & En1 & G1).
    destruct (side_next priv Optimized Symplectic kc kg beta M w y q v _ t w1 y1 q1 v1 SD P1 En1) as (S1 & F1 & R1 & EG1 & EB1).
    destruct (IH w1 y1 q1 v1 S1 (unsingular_next _ _ _ _ _ _ _ _ _ _ HR P1)) as (w2 & y2 & q2 & v2 & C2 & En2 & G2).
    pose proof (process_alone _ _ _ _ _ _ _ _ P1) as ((_ & EC & _) & _ & Fc & _).
    exists w2, y2, q2, v2. split; [cbn [calls_of]; rewrite P1; exact C2|]. split; [intros b d Hb Hd; apply En2; [now rewrite EB1|exact Hd]|].
    intros c s Hc Hk Ht. destruct (Fc c) as (_ & _ & Fn & Fb & _).
    destruct (G1 c Hc Hk) as (rx & ry & E1 & E2). specialize (G2 c s ltac:(now rewrite EC) Hk (turns_next _ _ _ _ _ _ _ _ _ Ht P1 EB1 Fn Fb)).
    assert (PW : forall u p, pose_at w1 u c p = pose_at w u c p) by (intros u p; unfold pose_at, who; now rewrite Fb).
    assert (PG : forall u, gap (kc c) (pose_at w1 u c) = gap (kc c) (pose_at w u c)) by (intros u; destruct (kc c); cbn [gap]; rewrite ?PW; reflexivity).
    rewrite !PG in G2. set (g0 := gap (kc c) (pose_at w q c)) in *. set (g1 := gap (kc c) (pose_at w q1 c)) in *. set (g2 := gap (kc c) (pose_at w q2 c)) in *.
    set (e := Rabs (1 - beta)) in *. set (K := (dt * dt / 2 * ((arm (kc c) 0 + arm (kc c) 1) * (s * s)))%R) in *.
    assert (He : (0 <= e)%R) by apply Rabs_pos. pose proof (arm_pos (kc c) 0) as A0. pose proof (arm_pos (kc c) 1) as A1.
    assert (HA : forall p, (arm (kc c) p * (v1 (who w c p) 2%nat * v1 (who w c p) 2%nat) <= arm (kc c) p * (s * s))%R).
    { intros p. destruct (Nat.lt_ge_cases p (parties (kc c))) as [Lp|Gp]; [|rewrite (arm_slots _ _ Gp); lra].
      destruct (sd_kinds SD c Hc) as (_ & _ & Ep). rewrite <- Ep in Lp. destruct (sd_att SD c p Hc Lp) as (b & Eb & Hb).
      assert (Ew : who w c p = b) by (unfold who; now rewrite Eb). rewrite Ew.
      pose proof (turns_now _ _ _ _ _ _ _ _ _ _ _ Ht P1 En1 p b Lp Eb) as B. pose proof (Rabs_pos (v1 b 2%nat)).
      apply Rmult_le_compat_l; [apply arm_pos|]. replace (v1 b 2%nat * v1 b 2%nat)%R with (Rabs (v1 b 2%nat) * Rabs (v1 b 2%nat))%R; [apply Rmult_le_compat; assumption|].
      rewrite <- Rabs_mult. apply Rabs_right. apply Rle_ge, Rle_0_sqr. }
    assert (Z : (size (rx, ry) <= K)%R).
    { eapply Rle_trans; [exact E2|]. unfold K. apply Rmult_le_compat_l; [pose proof (Rle_0_sqr dt) as Q; unfold Rsqr in Q; lra|].
      rewrite Rmult_plus_distr_r. apply Rplus_le_compat; apply HA. }
    destruct G2 as [Ga Gb]. split.
    + cbn [length]. eapply Rle_trans; [exact Ga|]. rewrite series_end.
      assert (X : (size g1 <= e * size g0 + K)%R).
      { rewrite E1. eapply Rle_trans; [apply size_add|]. rewrite size_scale. fold e. rewrite <- surjective_pairing. lra. }
      assert (Y : (e ^ length ts * size g1 <= e ^ length ts * (e * size g0 + K))%R) by (apply Rmult_le_compat_l; [now apply pow_le|exact X]).
      cbn [pow]. lra.
    + intros Z0 Z1. rewrite (Gb Z0 Z1). rewrite E1. cbn [fst snd length pow].
      assert (S0 : (size (rx, ry) = 0)%R). { apply Rle_antisym; [|apply size_pos]. eapply Rle_trans; [exact Z|]. unfold K. rewrite Z0, Z1. right. ring. }
      pose proof (size_sq (rx, ry)) as Q. rewrite S0 in Q. cbn [fst snd] in Q. pose proof (Rle_0_sqr rx) as Q1. pose proof (Rle_0_sqr ry) as Q2. unfold Rsqr in Q1, Q2.
      assert (rx = 0%R) by (apply Rsqr_eq_0; unfold Rsqr; lra). assert (ry = 0%R) by (apply Rsqr_eq_0; unfold Rsqr; lra). subst rx ry. f_equal; ring.
Qed.

(** finitely many calls: some speed is not exceeded *)
Lemma bounded (n : nat) (f : nat -> R) : exists s, (0 <= s)%R /\ forall p, p < n -> (f p <= s)%R.
Proof.
  induction n as [|n (s & P & H)]; [exists 0%R; split; [lra|]; intros p Hp; lia|].
  exists (Rmax s (f n)). split; [eapply Rle_trans; [exact P|apply Rmax_l]|]. intros p Hp. destruct (Nat.eq_dec p n) as [->|N]; [apply Rmax_r|].
  eapply Rle_trans; [apply H; lia|apply Rmax_l].
Qed.
Lemma turns_bounded (h : cl) ts c : forall (w : world T) (y : sys T), In c (y_cons y) -> attached w y -> exists s, turns_within h ts w y c s.
Proof.
  induction ts as [|t ts IH]; intros w y Hc A.
  - exists 0%R. intros [|t0 pre] t1 suf w' y' q v p b E; discriminate E.
  - destruct (process Optimized h 1 t w y) as [[w1 y1]| | |] eqn:P.
    2-4: exists 0%R; intros [|t' pre] t1 suf w' y' q v p b E C; injection E as <- ->; cbn [app calls_of] in C; rewrite P in C; discriminate C.
    pose proof (process_alone _ _ _ _ _ _ _ _ P) as ((EB & EC & _) & _ & Fc & _). destruct (Fc c) as (_ & _ & Fn & Fb & _).
    destruct (IH w1 y1 ltac:(now rewrite EC) (process_reattached _ _ _ _ _ _ _ _ P A)) as [s1 H1].
    destruct (bounded (c_bodycount (w_con w c)) (fun p => match c_bodies (w_con w c) p with Some b => match b_vel (w_body w1 b) 2 with Some x => Rabs x | None => 0%R end | None => 0%R end)) as (s0 & P0 & H0).
    exists (Rmax s0 s1). intros [|t' pre] t1 suf w' y' q v p b E C En Hp Hb; injection E as <- E.
    + cbn [app calls_of] in C. rewrite P in C. injection C as <- <-. eapply Rle_trans; [|apply Rmax_l].
      destruct (A c p Hc Hp) as (b' & Eb & Ib). rewrite Hb in Eb. injection Eb as <-. specialize (H0 p Hp). rewrite Hb in H0.
      destruct (En b 2 Ib ltac:(lia)) as [_ Ev]. rewrite Ev in H0. exact H0.
    + subst ts. cbn [app calls_of] in C. rewrite P in C. eapply Rle_trans; [|apply Rmax_r].
      apply (H1 pre t1 suf w' y' q v p b eq_refl C); [|now rewrite Fn|now rewrite Fb]. intros b' d Hb' Hd. apply En; [now rewrite <- EB|exact Hd].
Qed.

Lemma drift_exact kc kg (dt beta : R) M : dt <> 0%R -> forall ts w y q v, side priv Optimized Symplectic kc kg beta M w y q v -> unsingular Optimized (Some dt : cl) ts w y M kc ->
  exists w' y' q' v', calls_of Optimized (Some dt : cl) ts w y = Ok (w', y') /\ ends w' y q' v' /\
    forall c, In c (y_cons y) -> holds (kc c) = true -> arm (kc c) 0 = 0%R -> arm (kc c) 1 = 0%R ->
      gap (kc c) (pose_at w q' c) = ((1 - beta) ^ length ts * fst (gap (kc c) (pose_at w q c)), (1 - beta) ^ length ts * snd (gap (kc c) (pose_at w q c)))%R.
Proof.
  intros Nd ts w y q v SD U. destruct (drift_calls kc kg dt beta M Nd ts w y q v SD U) as (w' & y' & q' & v' & C & En & G).
  exists w', y', q', v'. split; [exact C|]. split; [exact En|]. intros c Hc Hk A0 A1.
  destruct (turns_bounded (Some dt : cl) ts c w y Hc (sd_att SD)) as [s Hs]. now apply (G c s Hc Hk Hs).
Qed.
End S.
