(** * The test of the rolling constraint passes at all poses; the tests of the integrators. *)

From Coq Require Import Reals Lra Psatz.
From Verif Require Import Base Logic Targets State Ode Forces Constraints Destroy Suite SpecMatrix SpecState StateFacts StateReal SpecForces SpecCon ConFacts SpecSuite SuiteReal.
Local Open Scope nat_scope.

Section R.
Context {dbg : bool}.
Notation tg := (RT dbg).
Notation cl := (cell tg).

Definition posed (n : nat) (s : sstate tg) (q v : nat -> pose) : Prop :=
  forall p, p < n -> state_pose s (Z.of_nat p) (q p) /\ state_velocity s (Z.of_nat p) (v p).
Lemma posed_ext n s q v q' v' : posed n s q v -> (forall p, p < n -> q p = q' p /\ v p = v' p) -> posed n s q' v'.
Proof. intros H E p Hp. destruct (E p Hp) as [<- <-]. exact (H p Hp). Qed.
Lemma split3 j : exists b m, j = 3 * b + m /\ m < 3 /\ j / 3 = b /\ j mod 3 = m.
Proof. exists (j / 3), (j mod 3). pose proof (Nat.div_mod j 3 ltac:(lia)). pose proof (Nat.mod_upper_bound j 3 ltac:(lia)). lia. Qed.
Lemma bump_coord j (t : R) q p : bump j t q p =
  mkPose (q_x (q p) + (if Nat.eqb p (j / 3) && Nat.eqb (j mod 3) 0 then t else 0))%R (q_y (q p) + (if Nat.eqb p (j / 3) && Nat.eqb (j mod 3) 1 then t else 0))%R
         (q_th (q p) + (if Nat.eqb p (j / 3) && Nat.eqb (j mod 3) 2 then t else 0))%R.
Proof.
  destruct (split3 j) as (b & m & E & Hm & -> & ->). unfold bump.
  assert (X : forall e, e < 3 -> Nat.eqb j (3 * p + e) = Nat.eqb p b && Nat.eqb m e).
  { intros e He. destruct (Nat.eqb_spec j (3 * p + e)), (Nat.eqb_spec p b), (Nat.eqb_spec m e); try reflexivity; exfalso; lia. }
  rewrite <- (X 0), <- (X 1), <- (X 2) by lia. now rewrite Nat.add_0_r.
Qed.
Lemma bump_back j (t : R) q p : bump j (- t) (bump j t q) p = q p.
Proof. rewrite !bump_coord. cbn [q_x q_y q_th]. destruct (q p) as [x y th]. cbn [q_x q_y q_th]. f_equal; destruct (_ && _); lra. Qed.

Lemma same_ok (x y : R) : x = y -> (Ok (Some x) : res cl) = Ok (Some y).
Proof. now intros ->. Qed.
Lemma put_coord n s q v j (t : R) : posed n s q v -> j < 3 * n -> ld s (coord_fld j) (Z.of_nat (j / 3)) = Ok (Some (coord q j) : cl) /\
  exists s', sto s (coord_fld j) (Z.of_nat (j / 3)) (Some (coord q j + t)%R : cl) = Ok s' /\ posed n s' (bump j t q) v.
Proof.
  intros H Hj. destruct (split3 j) as (b & m & E & Hm & Eb & Em). assert (Hb : b < n) by lia.
  assert (G : ld s (coord_fld j) (Z.of_nat (j / 3)) = Ok (Some (coord q j) : cl)).
  { unfold coord_fld, coord. rewrite Eb, Em. destruct (H b Hb) as [(P1 & P2 & P3) _]. destruct m as [|[|m]]; assumption. }
  split; [exact G|]. destruct (sto_spec s _ _ (Some (coord q j + t)%R : cl) _ G) as (s' & Es & L & _). exists s'. split; [exact Es|].
  intros p Hp. destruct (H p Hp) as [(P1 & P2 & P3) (V1 & V2 & V3)]. unfold state_pose, state_velocity. rewrite !L, bump_coord. cbn [q_x q_y q_th].
  unfold coord_fld, coord. rewrite Eb, Em.
  assert (Z0 : (Z.of_nat p =? Z.of_nat b)%Z = Nat.eqb p b). { destruct (Z.eqb_spec (Z.of_nat p) (Z.of_nat b)), (Nat.eqb_spec p b); try reflexivity; lia. }
  rewrite Z0. destruct (Nat.eqb_spec p b) as [->|Np].
  - destruct m as [|[|[|m]]]; [| | |lia]; cbv [fld_eqb andb Nat.eqb]; rewrite ?P1, ?P2, ?P3, ?V1, ?V2, ?V3; repeat split; apply same_ok; lra.
  - rewrite !Bool.andb_false_r. cbn [andb]. rewrite ?P1, ?P2, ?P3, ?V1, ?V2, ?V3. repeat split; apply same_ok; lra.
Qed.
Lemma put_speed n s q v j (t : R) : posed n s q v -> j < 3 * n ->
  exists s', sto s (speed_fld j) (Z.of_nat (j / 3)) (Some (coord v j + t)%R : cl) = Ok s' /\ posed n s' q (bump j t v).
Proof.
  intros H Hj. destruct (split3 j) as (b & m & E & Hm & Eb & Em). assert (Hb : b < n) by lia.
  assert (G : ld s (speed_fld j) (Z.of_nat (j / 3)) = Ok (Some (coord v j) : cl)).
  { unfold speed_fld, coord. rewrite Eb, Em. destruct (H b Hb) as [_ (P1 & P2 & P3)]. destruct m as [|[|m]]; assumption. }
  destruct (sto_spec s _ _ (Some (coord v j + t)%R : cl) _ G) as (s' & Es & L & _). exists s'. split; [exact Es|].
  intros p Hp. destruct (H p Hp) as [(P1 & P2 & P3) (V1 & V2 & V3)]. unfold state_pose, state_velocity. rewrite !L, bump_coord. cbn [q_x q_y q_th].
  unfold speed_fld, coord. rewrite Eb, Em.
  assert (Z0 : (Z.of_nat p =? Z.of_nat b)%Z = Nat.eqb p b). { destruct (Z.eqb_spec (Z.of_nat p) (Z.of_nat b)), (Nat.eqb_spec p b); try reflexivity; lia. }
  rewrite Z0. destruct (Nat.eqb_spec p b) as [->|Np].
  - destruct m as [|[|[|m]]]; [| | |lia]; cbv [fld_eqb andb Nat.eqb]; rewrite ?P1, ?P2, ?P3, ?V1, ?V2, ?V3; repeat split; apply same_ok; lra.
  - rewrite !Bool.andb_false_r. cbn [andb]. rewrite ?P1, ?P2, ?P3, ?V1, ?V2, ?V3. repeat split; apply same_ok; lra.
Qed.

Lemma divR (x y : R) : y <> 0%R -> cdiv (Some x : cl) (Some y) = (Some (x / y)%R : cl).
Proof. intros H. cbn. unfold R_div. destruct (Req_EM_T y 0); [contradiction|reflexivity]. Qed.
Lemma near_R (a b e : R) : (Rabs (a - b) <= e)%R -> near (Some a : cl) (Some b) (Some e) = Ok true.
Proof. intros H. unfold near, cle, cmp. cbn. unfold R_leb. destruct (Rle_dec _ _); [reflexivity|contradiction]. Qed.

Variables (bs : bodies tg) (c : constraint tg) (k : rkind) (q : nat -> pose).
Hypothesis Hk : c_kind c = kind_of dbg k.
Hypothesis Hp : positional k = true.
Hypothesis Hc : c_count c = rows k.
Hypothesis Hn : c_bodycount c = parties k.
Hypothesis Hb : forall p, p < parties k -> exists i, c_bodies c p = Some i /\ b_index (bs i) = Z.of_nat p.
Hypothesis Hr : (reach k q <= 10000)%R.

Lemma posed_bound s q' v : posed (parties k) s q' v -> bound bs c (parties k) s q' v.
Proof. intros H p P. destruct (Hb p P) as (i & E1 & E2). exists i. split; [exact E1|]. rewrite E2. exact (H p P). Qed.
Lemma out1_R f i (x : R) : i < 3 -> f i = (Some x : cl) -> out1 f i = Ok (Some x : cl).
Proof. intros H E. unfold out1. destruct (Nat.ltb_spec i 3); [now rewrite E|lia]. Qed.
Lemma out2_R f i j (x : R) : i < 3 -> j < 6 -> f i j = (Some x : cl) -> out2 f 6 i j = Ok (Some x : cl).
Proof. intros H H' E. unfold out2. destruct (Nat.ltb_spec i 3); [|lia]. destruct (Nat.ltb_spec j 6); [now rewrite E|lia]. Qed.
Lemma small_kind : rows k <= 2 /\ parties k <= 2 /\ 0 < parties k.
Proof. destruct k; cbn; lia. Qed.
Lemma coord_still j : coord still j = 0%R.
Proof. unfold coord, still. cbn [q_x q_y q_th]. destruct (j mod 3) as [|[|]]; reflexivity. Qed.
Lemma bump0 j p : bump j 0 q p = q p.
Proof. rewrite bump_coord. destruct (q p) as [x y th]. cbn [q_x q_y q_th]. f_equal; destruct (_ && _); lra. Qed.

(** the two checks *)
Lemma check_C i j : i < rows k -> j < 3 * parties k ->
  (Rabs ((Cof k q i j (1/10 * (1/1000)) - Cof k q i j 0) / (1/10 * (1/1000)) - (Jof k q i j j 0 + Jof k q i j j (1/10 * (1/1000))) / 2) <= 1/10000)%R.
Proof. intros Hi Hj. pose proof (wave_near _ _ _ (1/10 * (1/1000)) (C_wave q k i j Hp Hi Hj) ltac:(lra)) as W. lra. Qed.
Lemma check_J l m j : l < rows k -> m < 3 * parties k -> j < 3 * parties k ->
  (Rabs ((Jof k q l m j (1/10 * (1/1000)) - Jof k q l m j 0) / (1/1000) - (1/10 * Jdof k q l m j 0 + 1/10 * Jdof k q l m j (1/10 * (1/1000))) / 2) <= 1/10000)%R.
Proof.
  intros Hl Hm Hj. pose proof (wave_near _ _ _ (1/10 * (1/1000)) (J_wave q k l m j Hp Hl Hm Hj) ltac:(lra)) as W.
  match goal with |- (Rabs ?a <= _)%R => replace a with (1/10 * ((Jof k q l m j (1 / 10 * (1 / 1000)) - Jof k q l m j 0) / (1 / 10 * (1 / 1000)) - (Jdof k q l m j 0 + Jdof k q l m j (1 / 10 * (1 / 1000))) / 2))%R by field end.
  rewrite Rabs_mult, (Rabs_pos_eq (1/10)) by lra. lra.
Qed.
Lemma coord_bump j (t : R) q' : coord (bump j t q') j = (coord q' j + t)%R.
Proof.
  unfold coord. rewrite bump_coord, Nat.eqb_refl. cbn [andb q_x q_y q_th]. pose proof (Nat.mod_upper_bound j 3 ltac:(lia)) as M.
  destruct (j mod 3) as [|[|[|m]]]; [reflexivity|reflexivity|reflexivity|lia].
Qed.

Lemma C_at0 r j : C_of k q r = Cof k q r j 0.
Proof. unfold Cof. destruct k; cbn [C_of]; now rewrite ?bump0. Qed.
Lemma J_at0 r i j : J_of k q r i = Jof k q r i j 0.
Proof. unfold Jof. destruct k; cbn [J_of]; now rewrite ?bump0. Qed.
Lemma Jd_at0 r i j v : Jd_of k q v r i = Jd_of k (bump j 0 q) v r i.
Proof. destruct k; cbn [Jd_of]; now rewrite ?bump0. Qed.

Lemma verify_at_ok i j os s ok : i < rows k -> j < 3 * parties k -> posed (parties k) s q still ->
  exists o0 o1 s', verify_at bs c i j os s ok = Ok (o0, o1, s', ok) /\ posed (parties k) s' q still.
Proof.
  intros Hi Hj P. destruct small_kind as (K1 & K2 & K3). set (n := parties k) in *.
  unfold verify_at. rewrite !(clit_R dbg) by (intros E; apply eq_IZR in E; discriminate).
  set (d := (1/10)%R). set (dt := (1/1000)%R). set (err := (1/10000)%R). cbv zeta.
  destruct (put_coord n s q still j 0 P Hj) as [-> _]. cbn [bind].
  destruct (put_speed n s q still j d P Hj) as (s1 & E1 & P1). rewrite coord_still, Rplus_0_l in E1. rewrite E1. cbn [bind].
  destruct (calc_R bs c (fst os) s1 k q (bump j d still) Hk (posed_bound _ _ _ P1)) as (o0 & -> & R0). cbn [bind].
  destruct (put_coord n s1 q (bump j d still) j (d * dt) P1 Hj) as (G1 & s2 & E2 & P2).
  unfold sto_add. rewrite G1. cbn [bind]. change (cadd (Some (coord q j) : cl) (cmul (Some d : cl) (Some dt))) with (Some (coord q j + d * dt)%R : cl). rewrite E2. cbn [bind].
  destruct (calc_R bs c (snd os) s2 k (bump j (d * dt) q) (bump j d still) Hk (posed_bound _ _ _ P2)) as (o1 & -> & R1). cbn [bind].
  destruct (put_coord n s2 (bump j (d * dt) q) (bump j d still) j (- (d * dt)) P2 Hj) as (_ & s3 & E3 & P3).
  rewrite coord_bump in E3. replace (coord q j + d * dt + - (d * dt))%R with (coord q j) in E3 by ring. rewrite E3. cbn [bind].
  destruct (put_speed n s3 _ (bump j d still) j (- d) P3 Hj) as (s4 & E4 & P4).
  rewrite coord_bump, coord_still in E4. replace (0 + d + - d)%R with 0%R in E4 by ring.
  change (cofZ 0 : cl) with (Some 0%R : cl). rewrite E4. cbn [bind].
  assert (P5 : posed n s4 q still). { apply (posed_ext n s4 _ _ q still P4). intros p Hp'. split; apply bump_back. }
  destruct (R1 i Hi) as [C1 J1]. destruct (R0 i Hi) as [C0 J0].
  assert (I3 : i < 3) by lia. assert (J6 : j < 6) by lia.
  rewrite (out1_R (o_C o1) i _ I3 C1), (out1_R (o_C o0) i _ I3 C0). cbn [bind].
  rewrite (out2_R (o_J o0) i j _ I3 J6 (proj1 (J0 j Hj))), (out2_R (o_J o1) i j _ I3 J6 (proj1 (J1 j Hj))). cbn [bind].
  assert (N1 : (d * dt <> 0)%R) by (unfold d, dt; lra). assert (N2 : (dt <> 0)%R) by (unfold dt; lra).
  change (cofZ 2 : cl) with (Some 2%R : cl).
  change (csub (Some (C_of k (bump j (d * dt) q) i) : cl) (Some (C_of k q i))) with (Some (C_of k (bump j (d * dt) q) i - C_of k q i)%R : cl).
  change (cmul (Some d : cl) (Some dt)) with (Some (d * dt)%R : cl). rewrite (divR _ (d * dt) N1).
  change (cadd (Some (J_of k q i j) : cl) (Some (J_of k (bump j (d * dt) q) i j))) with (Some (J_of k q i j + J_of k (bump j (d * dt) q) i j)%R : cl). rewrite (divR _ 2) by lra.
  rewrite near_R by (rewrite (C_at0 i j), (J_at0 i j j); apply (check_C i j Hi Hj)). cbn [bind]. rewrite Bool.andb_true_r.
  rewrite Hn, Hc. fold n.
  replace (for_ (n * 3) _ ok) with (Ok ok : res bool).
  { cbn [bind]. exists o0, o1, s4. split; [reflexivity|exact P5]. }
  symmetry. enough (W : wp (for_ (n * 3) (fun m b => for_ (rows k) (fun l b =>
      let* x1 := out2 (o_J o1) 6 l m in let* x0 := out2 (o_J o0) 6 l m in let* y0 := out2 (o_Jdot o0) 6 l m in let* y1 := out2 (o_Jdot o1) 6 l m in
      let* okJ := near (cdiv (csub x1 x0) (Some dt : cl)) (cdiv (cadd y0 y1) (Some 2%R : cl)) (Some err : cl) in Ok ((b : bool) && (okJ : bool))) b) ok) (fun b => b = ok)).
  { apply wp_ok in W. destruct W as (b & E & ->). exact E. }
  apply (for_inv _ (fun _ b => b = ok)); [reflexivity| |now intros t ->]. intros m b Hm ->.
  apply (for_inv _ (fun _ b => b = ok)); [reflexivity| |now intros t ->]. intros l b Hl ->.
  assert (M6 : m < 6) by lia. assert (Hm' : m < 3 * n) by lia. assert (L3 : l < 3) by lia.
  destruct (R1 l Hl) as [_ X1]. destruct (R0 l Hl) as [_ X0]. destruct (X1 m Hm') as [A1 B1]. destruct (X0 m Hm') as [A0 B0].
  rewrite (out2_R _ l m _ L3 M6 A1), (out2_R _ l m _ L3 M6 A0), (out2_R _ l m _ L3 M6 B0), (out2_R _ l m _ L3 M6 B1). cbn [bind].
  change (csub (Some (J_of k (bump j (d * dt) q) l m) : cl) (Some (J_of k q l m))) with (Some (J_of k (bump j (d * dt) q) l m - J_of k q l m)%R : cl). rewrite (divR _ dt N2).
  change (cadd (Some (Jd_of k q (bump j d still) l m) : cl) (Some (Jd_of k (bump j (d * dt) q) (bump j d still) l m))) with (Some (Jd_of k q (bump j d still) l m + Jd_of k (bump j (d * dt) q) (bump j d still) l m)%R : cl).
  rewrite (divR _ 2) by lra.
  rewrite near_R. 2:{ rewrite (Jd_at0 l m j), !(Jd_scale k _ l m j d J6 ltac:(lia) M6), (J_at0 l m j). apply (check_J l m j Hl Hm' Hj). }
  cbn [bind]. apply Bool.andb_true_r.
Qed.

Lemma verify_ok s : posed (parties k) s q still -> exists s', verify bs c s = Ok (s', true) /\ posed (parties k) s' q still.
Proof.
  intros P. unfold verify. rewrite Hc, Hn.
  match goal with |- exists s', (let* x := ?f in _) = _ /\ _ => enough (W : wp f (fun x => posed (parties k) (snd (fst x)) q still /\ snd x = true)) end.
  { apply wp_ok in W. destruct W as (((os & s') & b) & -> & W1 & W2). cbn [bind fst snd] in *. exists s'. now rewrite W2. }
  apply (for_inv _ (fun _ x => posed (parties k) (snd (fst x)) q still /\ snd x = true)); [now split| |tauto].
  intros i x Hi I0. apply (for_inv _ (fun _ x => posed (parties k) (snd (fst x)) q still /\ snd x = true)); [exact I0| |tauto].
  intros j ((os & s1) & b) Hj [I1 I2]. cbn [fst snd] in I1, I2. subst b.
  destruct (verify_at_ok i j os s1 true Hi ltac:(lia) I1) as (o0 & o1 & s2 & -> & P2). cbn [bind wp fst snd]. now split.
Qed.
End R.

(** C122 *)
Lemma test_passes dbg k (bs : bodies (RT dbg)) c s q :
  positional k = true -> c_kind c = kind_of dbg k -> c_count c = rows k -> c_bodycount c = parties k -> rests bs c (parties k) s q -> (reach k q <= 10000)%R ->
  exists s', verify bs c s = Ok (s', true) /\ rests bs c (parties k) s' q.
Proof.
  intros Hp Hk Hc Hn Hs Hr.
  destruct (verify_ok bs c k q Hk Hp Hc Hn) with (s := s) as (s' & E & P); [|exact Hr| |].
  - intros p Hp'. destruct (Hs p Hp') as (i & A & B & _). now exists i.
  - intros p Hp'. destruct (Hs p Hp') as (i & A & B & C1 & C2). now split.
  - exists s'. split; [exact E|]. intros p Hp'. destruct (Hs p Hp') as (i & A & B & _). exists i. exact (conj A (conj B (P p Hp'))).
Qed.

(** ** The test with the parameters of the project *)
Section Rolling.
Context {dbg : bool}.
Notation tg := (RT dbg).
Notation cl := (cell tg).
Definition six (f : fld) : bool := match f with Fpx | Fpy | Ftheta | Fvx | Fvy | Fvtheta => true | _ => false end.
Definition has (s : sstate tg) : Prop := forall f p, six f = true -> p < 2 -> exists x, ld s f (Z.of_nat p) = Ok x.
Lemma put_has s f p v : has s -> six f = true -> p < 2 -> exists s', sto s f (Z.of_nat p) v = Ok s' /\ has s' /\
  forall g p', ld s' g (Z.of_nat p') = if fld_eqb g f && Nat.eqb p' p then Ok v else ld s g (Z.of_nat p').
Proof.
  intros H Hf Hp. destruct (H f p Hf Hp) as (x & X). destruct (sto_spec s f _ v x X) as (s' & E & L & _). exists s'. split; [exact E|].
  assert (L' : forall g p', ld s' g (Z.of_nat p') = if fld_eqb g f && Nat.eqb p' p then Ok v else ld s g (Z.of_nat p')).
  { intros g p'. rewrite L. replace (Z.of_nat p' =? Z.of_nat p)%Z with (Nat.eqb p' p); [reflexivity|].
    destruct (Nat.eqb_spec p' p), (Z.eqb_spec (Z.of_nat p') (Z.of_nat p)); try reflexivity; lia. }
  split; [|exact L']. intros g p' Hg Hp'. rewrite L'. destruct (_ && _); [now exists v|auto].
Qed.

Definition round_of (x0 x1 y0 y1 t0 t1 : R) : list cl := [Some x0; Some x1; Some y0; Some y1; Some t0; Some t1].
Definition places (x0 x1 y0 y1 t0 t1 : R) (p : nat) : pose := match p with O => mkPose x0 y0 t0 | _ => mkPose x1 y1 t1 end.

Ltac put F P V := match goal with |- context [sto ?s F ?z V] => change (sto s F z V) with (sto s F (Z.of_nat P) V);
  let s' := fresh "s" in let E := fresh "E" in let L := fresh "L" in let H' := fresh "H" in
  match goal with H : has s |- _ => destruct (put_has s F P V H eq_refl ltac:(lia)) as (s' & E & H' & L); rewrite E; cbn [bind]; clear E end end.

Lemma place_all s (x0 x1 y0 y1 t0 t1 : R) (zero : cl) : has s -> zero = (Some 0%R : cl) -> exists s',
  fold_left (fun r '(f, b, v) => let* s := r in sto s f b v)
      [(Fpx, 0%Z, Some x0 : cl); (Fpx, 1%Z, Some x1 : cl); (Fpy, 0%Z, Some y0 : cl); (Fpy, 1%Z, Some y1 : cl);
       (Ftheta, 0%Z, Some t0 : cl); (Ftheta, 1%Z, Some t1 : cl);
       (Fvx, 0%Z, zero); (Fvx, 1%Z, zero); (Fvy, 0%Z, zero); (Fvy, 1%Z, zero); (Fvtheta, 0%Z, zero); (Fvtheta, 1%Z, zero)] (Ok s) = Ok s' /\
  has s' /\ posed 2 s' (places x0 x1 y0 y1 t0 t1) still.
Proof.
  intros H ->. cbn [fold_left bind].
  put Fpx 0 (Some x0 : cl). put Fpx 1 (Some x1 : cl). put Fpy 0 (Some y0 : cl). put Fpy 1 (Some y1 : cl). put Ftheta 0 (Some t0 : cl). put Ftheta 1 (Some t1 : cl).
  put Fvx 0 (Some 0%R : cl). put Fvx 1 (Some 0%R : cl). put Fvy 0 (Some 0%R : cl). put Fvy 1 (Some 0%R : cl). put Fvtheta 0 (Some 0%R : cl). put Fvtheta 1 (Some 0%R : cl).
  eexists. split; [reflexivity|]. split; [assumption|].
  intros p Hp. destruct p as [|[|p]]; [| |lia]; unfold state_pose, state_velocity; repeat split;
    repeat match goal with L : forall g p', ld ?s g (Z.of_nat p') = _ |- ld ?s _ _ = _ => rewrite L; cbv [fld_eqb andb Nat.eqb] end; reflexivity.
Qed.

Lemma kind_test : (KRolling (mkRoll (cofZ 0) (clit 1 10) (cofZ 1) (cofZ 0) (cofZ 1) (cofZ 10) (cofZ 1)) : ckind tg) = kind_of dbg (RRolling 0 (1/10) 1 0 1 10 1).
Proof. cbn [kind_of]. now rewrite (clit_R dbg) by (intros E; apply eq_IZR in E; discriminate). Qed.

Lemma rolling_reach (x0 x1 y0 y1 t0 t1 : R) : (Rabs x0 <= 50 -> Rabs x1 <= 50 -> Rabs y0 <= 50 -> Rabs y1 <= 50 -> reach (RRolling 0 (1/10) 1 0 1 10 1) (places x0 x1 y0 y1 t0 t1) <= 10000)%R.
Proof.
  intros A B C D. cbn [reach places q_x q_y]. rewrite Rabs_R0, !Rabs_R1. pose proof (Rabs_triang x1 (- x0)) as X. pose proof (Rabs_triang y1 (- y0)) as Y. rewrite !Rabs_Ropp in X, Y.
  unfold Rminus. lra.
Qed.
Lemma rolling_passes (rounds : list (list cl)) :
  (forall xs, In xs rounds -> exists x0 x1 y0 y1 t0 t1 : R, xs = [Some x0; Some x1; Some y0; Some y1; Some t0; Some t1] /\ (Rabs x0 <= 50 /\ Rabs x1 <= 50 /\ Rabs y0 <= 50 /\ Rabs y1 <= 50)%R) ->
  t_rolling rounds = Ok true.
Proof.
  intros H. unfold t_rolling, rolling_test_con, con_new. cbn [Nat.leb massert bind c_kind c_index c_bodycount c_bodies c_Fx c_Fy c_Ft c_count]. rewrite kind_test.
  set (c := {| c_kind := kind_of dbg (RRolling 0 (1/10) 1 0 1 10 1) |}).
  assert (H0 : has (st_resize st_new 2 2)). { intros f p Hf Hp. exists None. destruct f; try discriminate Hf; destruct p as [|[|p]]; try lia; reflexivity. }
  set (s0 := st_resize (st_new : sstate tg) 2 2) in *. clearbody s0. change (cofZ 0 : cl) with (Some 0%R : cl).
  cbn [fold_left bind]. put Fpx 0 (Some 0%R : cl). put Fpx 1 (Some 0%R : cl). put Fpy 0 (Some 0%R : cl). put Fpy 1 (Some 0%R : cl). put Ftheta 0 (Some 0%R : cl). put Ftheta 1 (Some 0%R : cl).
  match goal with H : has ?s |- context [fold_left _ rounds (Ok (?s, true))] => rename H into HS; set (sS := s) in * end. clearbody sS.
  assert (W : forall s, has s -> exists s', fold_left (fun r xs => let* (s, ok) := r in rolling_round c xs s ok) rounds (Ok (s, true)) = Ok (s', true)).
  { clear - H. induction rounds as [|xs rounds IH]; intros s Hs; [now exists s|]. cbn [fold_left bind].
    destruct (H xs (or_introl eq_refl)) as (x0 & x1 & y0 & y1 & t0 & t1 & -> & B1 & B2 & B3 & B4).
    destruct (place_all s x0 x1 y0 y1 t0 t1 (Some 0%R : cl) Hs eq_refl) as (s' & E & _ & P).
    destruct (verify_ok rolling_test_bodies c (RRolling 0 (1/10) 1 0 1 10 1) (places x0 x1 y0 y1 t0 t1) eq_refl eq_refl eq_refl eq_refl) with (s := s') as (s2 & E2 & P2).
    - intros p Hp. exists p. split; reflexivity.
    - now apply rolling_reach.
    - exact P.
    - assert (RR : rolling_round c [Some x0; Some x1; Some y0; Some y1; Some t0; Some t1] s true = Ok (s2, true)).
      { unfold rolling_round. cbn [nth]. change (cofZ 0 : cl) with (Some 0%R : cl). rewrite E. cbn [bind]. now rewrite E2. }
      rewrite RR. apply IH; [intros ys Hy; apply H; now right|].
      intros f p Hf Hp. destruct (P2 p Hp) as [(Q1 & Q2 & Q3) (V1 & V2 & V3)]. destruct f; try discriminate Hf; eauto. }
  destruct (W sS HS) as (s' & ->). cbn [bind]. unfold st_dtor, st_destroy. cbn. reflexivity.
Qed.
End Rolling.
