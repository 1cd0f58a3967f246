(** * Sub-stepping against repeated stepping. *)

From Coq Require Import Reals FunctionalExtensionality.
From Verif Require Import Base Targets Matrix Sparse Sle State Ode Forces Constraints System Logic
  MatrixFacts MatrixOps SpecMatrix MatrixHist SparseFacts SpecSparse SparseHist SpecSle SleHist SleGe
  SpecState StateFacts OdeFacts SpecSys RegFacts SysFrame SysInv SpecDyn DynState DynReact DynRound DynReady SpecSub SubSim SubOde SubPop.
Local Open Scope nat_scope.

Section S.
Context {tg : target}.
Notation st := (sstate tg).
Implicit Types (hp : heap tg) (ms : mats tg) (w : world tg) (y : sys tg) (p q : fld -> nat -> bool) (o : ode tg).

(** ** what a sub-step keeps *)
Section Keep.
Variable priv : nat -> bool.
Lemma opt_constraints_M w y dt hp s i : i = iM \/ i = iMinv -> hinv priv hp -> (forall l, y_sle y = Some l -> solver_apart priv l) ->
  pc (opt_process_constraints w y dt hp s) (fun x => hm (fst x) i = hm hp i).
Proof.
  intros Hi H Hl. unfold opt_process_constraints.
  eapply pc_seq; [apply (opt_gather_keeps priv), H|]. intros hp1 [K1 [F1 _]].
  eapply pc_seq; [apply (opt_right_keeps priv), K1|]. intros hp2 [K2 [F2 _]].
  unfold the_sle. destruct (y_sle y) as [l|]; [|exact I]. specialize (Hl l eq_refl). cbn [bind].
  eapply (pc_seq _ _ (fun x => keepsto priv (ilambda :: sle_mats l) (sle_sps l) hp2 (fst x))).
  { destruct (negb _); [now apply sle_solve_keeps|now apply sle_solve_limits_keeps]. }
  intros [hp3 ok] [K3 [F3 _]]. cbn [fst] in *. apply pc_any; intros _.
  eapply (pc_seq _ _ (fun ms => off [ireg0] (hm hp3) ms)); [apply mscale_off; [now left|apply off_refl]|].
  intros ms4 F4. do 2 (apply pc_any; intros ?). cbn [pc fst snd hm].
  rewrite F4 by (destruct Hi as [->| ->]; cbn; intuition discriminate).
  rewrite F3. 2:{ intros [E|E]; [destruct Hi as [->| ->]; discriminate|]. apply (solver_mats priv l i Hl) in E. destruct Hi as [->| ->]; unfold ifree, iM, iMinv in E; lia. }
  rewrite F2 by (destruct Hi as [->| ->]; cbn; intuition discriminate).
  now rewrite F1 by (destruct Hi as [->| ->]; cbn; intuition discriminate).
Qed.
Lemma gen_constraints_M w y hp s i : i = iM \/ i = iMinv -> hinv priv hp -> (forall l, y_sle y = Some l -> solver_apart priv l) ->
  pc (gen_process_constraints w y hp s) (fun x => hm (fst x) i = hm hp i).
Proof.
  intros Hi H Hl. unfold gen_process_constraints.
  eapply pc_seq; [apply (gen_gather_keeps priv), H|]. intros hp1 [K1 [F1 _]].
  eapply pc_seq; [apply (gen_right_keeps priv), K1|]. intros hp2 [K2 [F2 _]].
  unfold the_sle. destruct (y_sle y) as [l|]; [|exact I]. specialize (Hl l eq_refl). cbn [bind].
  eapply pc_seq; [now apply (sle_solve_keeps priv)|].
  intros [hp3 ok] [K3 [F3 _]]. cbn [fst] in *. do 3 (apply pc_any; intros ?). cbn [pc fst snd hm].
  rewrite F3. 2:{ intros [E|E]; [destruct Hi as [->| ->]; discriminate|]. apply (solver_mats priv l i Hl) in E. destruct Hi as [->| ->]; unfold ifree, iM, iMinv in E; lia. }
  rewrite F2 by (destruct Hi as [->| ->]; cbn; intuition discriminate).
  now rewrite F1 by (destruct Hi as [->| ->]; cbn; intuition discriminate).
Qed.

Definition pcf (k : flavour) w y (h : cell tg) : heap tg -> st -> res (heap tg * st) :=
  match k with Optimized => opt_process_constraints w y h | Generic => gen_process_constraints w y end.
Lemma pcf_alike k w y w' y' h : twins w y w' y' -> cons_heedless w y -> runs_alike (body_count y) (pcf k w y h) (pcf k w' y' h).
Proof.
  intros T C hp s s' H. destruct k; cbn [pcf]; [now apply opt_constraints_agree|now apply gen_constraints_agree].
Qed.
Definition holds hp0 (s0 : st) (x : trip) : Prop :=
  hinv priv (snd (fst x)) /\ (hm (snd (fst x)) iM = hm hp0 iM /\ hm (snd (fst x)) iMinv = hm hp0 iMinv) /\ kept s0 (snd x) /\ resized s0 (snd x).
Lemma pcf_holds k w y h hp0 (s0 s : st) hp : (forall l, y_sle y = Some l -> solver_apart priv l) -> hinv priv hp ->
  (hm hp iM = hm hp0 iM /\ hm hp iMinv = hm hp0 iMinv) -> kept s0 s -> resized s0 s ->
  pc (pcf k w y h hp s) (fun x => hinv priv (fst x) /\ (hm (fst x) iM = hm hp0 iM /\ hm (fst x) iMinv = hm hp0 iMinv) /\ kept s0 (snd x) /\ resized s0 (snd x)).
Proof.
  intros Hl H [M1 M2] K R. apply pc_intro. intros [hp1 s1] E. cbn [fst snd].
  assert (A : hinv priv hp1 /\ alters reacts s s1 /\ hm hp1 iM = hm hp iM /\ hm hp1 iMinv = hm hp iMinv).
  { destruct k; cbn [pcf] in E.
    - pose proof (pc_elim _ _ _ E (opt_constraints_inv priv w y h hp s H Hl)) as (A & B & C).
      pose proof (pc_elim _ _ _ E (opt_constraints_M w y h hp s iM (or_introl eq_refl) H Hl)). auto.
    - pose proof (pc_elim _ _ _ E (gen_constraints_inv priv w y hp s H Hl)) as (A & B & C).
      pose proof (pc_elim _ _ _ E (gen_constraints_M w y hp s iM (or_introl eq_refl) H Hl)). auto. }
  destruct A as (A & B & C & D). split; [exact A|]. split; [split; congruence|]. split.
  - eapply kept_trans; [exact K|]. destruct B as (_ & _ & B & _ & _ & B'). split; [exact B|now apply B'].
  - eapply resized_trans; [exact R|]. eapply alters_resized; exact B.
Qed.
Lemma rounds_holds k w y h hp0 (s0 : st) : all_heedless w y -> all_orderly w y -> (forall l, y_sle y = Some l -> solver_apart priv l) ->
  forall fuel o hp s, holds hp0 s0 (o, hp, s) -> pc (ode_rounds fuel w y (pcf k w y h) o hp s) (holds hp0 s0).
Proof.
  intros Hg Ho Hl. induction fuel as [|fuel IH]; intros o hp s (H & M & K & R); cbn [ode_rounds]; [exact I|]. cbn [fst snd] in *.
  eapply (pc_seq _ _ (fun x => kept s0 (snd (fst x)) /\ resized s0 (snd (fst x)))).
  { apply pc_and; [now apply step_kept|]. eapply pc_mono; [apply ode_step_resized|]. intros x X. eapply resized_trans; [exact R|exact X]. }
  intros [[o1 s1] done] [K1 R1]. cbn [fst snd] in *.
  eapply (pc_seq _ _ (fun s => kept s0 s /\ resized s0 s)).
  { apply pc_and; [now apply forces_kept|]. eapply pc_mono; [apply process_forces_resized, Ho|]. intros x X. eapply resized_trans; [exact R1|exact X]. }
  intros s2 [K2 R2]. eapply pc_seq; [apply (pcf_holds k w y h hp0 s0 s2 hp Hl H M K2 R2)|]. intros [hp3 s3] (H3 & M3 & K3 & R3). cbn [fst snd] in *.
  eapply (pc_seq _ _ (fun x => kept s0 (snd x) /\ resized s0 (snd x))).
  { apply pc_and; [now apply solve_kept|]. eapply pc_mono; [apply ode_solve_resized|]. intros x X. eapply resized_trans; [exact R3|exact X]. }
  intros [o4 s4] [K4 R4]. cbn [fst snd] in *. destruct done; [|apply IH]; (split; [exact H3|]; split; [exact M3|]; split; [exact K4|exact R4]).
Qed.
Lemma substep_holds k w y h hp0 (s0 : st) x : all_heedless w y -> all_orderly w y -> (forall l, y_sle y = Some l -> solver_apart priv l) ->
  holds hp0 s0 x -> pc (substep w y (pcf k w y h) h x) (holds hp0 s0).
Proof.
  intros Hg Ho Hl. destruct x as [[o hp] s]. intros H. unfold substep. apply pc_any; intros o1.
  eapply pc_seq; [apply rounds_holds; eauto|]. intros [[o2 hp2] s2] X. exact X.
Qed.
End Keep.

(** ** writing the results back *)
(** w' differs from w at most in what a step writes *)
Definition outside y w w' : Prop :=
  (forall b, b_index (w_body w' b) = b_index (w_body w b) /\ b_f (w_body w' b) Bm = b_f (w_body w b) Bm /\ b_f (w_body w' b) BI = b_f (w_body w b) BI /\
     (~ In b (y_bodies y) -> w_body w' b = w_body w b)) /\
  (forall c, c_kind (w_con w' c) = c_kind (w_con w c) /\ c_index (w_con w' c) = c_index (w_con w c) /\
     c_bodycount (w_con w' c) = c_bodycount (w_con w c) /\ c_bodies (w_con w' c) = c_bodies (w_con w c) /\
     c_count (w_con w' c) = c_count (w_con w c) /\
     forall j k, ~ (In c (y_cons y) /\ j < c_count (w_con w c) /\ k < c_bodycount (w_con w c)) ->
       c_Fx (w_con w' c) j k = c_Fx (w_con w c) j k /\ c_Fy (w_con w' c) j k = c_Fy (w_con w c) j k /\ c_Ft (w_con w' c) j k = c_Ft (w_con w c) j k) /\
  (forall g, w_gen w' g = w_gen w g).
Lemma outside_refl y w : outside y w w.
Proof. now repeat split. Qed.
Lemma outside_trans y w1 w2 w3 : outside y w1 w2 -> outside y w2 w3 -> outside y w1 w3.
Proof.
  intros (A & B & C) (A' & B' & C'). split; [|split].
  - intros b. destruct (A b) as (A1 & A2 & A3 & A4), (A' b) as (A1' & A2' & A3' & A4'). repeat split; try congruence.
    intros N. rewrite A4' by exact N. now apply A4.
  - intros c. destruct (B c) as (B1 & B2 & B3 & B4 & B5 & B6), (B' c) as (B1' & B2' & B3' & B4' & B5' & B6').
    do 5 (split; [congruence|]). intros j k N. rewrite B3, B5 in B6'. destruct (B6 j k N) as (X1 & X2 & X3), (B6' j k N) as (X1' & X2' & X3').
    repeat split; congruence.
  - intros g. now rewrite C'.
Qed.
Definition att (k : flavour) (i_f j : nat) : nat := match k with Optimized => i_f * 2 + j | Generic => i_f end.
Definition propagate (k : flavour) y (s : st) w : res (world tg) :=
  let* w := bodies_back y s w in forces_back (att k) y s w.

Lemma outside_bodies y w w' : (forall b, b_index (w_body w' b) = b_index (w_body w b) /\ b_f (w_body w' b) Bm = b_f (w_body w b) Bm /\ b_f (w_body w' b) BI = b_f (w_body w b) BI /\
     (~ In b (y_bodies y) -> w_body w' b = w_body w b)) -> w_con w' = w_con w -> w_gen w' = w_gen w -> outside y w w'.
Proof. intros A B C. split; [exact A|]. rewrite B, C. now repeat split. Qed.
Lemma outside_set y w w' c j k fx fy ft : In c (y_cons y) -> j < c_count (w_con w c) -> k < c_bodycount (w_con w c) -> outside y w w' ->
  pc (con_set_force (w_con w' c) j k fx fy ft) (fun x => outside y w (set_con w' c x)).
Proof.
  intros Hc Hj Hk (A & B & C). unfold con_set_force. destruct (_ && _); [|exact I]. cbn [pc].
  split; [exact A|]. split; [|exact C]. intros d. cbn [set_con w_con]. unfold upd. destruct (Nat.eqb_spec d c) as [->|]; [|apply B]. cbn.
  destruct (B c) as (B1 & B2 & B3 & B4 & B5 & B6). do 5 (split; [assumption|]). intros j' k' N. unfold upd2.
  destruct (Nat.eqb_spec j' j) as [->|], (Nat.eqb_spec k' k) as [->|]; cbn [andb]; try now apply B6. now elim N.
Qed.
Lemma forces_back_outside f y s w0 w : outside y w0 w -> pc (forces_back f y s w) (outside y w0).
Proof.
  intros H. unfold forces_back. eapply (pc_seq _ _ (fun x => outside y w0 (fst x))); [|intros [w' n] X; exact X].
  apply (for_pci _ (fun _ x => outside y w0 (fst x))); [exact H|]. clear H w. intros i [w n] Hi H. cbn [fst] in *.
  destruct (nth_error (y_cons y) i) as [c|] eqn:Ec; cbn [lift_opt bind]; [|exact I]. apply nth_error_In in Ec.
  rewrite (proj1 (proj2 (proj2 (proj2 (proj2 (proj1 (proj2 H) c)))))).
  apply (for_pci _ (fun _ x => outside y w0 (fst x))); [exact H|]. clear H w n. intros j [w n] Hj H. cbn [fst] in *.
  eapply (pc_seq _ _ (outside y w0)); [|intros w' X; exact X].
  rewrite (proj1 (proj2 (proj2 (proj1 (proj2 H) c)))).
  apply (for_pci _ (fun _ => outside y w0)); [exact H|]. clear H w. intros k w Hk H. cbv zeta.
  do 3 (apply pc_any; intros ?). eapply pc_seq; [now apply (outside_set y w0 w c j k)|]. intros x X. exact X.
Qed.
Lemma propagate_outside k y s w : pc (propagate k y s w) (fun w' => outside y w w').
Proof.
  unfold propagate. eapply pc_seq; [apply bodies_back_alone|]. intros w1 (A & B & C). apply forces_back_outside. now apply outside_bodies.
Qed.

(** two write-backs next to each other: they end the same way, and if the
    states are the same then so are the objects *)
Section Two.
Variables (P : Prop) (s s' : st).
Hypothesis len : forall f, length (s_arr s' f) = length (s_arr s f).
Hypothesis eqs : P -> agree allover s s'.
Lemma ld_two f z : rel (ld s f z) (ld s' f z) (fun v v' => P -> v' = v).
Proof.
  unfold ld, aget. destruct (Z.ltb z 0); [exact I|].
  destruct (nth_error (s_arr s f) (Z.to_nat z)) as [v|] eqn:E.
  - destruct (nth_error_ex (s_arr s' f) (Z.to_nat z)) as [v' E']; [rewrite len; apply nth_error_lt in E; exact E|]. rewrite E'. cbn.
    intros p. destruct (eqs p) as (_ & _ & _ & _ & _ & H). rewrite (H f _ eq_refl) in E'. congruence.
  - replace (nth_error (s_arr s' f) (Z.to_nat z)) with (@None (cell tg)); [exact I|]. symmetry. apply nth_error_None. rewrite len. now apply nth_error_None.
Qed.
Definition due (l : list nat) (i b : nat) : Prop := exists i', i <= i' /\ nth_error l i' = Some b.
Lemma bodies_two y y' w w' : y_bodies y' = y_bodies y -> outside y w w' ->
  rel (bodies_back y s w) (bodies_back y' s' w') (fun v v' => outside y v v' /\ (P -> forall b f, b_f (w_body v' b) f = b_f (w_body v b) f) /\
    w_con v = w_con w /\ w_con v' = w_con w').
Proof.
  intros Eb H. unfold bodies_back, body_count. rewrite Eb.
  set (R := fun i (v v' : world tg) => outside y v v' /\ (P -> forall b f, due (y_bodies y) i b \/ b_f (w_body v' b) f = b_f (w_body v b) f) /\
    w_con v = w_con w /\ w_con v' = w_con w').
  eapply rel_mono; [apply (for_rel _ _ R)|].
  - split; [exact H|]. split; [|now split]. intros _ b f. destruct H as (H & _). destruct (H b) as (_ & _ & _ & N).
    destruct (in_dec Nat.eq_dec b (y_bodies y)) as [I|I]; [left|right; now rewrite N].
    apply In_nth_error in I. destruct I as [i I]. exists i. split; [lia|exact I].
  - intros i v v' Hi (A & B & C & D). cbv zeta. destruct (nth_error (y_bodies y) i) as [b|] eqn:Ei; cbn [lift_opt bind]; [|exact I].
    pose proof (nth_error_In _ _ Ei) as Hin.
    do 6 (eapply rel_bind; [apply ld_two|]; intros ? ? ?). split; [|split; [|now split]].
    + destruct A as (A1 & A2 & A3). split; [|split; [exact A2|exact A3]]. intros x. cbn [set_body w_body]. unfold upd.
      destruct (Nat.eqb_spec x b) as [->|]; [|apply A1]. cbn. destruct (A1 b) as (X1 & X2 & X3 & _). repeat split; try assumption. now intros.
    + intros p x f. cbn [set_body w_body]. unfold upd. destruct (Nat.eqb_spec x b) as [->|Nx].
      * right. destruct A as (A1 & _). destruct (A1 b) as (_ & X2 & X3 & _). destruct f; cbn; auto.
      * destruct (B p x f) as [(i' & L & E)|E]; [left|right; exact E]. exists i'. split; [|exact E].
        assert (i' <> i) by (intros ->; congruence). lia.
  - intros v v' (A & B & C & D). split; [exact A|]. split; [|now split]. intros p b f. destruct (B p b f) as [(i' & L & E)|E]; [|exact E].
    apply nth_error_lt in E. lia.
Qed.
Definition force_eq w w' c j k : Prop :=
  c_Fx (w_con w' c) j k = c_Fx (w_con w c) j k /\ c_Fy (w_con w' c) j k = c_Fy (w_con w c) j k /\ c_Ft (w_con w' c) j k = c_Ft (w_con w c) j k.
Lemma forces_two at_ y y' w w' : y_cons y' = y_cons y -> outside y w w' ->
  rel (forces_back at_ y s w) (forces_back at_ y' s' w') (fun v v' => outside y v v' /\ (P -> forall c j k, force_eq v v' c j k) /\
    w_body v = w_body w /\ w_body v' = w_body w').
Proof.
  intros Ec H. unfold forces_back, con_count. rewrite Ec.
  set (In_ := fun (v : world tg) c j k => j < c_count (w_con v c) /\ k < c_bodycount (w_con v c)).
  set (Same := fun v v' : world tg => outside y v v' /\ (forall c, c_count (w_con v c) = c_count (w_con w c) /\ c_bodycount (w_con v c) = c_bodycount (w_con w c)) /\
    w_body v = w_body w /\ w_body v' = w_body w').
  set (R := fun (D : nat -> nat -> nat -> Prop) (v v' : world tg) => Same v v' /\ (P -> forall c j k, (In_ w c j k /\ D c j k) \/ force_eq v v' c j k)).
  eapply (rel_bind _ _ _ _ (fun x x' => snd x' = snd x /\ R (fun c _ _ => due (y_cons y) (length (y_cons y)) c) (fst x) (fst x'))).
  2:{ intros [v n] [v' n'] (_ & (A & B & C & D) & E). cbn [fst] in *. cbn. split; [exact A|]. split; [|now split].
      intros p c j k. destruct (E p c j k) as [(_ & i' & L & X)|X]; [|exact X]. apply nth_error_lt in X. lia. }
  apply (for_rel _ _ (fun i x x' => snd x' = snd x /\ R (fun c _ _ => due (y_cons y) i c) (fst x) (fst x'))).
  - split; [reflexivity|]. split; [split; [exact H|]; now repeat split|]. intros _ c j k. cbn [fst].
    destruct H as (_ & H & _). destruct (H c) as (_ & _ & _ & _ & _ & N).
    destruct (in_dec Nat.eq_dec c (y_cons y)) as [I|I]; [|right; apply N; now intros [X _]].
    destruct (Nat.lt_ge_cases j (c_count (w_con w c))) as [J|J]; [|right; apply N; intros (_ & X & _); lia].
    destruct (Nat.lt_ge_cases k (c_bodycount (w_con w c))) as [K|K]; [|right; apply N; intros (_ & _ & X); lia].
    left. split; [now split|]. apply In_nth_error in I. destruct I as [i I]. exists i. split; [lia|exact I].
  - clear H. intros i [v n] [v' n'] Hi [E H]. cbn [fst snd] in *. subst n'.
    destruct (nth_error (y_cons y) i) as [c|] eqn:Ei; cbn [lift_opt bind]; [|exact I].
    pose proof H as ((O & Cn & _) & _). pose proof O as (_ & O' & _). destruct (O' c) as (_ & _ & O1 & _ & O2 & _). rewrite O2, (proj1 (Cn c)). clear O O' O1 O2 Cn.
    set (D := fun j0 d j (k : nat) => due (y_cons y) (S i) d \/ (d = c /\ j0 <= j)).
    eapply rel_mono; [apply (for_rel _ _ (fun j x x' => snd x' = snd x /\ R (D j) (fst x) (fst x')))|].
    + split; [reflexivity|]. destruct H as [H1 H2]. split; [exact H1|]. intros p d j k. cbn [fst].
      destruct (H2 p d j k) as [(X & i' & L & Y)|X]; [left|now right]. split; [exact X|].
      destruct (Nat.eq_dec i' i) as [->|Ne]; [right; split; [congruence|lia]|left; exists i'; split; [lia|exact Y]].
    + clear H v v' n. intros j [v n] [v' n'] Hj [E H]. cbn [fst snd] in *. subst n'.
      pose proof H as ((O & Cn & _) & _). pose proof O as (_ & O' & _). destruct (O' c) as (_ & _ & O1 & _ & O2 & _). rewrite O1, (proj2 (Cn c)). clear O O' O1 O2 Cn.
      set (D' := fun k0 d j' k => due (y_cons y) (S i) d \/ (d = c /\ (S j <= j' \/ (j' = j /\ k0 <= k)))).
      eapply (rel_bind _ _ _ _ (R (D' (c_bodycount (w_con w c))))).
      2:{ intros u u' [A B]. split; [reflexivity|]. split; [exact A|]. intros p d j' k. cbn [fst]. destruct (B p d j' k) as [(X & Y)|X]; [left|now right].
          split; [exact X|]. destruct Y as [Y|(Y & [Z|(Z & Z')])]; [now left|right; split; [exact Y|exact Z]|].
          exfalso. subst d. destruct X as [_ X]. lia. }
      apply (for_rel _ _ (fun k => R (D' k))).
      * destruct H as [H1 H2]. split; [exact H1|]. intros p d j' k. destruct (H2 p d j' k) as [(X & Y)|X]; [left|now right].
        split; [exact X|]. destruct Y as [Y|(Y & Z)]; [now left|right; split; [exact Y|]]. destruct (Nat.eq_dec j' j); [right; split; [assumption|lia]|left; lia].
      * clear H v v'. intros k v v' Hk [(A & B & C & C') E]. cbv zeta.
        eapply rel_bind; [apply ld_two|]; intros a1 a1' X1. eapply rel_bind; [apply ld_two|]; intros a2 a2' X2. eapply rel_bind; [apply ld_two|]; intros a3 a3' X3.
        unfold con_set_force. destruct (Nat.ltb j 3 && Nat.ltb k 2); [|exact I]. cbn [bind rel].
        assert (Hin : In c (y_cons y)) by (eapply nth_error_In; eauto).
        split; [split; [|split; [|now split]]|].
        -- destruct A as (A1 & A2 & A3). split; [exact A1|]. split; [|exact A3]. intros d. cbn [set_con w_con]. unfold upd.
           destruct (Nat.eqb_spec d c) as [->|]; [|apply A2]. cbn. destruct (A2 c) as (Y1 & Y2 & Y3 & Y4 & Y5 & Y6). do 5 (split; [assumption|]).
           intros j' k' N. unfold upd2. destruct (Nat.eqb_spec j' j) as [->|], (Nat.eqb_spec k' k) as [->|]; cbn [andb]; try now apply Y6.
           elim N. destruct (B c) as [-> ->]. auto.
        -- intros d. cbn [set_con w_con]. unfold upd. destruct (Nat.eqb_spec d c) as [->|]; [|apply B]. cbn. apply B.
        -- intros p d j' k'. specialize (X1 p). specialize (X2 p). specialize (X3 p). subst a1' a2' a3'. unfold force_eq. cbn [set_con w_con]. unfold upd.
           destruct (Nat.eqb_spec d c) as [->|Nd]; [|destruct (E p d j' k') as [(U & [V|(V & _)])|U]; [left; split; [exact U|now left]|congruence|now right]].
           cbn. unfold upd2. destruct (Nat.eqb_spec j' j) as [->|Nj], (Nat.eqb_spec k' k) as [->|Nk]; cbn [andb]; [now right|..];
             (destruct (E p c j' k') as [(U & [V|(V & W)])|U] || destruct (E p c j k') as [(U & [V|(V & W)])|U] || destruct (E p c j' k) as [(U & [V|(V & W)])|U]);
             try (now right); left; (split; [exact U|]); first [now left|right; split; [exact V|]; lia].
    + intros [u n1] [u' n2] [E1 [A B]]. cbn [fst snd] in *. split; [exact E1|]. split; [exact A|]. intros p d j k. destruct (B p d j k) as [(X & Y)|X]; [left|now right].
      split; [exact X|]. destruct Y as [Y|(-> & Y)]; [exact Y|]. exfalso. destruct X as [X _]. lia.
Qed.
Lemma propagate_two k y y' w w' : y_bodies y' = y_bodies y -> y_cons y' = y_cons y -> outside y w w' ->
  rel (propagate k y s w) (propagate k y' s' w') (fun v v' => P -> same_scene v v').
Proof.
  intros E1 E2 H. unfold propagate. eapply rel_bind; [now apply bodies_two|]. intros v v' (A & B & C & D).
  eapply rel_mono; [now apply forces_two|]. intros u u' (A' & B' & C' & D') p. split; [|split].
  - intros b. destruct A' as (A' & _). destruct (A' b) as (X & _). split; [exact X|]. intros f. rewrite C', D'. now apply B.
  - intros c. destruct A' as (_ & A' & _). destruct (A' c) as (Y1 & Y2 & Y3 & Y4 & Y5 & _). do 5 (split; [assumption|]). intros j k'. now apply B'.
  - apply A'.
Qed.
End Two.
End S.
