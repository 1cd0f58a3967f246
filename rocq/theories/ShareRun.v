(** * A call of process on two systems that differ in the solver's matrices. *)

From Coq Require Import Reals.
From Verif Require Import Base Targets Matrix Sparse Sle State Ode Forces Constraints System Logic
  MatrixFacts MatrixOps SpecMatrix MatrixHist SparseFacts SpecSparse SparseHist SpecSle SleHist SleGe SleGs SleCg
  SpecSys RegFacts SpecDyn SysFrame SysInv SysColumn DynState DynReact DynRound SubSim SpecShare ShareSolve ShareLow ShareSle ShareSys.
Local Open Scope nat_scope.

Section S.
Context {tg : target}.
Notation st := (sstate tg).
Implicit Types (ms : mats tg) (ss : sps tg) (hp : heap tg) (w : world tg) (y : sys tg).
Variable priv : nat -> bool.

Definition pre y hp : Prop := hinv priv hp /\ column (hm hp ilambda) /\ dims 1 (3 * body_count y) (hm hp iMinv).
Definition apart_ y : Prop := forall l, y_sle y = Some l -> solver_apart priv l.
Definition fine w y : Prop := apart_ y /\ listed w y /\ attached w y /\ shaped w y.
Definition eqs (x x' : heap tg * st) : Prop := snd x' = snd x /\ alike (fst x) (fst x').
Definition eqs_pre y (x x' : heap tg * st) : Prop := eqs x x' /\ pre y (fst x) /\ hinv priv (fst x').

Lemma rel_pc1 {A B} (r : res A) (r' : res B) (Q : A -> B -> Prop) P : rel r r' Q -> pc r P -> rel r r' (fun x x' => Q x x' /\ P x).
Proof. destruct r, r'; cbn; auto. Qed.
Lemma keepsto_hinv lm ls hp hp' : keepsto priv lm ls hp hp' -> hinv priv hp'.
Proof. now intros [H _]. Qed.
Lemma keepsto_hm lm ls hp hp' i : keepsto priv lm ls hp hp' -> ~ In i lm -> hm hp' i = hm hp i.
Proof. intros [_ [F _]]. apply F. Qed.
Lemma keepsto_hs lm ls hp hp' i : keepsto priv lm ls hp hp' -> ~ In i ls -> hs hp' i = hs hp i.
Proof. intros [_ [_ F]]. apply F. Qed.

Lemma opt_constraints_low w y dt hp hp' (s : st) : fine w y -> pre y hp -> hinv priv hp' -> alike hp hp' ->
  rel (opt_process_constraints w y dt hp s) (opt_process_constraints w y dt hp' s) eqs.
Proof.
  intros (Ha & HL & HA & HS) (H & Co & Dm) H' Al. unfold opt_process_constraints.
  eapply rel_bind; [apply rel_pc; [apply rel_pc1; [apply opt_gather_low, Al|apply (opt_gather_sys priv w y dt hp s H HL HA HS)]|apply (opt_gather_keeps priv w y dt hp s H)|apply (opt_gather_keeps priv w y dt hp' s H')]|].
  intros h1 h1' ((A1 & J1 & L1) & K1 & K1'). cbv beta.
  pose proof (keepsto_hinv _ _ _ _ K1) as I1. pose proof (keepsto_hinv _ _ _ _ K1') as I1'.
  eapply rel_bind; [apply rel_pc; [apply rel_pc1; [apply opt_right_low, A1|apply (opt_right_sys priv)]|apply (opt_right_keeps priv w y dt h1 s I1)|apply (opt_right_keeps priv w y dt h1' s I1')]|].
  intros h2 h2' ((A2 & R2) & K2 & K2'). cbv beta.
  pose proof (keepsto_hinv _ _ _ _ K2) as I2. pose proof (keepsto_hinv _ _ _ _ K2') as I2'.
  unfold the_sle. destruct (y_sle y) as [l|] eqn:El; [|exact I]. cbn [bind]. pose proof (Ha l El) as Hl.
  assert (J2 : Jok (3 * body_count y) (full_count w y) (hs h2 sJ)) by (rewrite (keepsto_hs _ _ _ _ sJ K2) by (cbn; tauto); exact J1).
  assert (Hh : s_h (hs h1 sJ) = full_count w y) by (destruct J1 as (blk & v & (_ & _ & E & _) & _); exact E). rewrite Hh in R2.
  assert (D2 : dims 1 (3 * body_count y) (hm h2 iMinv)) by (rewrite (keepsto_hm _ _ _ _ iMinv K2), (keepsto_hm _ _ _ _ iMinv K1) by (cbn; intuition discriminate); exact Dm).
  assert (L2 : dims 2 (full_count w y) (hm h2 ilimits)) by (rewrite (keepsto_hm _ _ _ _ ilimits K2) by (cbn; intuition discriminate); exact L1).
  assert (C2 : column (hm h2 ilambda)) by (rewrite (keepsto_hm _ _ _ _ ilambda K2), (keepsto_hm _ _ _ _ ilambda K1) by (cbn; intuition discriminate); exact Co).
  destruct (Jok_system priv h2 _ _ I2 J2 D2 R2) as (blk & v & wt & b & Sy). destruct (dims_limits priv h2 _ I2 L2) as (lo & hi & Li).
  eapply rel_bind; [instantiate (1 := step_alike)|].
  { destruct (negb (supports_limits l)); [eapply sle_solve_low; eassumption|eapply sle_solve_limits_low; eassumption]. }
  intros [h3 ok] [h3' ok'] [E A3]. cbn [fst snd] in *. subst ok'. apply rel_any; intros _. destruct A3 as [M3 S3].
  eapply rel_bind; [apply mscale_low; [exact M3|unfold ilambda, ifree; lia|unfold ireg0, ifree; lia]|]. intros m4 m4' M4. cbv beta.
  eapply rel_bind; [apply (left_scale_low _ _ _ _ _ _ _ M4 S3); unfold sJ, sfree, ireg0, ifree, ssreg0; lia|]. intros s4 s4' S4. cbv beta zeta.
  rewrite (apply_reactions_low w y {| hm := m4; hs := s4 |} {| hm := m4'; hs := s4' |} s) by (split; [exact M4|exact S4]).
  apply rel_any; intros s5. apply rel_ret. split; [reflexivity|]. split; [exact M4|exact S4].
Qed.
Lemma gen_constraints_low w y hp hp' (s : st) : fine w y -> pre y hp -> hinv priv hp' -> alike hp hp' ->
  rel (gen_process_constraints w y hp s) (gen_process_constraints w y hp' s) eqs.
Proof.
  intros (Ha & HL & HA & HS) (H & Co & Dm) H' Al. unfold gen_process_constraints.
  eapply rel_bind; [apply rel_pc; [apply rel_pc1; [apply gen_gather_low, Al|apply (gen_gather_sys priv w y hp s H HL HA HS)]|apply (gen_gather_keeps priv w y hp s H)|apply (gen_gather_keeps priv w y hp' s H')]|].
  intros h1 h1' ((A1 & J1 & Jd1 & Q1) & K1 & K1'). cbv beta.
  pose proof (keepsto_hinv _ _ _ _ K1) as I1. pose proof (keepsto_hinv _ _ _ _ K1') as I1'.
  eapply rel_bind; [apply rel_pc; [apply rel_pc1; [apply gen_right_low, A1|eapply (gen_right_sys priv); exact Q1]|apply (gen_right_keeps priv w y h1 s I1)|apply (gen_right_keeps priv w y h1' s I1')]|].
  intros h2 h2' ((A2 & R2) & K2 & K2'). cbv beta.
  pose proof (keepsto_hinv _ _ _ _ K2) as I2. pose proof (keepsto_hinv _ _ _ _ K2') as I2'.
  unfold the_sle. destruct (y_sle y) as [l|] eqn:El; [|exact I]. cbn [bind]. pose proof (Ha l El) as Hl.
  assert (J2 : Jok (3 * body_count y) (full_count w y) (hs h2 sJ)) by (rewrite (keepsto_hs _ _ _ _ sJ K2) by (cbn; tauto); exact J1).
  assert (Hh : s_h (hs h1 sJdot) = full_count w y) by (destruct Jd1 as (blk & v & (_ & _ & E & _) & _); exact E). rewrite Hh in R2.
  assert (D2 : dims 1 (3 * body_count y) (hm h2 iMinv)) by (rewrite (keepsto_hm _ _ _ _ iMinv K2), (keepsto_hm _ _ _ _ iMinv K1) by (cbn; intuition discriminate); exact Dm).
  assert (C2 : column (hm h2 ilambda)) by (rewrite (keepsto_hm _ _ _ _ ilambda K2), (keepsto_hm _ _ _ _ ilambda K1) by (cbn; intuition discriminate); exact Co).
  destruct (Jok_system priv h2 _ _ I2 J2 D2 R2) as (blk & v & wt & b & Sy).
  eapply rel_bind; [eapply sle_solve_low; eassumption|].
  intros [h3 ok] [h3' ok'] [E A3]. cbn [fst snd] in *. subst ok'. apply rel_any; intros _. destruct A3 as [M3 S3].
  eapply rel_bind; [apply (left_scale_low _ _ _ _ _ _ _ M3 S3); unfold sJ, sfree, ilambda, ifree, ssreg0; lia|]. intros s4 s4' S4. cbv beta zeta.
  rewrite (apply_reactions_low w y {| hm := hm h3; hs := s4 |} {| hm := hm h3'; hs := s4' |} s) by (split; [exact M3|exact S4]).
  apply rel_any; intros s5. apply rel_ret. split; [reflexivity|]. split; [exact M3|exact S4].
Qed.

(** ** the loop of process *)
Definition low_pc y (pcf : heap tg -> st -> res (heap tg * st)) : Prop := forall hp hp' s, pre y hp -> hinv priv hp' -> alike hp hp' ->
  rel (pcf hp s) (pcf hp' s) (eqs_pre y).
Lemma opt_low_pc w y dt : fine w y -> low_pc y (opt_process_constraints w y dt).
Proof.
  intros F hp hp' s P H' A. pose proof F as (Ha & _). pose proof P as (H & Co & Dm).
  eapply rel_mono; [apply rel_pc; [apply (opt_constraints_low w y dt hp hp' s F P H' A)
    |apply pc_and; [apply (opt_constraints_inv priv w y dt hp s H Ha)|apply (opt_constraints_column priv w y dt Ha hp s H Co)]
    |apply (opt_constraints_inv priv w y dt hp' s H' Ha)]|].
  intros x x' (E & ((I1 & _ & Em) & C1) & (I1' & _)). split; [exact E|]. split; [|exact I1']. split; [exact I1|]. split; [exact C1|]. now rewrite Em.
Qed.
Lemma gen_low_pc w y : fine w y -> low_pc y (gen_process_constraints w y).
Proof.
  intros F hp hp' s P H' A. pose proof F as (Ha & _). pose proof P as (H & Co & Dm).
  eapply rel_mono; [apply rel_pc; [apply (gen_constraints_low w y hp hp' s F P H' A)
    |apply pc_and; [apply (gen_constraints_inv priv w y hp s H Ha)|apply (gen_constraints_column priv w y Ha hp s H Co)]
    |apply (gen_constraints_inv priv w y hp' s H' Ha)]|].
  intros x x' (E & ((I1 & _ & Em) & C1) & (I1' & _)). split; [exact E|]. split; [|exact I1']. split; [exact I1|]. split; [exact C1|]. now rewrite Em.
Qed.
Definition eqo y (x x' : ode tg * heap tg * st) : Prop :=
  fst (fst x') = fst (fst x) /\ snd x' = snd x /\ alike (snd (fst x)) (snd (fst x')) /\ pre y (snd (fst x)) /\ hinv priv (snd (fst x')).
Lemma rounds_low w y pcf : low_pc y pcf -> forall fuel o hp hp' s, pre y hp -> hinv priv hp' -> alike hp hp' ->
  rel (ode_rounds fuel w y pcf o hp s) (ode_rounds fuel w y pcf o hp' s) (eqo y).
Proof.
  intros L. induction fuel as [|fuel IH]; intros o hp hp' s P H' A; cbn [ode_rounds]; [exact I|].
  apply rel_any; intros [[o1 s1] d]. apply rel_any; intros s2.
  eapply rel_bind; [apply L; eassumption|]. intros [h3 s3] [h3' s3'] ((E & A3) & P3 & H3). cbn [fst snd] in *. subst s3'.
  apply rel_any; intros [o4 s4]. destruct d; [|now apply IH]. apply rel_ret. now repeat split; try apply A3; try apply P3; try apply H3.
Qed.
Lemma steps_low steps dt w y pcf : (forall h, low_pc y (pcf h)) -> forall o hp hp' s, pre y hp -> hinv priv hp' -> alike hp hp' ->
  rel (ode_steps steps dt w y pcf o hp s) (ode_steps steps dt w y pcf o hp' s) (eqo y).
Proof.
  intros L o hp hp' s P H' A. unfold ode_steps. cbv zeta. apply for_rel'; [|now repeat split; try apply A; try apply P; try apply H'].
  intros i [[o1 h1] s1] [[o1' h1'] s1'] (E1 & E2 & A1 & P1 & H1). cbn [fst snd] in *. subst o1' s1'. apply rel_any; intros o2.
  eapply rel_bind; [now apply rounds_low|]. intros [[o3 h3] s3] [[o3' h3'] s3'] (E3 & E4 & A3 & P3 & H3). cbn [fst snd] in *. subst o3' s3'.
  apply rel_ret. now repeat split; try apply A3; try apply P3; try apply H3.
Qed.

(** ** process *)
Lemma record_heap y t hp : record_profile (with_heap y hp) t = let* y1 := record_profile y t in Ok (with_heap y1 hp).
Proof. unfold record_profile. cbn [with_heap y_prof y_frame]. destruct (list_set _ _ _); reflexivity. Qed.
Lemma same_refl y : same_own y y.
Proof. exists (y_heap y). split; [now destruct y|apply alike_refl]. Qed.
Lemma mass_pre w y hp : hinv priv hp -> column (hm hp ilambda) -> pc (populate_mass w y (hm hp)) (fun ms => pre y (with_hm hp ms)).
Proof.
  intros [Hm Hs] C. eapply pc_mono; [apply pc_and; [apply (populate_mass_wfs priv w y (hm hp) Hm)|apply pc_and; [apply (populate_mass_column w y (hm hp) C)|
    apply wp_pc; apply (populate_mass_spec false w y (hm hp)); eapply wf_weaken; apply Hm]]|].
  intros ms (W & C1 & _ & _ & M). split; [split; [exact W|exact Hs]|]. split; [exact C1|]. split; [eapply is_mat_w; exact M|eapply is_mat_h; exact M].
Qed.
Definition eqy (x x' : world tg * sys tg) : Prop := fst x' = fst x /\ same_own (snd x) (snd x').
Lemma process_low k dt steps t w y hp' : hinv priv (y_heap y) -> column (hm (y_heap y) ilambda) -> fine w y -> hinv priv hp' -> alike (y_heap y) hp' ->
  rel (process k dt steps t w y) (process k dt steps t w (with_heap y hp')) eqy.
Proof.
  intros H Co F H' A.
  assert (M : forall s, rel (populate_mass w (with_state y s) (hm (y_heap y))) (populate_mass w (with_state y s) (hm hp'))
    (fun ms ms' => pre y (with_hm (y_heap y) ms) /\ hinv priv (with_hm hp' ms') /\ alike (with_hm (y_heap y) ms) (with_hm hp' ms'))).
  { intros s. eapply rel_mono; [apply rel_pc; [apply (populate_mass_low w (with_state y s) _ _ (proj1 A))|apply (mass_pre w (with_state y s) (y_heap y) H Co)|
      apply (populate_mass_wfs priv w (with_state y s) (hm hp') (proj1 H'))]|].
    intros ms ms' (L & P & W). split; [exact P|]. split; [split; [exact W|apply H']|]. split; [exact L|apply A]. }
  destruct k; cbn [process].
  - unfold opt_process. change (populate_state w (with_heap y hp')) with (populate_state w y). apply rel_any; intros s. cbv zeta.
    eapply rel_bind; [apply (M s)|]. intros ms ms' (P & I' & A1). cbv beta.
    change (the_ode (with_state (with_heap y hp') s)) with (the_ode (with_state y s)). apply rel_any; intros o.
    eapply rel_bind; [apply (steps_low steps dt w (with_state y s) (opt_process_constraints w (with_state y s)) (fun h => opt_low_pc w (with_state y s) h F) o _ _ s P I' A1)|].
    intros [[o2 h2] s2] [[o2' h2'] s2'] (E1 & E2 & A2 & _). cbn [fst snd] in *. subst o2' s2'.
    set (y2 := with_ode (with_heap (with_state (with_state y s) s2) h2) (Some o2)).
    change (with_ode (with_heap (with_state (with_state (with_heap y hp') s) s2) h2') (Some o2)) with (with_heap y2 h2').
    change (opt_propagate (with_heap y2 h2') s2 w) with (opt_propagate y2 s2 w). apply rel_any; intros w2.
    rewrite record_heap. assert (Hp : pc (record_profile y2 t) (fun y3 => y_heap y3 = h2)).
    { eapply pc_mono; [apply record_profile_core|]. intros y3 (E & _). exact E. }
    destruct (record_profile y2 t) as [y3| | |]; try exact I. cbn [bind pc] in *. apply rel_ret. split; [reflexivity|]. cbn [fst snd].
    exists h2'. split; [reflexivity|]. cbn [y_heap]. rewrite Hp. exact A2.
  - unfold gen_process. change (populate_state w (with_heap y hp')) with (populate_state w y). apply rel_any; intros s. cbv zeta.
    eapply rel_bind; [apply (M s)|]. intros ms ms' (P & I' & A1). cbv beta.
    eapply (rel_bind _ _ _ _ (fun x x' => snd x' = snd x /\ exists h2', fst x' = with_heap (fst x) h2' /\ alike (y_heap (fst x)) h2')).
    + destruct steps as [|n].
      * apply rel_ret. split; [reflexivity|]. exists (with_hm hp' ms'). split; [reflexivity|exact A1].
      * change (the_ode (with_state (with_heap y hp') s)) with (the_ode (with_state y s)). apply rel_any; intros o.
        eapply rel_bind; [apply (steps_low (S n) dt w (with_state y s) (fun _ => gen_process_constraints w (with_state y s)) (fun _ => gen_low_pc w (with_state y s) F) o _ _ s P I' A1)|].
        intros [[o2 h2] s2] [[o2' h2'] s2'] (E1 & E2 & A2 & _). cbn [fst snd] in *. subst o2' s2'.
        apply rel_ret. split; [reflexivity|]. exists h2'. split; [reflexivity|exact A2].
    + intros [y2 s2] [y2' s2'] (E & h2' & Ey & A2). cbn [fst snd] in *. subst s2' y2'.
      change (gen_propagate (with_heap y2 h2') s2 w) with (gen_propagate y2 s2 w). apply rel_any; intros w2.
      rewrite record_heap. assert (Hp : pc (record_profile y2 t) (fun y3 => y_heap y3 = y_heap y2)).
      { eapply pc_mono; [apply record_profile_core|]. intros y3 (E & _). exact E. }
      destruct (record_profile y2 t) as [y3| | |]; try exact I. cbn [bind pc] in *. apply rel_ret. split; [reflexivity|]. cbn [fst snd].
      exists h2'. split; [reflexivity|]. rewrite Hp. exact A2.
Qed.

(** ** histories *)
Lemma order_fine k w y : in_order priv k w y -> hinv priv (y_heap y) /\ column (hm (y_heap y) ilambda) /\ fine w y.
Proof.
  intros ((m & R) & HA & HS & _). destruct (yreach_inv priv k m w y R) as (H & _ & Hl & _).
  split; [exact H|]. split; [eapply yreach_column; exact R|]. split; [exact Hl|]. split; [eapply reg_listed, yreach_reg; exact R|]. now split.
Qed.
Lemma order_process k dt steps t w y w' y' : in_order priv k w y -> process k dt steps t w y = Ok (w', y') -> in_order priv k w' y'.
Proof.
  intros ((m & R) & HA & HS & HG) E. split; [eexists; eapply y_process; eassumption|].
  destruct (process_alone k dt steps t w y w' y' E) as ((E1 & E2 & E3 & _) & _ & Hc & Hg). split; [|split].
  - intros c q Hin Hq. rewrite E2 in Hin. destruct (Hc c) as (_ & _ & B1 & B2 & _). rewrite B1 in Hq. rewrite B2, E1. now apply HA.
  - intros c Hin. rewrite E2 in Hin. destruct (Hc c) as (_ & _ & B1 & _ & B3 & _). rewrite B1, B3. now apply HS.
  - intros g Hin. rewrite E3 in Hin. rewrite Hg. now apply HG.
Qed.
Lemma order_lent k k2 w y w2 y2 : in_order priv k w y -> in_order priv k2 w2 y2 -> in_order priv k w (with_heap y (lent (y_heap y) (y_heap y2))).
Proof.
  intros ((m & R) & HA & HS & HG) ((m2 & R2) & _). split; [exists m; eapply y_shared; eassumption|]. split; [exact HA|]. split; [exact HS|exact HG].
Qed.
Lemma alike_lent hp hp' : alike hp (lent hp hp').
Proof.
  split; intros i Hi; cbn [lent hm hs]; apply Nat.ltb_lt in Hi; now rewrite Hi.
Qed.
Lemma alike_trans a b c : alike (tg := tg) a b -> alike b c -> alike a c.
Proof. intros [A1 A2] [B1 B2]. split; intros i Hi; [rewrite B1, A1|rewrite B2, A2]; auto. Qed.
Lemma same_trans a b c : same_own (tg := tg) a b -> same_own b c -> same_own a c.
Proof. intros (h1 & -> & A1) (h2 & -> & A2). exists h2. split; [reflexivity|]. eapply alike_trans; eassumption. Qed.
Lemma rel_agree (r r' : res (world tg * sys tg)) : rel r r' eqy -> agree r r'.
Proof. destruct r as [[w y]| | |], r' as [[w' y']| | |]; cbn; auto. Qed.
Lemma process_agree k dt steps t w y y' : in_order priv k w y -> in_order priv k w y' -> same_own y y' ->
  agree (process k dt steps t w y) (process k dt steps t w y').
Proof.
  intros O O' (hp & -> & A). destruct (order_fine _ _ _ O) as (H & C & F). destruct (order_fine _ _ _ O') as (H' & _).
  apply rel_agree. now apply process_low.
Qed.
Lemma in_row_agree k l : forall w y y', in_order priv k w y -> in_order priv k w y' -> same_own y y' -> agree (in_row k l w y) (in_row k l w y').
Proof.
  induction l as [|c l IH]; intros w y y' O O' S; cbn [in_row]; [now split|].
  pose proof (process_agree k (t_dt c) (t_steps c) (t_time c) w y y' O O' S) as G.
  destruct (process k (t_dt c) (t_steps c) (t_time c) w y) as [[w1 y1]| | |] eqn:E1, (process k (t_dt c) (t_steps c) (t_time c) w y') as [[w1' y1']| | |] eqn:E2;
    cbn [agree] in G; try contradiction; cbn [bind agree]; auto.
  destruct G as [-> S1]. apply IH; [exact (order_process _ _ _ _ _ _ _ _ O E1)|exact (order_process _ _ _ _ _ _ _ _ O' E2)|exact S1].
Qed.
Lemma turns_low (k : nat -> flavour) l : forall (w : nat -> world tg) (y y0 : nat -> sys tg), (forall i, in_order priv (k i) (w i) (y i)) -> (forall i, in_order priv (k i) (w i) (y0 i)) -> (forall i, same_own (y0 i) (y i)) ->
  match take_turns k l w y with
  | Ok (w', y') => forall i, exists y1, in_row (k i) (own_calls i l) (w i) (y0 i) = Ok (w' i, y1) /\ same_own y1 (y' i) /\ in_order priv (k i) (w' i) (y' i)
  | r => exists i, fails r (in_row (k i) (own_calls i l) (w i) (y0 i))
  end.
Proof.
  induction l as [|c l IH]; intros w y y0 O O0 S; cbn [take_turns].
  - intros i. exists (y0 i). split; [reflexivity|]. split; [apply S|apply O].
  - set (i := t_who c).
    pose proof (process_agree (k i) (t_dt c) (t_steps c) (t_time c) (w i) (y0 i) (y i) (O0 i) (O i) (S i)) as G.
    assert (Ri : in_row (k i) (own_calls i (c :: l)) (w i) (y0 i) =
      let* (w1, y1) := process (k i) (t_dt c) (t_steps c) (t_time c) (w i) (y0 i) in in_row (k i) (own_calls i l) w1 y1).
    { unfold own_calls. cbn [filter]. fold i. rewrite Nat.eqb_refl. reflexivity. }
    destruct (process (k i) (t_dt c) (t_steps c) (t_time c) (w i) (y0 i)) as [[w1 y1]| | |] eqn:E1, (process (k i) (t_dt c) (t_steps c) (t_time c) (w i) (y i)) as [[w1' y1']| | |] eqn:E2;
      cbn [agree] in G; try contradiction; cbn [bind] in *.
    2-4: exists i; rewrite Ri; exact I.
    destruct G as [-> S1]. pose proof (order_process _ _ _ _ _ _ _ _ (O i) E2) as O1. pose proof (order_process _ _ _ _ _ _ _ _ (O0 i) E1) as O01.
    specialize (IH (upd w i w1) (handed y i y1') (upd y0 i y1)).
    assert (R : forall j, in_row (k j) (own_calls j (c :: l)) (w j) (y0 j) = in_row (k j) (own_calls j l) (upd w i w1 j) (upd y0 i y1 j)).
    { intros j. destruct (Nat.eq_dec j i) as [->|N]; [rewrite !upd_same; exact Ri|]. rewrite !upd_other by exact N.
      unfold own_calls. cbn [filter]. fold i. destruct (Nat.eqb_spec i j); [congruence|reflexivity]. }
    assert (G : match take_turns k l (upd w i w1) (handed y i y1') with
      | Ok (w', y') => forall j, exists y2, in_row (k j) (own_calls j l) (upd w i w1 j) (upd y0 i y1 j) = Ok (w' j, y2) /\ same_own y2 (y' j) /\ in_order priv (k j) (w' j) (y' j)
      | r => exists j, fails r (in_row (k j) (own_calls j l) (upd w i w1 j) (upd y0 i y1 j)) end).
    { apply IH; intros j; destruct (Nat.eq_dec j i) as [->|N].
      - rewrite upd_same. unfold handed. now rewrite Nat.eqb_refl.
      - rewrite upd_other by exact N. unfold handed. destruct (Nat.eqb_spec j i); [contradiction|]. eapply order_lent; [apply O|exact O1].
      - now rewrite !upd_same.
      - rewrite !upd_other by exact N. apply O0.
      - rewrite upd_same. unfold handed. now rewrite Nat.eqb_refl.
      - rewrite upd_other by exact N. unfold handed. destruct (Nat.eqb_spec j i); [contradiction|].
        eapply same_trans; [apply S|]. eexists. split; [reflexivity|apply alike_lent]. }
    destruct (take_turns k l (upd w i w1) (handed y i y1')) as [[w' y']| | |].
    + intros j. rewrite R. apply G.
    + destruct G as [j G]. exists j. now rewrite R.
    + destruct G as [j G]. exists j. now rewrite R.
    + destruct G as [j G]. exists j. now rewrite R.
Qed.
Lemma turns_agree (k : nat -> flavour) l (w : nat -> world tg) (y : nat -> sys tg) : (forall i, in_order priv (k i) (w i) (y i)) ->
  match take_turns k l w y with
  | Ok (w', y') => forall i, exists y1, in_row (k i) (own_calls i l) (w i) (y i) = Ok (w' i, y1) /\ same_own y1 (y' i)
  | r => exists i, fails r (in_row (k i) (own_calls i l) (w i) (y i))
  end.
Proof.
  intros O. pose proof (turns_low k l w y y O O (fun i => same_refl (y i))) as G. destruct (take_turns k l w y) as [[w' y']| | |]; try exact G.
  intros i. destruct (G i) as (y1 & E & S & _). eauto.
Qed.
Lemma order_used k w y y' : used_directly priv y y' -> in_order priv k w y -> in_order priv k w y' /\ same_own y y'.
Proof.
  induction 1 as [y|y o hp' y' Ho E U IH]; intros O; [split; [exact O|apply same_refl]|]. destruct IH as [I1 I2].
  - destruct O as ((m & R) & HA & HS & HG). split; [exists m; eapply y_direct; eassumption|]. split; [exact HA|]. split; [exact HS|exact HG].
  - split; [exact I1|]. eapply same_trans; [|exact I2]. eexists. split; [reflexivity|apply alike_lent].
Qed.
Lemma direct_agree k l w y y' : in_order priv k w y -> used_directly priv y y' -> agree (in_row k l w y) (in_row k l w y').
Proof. intros O U. destruct (order_used k w y y' U O) as [O' S]. now apply in_row_agree. Qed.
End S.
