(** * Calls that advance nothing, and numbers that are not finite. *)

From Coq Require Import Reals.
From Coq Require Import Floats.SpecFloat.
From Verif Require Import Base Targets Matrix Sparse Sle State Ode Forces Constraints System Logic
  MatrixFacts MatrixOps SpecMatrix MatrixHist SparseFacts SpecSparse SparseHist SpecSle SleHist SleGe
  SpecState StateFacts SpecForces SpecOde OdeFacts SpecSys RegFacts SysFrame SysInv SysColumn SpecDyn DynState DynReact DynRound DynStep DynReady
  SpecRk RkStep RkOwn RkReal SpecSafe SafeStep SpecIdle.
Local Open Scope nat_scope.

Section S.
Context {tg : target}.
Variable priv : nat -> bool.
(** ** no sub-steps *)
Lemma no_steps k m (dt : cell tg) t w y : yreach k priv m w y -> attached w y -> shaped w y -> all_gentle w y ->
  exists w' y', process k dt 0 t w y = Ok (w', y') /\ arrives w' y (kin_of w).
Proof.
  intros H HA HS HG. pose proof (yreach_inv priv _ m w y H) as (Hh & Hs & Hl & Hk). pose proof (proj1 (profiling _ _ _ _ _ H)) as Hf.
  pose proof (reach_nice priv _ _ _ _ H HA HS HG) as (_ & HL & _).
  pose proof (populate_state_presents w y Hs HS) as X. apply wp_ok in X. destruct X as (s0 & E0 & h0 & P0).
  set (y0 := with_state y s0).
  pose proof (populate_mass_spec false w y0 (hm (y_heap y0)) ltac:(eapply wf_weaken; apply Hh) ltac:(eapply wf_weaken; apply Hh)) as X. apply wp_ok in X.
  destruct X as (ms & Em & _).
  assert (R : forall at_, (forall i k, k < 2 -> at_ i k <= i * 2 + k) -> exists w2, (let* w := bodies_back y s0 w in forces_back at_ y s0 w) = Ok w2 /\ arrives w2 y (kin_of w)).
  { intros at_ Ha. pose proof (propagate_tells w y (kin_of w) h0 s0 at_ (fun d c j k => ldc s0 (reaf d) (at_ (row0 w y c + j) k)) HL HS P0) as X. apply wp_ok in X.
    - destruct X as (w2 & E2 & B2 & _). eauto.
    - intros c j p Hc Hj Hp. split; [|reflexivity]. destruct P0 as (Q1 & Q2 & Q3 & _). apply In_nth_error in Hc. destruct Hc as [i Ei].
      destruct (HS c (nth_error_In _ _ Ei)) as [_ B2]. pose proof (Ha (row0 w y c + j) p ltac:(lia)) as X9. rewrite (row0_at w y i c HL Ei) in X9 |- *.
      pose proof (row_lt w y i c j Ei Hj). lia. }
  destruct k; cbn [process]; unfold opt_process, gen_process; rewrite E0; cbn [bind]; fold y0; rewrite Em; cbn [bind].
  - destruct (Hk eq_refl) as (o & Eo & _). change (the_ode y0) with (the_ode y). unfold the_ode. rewrite Eo. cbn [bind].
    unfold ode_steps, for_. cbn [for_from Nat.sub bind]. set (y1 := with_ode _ _).
    destruct (R (fun i k => i * 2 + k)) as (w2 & E2 & B2); [lia|]. unfold opt_propagate.
    change (let* w := bodies_back y1 s0 w in forces_back (fun i_f k => i_f * 2 + k) y1 s0 w) with (let* w := bodies_back y s0 w in forces_back (fun i_f k => i_f * 2 + k) y s0 w).
    rewrite E2. cbn [bind]. destruct (record_ok y1 t Hf) as [y2 E3]. rewrite E3. cbn [bind]. eauto.
  - set (y1 := with_heap _ _). destruct (R (fun i k => i)) as (w2 & E2 & B2); [lia|]. unfold gen_propagate.
    change (let* w := bodies_back y1 s0 w in forces_back (fun i_f _ => i_f) y1 s0 w) with (let* w := bodies_back y s0 w in forces_back (fun i_f _ => i_f) y s0 w).
    rewrite E2. cbn [bind]. destruct (record_ok y1 t Hf) as [y2 E3]. rewrite E3. cbn [bind]. eauto.
Qed.
End S.

(** ** numbers that are not finite *)
Section F.
Variables (dbg : bool) (sn cs : spec_float -> option spec_float).
Notation T := (F64_trig dbg sn cs).
Notation cl := (cell T).
Lemma add_endless (x z : spec_float) : endless x -> endless (SFadd 53 1024 x z).
Proof. destruct x as [s|s| |s m e]; try contradiction; destruct z as [s'|s'| |s' m' e']; intros _; cbn; try exact I; destruct (Bool.eqb s s'); exact I. Qed.
Lemma add_endless_r (x z : spec_float) : endless z -> endless (SFadd 53 1024 x z).
Proof. destruct z as [s|s| |s m e]; try contradiction; destruct x as [s'|s'| |s' m' e']; intros _; cbn; try exact I; destruct (Bool.eqb _ _); exact I. Qed.
Lemma mul_endless (x z : spec_float) : endless x -> endless (SFmul 53 1024 x z).
Proof. destruct x as [s|s| |s m e]; try contradiction; destruct z as [s'|s'| |s' m' e']; intros _; exact I. Qed.
Lemma mul_endless_r (x z : spec_float) : endless z -> endless (SFmul 53 1024 x z).
Proof. destruct z as [s|s| |s m e]; try contradiction; destruct x as [s'|s'| |s' m' e']; intros _; exact I. Qed.
Lemma cadd_lost (x z : cl) : lost x -> lost (cadd x z).
Proof. destruct x as [x|], z as [z|]; cbn; auto. apply add_endless. Qed.
Lemma cadd_lost_r (x z : cl) : lost z -> lost (cadd x z).
Proof. destruct x as [x|], z as [z|]; cbn; auto. apply add_endless_r. Qed.
Lemma cmul_lost (x z : cl) : lost x -> lost (cmul x z).
Proof. destruct x as [x|], z as [z|]; cbn; auto. apply mul_endless. Qed.
Lemma cmul_lost_r (x z : cl) : lost z -> lost (cmul x z).
Proof. destruct x as [x|], z as [z|]; cbn; auto. apply mul_endless_r. Qed.
Lemma cadd_nan (x z : cl) : not_number x -> not_number (cadd x z).
Proof. destruct x as [x|], z as [z|]; cbn; auto. intros ->. reflexivity. Qed.
Lemma cadd_nan_r (x z : cl) : not_number z -> not_number (cadd x z).
Proof. destruct x as [x|], z as [z|]; cbn; auto. intros ->. now destruct x. Qed.
Lemma cmul_nan (x z : cl) : not_number x -> not_number (cmul x z).
Proof. destruct x as [x|], z as [z|]; cbn; auto. intros ->. reflexivity. Qed.

Lemma cmul_nan_r (x z : cl) : not_number z -> not_number (cmul x z).
Proof. destruct x as [x|], z as [z|]; cbn; auto. intros ->. now destruct x. Qed.

(** sums and products with such a number are of the kind again *)
Definition sticky (P : cl -> Prop) : Prop :=
  (forall x z, P x -> P (cadd x z)) /\ (forall x z, P z -> P (cadd x z)) /\ (forall x z, P x -> P (cmul x z)) /\ (forall x z, P z -> P (cmul x z)).
Lemma lost_sticky : sticky lost.
Proof. split; [exact cadd_lost|]. split; [exact cadd_lost_r|]. split; [exact cmul_lost|exact cmul_lost_r]. Qed.
Lemma nan_sticky : sticky not_number.
Proof. split; [exact cadd_nan|]. split; [exact cadd_nan_r|]. split; [exact cmul_nan|exact cmul_nan_r]. Qed.
Definition keeps (P : cl -> Prop) (w w' : world T) b d n : Prop :=
  (P (b_pos (w_body w b) d) -> P (b_pos (w_body w' b) d)) /\
  (P (b_vel (w_body w b) d) -> P (b_vel (w_body w' b) d) /\ (0 < n -> P (b_pos (w_body w' b) d))).
Lemma motion_keeps (P : cl -> Prop) z (w : world T) y h n K F b d : sticky P ->
  motion z w y h n (kin_of w) K F -> In b (y_bodies y) -> d < 3 ->
  (P (b_pos (w_body w b) d) -> P (k_q K b d)) /\ (P (b_vel (w_body w b) d) -> P (k_v K b d) /\ (0 < n -> P (k_q K b d))).
Proof.
  intros (A1 & A2 & A3 & _) (Ks & fs & Fs & E0 & En & HM & _) Hb Hd. subst K.
  assert (G : forall i, i <= n -> (P (b_pos (w_body w b) d) -> P (k_q (Ks i) b d)) /\ (P (b_vel (w_body w b) d) -> P (k_v (Ks i) b d) /\ (0 < i -> P (k_q (Ks i) b d)))).
  { induction i as [|i IH]; intros Hi.
    - rewrite E0. cbn [kin_of k_q k_v]. split; [auto|]. intros HP. split; [exact HP|lia].
    - destruct IH as [I1 I2]; [lia|]. destruct (HM i ltac:(lia)) as (_ & (_ & MV) & _). destruct (MV b d Hb Hd) as [E1 E2]. split.
      + intros HP. rewrite E2. apply A1. auto.
      + intros HP. destruct (I2 HP) as [I3 I4]. assert (V : P (k_v (Ks (S i)) b d)) by (rewrite E1; now apply A1). split; [exact V|]. intros _. rewrite E2. apply A2. apply A3. now destruct z. }
  apply G. lia.
Qed.
Lemma blend_keeps (P : cl -> Prop) h x x1 x2 x3 x4 : sticky P -> P x -> P (blend h x x1 x2 x3 x4).
Proof. intros (A1 & _) Hx. unfold blend. now repeat apply A1. Qed.
Lemma blend_keeps_1 (P : cl -> Prop) h x x1 x2 x3 x4 : sticky P -> P x1 -> P (blend h x x1 x2 x3 x4).
Proof. intros (A1 & A2 & A3 & A4) Hx. unfold blend. do 3 apply A1. apply A2, A3, A4, Hx. Qed.
Lemma rk_keeps (P : cl -> Prop) A (w : world T) h n K b d : sticky P -> rk_motion A h n (kin_of w) K ->
  (P (b_pos (w_body w b) d) -> P (k_q K b d)) /\ (P (b_vel (w_body w b) d) -> P (k_v K b d) /\ (0 < n -> P (k_q K b d))).
Proof.
  intros HP (Ks & E0 & En & HM). subst K.
  assert (G : forall i, i <= n -> (P (b_pos (w_body w b) d) -> P (k_q (Ks i) b d)) /\ (P (b_vel (w_body w b) d) -> P (k_v (Ks i) b d) /\ (0 < i -> P (k_q (Ks i) b d)))).
  { induction i as [|i IH]; intros Hi.
    - rewrite E0. cbn [kin_of k_q k_v]. split; [auto|]. intros X. split; [exact X|lia].
    - destruct IH as [I1 I2]; [lia|]. destruct (HM i ltac:(lia)) as (a1 & a2 & a3 & a4 & _ & _ & _ & _ & ->). cbn [k_q k_v]. split.
      + intros X. apply blend_keeps; auto.
      + intros X. destruct (I2 X) as [I3 _]. split; [now apply blend_keeps|]. intros _. now apply blend_keeps_1. }
  apply G. lia.
Qed.
Variable priv : nat -> bool.
Lemma process_keeps (P : cl -> Prop) k m (dt : cl) n t (w : world T) y w' y' b d : sticky P ->
  yreach k priv m w y -> attached w y -> shaped w y -> all_gentle w y -> integrates k y ->
  process k dt n t w y = Ok (w', y') -> In b (y_bodies y) -> d < 3 -> keeps P w w' b d n.
Proof.
  intros HP H HA HS HG [[z U]|[-> U]] E Hb Hd; unfold keeps.
  - assert (G : exists K F, motion z w y (cdiv dt (cofZ (Z.of_nat n))) n (kin_of w) K F /\ arrives w' y K).
    { destruct k; cbn [uses] in U.
      - subst z. destruct (opt_motion priv m dt n t w y w' y' H HA HS HG E) as (K & F & M & A & _). eauto.
      - exact (gen_motion priv z m dt n t w y w' y' H HA HS HG U E). }
    destruct G as (K & F & M & A). destruct (A b d Hb Hd) as [-> ->]. eapply motion_keeps; eauto.
  - assert (NB : y_bodies y <> []) by (intros X; rewrite X in Hb; destruct Hb).
    pose proof (reach_nice priv _ _ _ _ H HA HS HG) as HN. destruct HN as (Hl & HL & _).
    destruct (rk_runs priv (fun _ _ _ _ => True) m dt n t w y w' y' H HA HS HG U NB (fun s0 h => gen_evaluates priv w (with_state y s0) h Hl HL HA HS) E) as (K & M & A).
    destruct (A b d Hb Hd) as [-> ->]. eapply rk_keeps; eauto.
Qed.
Lemma process_lost k m (dt : cl) n t (w : world T) y w' y' b d :
  yreach k priv m w y -> attached w y -> shaped w y -> all_gentle w y -> integrates k y ->
  process k dt n t w y = Ok (w', y') -> In b (y_bodies y) -> d < 3 ->
  (lost (b_pos (w_body w b) d) -> lost (b_pos (w_body w' b) d)) /\
  (lost (b_vel (w_body w b) d) -> lost (b_vel (w_body w' b) d) /\ (0 < n -> lost (b_pos (w_body w' b) d))).
Proof. apply process_keeps. exact lost_sticky. Qed.
(** ** several calls of a system in which everything is set *)
Hypothesis TA : total_arithmetic T.
Lemma determinate_integrates k m (w : world T) y : yreach k priv m w y -> integrator_set priv k y -> integrates k y.
Proof.
  intros HR HI. destruct k; cbn [integrator_set] in HI; [left; exists Symplectic; reflexivity|]. destruct HI as [(z & h & Eo)|(HO & r & Eo)].
  - left. exists z, h. exact Eo.
  - right. split; [reflexivity|]. destruct (lone_rk priv m w y r HR HO Eo) as (Zi & Za & _). exists r. auto.
Qed.
Lemma determinate_nice k (w : world T) y : all_determinate k w y -> attached w y /\ shaped w y /\ all_gentle w y.
Proof.
  intros ((_ & HC & HA & HG & _) & _). split; [exact HA|]. split.
  - intros c Hc. pose proof (con_shape _ (HC c Hc)). lia.
  - intros g Hg. specialize (HG g Hg). destruct (g_kind (w_gen w g)); cbn in *; auto; contradiction.
Qed.
Lemma calls_keep (P : cl -> Prop) k b d : sticky P -> d < 3 -> forall l m (w : world T) y w' y', yreach k priv m w y -> integrator_set priv k y -> all_determinate k w y ->
  Forall (fun x => defined (fst (fst x)) /\ 0 < snd (fst x)) l -> In b (y_bodies y) -> process_all k l w y = Ok (w', y') ->
  (P (b_pos (w_body w b) d) -> P (b_pos (w_body w' b) d)) /\ (P (b_vel (w_body w b) d) -> P (b_vel (w_body w' b) d) /\ (l <> [] -> P (b_pos (w_body w' b) d))).
Proof.
  intros HP Hd. induction l as [|[[dt n] t] l IH]; intros m w y w' y' HR HI HD HF Hb E; cbn [process_all] in E.
  { injection E as <- <-. split; [auto|]. intros X. split; [exact X|]. now intros []. }
  inversion HF as [|x l' [Hd' Hn] HF' E']; subst. cbn [fst snd] in *.
  destruct (process k dt n t w y) as [[w1 y1]| | |] eqn:E1; cbn [bind] in E; try discriminate.
  destruct (determinate_nice k w y HD) as (HA & HS & HG).
  destruct (process_keeps P k m dt n t w y w1 y1 b d HP HR HA HS HG (determinate_integrates k m w y HR HI) E1 Hb Hd) as [K1 K2].
  destruct (process_again TA priv k m dt n t w y w1 y1 HR HI HD Hd' Hn E1) as ((m' & HR') & A & B).
  pose proof (process_alone _ _ _ _ _ _ _ _ E1) as ((Q1 & _) & _).
  destruct (IH m' w1 y1 w' y' HR' A B HF' ltac:(now rewrite Q1) E) as [J1 J2]. split; [auto|]. intros X. destruct (K2 X) as [K3 K4]. split; [now apply J2|]. intros _. apply J1. now apply K4.
Qed.
Lemma calls_set k b d : d < 3 -> forall l m (w : world T) y w' y', yreach k priv m w y -> integrator_set priv k y -> all_determinate k w y ->
  Forall (fun x => defined (fst (fst x)) /\ 0 < snd (fst x)) l -> In b (y_bodies y) -> process_all k l w y = Ok (w', y') ->
  defined (b_pos (w_body w' b) d) /\ defined (b_vel (w_body w' b) d).
Proof.
  intros Hd. induction l as [|[[dt n] t] l IH]; intros m w y w' y' HR HI HD HF Hb E; cbn [process_all] in E.
  { injection E as <- <-. destruct HD as ((HB & _) & _). destruct (HB b Hb d Hd) as (? & ? & _). auto. }
  inversion HF as [|x l' [Hd' Hn] HF' E']; subst. cbn [fst snd] in *.
  destruct (process k dt n t w y) as [[w1 y1]| | |] eqn:E1; cbn [bind] in E; try discriminate.
  destruct (process_again TA priv k m dt n t w y w1 y1 HR HI HD Hd' Hn E1) as ((m' & HR') & A & B).
  pose proof (process_alone _ _ _ _ _ _ _ _ E1) as ((Q1 & _) & _).
  eapply (IH m' w1 y1); eauto. now rewrite Q1.
Qed.
Lemma calls_nan k b d l m (w : world T) y w' y' : yreach k priv m w y -> integrator_set priv k y -> all_determinate k w y ->
  Forall (fun x => defined (fst (fst x)) /\ 0 < snd (fst x)) l -> In b (y_bodies y) -> d < 3 -> process_all k l w y = Ok (w', y') -> let nan := (Some S754_nan : cl) in
  (b_pos (w_body w b) d = nan -> b_pos (w_body w' b) d = nan) /\
  (b_vel (w_body w b) d = nan -> b_vel (w_body w' b) d = nan /\ (l <> [] -> b_pos (w_body w' b) d = nan)).
Proof.
  intros HR HI HD HF Hb Hd E nan. destruct (calls_keep not_number k b d nan_sticky Hd l m w y w' y' HR HI HD HF Hb E) as [K1 K2].
  destruct (calls_set k b d Hd l m w y w' y' HR HI HD HF Hb E) as [D1 D2].
  assert (G : forall x : cl, defined x -> not_number x -> x = nan). { intros [x|] X1 X2; [|now elim X1]. cbn in X2. now subst x. }
  split.
  - intros X. apply G; [exact D1|]. apply K1. rewrite X. reflexivity.
  - intros X. destruct K2 as [K2 K3]; [rewrite X; reflexivity|]. split; [now apply G|]. intros Hl. apply G; [exact D1|now apply K3].
Qed.
End F.
