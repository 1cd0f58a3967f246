(** * Any collection of objects can be put into a system. *)

From Coq Require Import Reals.
From Verif Require Import Base Targets Matrix Sparse Sle State Ode Forces Constraints System Logic MatrixFacts SleHist SysInv SpecSle SpecSys.
Local Open Scope nat_scope.

Section S.
Context {tg : target}.
Variable priv : nat -> bool.
Implicit Types (w : world tg) (y : sys tg) (m : books tg).

(** the same objects but for their indices *)
Definition same_objects w w' : Prop :=
  (forall b, b_f (w_body w' b) = b_f (w_body w b)) /\
  (forall c, c_kind (w_con w' c) = c_kind (w_con w c) /\ c_bodycount (w_con w' c) = c_bodycount (w_con w c) /\
     c_bodies (w_con w' c) = c_bodies (w_con w c) /\ c_count (w_con w' c) = c_count (w_con w c)) /\
  (forall g, g_kind (w_gen w' g) = g_kind (w_gen w g)).
Lemma same_objects_trans w w1 w2 : same_objects w w1 -> same_objects w1 w2 -> same_objects w w2.
Proof.
  intros (A & B & C) (A1 & B1 & C1). split; [|split].
  - intros b. now rewrite A1.
  - intros c. destruct (B c) as (E1 & E2 & E3 & E4), (B1 c) as (F1 & F2 & F3 & F4). repeat split; congruence.
  - intros g. now rewrite C1.
Qed.
Lemma same_set_body w b i : same_objects w (set_body w b (b_set_index (w_body w b) i)).
Proof.
  split; [|split]; auto. intros x. cbn. unfold upd. destruct (Nat.eqb_spec x b); [subst|]; reflexivity.
Qed.
Lemma same_set_con w b i : same_objects w (set_con w b (con_set_index (w_con w b) i)).
Proof.
  split; [|split]; auto. intros x. cbn. unfold upd. destruct (Nat.eqb_spec x b); [subst|]; repeat split; reflexivity.
Qed.
Lemma same_set_gen w b i : same_objects w (set_gen w b (gen_set_index (w_gen w b) i)).
Proof.
  split; [|split]; auto. intros x. cbn. unfold upd. destruct (Nat.eqb_spec x b); [subst|]; reflexivity.
Qed.

(** the other members of a system *)
Definition same_rest y y' : Prop := y_sle y' = y_sle y /\ y_ode y' = y_ode y /\ y_bias y' = y_bias y /\ y_state y' = y_state y /\ y_heap y' = y_heap y.
Lemma same_rest_trans y y1 y2 : same_rest y y1 -> same_rest y1 y2 -> same_rest y y2.
Proof. unfold same_rest. intuition congruence. Qed.

Lemma add_bodies k bs : forall m w y, yreach k priv m w y -> NoDup bs -> (forall b, In b bs -> in_body m b = false) ->
  exists m' w' y', yreach k priv m' w' y' /\ same_objects w w' /\ same_rest y y' /\ y_bodies y' = y_bodies y ++ bs /\ y_cons y' = y_cons y /\ y_gens y' = y_gens y /\
    in_con m' = in_con m /\ in_gen m' = in_gen m.
Proof.
  induction bs as [|b bs IH]; intros m w y H N F.
  - exists m, w, y. split; [exact H|]. split; [repeat split|]. split; [repeat split|]. rewrite app_nil_r. auto.
  - inversion N as [|? ? N1 N2]; subst. destruct (add_body w y b) as [w1 y1] eqn:E.
    destruct (IH _ w1 y1 (y_add_body priv k m w y b w1 y1 H (F b (or_introl eq_refl)) E) N2) as (m' & w' & y' & A & B & C & D1 & D2 & D3 & D4 & D5).
    { intros x Hx. cbn. unfold upd. destruct (Nat.eqb_spec x b); [subst; contradiction|]. apply F. now right. }
    injection E as <- <-. exists m', w', y'. split; [exact A|]. split; [eapply same_objects_trans; [apply same_set_body|exact B]|].
    split; [eapply same_rest_trans; [|exact C]; repeat split|]. cbn in D1. rewrite <- app_assoc in D1. auto.
Qed.
Lemma add_cons k bs : forall m w y, yreach k priv m w y -> NoDup bs -> (forall b, In b bs -> in_con m b = false) ->
  exists m' w' y', yreach k priv m' w' y' /\ same_objects w w' /\ same_rest y y' /\ y_bodies y' = y_bodies y /\ y_cons y' = y_cons y ++ bs /\ y_gens y' = y_gens y /\
    in_gen m' = in_gen m.
Proof.
  induction bs as [|b bs IH]; intros m w y H N F.
  - exists m, w, y. split; [exact H|]. split; [repeat split|]. split; [repeat split|]. rewrite app_nil_r. auto.
  - inversion N as [|? ? N1 N2]; subst. destruct (add_con w y b) as [w1 y1] eqn:E.
    destruct (IH _ w1 y1 (y_add_con priv k m w y b w1 y1 H (F b (or_introl eq_refl)) E) N2) as (m' & w' & y' & A & B & C & D1 & D2 & D3 & D4).
    { intros x Hx. cbn. unfold upd. destruct (Nat.eqb_spec x b); [subst; contradiction|]. apply F. now right. }
    injection E as <- <-. exists m', w', y'. split; [exact A|]. split; [eapply same_objects_trans; [apply same_set_con|exact B]|].
    split; [eapply same_rest_trans; [|exact C]; repeat split|]. cbn in D2. rewrite <- app_assoc in D2. auto.
Qed.
Lemma add_gens k bs : forall m w y, yreach k priv m w y -> NoDup bs -> (forall b, In b bs -> in_gen m b = false) ->
  exists m' w' y', yreach k priv m' w' y' /\ same_objects w w' /\ same_rest y y' /\ y_bodies y' = y_bodies y /\ y_cons y' = y_cons y /\ y_gens y' = y_gens y ++ bs.
Proof.
  induction bs as [|b bs IH]; intros m w y H N F.
  - exists m, w, y. split; [exact H|]. split; [repeat split|]. split; [repeat split|]. rewrite app_nil_r. auto.
  - inversion N as [|? ? N1 N2]; subst. destruct (add_gen w y b) as [w1 y1] eqn:E.
    destruct (IH _ w1 y1 (y_add_gen priv k m w y b w1 y1 H (F b (or_introl eq_refl)) E) N2) as (m' & w' & y' & A & B & C & D1 & D2 & D3).
    { intros x Hx. cbn. unfold upd. destruct (Nat.eqb_spec x b); [subst; contradiction|]. apply F. now right. }
    injection E as <- <-. exists m', w', y'. split; [exact A|]. split; [eapply same_objects_trans; [apply same_set_gen|exact B]|].
    split; [eapply same_rest_trans; [|exact C]; repeat split|]. cbn in D3. rewrite <- app_assoc in D3. auto.
Qed.

Lemma assembled_from k w l o bs cs gs : solver_apart priv l -> NoDup bs -> NoDup cs -> NoDup gs ->
  exists m w' y, yreach k priv m w' y /\ same_objects w w' /\ y_bodies y = bs /\ y_cons y = cs /\ y_gens y = gs /\ y_sle y = Some l /\
    y_ode y = Some (match k with Optimized => OdeNsv (cofZ 0) | Generic => o end) /\ y_bias y = cofZ 1 /\
    m_h (hm (y_heap y) ilambda) = 0 /\ exists y0, initialize k (created k) l o = Ok y0 /\ same_rest y0 y.
Proof.
  intros Hl N1 N2 N3.
  assert (I : exists y0, initialize k (created k) l o = Ok y0 /\ y_sle y0 = Some l /\
    y_ode y0 = Some (match k with Optimized => OdeNsv (cofZ 0) | Generic => o end) /\ y_bias y0 = (cofZ 1 : cell tg) /\
    y_bodies y0 = [] /\ y_cons y0 = [] /\ y_gens y0 = [] /\ m_h (hm (y_heap y0) ilambda) = 0).
  { destruct k; [eexists; split; [reflexivity|]; repeat split|].
    assert (Q : hinv priv (y_heap (sys_new None : sys tg))).
    { split; [intros id; apply MatrixFacts.wf_new|intros id; apply SparseFacts.swf_new]. }
    pose proof (minit0_spec (priv ilambda) (hm (y_heap (sys_new None : sys tg))) ilambda 0 0 (proj1 Q ilambda)) as W. apply wp_ok in W.
    destruct W as (ms & E & _ & (_ & _ & Eh & _)). exists (with_heap (with_ode (with_sle (created Generic) (Some l)) (Some o)) (with_hm (y_heap (created Generic)) ms)).
    split; [|repeat split; exact Eh]. cbn [initialize]. unfold gen_initialize.
    change (y_heap (with_ode (with_sle (created Generic) (Some l)) (Some o))) with (y_heap (sys_new None : sys tg)). now rewrite E. }
  destruct I as (y0 & E0 & A1 & A2 & A3 & A4 & A5 & A6 & A7).
  pose proof (y_initialize priv k _ w _ l o y0 (y_created priv k w) Hl E0) as H0.
  destruct (add_bodies k bs _ _ _ H0 N1 ltac:(reflexivity)) as (m1 & w1 & y1 & H1 & S1 & R1 & B1 & C1 & G1 & I1 & J1).
  destruct (add_cons k cs _ _ _ H1 N2) as (m2 & w2 & y2 & H2 & S2 & R2 & B2 & C2 & G2 & J2). { intros b _. now rewrite I1. }
  destruct (add_gens k gs _ _ _ H2 N3) as (m3 & w3 & y3 & H3 & S3 & R3 & B3 & C3 & G3). { intros b _. now rewrite J2, J1. }
  exists m3, w3, y3. split; [exact H3|]. split; [eapply same_objects_trans; [exact S1|]; eapply same_objects_trans; eassumption|].
  assert (R : same_rest y0 y3) by (eapply same_rest_trans; [exact R1|]; eapply same_rest_trans; eassumption).
  pose proof R as (R4 & R5 & R6 & _ & R7). rewrite B3, B2, B1, A4, C3, C2, C1, A5, G3, G2, G1, A6, R4, R5, R6, R7. do 7 (split; [assumption || reflexivity|]). exists y0. split; assumption.
Qed.
Lemma assembled_fresh k w l o bs cs gs : solver_apart priv l -> NoDup bs -> NoDup cs -> NoDup gs ->
  exists m w' y, yreach k priv m w' y /\ same_objects w w' /\ y_bodies y = bs /\ y_cons y = cs /\ y_gens y = gs /\ y_sle y = Some l /\
    y_ode y = Some (match k with Optimized => OdeNsv (cofZ 0) | Generic => o end) /\ y_bias y = cofZ 1 /\
    m_h (hm (y_heap y) ilambda) = 0.
Proof.
  intros A B C D. destruct (assembled_from k w l o bs cs gs A B C D) as (m & w' & y & X). exists m, w', y. intuition.
Qed.
Lemma assembled k w l o bs cs gs : solver_apart priv l -> NoDup bs -> NoDup cs -> NoDup gs ->
  exists m w' y, yreach k priv m w' y /\ same_objects w w' /\ y_bodies y = bs /\ y_cons y = cs /\ y_gens y = gs /\ y_sle y = Some l /\
    y_ode y = Some (match k with Optimized => OdeNsv (cofZ 0) | Generic => o end) /\ y_bias y = cofZ 1.
Proof.
  intros A B C D. destruct (assembled_fresh k w l o bs cs gs A B C D) as (m & w' & y & X). exists m, w', y. intuition.
Qed.
End S.
