(** * Populating again what a step has just written back changes nothing but
      the accelerations. *)

From Coq Require Import Reals FunctionalExtensionality.
From Verif Require Import Base Targets Matrix Sparse Sle State Ode Forces Constraints System Logic
  MatrixFacts MatrixOps SpecMatrix MatrixHist SparseFacts SpecSparse SparseHist SpecSle SleHist SleGe
  SpecState StateFacts OdeFacts SpecSys SysFrame SysInv SpecDyn DynState DynReact SpecSub SubSim SubOde.
Local Open Scope nat_scope.

Section S.
Context {tg : target}.
Notation st := (sstate tg).
Implicit Types (hp : heap tg) (ms : mats tg) (w : world tg) (y : sys tg) (p q : fld -> nat -> bool) (o : ode tg).

Lemma for_pci {A} (f : nat -> A -> res A) (J : nat -> A -> Prop) n s : J 0 s ->
  (forall i t, i < n -> J i t -> pc (f i t) (J (S i))) -> pc (for_ n f s) (J n).
Proof. intros H0 H. apply (for_from_pci f J n 0 s); [|exact H0]. intros j t Hj. apply H. lia. Qed.

(** ** the state *)
(** masses and row offsets are in place *)
Definition in_place w y (s : st) : Prop :=
  sized s /\ body_count y <= s_n s /\ full_count w y <= s_nc s /\
  (forall i b, nth_error (y_bodies y) i = Some b -> ld s Fm (Z.of_nat i) = Ok (b_f (w_body w b) Bm)) /\
  (forall i, i < con_count y -> nth_error (s_imap s) i = Some (Some (Z.of_nat (offset w y i)))).
Lemma sto_ld (s : st) f i v : pc (sto s f (Z.of_nat i) v) (fun s' => ld s' f (Z.of_nat i) = Ok v /\
  (forall j, j <> i -> ld s' f (Z.of_nat j) = ld s f (Z.of_nat j)) /\ (forall g z, g <> f -> ld s' g z = ld s g z) /\ s_imap s' = s_imap s).
Proof.
  apply pc_intro. intros s' E. unfold sto, aset in E. destruct (Z.ltb_spec (Z.of_nat i) 0); [lia|]. rewrite Nat2Z.id in E.
  destruct (list_set (s_arr s f) i v) as [a|] eqn:Ea; try discriminate. cbn in E. injection E as <-.
  assert (Hl : i < length (s_arr s f)). { destruct (Nat.lt_ge_cases i (length (s_arr s f))); [assumption|]. rewrite list_set_none in Ea by assumption. discriminate. }
  destruct (list_set_some (s_arr s f) i v Hl) as (a' & Ea' & L & N). rewrite Ea in Ea'. injection Ea' as <-.
  unfold ld. cbn [st_with_arr s_arr s_imap]. rewrite fld_eqb_refl, aget_nat, N, Nat.eqb_refl. cbn [lift_opt].
  split; [reflexivity|]. split; [|split; [|reflexivity]].
  - intros j Hj. rewrite !aget_nat, N. now destruct (Nat.eqb_spec j i).
  - intros g z Hg. now rewrite (fld_eqb_neq g f Hg).
Qed.
Lemma populate_in_place w y : sized (y_state y) -> pc (populate_state w y) (in_place w y).
Proof.
  intros H. apply pc_intro. intros s2 E. pose proof (pc_elim _ _ _ E (populate_state_sized w y H)) as (P1 & P2 & P3).
  split; [exact P1|]. split; [exact P2|]. split; [exact P3|]. clear P1 P2 P3.
  pattern s2. apply (pc_elim _ _ _ E). clear E s2. unfold populate_state.
  set (MS := fun k (s : st) => forall i b, i < k -> nth_error (y_bodies y) i = Some b -> ld s Fm (Z.of_nat i) = Ok (b_f (w_body w b) Bm)).
  eapply (pc_seq _ _ (MS (body_count y))).
  { apply (for_pci _ MS); [intros i b Hi; lia|]. intros i t Hi Ht. cbv zeta. unfold nth_body.
    destruct (nth_error (y_bodies y) i) as [b|] eqn:Eb; cbn [lift_opt bind]; [|exact I].
    do 9 (eapply (pc_seq _ _ (MS i)); [apply pc_intro; intros t' Et; pose proof (pc_elim _ _ _ Et (sto_ld _ _ _ _)) as (_ & _ & A & _);
      intros j c Hj Ej; rewrite A by discriminate; match goal with X : MS i _ |- _ => exact (X j c Hj Ej) end|]; clear t Ht; intros t Ht).
    apply pc_intro. intros t' Et. pose proof (pc_elim _ _ _ Et (sto_ld _ _ _ _)) as (A & B & _).
    intros j c Hj Ej. destruct (Nat.eq_dec j i) as [->|Ne].
    - rewrite Eb in Ej. injection Ej as <-. exact A.
    - rewrite B by exact Ne. apply Ht; [lia|exact Ej]. }
  intros s1 H1.
  set (J := fun k (x : st * nat) => MS (body_count y) (fst x) /\ snd x = offset w y k /\
    forall i, i < k -> nth_error (s_imap (fst x)) i = Some (Some (Z.of_nat (offset w y i)))).
  eapply (pc_seq _ _ (J (con_count y))).
  { apply (for_pci _ J); [split; [exact H1|]; split; [reflexivity|intros i Hi; lia]|].
    intros i [t jf] Hi (A & B & D). cbn [fst snd] in *. unfold nth_con. destruct (nth_error (y_cons y) i) as [c|] eqn:Ec; cbn [lift_opt bind]; [|exact I].
    unfold aset. destruct (Z.ltb_spec (Z.of_nat i) 0); [lia|]. rewrite Nat2Z.id.
    destruct (Nat.lt_ge_cases i (length (s_imap t))) as [Hl|Hl]; [|rewrite list_set_none by exact Hl; exact I].
    destruct (list_set_some (s_imap t) i (Some (Z.of_nat jf)) Hl) as (im & E & L & N). rewrite E. cbn [lift_opt bind pc].
    split; [exact A|]. cbn [fst snd]. split; [rewrite B; symmetry; now apply offset_S|].
    intros j Hj. cbn [st_with_imap s_imap]. rewrite N. destruct (Nat.eqb_spec j i) as [->|]; [now rewrite B|apply D; lia]. }
  intros [s2 jf] (A & _ & D). cbn [fst pc] in *. split; [|exact D].
  intros i b Eb. apply A; [|exact Eb]. apply nth_error_lt in Eb. exact Eb.
Qed.

(** writing what is there already *)
Lemma sto_into p (s t : st) f i v : agree p s t -> i < length (s_arr s f) -> (p f i = true -> ld s f (Z.of_nat i) = Ok v) ->
  wp (sto t f (Z.of_nat i) v) (agree p s).
Proof.
  intros H Hl Hv. pose proof H as (A1 & A2 & A3 & A4 & A5 & A6). unfold sto, aset. destruct (Z.ltb_spec (Z.of_nat i) 0); [lia|]. rewrite Nat2Z.id.
  destruct (list_set_some (s_arr t f) i v) as (a & Ea & La & Na); [now rewrite A5|]. rewrite Ea. cbn [lift_opt bind wp].
  do 4 (split; [assumption|]). cbn [st_with_arr s_arr]. split.
  - intros g. destruct (fld_eqb g f) eqn:E; [|apply A5]. apply fld_eqb_eq in E. subst g. now rewrite La.
  - intros g j Hp. destruct (fld_eqb g f) eqn:E; [|now apply A6]. apply fld_eqb_eq in E. subst g. rewrite Na.
    destruct (Nat.eqb_spec j i) as [->|]; [|now apply A6]. specialize (Hv Hp). unfold ld in Hv. rewrite aget_nat in Hv.
    destruct (nth_error (s_arr s f) i); cbn in Hv; congruence.
Qed.
(** the bodies show what the state holds *)
Definition shown w y (s : st) : Prop :=
  forall i b, nth_error (y_bodies y) i = Some b ->
    ld s Fvx (Z.of_nat i) = Ok (b_f (w_body w b) Bvx) /\ ld s Fvy (Z.of_nat i) = Ok (b_f (w_body w b) Bvy) /\
    ld s Fpx (Z.of_nat i) = Ok (b_f (w_body w b) Bpx) /\ ld s Fpy (Z.of_nat i) = Ok (b_f (w_body w b) Bpy) /\
    ld s Fvtheta (Z.of_nat i) = Ok (b_f (w_body w b) Bvtheta) /\ ld s Ftheta (Z.of_nat i) = Ok (b_f (w_body w b) Btheta).
Lemma list_set_same {A} (l : list A) i x : nth_error l i = Some x -> list_set l i x = Some l.
Proof.
  revert i. induction l as [|a l IH]; intros [|i] E; cbn in *; try discriminate; [now injection E as ->|]. now rewrite (IH i E).
Qed.
Lemma repopulate w y (s : st) : y_state y = s -> in_place w y s -> shown w y s -> wp (populate_state w y) (agree (but_accel (body_count y)) s).
Proof.
  intros Es (P1 & P2 & P3 & P4 & P5) Hs. unfold populate_state. rewrite Es.
  assert (Er : st_resize s (body_count y) (full_count w y) = s).
  { unfold st_resize. destruct (Nat.leb_spec (body_count y) (s_n s)), (Nat.leb_spec (full_count w y) (s_nc s)); try lia. reflexivity. }
  rewrite Er. set (N := body_count y) in *.
  assert (Hlen : forall f i, is_reaction f = false -> i < N -> i < length (s_arr s f)).
  { intros f i Hf Hi. destruct P1 as [L _]. rewrite L. unfold room. rewrite Hf. lia. }
  eapply wp_seq.
  { apply (for_inv _ (fun _ => agree (but_accel N) s) _ _ (agree (but_accel N) s)); [apply agree_refl| |auto]. intros i t Hi Ht. cbv zeta. unfold nth_body.
    destruct (nth_error_ex (y_bodies y) i Hi) as [b Eb]. rewrite Eb. cbn [lift_opt bind].
    destruct (Hs i b Eb) as (V1 & V2 & V3 & V4 & V5 & V6). pose proof (P4 i b Eb) as V7.
    assert (Q : forall f, is_accel f = true -> but_accel N f i = true -> False).
    { intros f Hf. unfold but_accel. rewrite Hf. cbn. rewrite Nat.leb_le. lia. }
    do 9 (eapply wp_seq; [eapply sto_into; [eassumption|now apply Hlen|]; first [intros _; assumption|intros X; exfalso; revert X; now apply Q]|]; clear t Ht; intros t Ht).
    eapply sto_into; [eassumption|now apply Hlen|]. intros _; assumption. }
  intros t Ht.
  eapply (wp_seq _ _ (fun x => agree (but_accel N) s (fst x) /\ snd x = offset w y (con_count y))).
  { apply (for_inv _ (fun i x => agree (but_accel N) s (fst x) /\ snd x = offset w y i)); [split; [exact Ht|reflexivity]| |auto]. clear t Ht.
    intros i [t jf] Hi [Ht Ej]. cbn [fst snd] in *. unfold nth_con. destruct (nth_error_ex (y_cons y) i Hi) as [c Ec]. rewrite Ec. cbn [lift_opt bind].
    unfold aset. destruct (Z.ltb_spec (Z.of_nat i) 0); [lia|]. rewrite Nat2Z.id. pose proof Ht as (_ & _ & E & _). rewrite E.
    rewrite (list_set_same _ _ _) by (rewrite Ej; now apply P5). cbn [lift_opt bind wp fst snd].
    split; [|rewrite Ej; symmetry; now apply offset_S]. destruct Ht as (A1 & A2 & A3 & A4 & A5 & A6). now repeat split. }
  intros [t' jf] [X _]. exact X.
Qed.

(** ** writing back *)
Lemma bodies_back_shown w y (s : st) : listed w y -> pc (bodies_back y s w) (fun w' => shown w' y s).
Proof.
  intros HL. unfold bodies_back.
  set (J := fun k (w' : world tg) => forall i b, i < k -> nth_error (y_bodies y) i = Some b ->
    ld s Fvx (Z.of_nat i) = Ok (b_f (w_body w' b) Bvx) /\ ld s Fvy (Z.of_nat i) = Ok (b_f (w_body w' b) Bvy) /\
    ld s Fpx (Z.of_nat i) = Ok (b_f (w_body w' b) Bpx) /\ ld s Fpy (Z.of_nat i) = Ok (b_f (w_body w' b) Bpy) /\
    ld s Fvtheta (Z.of_nat i) = Ok (b_f (w_body w' b) Bvtheta) /\ ld s Ftheta (Z.of_nat i) = Ok (b_f (w_body w' b) Btheta)).
  eapply pc_mono; [apply (for_pci _ J)|].
  - intros i b Hi. lia.
  - intros i t Hi Ht. cbv zeta. destruct (nth_error (y_bodies y) i) as [b|] eqn:Eb; cbn [lift_opt bind]; [|exact I].
    destruct (ld s Fvx _) as [v1| | |] eqn:V1; try exact I. destruct (ld s Fvy _) as [v2| | |] eqn:V2; try exact I.
    destruct (ld s Fpx _) as [v3| | |] eqn:V3; try exact I. destruct (ld s Fpy _) as [v4| | |] eqn:V4; try exact I.
    destruct (ld s Fvtheta _) as [v5| | |] eqn:V5; try exact I. destruct (ld s Ftheta _) as [v6| | |] eqn:V6; try exact I. cbn [bind pc].
    intros j c Hj Ej. cbn [set_body w_body]. unfold upd. destruct (Nat.eqb_spec c b) as [->|Ne].
    + assert (j = i) by (eapply listed_body_inj; eauto). subst j. rewrite V1, V2, V3, V4, V5, V6. now repeat split.
    + apply Ht; [|exact Ej]. assert (j <> i) by (intros ->; congruence). lia.
  - intros w' H i b E. apply H; [|exact E]. apply nth_error_lt in E. exact E.
Qed.
Lemma shown_agree w y p (s s' : st) : calm p -> agree p s s' -> shown w y s -> shown w y s'.
Proof.
  intros C H S i b E. destruct (S i b E) as (A1 & A2 & A3 & A4 & A5 & A6).
  rewrite !(agree_ld p s s' _ _ H) by (now apply C). auto 10.
Qed.

(** ** the mass matrices *)
Lemma overwrite_set (d : list (cell tg)) src a v d' : list_set d a v = Some d' -> a < length src -> overwrite d' src = overwrite d src.
Proof.
  revert d a d'. induction src as [|x src IH]; intros d a d' E L; [cbn in L; lia|].
  destruct d as [|e d]; [destruct a; discriminate|]. destruct a as [|a]; cbn in E.
  - injection E as <-. reflexivity.
  - destruct (list_set d a v) as [l|] eqn:El; [|discriminate]. injection E as <-. cbn. rewrite (IH d a l El); [reflexivity|cbn in L; lia].
Qed.
Lemma overwrite_twice (d : list (cell tg)) src d' : overwrite d src = Some d' -> overwrite d' src = Some d'.
Proof.
  revert d d'. induction src as [|x src IH]; intros d d' E; [now destruct d'|].
  destruct d as [|e d]; [discriminate|]. cbn in E. destruct (overwrite d src) as [l|] eqn:El; [|discriminate]. injection E as <-.
  cbn. now rewrite (IH d l El).
Qed.
Lemma row_ptrs_dims (m m1 : matrix tg) (c n : nat) : for_ n (set_row_ptr c) m = Ok m1 -> m_w m1 = m_w m /\ m_h m1 = m_h m.
Proof.
  intros E. refine (pc_elim _ (fun m1 => m_w m1 = m_w m /\ m_h m1 = m_h m) _ E _). clear E m1. apply for_pc; [|now split].
  intros i t [A B]. unfold set_row_ptr. destruct (list_set _ _ _); cbn; [now split|exact I].
Qed.
Lemma resize_dims (m m1 : matrix tg) (c h : nat) : mat_resize m c h = Ok m1 -> m_w m1 = c /\ m_h m1 = h.
Proof.
  unfold mat_resize. destruct (Nat.eqb_spec c (m_w m)) as [->|]; [destruct (Nat.eqb_spec h (m_h m)) as [->|]|]; cbn [andb]; [now injection 1 as <-| |];
    cbv zeta; intros E; exact (row_ptrs_dims _ _ _ _ E).
Qed.
Lemma init0_again (m m0 : matrix tg) (c h : nat) : mat_init0 m c h = Ok m0 -> mat_init0 m0 c h = Ok m0.
Proof.
  intros E. unfold mat_init0 in E.
  destruct (mat_resize m c h) as [m1| | |] eqn:Em; try discriminate. cbn [bind] in E. destruct (resize_dims _ _ _ _ Em) as [D1 D2].
  destruct (overwrite (m_data m1) (repeat (cofZ 0) (c * h))) as [d|] eqn:Ed; try discriminate. cbn [lift_opt bind] in E. injection E as <-.
  unfold mat_init0, mat_resize. cbn [with_data m_w m_h]. rewrite D1, D2, !Nat.eqb_refl. cbn [andb bind with_data m_data].
  rewrite (overwrite_twice _ _ _ Ed). reflexivity.
Qed.
Lemma init0_set k (m m0 : matrix tg) (c h : nat) f col row v : is_mat k m c h f -> col < c -> row < h -> mat_init0 m c h = Ok m0 ->
  pc (mat_set m col row v) (fun m' => mat_init0 m' c h = Ok m0).
Proof.
  intros (W & Hw & Hh & _) Hc Hr E. apply pc_intro. intros m' E'. unfold mat_set in E'.
  destruct (massert_cases tg (Nat.ltb col (m_w m))) as [X|X]; rewrite X in E'; [|discriminate]. cbn [bind] in E'.
  destruct (massert_cases tg (Nat.ltb row (m_h m))) as [Y|Y]; rewrite Y in E'; [|discriminate]. cbn [bind] in E'.
  unfold raw_set in E'. destruct W as [H1 H2 H3 H4 H5 [pm [H6 _]]]. destruct (H6 row) as [Er Hp]; [lia|]. rewrite Er in E'.
  destruct (list_set (m_data m) (pm row * m_w m + col) v) as [d|] eqn:Ed; try discriminate. cbn [lift_opt bind] in E'. injection E' as <-.
  rewrite <- E. unfold mat_init0, mat_resize. cbn [with_data m_w m_h]. rewrite Hw, Hh, !Nat.eqb_refl. cbn [andb bind with_data m_data].
  rewrite (overwrite_set _ _ _ _ _ Ed); [reflexivity|]. rewrite repeat_length. rewrite Hw. rewrite Hh in Hp. nia.
Qed.
Lemma mset_alike ms ms' id col row v : ms' id = ms id -> rel (mset ms id col row v) (mset ms' id col row v) (fun t t' => t' id = t id /\
  forall i, i <> id -> t i = ms i /\ t' i = ms' i).
Proof.
  intros E. unfold mset. rewrite E. apply rel_any. intros m. cbn. rewrite !upd_same. split; [reflexivity|]. intros i Hi. now rewrite !upd_other by exact Hi.
Qed.
Definition same_masses w w' y : Prop := forall b, In b (y_bodies y) -> b_f (w_body w' b) Bm = b_f (w_body w b) Bm /\ b_f (w_body w' b) BI = b_f (w_body w b) BI.
Lemma mass_again k1 k2 w y w' y' ms ms1 ms2 : wf k1 (ms iM) -> wf k2 (ms iMinv) -> populate_mass w y ms = Ok ms1 ->
  y_bodies y' = y_bodies y -> same_masses w w' y -> ms2 iM = ms1 iM -> ms2 iMinv = ms1 iMinv -> populate_mass w' y' ms2 = Ok ms2.
Proof.
  intros W1 W2 E Eb Em M1 M2. unfold populate_mass in *. unfold body_count in *. rewrite Eb. set (n := length (y_bodies y)) in *.
  destruct (proj1 (wp_ok _ _) (mat_init0_spec k1 (ms iM) 1 (3 * n) W1)) as (a & Ea & Ha).
  destruct (proj1 (wp_ok _ _) (mat_init0_spec k2 (ms iMinv) 1 (3 * n) W2)) as (c & Ec & Hc).
  unfold minit0 at 1 in E. rewrite Ea in E. cbn [bind] in E. unfold minit0 at 1 in E. rewrite upd_other in E by discriminate. rewrite Ec in E. cbn [bind] in E.
  set (ms0 := upd (upd ms iM a) iMinv c) in *.
  match type of E with for_ _ ?b ms0 = _ => set (body := b) in * end.
  set (J := fun t : mats tg => (exists f, is_mat k1 (t iM) 1 (3 * n) f) /\ (exists f, is_mat k2 (t iMinv) 1 (3 * n) f) /\
    mat_init0 (t iM) 1 (3 * n) = Ok a /\ mat_init0 (t iMinv) 1 (3 * n) = Ok c).
  assert (J0 : J ms0).
  { unfold ms0. split; [exists (fun _ _ => cofZ 0); rewrite upd_other, upd_same by discriminate; exact Ha|].
    split; [exists (fun _ _ => cofZ 0); rewrite upd_same; exact Hc|]. rewrite upd_same, upd_other, upd_same by discriminate.
    split; eapply init0_again; eassumption. }
  assert (JM : forall t row v, row < 3 * n -> J t -> pc (mset t iM 0 row v) J).
  { intros t row v Hr ((f & F) & G & X & Y). apply pc_intro. intros t' Et.
    pose proof (wp_inv _ _ _ Et (mset_spec k1 t iM 1 (3 * n) f 0 row v F ltac:(lia) Hr)) as [O F'].
    split; [eauto|]. rewrite (O iMinv) by discriminate. split; [exact G|]. split; [|exact Y].
    unfold mset in Et. destruct (mat_set (t iM) 0 row v) as [m'| | |] eqn:Em'; try discriminate. cbn in Et. injection Et as <-. rewrite upd_same.
    exact (pc_elim _ _ _ Em' (init0_set k1 (t iM) a 1 (3 * n) f 0 row v F ltac:(lia) Hr X)). }
  assert (JI : forall t row v, row < 3 * n -> J t -> pc (mset t iMinv 0 row v) J).
  { intros t row v Hr (G & (f & F) & X & Y). apply pc_intro. intros t' Et.
    pose proof (wp_inv _ _ _ Et (mset_spec k2 t iMinv 1 (3 * n) f 0 row v F ltac:(lia) Hr)) as [O F'].
    split; [rewrite (O iM) by discriminate; exact G|]. split; [eauto|]. rewrite (O iM) by discriminate. split; [exact X|].
    unfold mset in Et. destruct (mat_set (t iMinv) 0 row v) as [m'| | |] eqn:Em'; try discriminate. cbn in Et. injection Et as <-. rewrite upd_same.
    exact (pc_elim _ _ _ Em' (init0_set k2 (t iMinv) c 1 (3 * n) f 0 row v F ltac:(lia) Hr Y)). }
  assert (J1 : J ms1).
  { apply (pc_elim _ _ _ E). eapply pc_mono; [apply (for_pci body (fun _ => J))|]; [exact J0| |auto].
    intros i t Hi Ht. unfold body. apply pc_any; intros b.
    eapply pc_seq; [apply JM; [lia|exact Ht]|]. intros t1 H1. eapply pc_seq; [apply JM; [lia|exact H1]|]. intros t2 H2.
    eapply pc_seq; [apply JM; [lia|exact H2]|]. intros t3 H3. eapply pc_seq; [apply JI; [lia|exact H3]|]. intros t4 H4.
    eapply pc_seq; [apply JI; [lia|exact H4]|]. intros t5 H5. apply JI; [lia|exact H5]. }
  destruct J1 as (_ & _ & Ja & Jc).
  unfold minit0 at 1. rewrite M1, Ja. cbn [bind]. unfold minit0 at 1. rewrite upd_other by discriminate. rewrite M2, Jc. cbn [bind].
  set (ms3 := upd (upd ms2 iM a) iMinv c). match goal with |- for_ _ ?b _ = _ => set (body' := b) end.
  set (R := fun t t' : mats tg => t' iM = t iM /\ t' iMinv = t iMinv /\ forall i, i <> iM -> i <> iMinv -> t' i = ms2 i).
  assert (RM : forall id (t t' : mats tg) row v, id = iM \/ id = iMinv -> R t t' -> rel (mset t id 0 row v) (mset t' id 0 row v) R).
  { intros id t t' row v Hid (A & B & C). eapply rel_mono; [apply mset_alike; destruct Hid as [->| ->]; assumption|].
    intros u u' [U V]. split; [|split].
    - destruct (Nat.eq_dec iM id) as [<-|Ne]; [exact U|]. destruct (V iM Ne) as [-> ->]. exact A.
    - destruct (Nat.eq_dec iMinv id) as [<-|Ne]; [exact U|]. destruct (V iMinv Ne) as [-> ->]. exact B.
    - intros i X Y. assert (Ne : i <> id) by (destruct Hid as [->| ->]; assumption). rewrite (proj2 (V i Ne)). now apply C. }
  assert (RR : rel (for_ n body ms0) (for_ n body' ms3) R).
  { apply (for_rel body body' (fun _ => R)).
    - unfold ms0, ms3. split; [now rewrite !upd_other, !upd_same by discriminate|]. split; [now rewrite !upd_same|].
      intros i X Y. now rewrite !upd_other by assumption.
    - intros i t t' Hi Ht. unfold body, body', nth_body. rewrite Eb. destruct (nth_error (y_bodies y) i) as [b|] eqn:Enb; cbn [lift_opt bind]; [|exact I].
      destruct (Em b) as [-> ->]; [eapply nth_error_In; eauto|].
      do 5 (eapply rel_bind; [apply RM; [auto|eassumption]|]; intros ? ? ?). apply RM; auto. }
  rewrite E in RR. destruct (for_ n body' ms3) as [ms4| | |]; cbn in RR; try contradiction. destruct RR as (A & B & C). f_equal.
  extensionality i. destruct (Nat.eq_dec i iM) as [->|N1]; [congruence|]. destruct (Nat.eq_dec i iMinv) as [->|N2]; [congruence|]. now apply C.
Qed.
End S.
