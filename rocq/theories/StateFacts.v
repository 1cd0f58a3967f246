(** * Lemmas about SystemState storage. *)

From Coq Require Import Reals.
From Verif Require Import Base Targets State Logic SpecState.
Local Open Scope nat_scope.

Lemma fld_eqb_eq f g : fld_eqb f g = true <-> f = g.
Proof. destruct f, g; cbn; split; congruence. Qed.
Lemma fld_eqb_refl f : fld_eqb f f = true.
Proof. now apply fld_eqb_eq. Qed.
Lemma fld_eqb_neq f g : f <> g -> fld_eqb f g = false.
Proof. intros N. destruct (fld_eqb f g) eqn:E; [apply fld_eqb_eq in E; contradiction|reflexivity]. Qed.

Section S.
Context {tg : target}.
Notation st := (sstate tg).

(** ** arrays *)
Lemma aget_ok {A} (a : list A) z x : aget a z = Ok x <-> (0 <= z)%Z /\ nth_error a (Z.to_nat z) = Some x.
Proof.
  unfold aget. destruct (Z.ltb_spec z 0).
  - split; [discriminate|intros [? _]; lia].
  - unfold lift_opt. destruct (nth_error a (Z.to_nat z)); split; intros E; try discriminate; try (now destruct E); try (inversion E; subst).
    + split; [lia|reflexivity].
    + inversion H1. reflexivity.
Qed.
Lemma aget_nat {A} (a : list A) i : aget a (Z.of_nat i) = lift_opt (nth_error a i).
Proof. unfold aget. destruct (Z.ltb_spec (Z.of_nat i) 0); [lia|]. now rewrite Nat2Z.id. Qed.
Lemma aget_ex {A} (a : list A) i : i < length a -> exists x, aget a (Z.of_nat i) = Ok x.
Proof. intros H. rewrite aget_nat. destruct (nth_error_ex a i H) as [x ->]. now exists x. Qed.
Lemma aget_range {A} (a : list A) z x : aget a z = Ok x -> (0 <= z < Z.of_nat (length a))%Z.
Proof. intros H. apply aget_ok in H. destruct H as [H E]. apply nth_error_lt in E. lia. Qed.
Lemma aget_cases {A} (a : list A) z : (exists x, aget a z = Ok x) \/ aget a z = UB.
Proof. unfold aget. destruct (z <? 0)%Z; [now right|]. destruct (nth_error _ _); cbn; eauto. Qed.
Lemma aset_spec {A} (a : list A) z v x : aget a z = Ok x ->
  exists a', aset a z v = Ok a' /\ length a' = length a /\
    forall z', aget a' z' = if Z.eqb z' z then Ok v else aget a z'.
Proof.
  intros H. pose proof (aget_range _ _ _ H) as R. apply aget_ok in H. destruct H as [H E].
  destruct (list_set_some a (Z.to_nat z) v) as (a' & E' & L & N); [lia|].
  exists a'. unfold aset. destruct (Z.ltb_spec z 0); [lia|]. rewrite E'. split; [reflexivity|]. split; [exact L|].
  intros z'. unfold aget. destruct (Z.ltb_spec z' 0).
  - destruct (Z.eqb_spec z' z); [lia|reflexivity].
  - rewrite N. destruct (Z.eqb_spec z' z); [subst; now rewrite Nat.eqb_refl|].
    destruct (Nat.eqb_spec (Z.to_nat z') (Z.to_nat z)); [lia|reflexivity].
Qed.
Lemma aset_ub {A} (a : list A) z v : aget a z = UB -> aset a z v = UB.
Proof.
  unfold aget, aset. destruct (z <? 0)%Z; [reflexivity|]. destruct (nth_error a (Z.to_nat z)) eqn:E; [discriminate|].
  apply nth_error_None in E. now rewrite list_set_none.
Qed.
Lemma aset_inv {A} (a : list A) z v a' : aset a z v = Ok a' -> exists x, aget a z = Ok x.
Proof. destruct (aget_cases a z) as [H|H]; [auto|]. now rewrite (aset_ub a z v H). Qed.

(** ** stores *)
Lemma sto_spec (s : st) f z v x : ld s f z = Ok x ->
  exists s', sto s f z v = Ok s' /\
    (forall g z', ld s' g z' = if fld_eqb g f && Z.eqb z' z then Ok v else ld s g z') /\
    (forall g, length (s_arr s' g) = length (s_arr s g)) /\
    s_n s' = s_n s /\ s_nc s' = s_nc s /\ s_imap s' = s_imap s /\ s_dt s' = s_dt s.
Proof.
  intros H. unfold sto. destruct (aset_spec _ _ v _ H) as (a' & -> & L & N). cbn [bind].
  exists (st_with_arr s f a'). split; [reflexivity|]. split; [|split; [|repeat split]].
  - intros g z'. unfold ld, st_with_arr. cbn. destruct (fld_eqb g f) eqn:E; cbn [andb]; [|reflexivity].
    apply fld_eqb_eq in E. subst. apply N.
  - intros g. cbn. destruct (fld_eqb g f) eqn:E; [|reflexivity]. apply fld_eqb_eq in E. now subst.
Qed.
Lemma sto_inv (s : st) f z v s' : sto s f z v = Ok s' -> exists x, ld s f z = Ok x.
Proof. unfold sto. destruct (aset (s_arr s f) z v) eqn:E; try discriminate. intros _. exact (aset_inv _ _ _ _ E). Qed.
Lemma sto_ub (s : st) f z v : ld s f z = UB -> sto s f z v = UB.
Proof. intros H. unfold sto. now rewrite (aset_ub _ _ v H). Qed.

(** ** the per-body arrays as a table *)
Definition tset (g : fld -> nat -> cell tg) (f : fld) (i : nat) (v : cell tg) : fld -> nat -> cell tg :=
  fun f' j => if fld_eqb f' f && Nat.eqb j i then v else g f' j.

Lemma same_beyond_refl (s : st) n : same_beyond s s n.
Proof. now repeat split. Qed.
Lemma same_beyond_trans (a b c : st) n : same_beyond a b n -> same_beyond b c n -> same_beyond a c n.
Proof.
  intros (A1 & A2 & A3 & A4) (B1 & B2 & B3 & B4). split; [congruence|]. split; [congruence|]. split; [congruence|].
  intros f z H. rewrite B4, A4; auto.
Qed.

Definition keeps (s : st) (n : nat) (g : fld -> nat -> cell tg) (s' : st) : Prop :=
  shows_st s' n g /\ same_beyond s s' n /\ s_dt s' = s_dt s.
Lemma keeps_refl (s : st) n g : shows_st s n g -> keeps s n g s.
Proof. intros H. split; [exact H|]. split; [apply same_beyond_refl|reflexivity]. Qed.
Lemma keeps_trans (s : st) n g s' g' s'' : keeps s n g s' -> keeps s' n g' s'' -> keeps s n g' s''.
Proof. intros (_ & A2 & A3) (B1 & B2 & B3). split; [exact B1|]. split; [eapply same_beyond_trans; eauto|congruence]. Qed.
Lemma keeps_ext (s : st) n g g' s' : keeps s n g s' -> (forall f i, is_reaction f = false -> i < n -> g f i = g' f i) -> keeps s n g' s'.
Proof. intros ((A1 & A2) & A3) H. split; [|exact A3]. split; [exact A1|]. intros f i Hf Hi. rewrite A2, H; auto. Qed.

Lemma ld_shows (s : st) n g f i : shows_st s n g -> is_reaction f = false -> i < n -> ld s f (Z.of_nat i) = Ok (g f i).
Proof. intros [_ H]. auto. Qed.
Lemma sto_shows (s : st) n g f i v : shows_st s n g -> is_reaction f = false -> i < n ->
  exists s', sto s f (Z.of_nat i) v = Ok s' /\ keeps s n (tset g f i v) s'.
Proof.
  intros [Hn H] Hf Hi. destruct (sto_spec s f (Z.of_nat i) v _ (H f i Hf Hi)) as (s' & E & L & _ & L1 & L2 & L3 & L4).
  exists s'. split; [exact E|]. split; [|split; [|exact L4]].
  - split; [congruence|]. intros f' j Hf' Hj. rewrite L. unfold tset. destruct (fld_eqb f' f); cbn [andb]; [|auto].
    destruct (Z.eqb_spec (Z.of_nat j) (Z.of_nat i)); destruct (Nat.eqb_spec j i); try lia; auto.
  - refine (conj L1 (conj L2 (conj L3 _))). intros f' z Hz. rewrite L. destruct (fld_eqb f' f) eqn:E'; cbn [andb]; [|reflexivity].
    apply fld_eqb_eq in E'. subst. destruct (Z.eqb_spec z (Z.of_nat i)); [|reflexivity]. subst.
    destruct Hz as [Hz|Hz]; [congruence|lia].
Qed.
Lemma sto_add_shows (s : st) n g f i v : shows_st s n g -> is_reaction f = false -> i < n ->
  exists s', sto_add s f (Z.of_nat i) v = Ok s' /\ keeps s n (tset g f i (cadd (g f i) v)) s'.
Proof. intros H Hf Hi. unfold sto_add. rewrite (ld_shows s n g) by auto. cbn [bind]. now apply sto_shows. Qed.

(** a loop whose i-th pass changes only the elements i *)
Lemma columns_loop (F : nat -> (fld -> cell tg) -> fld -> cell tg) (f : nat -> st -> res st) s n g :
  (forall i a b, (forall x, a x = b x) -> forall x, F i a x = F i b x) ->
  shows_st s n g ->
  (forall i t h, i < n -> shows_st t n h ->
     exists t', f i t = Ok t' /\ keeps t n (fun x j => if Nat.eqb j i then F i (fun y => h y i) x else h x j) t') ->
  exists s', for_ n f s = Ok s' /\ keeps s n (fun x j => F j (fun y => g y j) x) s'.
Proof.
  intros HF Hs Hf.
  assert (W : wp (for_ n f s) (keeps s n (fun x j => F j (fun y => g y j) x))).
  { apply (for_inv _ (fun i t => keeps s n (fun x j => if Nat.ltb j i then F j (fun y => g y j) x else g x j) t)).
    - apply keeps_refl. exact Hs.
    - intros i t Hi K. destruct (Hf i t _ Hi (proj1 K)) as (t' & -> & K'). cbn.
      eapply keeps_ext; [eapply keeps_trans; eauto|]. intros x j Hx Hj. cbn beta.
      destruct (Nat.eqb_spec j i).
      + subst. destruct (Nat.ltb_spec i (S i)); [|lia]. apply HF. intros y. destruct (Nat.ltb_spec i i); [lia|reflexivity].
      + destruct (Nat.ltb_spec j (S i)), (Nat.ltb_spec j i); try lia; reflexivity.
    - intros t K. eapply keeps_ext; [exact K|]. intros x j Hx Hj. cbn beta. destruct (Nat.ltb_spec j n); [reflexivity|lia]. }
  apply wp_ok in W. destruct W as (s' & E & K). eauto.
Qed.

(** ** sizes over histories *)
Lemma sized_new : sized (st_new : st).
Proof. split; [intros f; unfold room; cbn; now destruct (is_reaction f)|reflexivity]. Qed.
Lemma sized_resize (s : st) b c : sized s -> sized (st_resize s b c).
Proof.
  intros H. unfold st_resize. destruct (_ && _); [exact H|]. split; [|apply repeat_length].
  intros f. unfold room. cbn. destruct (is_reaction f); apply repeat_length.
Qed.
Lemma sized_destroy (s : st) : sized s -> sized (st_destroy s).
Proof.
  intros [H1 H2]. split.
  - intros f. specialize (H1 f). unfold room in *. cbn. destruct (is_reaction f); destruct (Nat.ltb_spec 0 (s_nc s));
      destruct (Nat.ltb_spec 0 (s_n s)); try reflexivity; rewrite H1; lia.
  - cbn. destruct (Nat.ltb_spec 0 (s_nc s)); [reflexivity|]. rewrite H2. lia.
Qed.
Lemma sto_sized (s : st) f z v s' : sto s f z v = Ok s' -> sized s -> sized s'.
Proof.
  intros E [H1 H2]. destruct (sto_inv _ _ _ _ _ E) as [x Hx]. destruct (sto_spec s f z v x Hx) as (s'' & E' & _ & L & L1 & L2 & L3 & _).
  rewrite E in E'. inversion E'. subst. split; [|congruence]. intros g. rewrite L, L1, L2. apply H1.
Qed.
Lemma sto_add_sized (s : st) f z v s' : sto_add s f z v = Ok s' -> sized s -> sized s'.
Proof. unfold sto_add. destruct (ld s f z); try discriminate. apply sto_sized. Qed.
Lemma sized_ld (s : st) f i : sized s -> i < room (s_n s) (s_nc s) f -> exists x, ld s f (Z.of_nat i) = Ok x.
Proof. intros [H _] Hi. apply aget_ex. now rewrite H. Qed.
Lemma sized_map (s : st) i : sized s -> i < s_nc s -> exists x, aget (s_imap s) (Z.of_nat i) = Ok x.
Proof. intros [_ H] Hi. apply aget_ex. now rewrite H. Qed.

(** ** copy *)
Lemma memcpy_all {A} (dst src : list A) k : length dst = k -> length src = k -> memcpy dst src k = Ok src.
Proof.
  intros E E'. unfold memcpy. destruct (Nat.ltb_spec (length dst) k); [lia|]. destruct (Nat.ltb_spec (length src) k); [lia|]. cbn.
  rewrite firstn_all2 by lia. rewrite skipn_all2 by lia. now rewrite app_nil_r.
Qed.
Lemma memcpy_ub {A} (dst src : list A) k : length src < k -> memcpy dst src k = UB.
Proof. intros H. unfold memcpy. destruct (Nat.ltb_spec (length src) k); [|lia]. now rewrite orb_true_r. Qed.
Lemma memcpy_inv {A} (dst src : list A) k a : memcpy dst src k = Ok a -> length a = length dst.
Proof.
  unfold memcpy. destruct (Nat.ltb_spec (length dst) k); [discriminate|]. destruct (Nat.ltb_spec (length src) k); [discriminate|]. cbn.
  intros [= <-]. rewrite app_length, firstn_length, skipn_length. lia.
Qed.

(** s takes over the arrays in [done] from src *)
Definition copied (src : st) (s0 : st) (done : list fld) (s : st) : Prop :=
  (forall f, s_arr s f = if existsb (fld_eqb f) done then s_arr src f else s_arr s0 f) /\
  s_imap s = s_imap s0 /\ s_n s = s_n s0 /\ s_nc s = s_nc s0 /\ s_dt s = s_dt s0.
Lemma copy_arr_step (src s0 : st) done f (s : st) :
  length (s_arr s0 f) = room (s_n s0) (s_nc s0) f -> length (s_arr src f) = room (s_n s0) (s_nc s0) f ->
  existsb (fld_eqb f) done = false ->
  copied src s0 done s -> wp (copy_arr src f s) (copied src s0 (f :: done)).
Proof.
  intros L L' N (A1 & A2 & A3 & A4 & A5). unfold copy_arr.
  rewrite (memcpy_all (s_arr s f) (s_arr src f)).
  - cbn. unfold copied. cbn. refine (conj _ (conj A2 (conj A3 (conj A4 A5)))).
    intros g. destruct (fld_eqb g f) eqn:E; cbn [orb]; [apply fld_eqb_eq in E; now subst|apply A1].
  - rewrite A1, N, L. unfold room. now rewrite A3, A4.
  - rewrite L'. unfold room. now rewrite A3, A4.
Qed.
Lemma copy_arr_ub (src : st) f (s : st) : length (s_arr src f) < room (s_n s) (s_nc s) f -> copy_arr src f s = UB.
Proof. intros H. unfold copy_arr. unfold room in H. now rewrite memcpy_ub. Qed.
Lemma copy_arr_sized (src : st) f (s s' : st) : copy_arr src f s = Ok s' -> sized s -> sized s' /\ s_n s' = s_n s /\ s_nc s' = s_nc s.
Proof.
  unfold copy_arr. destruct (memcpy _ _ _) as [a| | |] eqn:E; try discriminate. cbn. intros [= <-] [H1 H2].
  split; [|split; reflexivity]. split; [|exact H2]. intros g. cbn. destruct (fld_eqb g f) eqn:E'; [|apply H1].
  apply fld_eqb_eq in E'. subst. rewrite (memcpy_inv _ _ _ _ E). apply H1.
Qed.
Definition copy_rest (s src : st) : res st :=
    let* im := memcpy (s_imap s) (s_imap src) (s_nc s) in
    let s := st_with_imap s im in
    let* s := copy_arr src Fatheta s in
    let* s := copy_arr src Fvtheta s in
    let* s := copy_arr src Ftheta s in
    let* s := copy_arr src Fax s in
    let* s := copy_arr src Fay s in
    let* s := copy_arr src Fvx s in
    let* s := copy_arr src Fvy s in
    let* s := copy_arr src Fpx s in
    let* s := copy_arr src Fpy s in
    let* s := copy_arr src Ffx s in
    let* s := copy_arr src Ffy s in
    let* s := copy_arr src Ft s in
    let* s := copy_arr src Fm s in
    let* s := copy_arr src Frx s in
    let* s := copy_arr src Fry s in
    copy_arr src Frt s.
Lemma st_copy_eq (s src : st) : st_copy s src =
  let s := st_resize s (s_n src) (s_nc src) in if Nat.eqb (s_n src) 0 then Ok s else copy_rest s src.
Proof. reflexivity. Qed.
Lemma copy_rest_spec (s src : st) : sized s -> sized src -> s_n s = s_n src -> s_nc s = s_nc src ->
  exists s', copy_rest s src = Ok s' /\ (forall f, s_arr s' f = s_arr src f) /\ s_imap s' = s_imap src /\
    s_n s' = s_n src /\ s_nc s' = s_nc src /\ s_dt s' = s_dt s.
Proof.
  intros [H1 H2] [H1' H2'] En Ec. unfold copy_rest. rewrite (memcpy_all (s_imap s) (s_imap src)) by congruence. cbn [bind].
  assert (L : forall f, length (s_arr src f) = room (s_n s) (s_nc s) f) by (intros; rewrite H1', En, Ec; reflexivity).
  assert (W : wp (let s := st_with_imap s (s_imap src) in
      let* s := copy_arr src Fatheta s in let* s := copy_arr src Fvtheta s in let* s := copy_arr src Ftheta s in
      let* s := copy_arr src Fax s in let* s := copy_arr src Fay s in let* s := copy_arr src Fvx s in
      let* s := copy_arr src Fvy s in let* s := copy_arr src Fpx s in let* s := copy_arr src Fpy s in
      let* s := copy_arr src Ffx s in let* s := copy_arr src Ffy s in let* s := copy_arr src Ft s in
      let* s := copy_arr src Fm s in let* s := copy_arr src Frx s in let* s := copy_arr src Fry s in
      copy_arr src Frt s)
    (copied src (st_with_imap s (s_imap src)) [Frt; Fry; Frx; Fm; Ft; Ffy; Ffx; Fpy; Fpx; Fvy; Fvx; Fay; Fax; Ftheta; Fvtheta; Fatheta])).
  { cbv zeta. set (s0 := st_with_imap s (s_imap src)).
    assert (C : copied src s0 [] s0) by now repeat split.
    assert (K : forall done f s, copied src s0 done s -> existsb (fld_eqb f) done = false -> wp (copy_arr src f s) (copied src s0 (f :: done))).
    { intros. apply copy_arr_step; auto; first [apply H1 | apply L]. }
    repeat match goal with C : copied _ _ _ ?x |- wp (bind (copy_arr _ _ ?x) _) _ =>
      eapply wp_seq; [apply (K _ _ _ C); reflexivity|]; clear C; intros ? C end.
    apply (K _ _ _ C). reflexivity. }
  apply wp_ok in W. destruct W as (s' & E & A1 & A2 & A3 & A4 & A5). exists s'. split; [exact E|].
  refine (conj _ (conj A2 (conj _ (conj _ A5)))); cbn in *; try congruence. intros f. rewrite A1. now destruct f.
Qed.
Lemma resize_cases (s : st) b c : sized s ->
  (b <= s_n s /\ c <= s_nc s /\ st_resize s b c = s) \/
  ((s_n s < b \/ s_nc s < c) /\ s_n (st_resize s b c) = b /\ s_nc (st_resize s b c) = c /\ s_dt (st_resize s b c) = s_dt s).
Proof.
  intros H. unfold st_resize. destruct (Nat.leb_spec b (s_n s)), (Nat.leb_spec c (s_nc s)); cbn; auto; right; repeat split; auto.
Qed.
Lemma copy_sized (s src : st) s' : st_copy s src = Ok s' -> sized s -> sized s'.
Proof.
  rewrite st_copy_eq. cbv zeta. intros E H. apply (sized_resize s (s_n src) (s_nc src)) in H.
  destruct (Nat.eqb (s_n src) 0); [now inversion E; subst|]. revert E H. generalize (st_resize s (s_n src) (s_nc src)). clear s.
  intros s E H. unfold copy_rest in E. destruct (memcpy (s_imap s) (s_imap src) (s_nc s)) as [im| | |] eqn:E0; try discriminate.
  cbn [bind] in E. assert (H' : sized (st_with_imap s im)).
  { destruct H as [H1 H2]. split; [exact H1|]. cbn. rewrite (memcpy_inv _ _ _ _ E0). exact H2. }
  clear H E0. revert E H'. generalize (st_with_imap s im). clear s.
  intros s E H.
  repeat match type of E with bind (copy_arr ?src ?f ?s) _ = _ =>
    let s1 := fresh "s" in let E1 := fresh "E" in destruct (copy_arr src f s) as [s1| | |] eqn:E1; try discriminate;
    cbn [bind] in E; apply (copy_arr_sized _ _ _ _ E1) in H; clear E1; destruct H as (H & _ & _) end.
  now apply (copy_arr_sized _ _ _ _ E) in H.
Qed.

Lemma st_with_dt_sized (s : st) dt : sized s -> sized (st_with_dt s dt).
Proof. exact (fun H => H). Qed.
Lemma streach_sized (st : nat -> sstate tg) : streach st -> forall t, sized (st t).
Proof.
  induction 1 as [|st o st' H IH E]; intros t; [apply sized_new|].
  assert (K : forall t0 s, sized s -> Ok (upd st t0 s) = Ok st' -> sized (st' t)).
  { intros t0 s Hs [= <-]. unfold upd. destruct (Nat.eqb t t0); auto. }
  destruct o; cbn in E.
  - eapply K; [|exact E]. apply sized_new.
  - eapply K; [|exact E]. now apply sized_resize.
  - eapply K; [|exact E]. now apply sized_destroy.
  - destruct (sto (st t0) f i v) eqn:E1; try discriminate. eapply K; [|exact E]. eapply sto_sized; eauto.
  - destruct (aset (s_imap (st t0)) i v) as [m| | |] eqn:E1; try discriminate. eapply K; [|exact E].
    destruct (aset_inv _ _ _ _ E1) as [x Hx]. destruct (aset_spec _ _ v _ Hx) as (m' & E2 & L & _).
    rewrite E1 in E2. inversion E2. subst. destruct (IH t0) as [H1 H2]. split; [exact H1|]. cbn. congruence.
  - eapply K; [|exact E]. apply st_with_dt_sized, IH.
  - destruct (st_copy (st t0) (st src)) eqn:E1; try discriminate. eapply K; [|exact E]. eapply copy_sized; eauto.
  - destruct (st_apply_force (st t0) x y fx fy body) as [s| | |] eqn:E1; try discriminate. eapply K; [|exact E].
    clear E K. unfold st_apply_force in E1. destruct (st_local_to_world _ _ _ _) as [[wx wy]| | |]; try discriminate. cbn [bind] in E1.
    destruct (sto_add (st t0) Ffx body fx) as [s1| | |] eqn:A1; try discriminate. cbn [bind] in E1.
    destruct (sto_add s1 Ffy body fy) as [s2| | |] eqn:A2; try discriminate. cbn [bind] in E1.
    destruct (ld s2 Fpy body); try discriminate. cbn [bind] in E1. destruct (ld s2 Fpx body); try discriminate. cbn [bind] in E1.
    eapply sto_add_sized; [exact E1|]. eapply sto_add_sized; [exact A2|]. eapply sto_add_sized; [exact A1|]. apply IH.
Qed.

(** C38 *)
Lemma resize_room (st : nat -> sstate tg) t b c : streach st ->
  let s := st_resize (st t) b c in
  b <= s_n s /\ c <= s_nc s /\
  (forall f i, i < room (s_n s) (s_nc s) f -> exists x, ld s f (Z.of_nat i) = Ok x) /\
  (forall i, i < s_nc s -> exists x, aget (s_imap s) (Z.of_nat i) = Ok x) /\
  (b <= s_n (st t) -> c <= s_nc (st t) -> s = st t).
Proof.
  intros H s. pose proof (streach_sized st H t) as Hs.
  assert (Hs' : sized s) by now apply sized_resize.
  refine ((fun K => conj (proj1 K) (conj (proj1 (proj2 K)) (conj _ (conj _ (proj2 (proj2 K)))))) _).
  - intros f i Hi. now apply sized_ld.
  - intros i Hi. now apply sized_map.
  - destruct (resize_cases (st t) b c Hs) as [(A1 & A2 & A3)|(A1 & A2 & A3 & _)]; unfold s.
    + rewrite A3. auto.
    + rewrite A2, A3. split; [lia|]. split; [lia|]. intros; lia.
Qed.
Lemma room_reported (st : nat -> sstate tg) t : streach st ->
  (forall f i, i < room (s_n (st t)) (s_nc (st t)) f -> exists x, ld (st t) f (Z.of_nat i) = Ok x) /\
  (forall i, i < s_nc (st t) -> exists x, aget (s_imap (st t)) (Z.of_nat i) = Ok x).
Proof.
  intros H. pose proof (streach_sized st H t) as Hs. split; intros; [now apply sized_ld|now apply sized_map].
Qed.

(** C37 *)
Lemma copy_good (st : nat -> sstate tg) t src : streach st ->
  s_n (st t) < s_n (st src) \/ s_nc (st t) < s_nc (st src) \/
    (s_n (st t) = s_n (st src) /\ s_nc (st t) = s_nc (st src)) ->
  0 < s_n (st src) ->
  exists s, st_copy (st t) (st src) = Ok s /\ reads_same (st src) s /\ s_dt s = s_dt (st t).
Proof.
  intros H C P. pose proof (streach_sized st H t) as Ht. pose proof (streach_sized st H src) as Hsrc.
  rewrite st_copy_eq. cbv zeta. destruct (Nat.eqb_spec (s_n (st src)) 0); [lia|].
  set (s := st_resize (st t) (s_n (st src)) (s_nc (st src))).
  assert (A : s_n s = s_n (st src) /\ s_nc s = s_nc (st src) /\ s_dt s = s_dt (st t)).
  { destruct (resize_cases (st t) (s_n (st src)) (s_nc (st src)) Ht) as [(A1 & A2 & A3)|(_ & A1 & A2 & A3)]; unfold s.
    - rewrite A3. repeat split; lia.
    - now rewrite A1, A2. }
  destruct A as (A1 & A2 & A3). assert (Hs : sized s) by now apply sized_resize.
  destruct (copy_rest_spec s (st src) Hs Hsrc A1 A2) as (s' & E & B1 & B2 & B3 & B4 & B5).
  exists s'. split; [exact E|]. split; [|congruence]. refine (conj B3 (conj B4 (conj _ _))).
  - intros f z. unfold ld. now rewrite B1.
  - intros z. now rewrite B2.
Qed.
Lemma copy_overreads (st : nat -> sstate tg) t src : streach st ->
  0 < s_n (st src) -> s_n (st src) <= s_n (st t) -> s_nc (st src) <= s_nc (st t) ->
  s_n (st src) < s_n (st t) \/ s_nc (st src) < s_nc (st t) ->
  st_copy (st t) (st src) = UB.
Proof.
  intros H P L1 L2 C. pose proof (streach_sized st H t) as Ht. pose proof (streach_sized st H src) as Hsrc.
  rewrite st_copy_eq. cbv zeta. destruct (Nat.eqb_spec (s_n (st src)) 0); [lia|].
  destruct (resize_cases (st t) (s_n (st src)) (s_nc (st src)) Ht) as [(_ & _ & ->)|(A1 & _)]; [|lia].
  unfold copy_rest. destruct Hsrc as [S1 S2], Ht as [T1 T2].
  destruct (Nat.lt_ge_cases (s_nc (st src)) (s_nc (st t))) as [L|L].
  - rewrite memcpy_ub; [reflexivity|]. lia.
  - rewrite memcpy_all by lia. cbn [bind]. rewrite copy_arr_ub; [reflexivity|]. rewrite S1. unfold room. cbn. lia.
Qed.
End S.
