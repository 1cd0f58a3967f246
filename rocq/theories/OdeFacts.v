(** * The integrators' loops (C39 - C41), every number format. *)

From Coq Require Import Reals.
From Verif Require Import Base Targets State Ode Logic SpecState StateFacts SpecOde.
Local Open Scope nat_scope.

Section S.
Context {tg : target}.
Notation st := (sstate tg).
Local Open Scope cell_scope.

Definition ldc (s : st) (f : fld) (i : nat) : cell tg := match ld s f (Z.of_nat i) with Ok x => x | _ => None end.
Lemma sized_shows (s : st) : sized s -> shows_st s (s_n s) (ldc s).
Proof.
  intros H. split; [reflexivity|]. intros f i Hf Hi. unfold ldc. destruct (sized_ld s f i H) as [x ->]; [|reflexivity].
  unfold room. now rewrite Hf.
Qed.

(** steps keep array lengths *)
Definition same_len (s s' : st) : Prop := forall f, length (s_arr s' f) = length (s_arr s f).
Lemma sto_len (s : st) f z v s' : sto s f z v = Ok s' -> same_len s s'.
Proof.
  intros E. destruct (sto_inv _ _ _ _ _ E) as [x Hx]. destruct (sto_spec s f z v x Hx) as (s'' & E' & _ & L & _).
  rewrite E in E'. inversion E'. subst. exact L.
Qed.
Lemma sized_len (s s' : st) : sized s -> same_len s s' -> s_n s' = s_n s -> s_nc s' = s_nc s -> s_imap s' = s_imap s -> sized s'.
Proof. intros [H1 H2] L E1 E2 E3. split; [intros f; rewrite L, E1, E2; apply H1|congruence]. Qed.

(** an operation that stores to element i of field f *)
Definition stores (o : st -> res st) (n : nat) (f : fld) (i : nat) (v : (fld -> nat -> cell tg) -> cell tg) : Prop :=
  forall s g, shows_st s n g -> exists s', o s = Ok s' /\ keeps s n (tset g f i (v g)) s' /\ same_len s s'.

Lemma integrate_stores n f r i dt : is_reaction f = false -> is_reaction r = false -> i < n ->
  stores (fun s => integrate s f r i dt) n f i (fun g => g f i + g r i * dt).
Proof.
  intros Hf Hr Hi s g H. unfold integrate. rewrite (ld_shows s n g r i H Hr Hi). cbn [bind].
  destruct (sto_add_shows s n g f i (g r i * dt) H Hf Hi) as (s' & E & K). exists s'. split; [exact E|]. split; [exact K|].
  unfold sto_add in E. destruct (ld s f (Z.of_nat i)); try discriminate. exact (sto_len _ _ _ _ _ E).
Qed.
Lemma half_stores n r f d i g0 : shows_st (rk_init r) n g0 -> is_reaction f = false -> is_reaction d = false -> i < n ->
  stores (fun s => rk_half r s f d i) n f i (fun g => g0 f i + rk_dt r * g d i / cofZ 2).
Proof.
  intros H0 Hf Hd Hi s g H. unfold rk_half. rewrite (ld_shows _ n g0 f i H0 Hf Hi). cbn [bind].
  rewrite (ld_shows s n g d i H Hd Hi). cbn [bind].
  destruct (sto_shows s n g f i (g0 f i + rk_dt r * g d i / cofZ 2) H Hf Hi) as (s' & E & K). exists s'.
  split; [exact E|]. split; [exact K|exact (sto_len _ _ _ _ _ E)].
Qed.
Lemma full_stores n r f d i g0 : shows_st (rk_init r) n g0 -> is_reaction f = false -> is_reaction d = false -> i < n ->
  stores (fun s => rk_full r s f d i) n f i (fun g => g0 f i + rk_dt r * g d i).
Proof.
  intros H0 Hf Hd Hi s g H. unfold rk_full. rewrite (ld_shows _ n g0 f i H0 Hf Hi). cbn [bind].
  rewrite (ld_shows s n g d i H Hd Hi). cbn [bind].
  destruct (sto_shows s n g f i (g0 f i + rk_dt r * g d i) H Hf Hi) as (s' & E & K). exists s'.
  split; [exact E|]. split; [exact K|exact (sto_len _ _ _ _ _ E)].
Qed.
Lemma accum_stores n dt w s0 g0 f d i : shows_st s0 n g0 -> is_reaction f = false -> is_reaction d = false -> i < n ->
  stores (rk_accum dt w s0 f d i) n f i (fun g => g f i + dt / cofZ 6 * g0 d i * w).
Proof.
  intros H0 Hf Hd Hi s g H. unfold rk_accum. rewrite (ld_shows _ n g0 d i H0 Hd Hi). cbn [bind].
  destruct (sto_add_shows s n g f i (dt / cofZ 6 * g0 d i * w) H Hf Hi) as (s' & E & K). exists s'. split; [exact E|]. split; [exact K|].
  unfold sto_add in E. destruct (ld s f (Z.of_nat i)); try discriminate. exact (sto_len _ _ _ _ _ E).
Qed.
Lemma emit_stores n acc g0 f i : shows_st acc n g0 -> is_reaction f = false -> i < n ->
  stores (rk_emit acc f i) n f i (fun _ => g0 f i).
Proof.
  intros H0 Hf Hi s g H. unfold rk_emit. rewrite (ld_shows _ n g0 f i H0 Hf Hi). cbn [bind].
  destruct (sto_shows s n g f i (g0 f i) H Hf Hi) as (s' & E & K). exists s'.
  split; [exact E|]. split; [exact K|exact (sto_len _ _ _ _ _ E)].
Qed.

(** effect of a list of stores on the column of body i *)
Fixpoint runcol (v : fld -> fld -> (fld -> cell tg) -> cell tg) (fs : list (fld * fld)) (c : fld -> cell tg) : fld -> cell tg :=
  match fs with
  | [] => c
  | (f, d) :: r => runcol v r (fun x => if fld_eqb x f then v f d c else c x)
  end.
Fixpoint runops (o : fld -> fld -> st -> res st) (fs : list (fld * fld)) (s : st) : res st :=
  match fs with
  | [] => Ok s
  | (f, d) :: r => let* s := o f d s in runops o r s
  end.

Lemma runcol_ext v fs : (forall f d a b, (forall x, a x = b x) -> v f d a = v f d b) ->
  forall a b, (forall x, a x = b x) -> forall x, runcol v fs a x = runcol v fs b x.
Proof.
  intros Hv. induction fs as [|[f d] r IH]; cbn; intros a b E x; [apply E|].
  apply IH. intros y. destruct (fld_eqb y f); [now apply Hv|apply E].
Qed.

Lemma runops_spec (o : fld -> fld -> st -> res st) v n i fs :
  (forall f d a b, (forall x, a x = b x) -> v f d a = v f d b) ->
  (forall f d, In (f, d) fs -> stores (o f d) n f i (fun g => v f d (fun y => g y i))) ->
  forall s g, shows_st s n g ->
  exists s', runops o fs s = Ok s' /\ same_len s s' /\
    keeps s n (fun x j => if Nat.eqb j i then runcol v fs (fun y => g y i) x else g x j) s'.
Proof.
  intros Hv. induction fs as [|[f d] r IH]; intros HI s g Hs.
  - exists s. split; [reflexivity|]. split; [now intros ?|]. eapply keeps_ext; [apply keeps_refl; exact Hs|].
    intros x j _ _. cbn. destruct (Nat.eqb_spec j i); [now subst|reflexivity].
  - cbn [runops]. destruct (HI f d (or_introl eq_refl) s g Hs) as (s1 & -> & K1 & L1). cbn [bind].
    destruct (IH (fun f' d' H => HI f' d' (or_intror H)) s1 _ (proj1 K1)) as (s2 & -> & L2 & K2).
    exists s2. split; [reflexivity|]. split; [intros x; now rewrite L2|].
    eapply keeps_ext; [eapply keeps_trans; [exact K1|exact K2]|]. intros x j _ _. cbn beta.
    destruct (Nat.eqb_spec j i).
    + cbn [runcol]. apply runcol_ext; [exact Hv|]. intros y. unfold tset. rewrite Nat.eqb_refl, andb_true_r. reflexivity.
    + unfold tset. destruct (Nat.eqb_spec j i); [contradiction|]. now rewrite andb_false_r.
Qed.

(** loops of lists of stores *)
Lemma opsloop (o : nat -> fld -> fld -> st -> res st) (v : nat -> fld -> fld -> (fld -> cell tg) -> cell tg) n fs :
  (forall i f d a b, (forall x, a x = b x) -> v i f d a = v i f d b) ->
  (forall i f d, i < n -> In (f, d) fs -> stores (o i f d) n f i (fun g => v i f d (fun y => g y i))) ->
  forall s g, shows_st s n g ->
  exists s', for_ n (fun i s => runops (o i) fs s) s = Ok s' /\ same_len s s' /\
    keeps s n (fun x j => runcol (v j) fs (fun y => g y j) x) s'.
Proof.
  intros Hv HI s g Hs.
  destruct (columns_loop (fun i => runcol (v i) fs) (fun i s => runops (o i) fs s) s n g) as (s' & E & K).
  - intros i a b E x. apply runcol_ext; [exact (Hv i)|exact E].
  - exact Hs.
  - intros i t h Hi Ht. destruct (runops_spec (o i) (v i) n i fs (Hv i) (fun f d => HI i f d Hi) t h Ht) as (t' & E & _ & K). eauto.
  - exists s'. split; [exact E|]. split; [|exact K].
    assert (W : wp (for_ n (fun i s => runops (o i) fs s) s) (fun t => same_len s t /\ exists h, shows_st t n h)).
    { apply (for_inv _ (fun _ t => same_len s t /\ exists h, shows_st t n h)); [split; [now intros ?|eauto]| |auto].
      intros i t Hi [L [h Hh]]. destruct (runops_spec (o i) (v i) n i fs (Hv i) (fun f d => HI i f d Hi) t h Hh) as (t' & -> & L' & K').
      cbn. split; [intros x; now rewrite L'|]. eexists. apply (proj1 K'). }
    rewrite E in W. apply W.
Qed.

Lemma bind_ret {A} (r : res A) : bind r (fun a => Ok a) = r.
Proof. now destruct r. Qed.

Definition euler_fs := [(Fpx, Fvx); (Fpy, Fvy); (Ftheta, Fvtheta); (Fvx, Fax); (Fvy, Fay); (Fvtheta, Fatheta)].
Definition nsv_fs := [(Fvx, Fax); (Fvy, Fay); (Fvtheta, Fatheta); (Fpx, Fvx); (Fpy, Fvy); (Ftheta, Fvtheta)].
Definition rk_fs := [(Fvtheta, Fatheta); (Ftheta, Fvtheta); (Fvx, Fax); (Fvy, Fay); (Fpx, Fvx); (Fpy, Fvy)].

Lemma for_ext {A} n (f g : nat -> A -> res A) a : (forall i a, f i a = g i a) -> for_ n f a = for_ n g a.
Proof.
  intros E. unfold for_. generalize 0. revert a. induction n as [|n IH]; intros a i; cbn; [reflexivity|].
  rewrite E. destruct (g i a); cbn; auto.
Qed.
Lemma bind_ext {A B} (r : res A) (k k' : A -> res B) : (forall a, k a = k' a) -> bind r k = bind r k'.
Proof. intros H. destruct r; cbn; auto. Qed.

Lemma euler_eq dt (s : st) : euler_solve dt s =
  for_ (s_n s) (fun i s => runops (fun f d s => integrate s f d i dt) euler_fs s) (st_with_dt s dt).
Proof.
  unfold euler_solve. cbn [s_n st_with_dt]. apply for_ext. intros i a. cbn [runops euler_fs].
  do 5 (apply bind_ext; intros ?). now rewrite bind_ret.
Qed.
Lemma nsv_eq dt (s : st) : nsv_solve dt s =
  for_ (s_n s) (fun i s => runops (fun f d s => integrate s f d i dt) nsv_fs s) (st_with_dt s dt).
Proof.
  unfold nsv_solve. cbn [s_n st_with_dt]. apply for_ext. intros i a. cbn [runops nsv_fs].
  do 5 (apply bind_ext; intros ?). now rewrite bind_ret.
Qed.

Lemma in_fs {P : fld -> fld -> Prop} fs : Forall (fun x => P (fst x) (snd x)) fs -> forall f d, In (f, d) fs -> P f d.
Proof. intros H f d HI. rewrite Forall_forall in H. exact (H _ HI). Qed.
Definition plain (f d : fld) : Prop := is_reaction f = false /\ is_reaction d = false.
Lemma euler_fs_plain f d : In (f, d) euler_fs -> plain f d.
Proof. apply in_fs. repeat constructor. Qed.
Lemma nsv_fs_plain f d : In (f, d) nsv_fs -> plain f d.
Proof. apply in_fs. repeat constructor. Qed.
Lemma rk_fs_plain f d : In (f, d) rk_fs -> plain f d.
Proof. apply in_fs. repeat constructor. Qed.

Lemma with_dt_shows (s : st) n g dt : shows_st s n g -> shows_st (st_with_dt s dt) n g.
Proof. exact (fun H => H). Qed.
Lemma dt_keeps (s : st) n g dt s' : keeps (st_with_dt s dt) n g s' -> shows_st s' n g /\ same_beyond s s' n /\ s_dt s' = dt.
Proof. exact (fun H => H). Qed.

(** C39 *)
Lemma euler_steps (s : st) n g dt : shows_st s n g ->
  exists s', euler_solve dt s = Ok s' /\ shows_st s' n (euler_table dt g) /\ same_beyond s s' n /\ s_dt s' = dt.
Proof.
  intros H. rewrite euler_eq, (proj1 H).
  destruct (opsloop (fun i f d s => integrate s f d i dt) (fun i f d c => c f + c d * dt) n euler_fs) with (s := st_with_dt s dt) (g := g)
    as (s' & E & _ & K).
  - intros i f d a b Hab. now rewrite !Hab.
  - intros i f d Hi HI. destruct (euler_fs_plain f d HI). now apply integrate_stores.
  - exact H.
  - exists s'. split; [exact E|]. apply dt_keeps. eapply keeps_ext; [exact K|]. intros f i _ _. destruct f; reflexivity.
Qed.
(** C40 *)
Lemma nsv_steps (s : st) n g dt : shows_st s n g ->
  exists s', nsv_solve dt s = Ok s' /\ shows_st s' n (nsv_table dt g) /\ same_beyond s s' n /\ s_dt s' = dt.
Proof.
  intros H. rewrite nsv_eq, (proj1 H).
  destruct (opsloop (fun i f d s => integrate s f d i dt) (fun i f d c => c f + c d * dt) n nsv_fs) with (s := st_with_dt s dt) (g := g)
    as (s' & E & _ & K).
  - intros i f d a b Hab. now rewrite !Hab.
  - intros i f d Hi HI. destruct (nsv_fs_plain f d HI). now apply integrate_stores.
  - exact H.
  - exists s'. split; [exact E|]. apply dt_keeps. eapply keeps_ext; [exact K|]. intros f i _ _. destruct f; reflexivity.
Qed.

(** ** RK4: flags *)
Lemma step_stage (r : rk4 tg) s r1 s1 b : rk4_step r s = Ok (r1, s1, b) ->
  rk_next r1 = next_stage (rk_st r) /\ (b = true <-> rk_st r = Stage4).
Proof.
  unfold rk4_step. match goal with |- bind ?x _ = _ -> _ => destruct x; try discriminate end. cbn [bind]. intros [= <- <- <-].
  cbn. split; [reflexivity|]. destruct (rk_st r); cbn; split; congruence.
Qed.
Lemma solve_stage (r : rk4 tg) s r1 s1 : rk4_solve r s = Ok (r1, s1) -> rk_st r1 = rk_next r.
Proof.
  unfold rk4_solve. repeat match goal with |- bind ?x _ = _ -> _ => destruct x; try discriminate; cbn [bind] end. now intros [= <- <-].
Qed.
Fixpoint stage_after (k : nat) (t : rk_stage) : rk_stage := match k with O => t | S k => stage_after k (next_stage t) end.
Lemma rounds_stages (r : rk4 tg) bs r' : rounds r bs r' ->
  forall k b, nth_error bs k = Some b -> (b = true <-> stage_after k (rk_st r) = Stage4).
Proof.
  induction 1 as [|r s r1 s1 b s2 r2 s3 bs r' H1 H2 H IH]; intros k c E; [now destruct k|].
  destruct (step_stage _ _ _ _ _ H1) as [N B]. pose proof (solve_stage _ _ _ _ H2) as T.
  destruct k; cbn in *; [inversion E; now subst|]. rewrite <- N, <- T. now apply IH.
Qed.
Lemma stage_undef k : stage_after k Undefined = Undefined.
Proof. induction k; auto. Qed.
Lemma start_stage (r0 : rk4 tg) s dt r : rk4_start r0 s dt = Ok r -> rk_st r = Stage1.
Proof. unfold rk4_start. repeat match goal with |- bind ?x _ = _ -> _ => destruct x; try discriminate; cbn [bind] end. now intros [= <-]. Qed.
Lemma stage1_fourth k : stage_after k Stage1 = Stage4 <-> k = 3.
Proof.
  destruct k as [|[|[|[|[|k]]]]]; cbn; split; try congruence; try lia. rewrite stage_undef. congruence.
Qed.
Lemma rk_fourth (r0 r : rk4 tg) s dt bs r' : rk4_start r0 s dt = Ok r -> rounds r bs r' ->
  forall k b, nth_error bs k = Some b -> (b = true <-> k = 3).
Proof. intros H HR k b E. rewrite (rounds_stages r bs r' HR k b E), (start_stage _ _ _ _ H). apply stage1_fourth. Qed.
Lemma rk_never (r0 r : rk4 tg) bs r' : r = rk4_new \/ r = rk4_end r0 -> rounds r bs r' ->
  forall b, In b bs -> b = false.
Proof.
  intros H HR b HI. apply In_nth_error in HI. destruct HI as [k E]. pose proof (rounds_stages r bs r' HR k b E) as K.
  assert (U : rk_st r = Undefined) by (destruct H; subst; reflexivity). rewrite U, stage_undef in K.
  destruct b; [|reflexivity]. assert (Undefined = Stage4) by now apply K. congruence.
Qed.

(** ** RK4: the loops *)
Definition half_col (r : rk4 tg) (g0 : fld -> cell tg) (f d : fld) (c : fld -> cell tg) := g0 f + rk_dt r * c d / cofZ 2.
Definition full_col (r : rk4 tg) (g0 : fld -> cell tg) (f d : fld) (c : fld -> cell tg) := g0 f + rk_dt r * c d.
Definition acc_col (dt w : cell tg) (g : fld -> cell tg) (f d : fld) (c : fld -> cell tg) := c f + dt / cofZ 6 * g d * w.
Definition emit_col (g : fld -> cell tg) (f d : fld) (c : fld -> cell tg) := g f.

(** the state a step hands to the evaluation *)
Definition step_table (r : rk4 tg) (g0 g : fld -> nat -> cell tg) : fld -> nat -> cell tg :=
  match rk_st r with
  | Stage2 | Stage3 => fun f i => runcol (half_col r (fun y => g0 y i)) rk_fs (fun y => g y i) f
  | Stage4 => fun f i => runcol (full_col r (fun y => g0 y i)) rk_fs (fun y => g y i) f
  | _ => g
  end.
Definition with_next (r : rk4 tg) : rk4 tg :=
  {| rk_dt := rk_dt r; rk_st := rk_st r; rk_next := next_stage (rk_st r); rk_init := rk_init r; rk_acc := rk_acc r |}.
Lemma rk4_step_spec (r : rk4 tg) s n g0 g : shows_st (rk_init r) n g0 -> shows_st s n g -> sized s ->
  exists s', rk4_step r s = Ok (with_next r, s', match rk_st r with Stage4 => true | _ => false end) /\
    shows_st s' n (step_table r g0 g) /\ sized s' /\ s_nc s' = s_nc s.
Proof.
  intros H0 H Hz.
  assert (SH : forall i f d, i < n -> In (f, d) rk_fs -> stores (fun s => rk_half r s f d i) n f i (fun t => half_col r (fun y => g0 y i) f d (fun y => t y i))).
  { intros i f d Hi HI. destruct (rk_fs_plain f d HI). now apply half_stores. }
  assert (SF : forall i f d, i < n -> In (f, d) rk_fs -> stores (fun s => rk_full r s f d i) n f i (fun t => full_col r (fun y => g0 y i) f d (fun y => t y i))).
  { intros i f d Hi HI. destruct (rk_fs_plain f d HI). now apply full_stores. }
  destruct (opsloop (fun i f d s => rk_half r s f d i) (fun i => half_col r (fun y => g0 y i)) n rk_fs) with (s := s) (g := g) as (sh & Eh & Lh & Kh); auto.
  { intros i f d a b Hab. unfold half_col. now rewrite Hab. }
  destruct (opsloop (fun i f d s => rk_full r s f d i) (fun i => full_col r (fun y => g0 y i)) n rk_fs) with (s := s) (g := g) as (sf & Ef & Lf & Kf); auto.
  { intros i f d a b Hab. unfold full_col. now rewrite Hab. }
  assert (Zh : sized sh). { destruct Kh as (_ & (B1 & B2 & B3 & _) & _). eapply sized_len; [exact Hz|exact Lh|assumption..]. }
  assert (Zf : sized sf). { destruct Kf as (_ & (B1 & B2 & B3 & _) & _). eapply sized_len; [exact Hz|exact Lf|assumption..]. }
  unfold rk4_step, step_table, with_next. rewrite (proj1 H).
  assert (E1 : for_ n (fun i s => let* s := rk_half r s Fvtheta Fatheta i in let* s := rk_half r s Ftheta Fvtheta i in
        let* s := rk_half r s Fvx Fax i in let* s := rk_half r s Fvy Fay i in
        let* s := rk_half r s Fpx Fvx i in rk_half r s Fpy Fvy i) s = Ok sh).
  { rewrite <- Eh. apply for_ext. intros i a. cbn [runops rk_fs]. do 5 (apply bind_ext; intros ?). now rewrite bind_ret. }
  assert (E2 : for_ n (fun i s => let* s := rk_full r s Fvtheta Fatheta i in let* s := rk_full r s Ftheta Fvtheta i in
        let* s := rk_full r s Fvx Fax i in let* s := rk_full r s Fvy Fay i in
        let* s := rk_full r s Fpx Fvx i in rk_full r s Fpy Fvy i) s = Ok sf).
  { rewrite <- Ef. apply for_ext. intros i a. cbn [runops rk_fs]. do 5 (apply bind_ext; intros ?). now rewrite bind_ret. }
  destruct (rk_st r); cbn [next_stage]; rewrite ?E1, ?E2; cbn [bind]; eexists; (split; [reflexivity|]).
  - split; [exact H|]. split; [exact Hz|reflexivity].
  - split; [exact (proj1 Kh)|]. split; [exact Zh|]. apply Kh.
  - split; [exact (proj1 Kh)|]. split; [exact Zh|]. apply Kh.
  - split; [exact (proj1 Kf)|]. split; [exact Zf|]. apply Kf.
  - split; [exact H|]. split; [exact Hz|reflexivity].
  - split; [exact H|]. split; [exact Hz|reflexivity].
Qed.

(** the loops over the reactions *)
Definition same_body (s s' : st) : Prop := same_len s s' /\ s_n s' = s_n s /\ s_nc s' = s_nc s /\ s_imap s' = s_imap s /\ s_dt s' = s_dt s /\
  forall f z, is_reaction f = false -> ld s' f z = ld s f z.
Lemma same_body_refl s : same_body s s.
Proof. now repeat split. Qed.
Lemma same_body_trans a b c : same_body a b -> same_body b c -> same_body a c.
Proof.
  intros (A1 & A2 & A3 & A4 & A5 & A6) (B1 & B2 & B3 & B4 & B5 & B6).
  split; [intros f; now rewrite B1|]. do 4 (split; [congruence|]). intros f z Hf. now rewrite B6, A6.
Qed.
Lemma sto_same_body s f z v x : is_reaction f = true -> ld s f z = Ok x -> exists s', sto s f z v = Ok s' /\ same_body s s'.
Proof.
  intros Hf Hx. destruct (sto_spec s f z v x Hx) as (s' & E & L & Ln & L1 & L2 & L3 & L4). exists s'. split; [exact E|].
  split; [exact Ln|]. do 4 (split; [assumption|]). intros g y Hg. rewrite L. destruct (fld_eqb g f) eqn:Eg; cbn [andb]; [|reflexivity].
  apply fld_eqb_eq in Eg. congruence.
Qed.
Lemma sized_same_body s s' : sized s -> same_body s s' -> sized s'.
Proof. intros H (A1 & A2 & A3 & A4 & _). eapply sized_len; eauto. Qed.
Lemma reaction_loop (o : nat -> fld -> st -> res st) n (s : st) : n <= s_nc s -> sized s ->
  (forall i f t, i < n -> is_reaction f = true -> sized t -> s_nc t = s_nc s -> exists t', o i f t = Ok t' /\ same_body t t') ->
  exists s', for_ n (fun i s => let* s := o i Frx s in let* s := o i Fry s in o i Frt s) s = Ok s' /\ same_body s s'.
Proof.
  intros Hn Hs Ho.
  assert (W : wp (for_ n (fun i s => let* s := o i Frx s in let* s := o i Fry s in o i Frt s) s) (same_body s)).
  { apply (for_inv _ (fun _ t => same_body s t)); [apply same_body_refl| |auto].
    intros i t Hi K.
    assert (P : forall t, same_body s t -> forall f, is_reaction f = true -> wp (o i f t) (same_body s)).
    { clear t K. intros t K f Hf. destruct (Ho i f t Hi Hf) as (t' & -> & K'); [eapply sized_same_body; eauto|apply K|].
      eapply same_body_trans; eauto. }
    eapply wp_seq; [apply P; [exact K|reflexivity]|]. intros t1 K1.
    eapply wp_seq; [apply P; [exact K1|reflexivity]|]. intros t2 K2. apply P; [exact K2|reflexivity]. }
  apply wp_ok in W. destruct W as (s' & E & K). eauto.
Qed.
Lemma sized_r (s : st) f i : sized s -> is_reaction f = true -> i < s_nc s -> exists x, ld s f (Z.of_nat i) = Ok x.
Proof. intros H Hf Hi. apply sized_ld; [exact H|]. unfold room. rewrite Hf. lia. Qed.

Definition acc_table (r : rk4 tg) (ga g : fld -> nat -> cell tg) : fld -> nat -> cell tg :=
  fun f i => runcol (acc_col (rk_dt r) (stage_weight (rk_st r)) (fun y => g y i)) rk_fs (fun y => ga y i) f.
Definition emit_table (r : rk4 tg) (ga g : fld -> nat -> cell tg) : fld -> nat -> cell tg :=
  match rk_st r with
  | Stage4 => fun f i => runcol (emit_col (fun y => acc_table r ga g y i)) rk_fs (fun y => g y i) f
  | _ => g
  end.
Lemma rk4_solve_spec (r : rk4 tg) s n ga g : shows_st (rk_acc r) n ga -> sized (rk_acc r) -> s_nc (rk_acc r) = s_nc s ->
  shows_st s n g -> sized s ->
  exists r' s', rk4_solve r s = Ok (r', s') /\
    rk_dt r' = rk_dt r /\ rk_st r' = rk_next r /\ rk_init r' = rk_init r /\
    shows_st (rk_acc r') n (acc_table r ga g) /\ sized (rk_acc r') /\ s_nc (rk_acc r') = s_nc s /\
    shows_st s' n (emit_table r ga g) /\ sized s' /\ s_nc s' = s_nc s.
Proof.
  intros Ha Za Ec H Hz. set (w := stage_weight (rk_st r) : cell tg).
  destruct (opsloop (fun i f d => rk_accum (rk_dt r) w s f d i) (fun i => acc_col (rk_dt r) w (fun y => g y i)) n rk_fs) with (s := rk_acc r) (g := ga)
    as (a1 & E1 & L1 & K1).
  { intros i f d a b Hab. unfold acc_col. now rewrite Hab. }
  { intros i f d Hi HI. destruct (rk_fs_plain f d HI). now apply accum_stores. }
  { exact Ha. }
  assert (Za1 : sized a1). { destruct K1 as (_ & (B1 & B2 & B3 & _) & _). eapply sized_len; [exact Za|exact L1|assumption..]. }
  assert (Na1 : s_nc a1 = s_nc s). { destruct K1 as (_ & (B1 & B2 & B3 & _) & _). congruence. }
  destruct (reaction_loop (fun i f t => rk_accum (rk_dt r) w s f f i t) (s_nc s) a1) as (a2 & E2 & B2).
  { rewrite Na1. lia. } { exact Za1. }
  { intros i f t Hi Hf Ht Et. unfold rk_accum, sto_add. destruct (sized_r s f i Hz Hf Hi) as [x ->]. cbn [bind].
    destruct (sized_r t f i Ht Hf) as [y Ey]; [lia|]. rewrite Ey. cbn [bind]. eapply sto_same_body; eauto. }
  assert (Za2 : sized a2) by (eapply sized_same_body; eauto).
  assert (S2 : shows_st a2 n (acc_table r ga g)).
  { destruct K1 as ((C1 & C2) & _). destruct B2 as (_ & D1 & _ & _ & _ & D2). split; [congruence|].
    intros f i Hf Hi. rewrite D2 by exact Hf. now apply C2. }
  assert (N2 : s_nc a2 = s_nc s). { destruct B2 as (_ & _ & D & _). congruence. }
  unfold rk4_solve. rewrite (proj1 H). fold w.
  assert (E1' : for_ n (fun i acc => let* acc := rk_accum (rk_dt r) w s Fvtheta Fatheta i acc in
       let* acc := rk_accum (rk_dt r) w s Ftheta Fvtheta i acc in let* acc := rk_accum (rk_dt r) w s Fvx Fax i acc in
       let* acc := rk_accum (rk_dt r) w s Fvy Fay i acc in let* acc := rk_accum (rk_dt r) w s Fpx Fvx i acc in
       rk_accum (rk_dt r) w s Fpy Fvy i acc) (rk_acc r) = Ok a1).
  { rewrite <- E1. apply for_ext. intros i a. cbn [runops rk_fs]. do 5 (apply bind_ext; intros ?). now rewrite bind_ret. }
  rewrite E1'. cbn [bind]. rewrite E2. cbn [bind]. unfold emit_table.
  assert (Triv : forall r' s', rk_dt r' = rk_dt r -> rk_st r' = rk_next r -> rk_init r' = rk_init r -> rk_acc r' = a2 ->
     shows_st s' n g -> sized s' -> s_nc s' = s_nc s ->
     exists r'' s'', Ok (r', s') = Ok (r'', s'') /\ rk_dt r'' = rk_dt r /\ rk_st r'' = rk_next r /\ rk_init r'' = rk_init r /\
       shows_st (rk_acc r'') n (acc_table r ga g) /\ sized (rk_acc r'') /\ s_nc (rk_acc r'') = s_nc s /\
       shows_st s'' n g /\ sized s'' /\ s_nc s'' = s_nc s).
  { intros r' s' Q1 Q2 Q3 Q4 Q5 Q6 Q7. exists r', s'. rewrite Q4. repeat split; auto; try apply S2; try apply Za2; try apply Q5; try apply Q6. }
  destruct (rk_st r); try (apply Triv; now auto).
  destruct (opsloop (fun i f d => rk_emit a2 f i) (fun i => emit_col (fun y => acc_table r ga g y i)) n rk_fs) with (s := s) (g := g)
    as (s1 & F1 & M1 & P1).
  { intros i f d a b Hab. reflexivity. }
  { intros i f d Hi HI. destruct (rk_fs_plain f d HI). now apply emit_stores. }
  { exact H. }
  assert (F1' : for_ n (fun i s => let* s := rk_emit a2 Fvtheta i s in let* s := rk_emit a2 Ftheta i s in
      let* s := rk_emit a2 Fvx i s in let* s := rk_emit a2 Fvy i s in let* s := rk_emit a2 Fpx i s in rk_emit a2 Fpy i s) s = Ok s1).
  { rewrite <- F1. apply for_ext. intros i a. cbn [runops rk_fs]. do 5 (apply bind_ext; intros ?). now rewrite bind_ret. }
  rewrite F1'. cbn [bind].
  assert (Zs1 : sized s1). { destruct P1 as (_ & (Q1 & Q2 & Q3 & _) & _). eapply sized_len; [exact Hz|exact M1|assumption..]. }
  assert (Ns1 : s_nc s1 = s_nc s) by apply P1.
  destruct (reaction_loop (fun i f t => rk_emit a2 f i t) (s_nc s1) s1) as (s2 & F2 & D2).
  { lia. } { exact Zs1. }
  { intros i f t Hi Hf Ht Et. unfold rk_emit. destruct (sized_r a2 f i Za2 Hf) as [x ->]; [lia|]. cbn [bind].
    destruct (sized_r t f i Ht Hf) as [y Ey]; [lia|]. eapply sto_same_body; eauto. }
  rewrite F2. cbn [bind]. do 2 eexists. split; [reflexivity|]. cbn [rk_dt rk_st rk_init rk_acc].
  do 3 (split; [reflexivity|]). split; [exact S2|]. split; [exact Za2|]. split; [exact N2|].
  split; [|split; [eapply sized_same_body; eauto|destruct D2 as (_ & _ & D & _); congruence]].
  destruct P1 as ((C1 & C2) & _). destruct D2 as (_ & D1 & _ & _ & _ & D2). split; [congruence|].
  intros f i Hf Hi. rewrite D2 by exact Hf. now apply C2.
Qed.

(** start *)
Lemma copy_fits (d s : st) : fits d s -> sized s -> 0 < s_n s ->
  exists d', st_copy d s = Ok d' /\ reads_same s d' /\ sized d' /\ s_dt d' = s_dt d.
Proof.
  intros [Hd C] Hs P. rewrite st_copy_eq. cbv zeta. destruct (Nat.eqb_spec (s_n s) 0); [lia|].
  set (d1 := st_resize d (s_n s) (s_nc s)).
  assert (A : s_n d1 = s_n s /\ s_nc d1 = s_nc s /\ s_dt d1 = s_dt d).
  { destruct (resize_cases d (s_n s) (s_nc s) Hd) as [(A1 & A2 & A3)|(_ & A1 & A2 & A3)]; unfold d1.
    - rewrite A3. repeat split; lia.
    - now rewrite A1, A2. }
  destruct A as (A1 & A2 & A3). assert (Hd1 : sized d1) by now apply sized_resize.
  destruct (copy_rest_spec d1 s Hd1 Hs A1 A2) as (s' & E & B1 & B2 & B3 & B4 & B5).
  exists s'. split; [exact E|]. split; [refine (conj B3 (conj B4 (conj _ _)))|split; [|congruence]].
  - intros f z. unfold ld. now rewrite B1.
  - intros z. now rewrite B2.
  - destruct Hs as [H1 H2]. split; [intros f; rewrite B1, B3, B4; apply H1|congruence].
Qed.
Lemma reads_shows (s s' : st) n g : reads_same s s' -> shows_st s n g -> shows_st s' n g.
Proof. intros (A1 & A2 & A3 & _) [H1 H2]. split; [congruence|]. intros f i Hf Hi. rewrite A3. auto. Qed.
Lemma rk4_start_spec (r : rk4 tg) s n g dt : rk_fits r s -> sized s -> 0 < n -> shows_st s n g ->
  exists r', rk4_start r s dt = Ok r' /\ rk_dt r' = dt /\ rk_st r' = Stage1 /\
    shows_st (rk_init r') n g /\ shows_st (rk_acc r') n g /\ sized (rk_init r') /\ sized (rk_acc r') /\
    s_nc (rk_init r') = s_nc s /\ s_nc (rk_acc r') = s_nc s.
Proof.
  intros [F1 F2] Hs Hn H. assert (P : 0 < s_n s) by (rewrite (proj1 H); exact Hn). unfold rk4_start.
  destruct (copy_fits _ s F1 Hs P) as (d1 & -> & R1 & Z1 & _). cbn [bind].
  destruct (copy_fits _ s F2 Hs P) as (d2 & -> & R2 & Z2 & _). cbn [bind].
  eexists. split; [reflexivity|]. cbn. do 2 (split; [reflexivity|]).
  split; [now apply (reads_shows s)|]. split; [now apply (reads_shows s)|]. split; [exact Z1|]. split; [exact Z2|]. split; [apply R1|apply R2].
Qed.

(** C41: the driver loop takes four rounds *)
Lemma drive_four (ev : st -> res st) (r : rk4 tg) s dt fuel : keeps_size ev -> rk_fits r s -> sized s -> 0 < s_n s -> 4 <= fuel ->
  exists r1 r2 s2, rk4_start r s dt = Ok r1 /\ rk_drive fuel ev r1 s = Ok (4, (r2, s2)) /\ sized s2 /\ s_n s2 = s_n s /\ s_nc s2 = s_nc s /\
    rk_fits r2 s2.
Proof.
  intros He Hf Hs Hn Hfuel. destruct (rk4_start_spec r s (s_n s) (ldc s) dt Hf Hs Hn (sized_shows s Hs)) as (r1 & E & _ & T1 & I1 & A1 & ZI & ZA & NI & NA).
  assert (Round : forall r s0 g0 ga, shows_st (rk_init r) (s_n s) g0 -> shows_st (rk_acc r) (s_n s) ga -> sized (rk_acc r) ->
     s_nc (rk_acc r) = s_nc s -> sized s0 -> s_n s0 = s_n s -> s_nc s0 = s_nc s ->
     exists s1 s1' r2 s2, rk4_step r s0 = Ok (with_next r, s1, match rk_st r with Stage4 => true | _ => false end) /\ ev s1 = Ok s1' /\
       rk4_solve (with_next r) s1' = Ok (r2, s2) /\ rk_st r2 = next_stage (rk_st r) /\ rk_init r2 = rk_init r /\
       (exists ga', shows_st (rk_acc r2) (s_n s) ga') /\ sized (rk_acc r2) /\ s_nc (rk_acc r2) = s_nc s /\ sized s2 /\ s_n s2 = s_n s /\ s_nc s2 = s_nc s).
  { intros r0 s0 g0 ga HI HA ZA0 NA0 Z0 N0 C0. pose proof (sized_shows s0 Z0) as H0. rewrite N0 in H0.
    destruct (rk4_step_spec r0 s0 (s_n s) g0 _ HI H0 Z0) as (s1 & S1 & S2 & S3 & S4).
    destruct (He s1 S3) as (s1' & V1 & V2 & V3 & V4).
    pose proof (sized_shows s1' V2) as H1. rewrite V3, (proj1 S2) in H1.
    destruct (rk4_solve_spec (with_next r0) s1' (s_n s) ga _ HA ZA0 ltac:(cbn; congruence) H1 V2)
      as (r2 & s2 & Q1 & Q2 & Q3 & Q4 & Q5 & Q6 & Q7 & Q8 & Q9 & Q10).
    exists s1, s1', r2, s2. split; [exact S1|]. split; [exact V1|]. split; [exact Q1|]. split; [exact Q3|]. split; [exact Q4|].
    split; [eauto|]. split; [exact Q6|]. split; [congruence|]. split; [exact Q9|]. split; [apply Q8|congruence]. }
  exists r1. destruct fuel as [|[|[|[|fuel]]]]; try lia.
  destruct (Round r1 s _ _ I1 A1 ZA NA Hs eq_refl eq_refl) as (sa & sa' & r2 & s2 & B1 & B2 & B3 & B4 & B5 & [ga2 B6] & B7 & B8 & B9 & B10 & B11).
  rewrite T1 in B1, B4. cbn in B4.
  assert (I2 : shows_st (rk_init r2) (s_n s) (ldc s)) by (rewrite B5; exact I1).
  destruct (Round r2 s2 _ _ I2 B6 B7 B8 B9 B10 B11) as (sb & sb' & r3 & s3 & C1 & C2 & C3 & C4 & C5 & [ga3 C6] & C7 & C8 & C9 & C10 & C11).
  rewrite B4 in C1, C4. cbn in C4.
  assert (I3 : shows_st (rk_init r3) (s_n s) (ldc s)) by (rewrite C5; exact I2).
  destruct (Round r3 s3 _ _ I3 C6 C7 C8 C9 C10 C11) as (sc & sc' & r4 & s4 & D1 & D2 & D3 & D4 & D5 & [ga4 D6] & D7 & D8 & D9 & D10 & D11).
  rewrite C4 in D1, D4. cbn in D4.
  assert (I4 : shows_st (rk_init r4) (s_n s) (ldc s)) by (rewrite D5; exact I3).
  destruct (Round r4 s4 _ _ I4 D6 D7 D8 D9 D10 D11) as (sd & sd' & r5 & s5 & E1 & E2 & E3 & E4 & E5 & [ga5 E6] & E7 & E8 & E9 & E10 & E11).
  rewrite D4 in E1, E4. cbn in E4.
  exists r5, s5. split; [exact E|].
  cbn [rk_drive]. rewrite B1. cbn [bind]. rewrite B2. cbn [bind]. rewrite B3. cbn [bind].
  rewrite C1. cbn [bind]. rewrite C2. cbn [bind]. rewrite C3. cbn [bind].
  rewrite D1. cbn [bind]. rewrite D2. cbn [bind]. rewrite D3. cbn [bind].
  rewrite E1. cbn [bind]. rewrite E2. cbn [bind]. rewrite E3. cbn [bind].
  split; [reflexivity|]. split; [exact E9|]. split; [exact E10|]. split; [exact E11|].
  assert (Ei : rk_init r5 = rk_init r1) by congruence.
  split; (split; [first [rewrite Ei; exact ZI|exact E7]|right; right]).
  - rewrite Ei, E10, E11, NI. split; [apply I1|reflexivity].
  - rewrite E10, E11. split; [apply E6|exact E8].
Qed.
End S.
