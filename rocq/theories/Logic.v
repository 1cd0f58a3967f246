(** * A small program logic for the model: weakest preconditions and loop rules. *)

From Verif Require Import Base.

#[global] Arguments Nat.ltb : simpl never.
#[global] Arguments Nat.eqb : simpl never.

(** the program ends normally in a state satisfying [Q] *)
Definition wp {A} (r : res A) (Q : A -> Prop) : Prop :=
  match r with Ok a => Q a | _ => False end.

(** as [wp], but an assertion failure is also accepted *)
Definition wpa {A} (r : res A) (Q : A -> Prop) : Prop :=
  match r with Ok a => Q a | AssertFail => True | _ => False end.

(** two runs end the same way, normal results being related *)
Definition rel {A B} (r : res A) (r' : res B) (R : A -> B -> Prop) : Prop :=
  match r, r' with
  | Ok a, Ok b => R a b
  | AssertFail, AssertFail | UB, UB | OutOfFuel, OutOfFuel => True
  | _, _ => False
  end.

Lemma wp_ok {A} (r : res A) Q : wp r Q <-> exists a, r = Ok a /\ Q a.
Proof.
  destruct r; cbn; split; intros H; try (now destruct H as [? [? ?]]); try easy.
  - now exists a.
  - destruct H as [b [E H]]. now inversion E.
Qed.

Lemma wp_bind {A B} (r : res A) (k : A -> res B) Q :
  wp r (fun a => wp (k a) Q) -> wp (bind r k) Q.
Proof. destruct r; cbn; easy. Qed.
Lemma wp_mono {A} (r : res A) (P Q : A -> Prop) :
  wp r P -> (forall a, P a -> Q a) -> wp r Q.
Proof. destruct r; cbn; auto. Qed.
Lemma wp_seq {A B} (r : res A) (k : A -> res B) (P : A -> Prop) Q :
  wp r P -> (forall a, P a -> wp (k a) Q) -> wp (bind r k) Q.
Proof. destruct r; cbn; auto. Qed.
Lemma wp_and {A} (r : res A) (P Q : A -> Prop) : wp r P -> wp r Q -> wp r (fun a => P a /\ Q a).
Proof. destruct r; cbn; auto. Qed.
Lemma wp_ret {A} (a : A) (Q : A -> Prop) : Q a -> wp (Ok a) Q.
Proof. auto. Qed.
Lemma wp_eq {A} (r : res A) (Q : A -> Prop) a : r = Ok a -> Q a -> wp r Q.
Proof. intros ->; auto. Qed.
Lemma wp_inv {A} (r : res A) (Q : A -> Prop) a : r = Ok a -> wp r Q -> Q a.
Proof. intros ->; auto. Qed.

Lemma wpa_bind {A B} (r : res A) (k : A -> res B) Q :
  wpa r (fun a => wpa (k a) Q) -> wpa (bind r k) Q.
Proof. destruct r; cbn; easy. Qed.
Lemma wpa_mono {A} (r : res A) (P Q : A -> Prop) :
  wpa r P -> (forall a, P a -> Q a) -> wpa r Q.
Proof. destruct r; cbn; auto. Qed.
Lemma wpa_seq {A B} (r : res A) (k : A -> res B) (P : A -> Prop) Q :
  wpa r P -> (forall a, P a -> wpa (k a) Q) -> wpa (bind r k) Q.
Proof. destruct r; cbn; auto. Qed.
Lemma wp_wpa {A} (r : res A) (Q : A -> Prop) : wp r Q -> wpa r Q.
Proof. destruct r; cbn; auto; easy. Qed.
Lemma wpa_seq_wp {A B} (r : res A) (k : A -> res B) (P : A -> Prop) Q :
  wp r P -> (forall a, P a -> wpa (k a) Q) -> wpa (bind r k) Q.
Proof. intros H; apply wpa_seq; now apply wp_wpa. Qed.

Lemma rel_bind {A B A' B'} (r : res A) (r' : res A') (k : A -> res B) (k' : A' -> res B') P Q :
  rel r r' P -> (forall a a', P a a' -> rel (k a) (k' a') Q) -> rel (bind r k) (bind r' k') Q.
Proof. destruct r, r'; cbn; auto; easy. Qed.
Lemma rel_mono {A B} (r : res A) (r' : res B) (P Q : A -> B -> Prop) :
  rel r r' P -> (forall a b, P a b -> Q a b) -> rel r r' Q.
Proof. destruct r, r'; cbn; auto. Qed.
Lemma rel_ret {A B} (a : A) (b : B) (Q : A -> B -> Prop) : Q a b -> rel (Ok a) (Ok b) Q.
Proof. auto. Qed.
Lemma rel_wp {A B} (r : res A) (r' : res B) P P' :
  wp r P -> wp r' P' -> rel r r' (fun a b => P a /\ P' b).
Proof. destruct r, r'; cbn; auto; easy. Qed.

(** ** massert *)

Lemma wp_massert tg b (Q : unit -> Prop) : b = true -> Q tt -> wp (massert tg b) Q.
Proof. intros ->; auto. Qed.
Lemma bind_massert {A} tg b (k : unit -> res A) : b = true -> bind (massert tg b) k = k tt.
Proof. intros ->; reflexivity. Qed.
Lemma massert_cases tg b : massert tg b = Ok tt \/ massert tg b = AssertFail.
Proof. unfold massert; destruct b; auto; destruct (asserts_on tg); auto. Qed.

(** ** Loops *)

Lemma for_from_inv {S} (f : nat -> S -> res S) (I : nat -> S -> Prop) k :
  forall i s, (forall j t, i <= j < i + k -> I j t -> wp (f j t) (I (Datatypes.S j))) ->
  I i s -> wp (for_from k i f s) (I (i + k)).
Proof.
  induction k as [|k IH]; intros i s Hf Hi; cbn [for_from].
  - rewrite Nat.add_0_r; exact Hi.
  - eapply wp_seq; [apply Hf; [lia|exact Hi]|].
    intros t Ht. cbn beta. rewrite <- Nat.add_succ_comm.
    apply IH; [|exact Ht]. intros j u Hj; apply Hf; lia.
Qed.

Lemma for_inv {S} (f : nat -> S -> res S) (I : nat -> S -> Prop) n s (Q : S -> Prop) :
  I 0 s ->
  (forall i t, i < n -> I i t -> wp (f i t) (I (Datatypes.S i))) ->
  (forall t, I n t -> Q t) ->
  wp (for_ n f s) Q.
Proof.
  intros H0 Hf HQ. eapply wp_mono; [|exact HQ].
  apply (for_from_inv f I n 0 s); [|exact H0]. intros; apply Hf; [lia|assumption].
Qed.

Lemma for_range_inv {S} (f : nat -> S -> res S) (I : nat -> S -> Prop) lo hi s (Q : S -> Prop) :
  I lo s ->
  (forall i t, lo <= i < hi -> I i t -> wp (f i t) (I (Datatypes.S i))) ->
  (forall t, I (Nat.max lo hi) t -> Q t) ->
  wp (for_range lo hi f s) Q.
Proof.
  intros H0 Hf HQ. eapply wp_mono; [|exact HQ].
  replace (Nat.max lo hi) with (lo + (hi - lo)) by lia.
  apply (for_from_inv f I (hi - lo) lo s); [|exact H0]. intros; apply Hf; [lia|assumption].
Qed.

Lemma for_from_inva {S} (f : nat -> S -> res S) (I : nat -> S -> Prop) k :
  forall i s, (forall j t, i <= j < i + k -> I j t -> wpa (f j t) (I (Datatypes.S j))) ->
  I i s -> wpa (for_from k i f s) (I (i + k)).
Proof.
  induction k as [|k IH]; intros i s Hf Hi; cbn [for_from].
  - rewrite Nat.add_0_r; exact Hi.
  - eapply wpa_seq; [apply Hf; [lia|exact Hi]|].
    intros t Ht. cbn beta. rewrite <- Nat.add_succ_comm.
    apply IH; [|exact Ht]. intros j u Hj; apply Hf; lia.
Qed.

Lemma for_inva {S} (f : nat -> S -> res S) (I : nat -> S -> Prop) n s (Q : S -> Prop) :
  I 0 s ->
  (forall i t, i < n -> I i t -> wpa (f i t) (I (Datatypes.S i))) ->
  (forall t, I n t -> Q t) ->
  wpa (for_ n f s) Q.
Proof.
  intros H0 Hf HQ. eapply wpa_mono; [|exact HQ].
  apply (for_from_inva f I n 0 s); [|exact H0]. intros; apply Hf; [lia|assumption].
Qed.

(** two-dimensional loops: the state after finishing row [i] is the state
    before row [i+1] *)
Lemma for2_inv {S} h w (f : nat -> nat -> S -> res S) (I : nat -> nat -> S -> Prop) s (Q : S -> Prop) :
  I 0 0 s ->
  (forall i j t, i < h -> j < w -> I i j t -> wp (f i j t) (I i (Datatypes.S j))) ->
  (forall i t, i < h -> I i w t -> I (Datatypes.S i) 0 t) ->
  (forall t, I h 0 t -> Q t) ->
  wp (for2 h w f s) Q.
Proof.
  intros H0 Hf Hrow HQ. unfold for2.
  apply (for_inv _ (fun i t => I i 0 t)); [exact H0| |exact HQ].
  intros i t Hi Ht. apply (for_inv _ (fun j t => I i j t)); [exact Ht| |].
  - intros j u Hj Hu. apply Hf; assumption.
  - intros u Hu. apply Hrow; assumption.
Qed.

Lemma for_from_rel {S S'} (f : nat -> S -> res S) (f' : nat -> S' -> res S') (R : nat -> S -> S' -> Prop) k :
  forall i s s',
  (forall j t t', i <= j < i + k -> R j t t' -> rel (f j t) (f' j t') (R (Datatypes.S j))) ->
  R i s s' -> rel (for_from k i f s) (for_from k i f' s') (R (i + k)).
Proof.
  induction k as [|k IH]; intros i s s' Hf Hi; cbn [for_from].
  - rewrite Nat.add_0_r; exact Hi.
  - eapply rel_bind; [apply Hf; [lia|exact Hi]|].
    intros t t' Ht. cbn beta. rewrite <- Nat.add_succ_comm.
    apply IH; [|exact Ht]. intros j u u' Hj; apply Hf; lia.
Qed.
Lemma for_rel {S S'} (f : nat -> S -> res S) (f' : nat -> S' -> res S') (R : nat -> S -> S' -> Prop) n s s' :
  R 0 s s' ->
  (forall i t t', i < n -> R i t t' -> rel (f i t) (f' i t') (R (Datatypes.S i))) ->
  rel (for_ n f s) (for_ n f' s') (R n).
Proof. intros H0 Hf. apply (for_from_rel f f' R n 0); [intros; apply Hf; [lia|assumption]|exact H0]. Qed.
Lemma for_range_rel {S S'} (f : nat -> S -> res S) (f' : nat -> S' -> res S') (R : nat -> S -> S' -> Prop) lo hi s s' :
  R lo s s' ->
  (forall i t t', lo <= i < hi -> R i t t' -> rel (f i t) (f' i t') (R (Datatypes.S i))) ->
  rel (for_range lo hi f s) (for_range lo hi f' s') (R (Nat.max lo hi)).
Proof.
  intros H0 Hf. replace (Nat.max lo hi) with (lo + (hi - lo)) by lia.
  apply (for_from_rel f f' R (hi - lo) lo); [intros; apply Hf; [lia|assumption]|exact H0].
Qed.

(** ** Blocks *)

Lemma list_set_some {A} (l : list A) i v :
  i < length l -> exists l', list_set l i v = Some l' /\ length l' = length l /\
    forall k, nth_error l' k = if Nat.eqb k i then Some v else nth_error l k.
Proof.
  revert i; induction l as [|x l IH]; intros i Hi; cbn in Hi; [lia|].
  destruct i as [|i]; cbn [list_set].
  - exists (v :: l); repeat split. intros [|k]; reflexivity.
  - destruct (IH i) as [l' [E [L N]]]; [lia|]. rewrite E.
    exists (x :: l'); repeat split; [cbn; lia|].
    intros [|k]; cbn; [reflexivity|apply N].
Qed.
Lemma list_set_none {A} (l : list A) i v : length l <= i -> list_set l i v = None.
Proof.
  revert i; induction l as [|x l IH]; intros i Hi; [reflexivity|].
  destruct i as [|i]; cbn in *; [lia|]. rewrite IH; [reflexivity|lia].
Qed.

Lemma nth_error_ex {A} (l : list A) i : i < length l -> exists x, nth_error l i = Some x.
Proof.
  intros H. destruct (nth_error l i) eqn:E; [now exists a|].
  apply nth_error_None in E; lia.
Qed.
Lemma nth_error_lt {A} (l : list A) i x : nth_error l i = Some x -> i < length l.
Proof. intros H; apply nth_error_Some; congruence. Qed.
Lemma nth_error_repeat' {A} (x : A) n i : i < n -> nth_error (repeat x n) i = Some x.
Proof. revert i; induction n; intros [|i] H; cbn; try lia; [reflexivity|apply IHn; lia]. Qed.

Lemma upd_same {A} (s : nat -> A) i v : upd s i v i = v.
Proof. unfold upd; now rewrite Nat.eqb_refl. Qed.
Lemma upd_other {A} (s : nat -> A) i v k : k <> i -> upd s i v k = s k.
Proof. intros H; unfold upd. destruct (Nat.eqb_spec k i); [contradiction|reflexivity]. Qed.

(** ** Partial correctness: whatever the outcome, a normal one satisfies [Q] *)

Definition pc {A} (r : res A) (Q : A -> Prop) : Prop :=
  match r with Ok a => Q a | _ => True end.

Lemma pc_intro {A} (r : res A) (Q : A -> Prop) : (forall a, r = Ok a -> Q a) -> pc r Q.
Proof. destruct r; cbn; auto. Qed.
Lemma pc_elim {A} (r : res A) (Q : A -> Prop) a : r = Ok a -> pc r Q -> Q a.
Proof. intros ->; auto. Qed.
Lemma wp_pc {A} (r : res A) (Q : A -> Prop) : wp r Q -> pc r Q.
Proof. destruct r; cbn; auto. Qed.
Lemma pc_seq {A B} (r : res A) (k : A -> res B) (P : A -> Prop) Q :
  pc r P -> (forall a, P a -> pc (k a) Q) -> pc (bind r k) Q.
Proof. destruct r; cbn; auto. Qed.
Lemma pc_mono {A} (r : res A) (P Q : A -> Prop) : pc r P -> (forall a, P a -> Q a) -> pc r Q.
Proof. destruct r; cbn; auto. Qed.
Lemma pc_any {A B} (r : res A) (k : A -> res B) Q : (forall a, pc (k a) Q) -> pc (bind r k) Q.
Proof. destruct r; cbn; auto. Qed.
Lemma for_from_pc {S} (f : nat -> S -> res S) (I : S -> Prop) k :
  forall i s, (forall j t, I t -> pc (f j t) I) -> I s -> pc (for_from k i f s) I.
Proof.
  induction k as [|k IH]; intros i s Hf Hi; cbn [for_from]; [exact Hi|].
  eapply pc_seq; [apply Hf; exact Hi|]. intros t Ht. apply IH; assumption.
Qed.
Lemma for_pc {S} (f : nat -> S -> res S) (I : S -> Prop) n s :
  (forall j t, I t -> pc (f j t) I) -> I s -> pc (for_ n f s) I.
Proof. apply for_from_pc. Qed.
Lemma for2_pc {S} h w (f : nat -> nat -> S -> res S) (I : S -> Prop) s :
  (forall i j t, I t -> pc (f i j t) I) -> I s -> pc (for2 h w f s) I.
Proof. intros Hf Hi. apply for_pc; [|exact Hi]. intros i t Ht. apply for_pc; auto. Qed.

(** ** Loops whose every step is known to succeed *)

Fixpoint iter {A} (n : nat) (g : nat -> A -> A) (a : A) : A :=
  match n with O => a | S n' => g n' (iter n' g a) end.

Lemma for_det {A} n (f : nat -> A -> res A) g a :
  (forall i x, i < n -> f i x = Ok (g i x)) -> for_ n f a = Ok (iter n g a).
Proof.
  intros H.
  assert (W : wp (for_ n f a) (fun x => x = iter n g a)).
  { apply (for_inv _ (fun i x => x = iter i g a)); [reflexivity| |auto].
    intros i t Hi ->. rewrite H by assumption. reflexivity. }
  apply wp_ok in W. destruct W as (x & -> & ->). reflexivity.
Qed.
Lemma iter_ext {A} n (g g' : nat -> A -> A) a :
  (forall i x, i < n -> g i x = g' i x) -> iter n g a = iter n g' a.
Proof. induction n; intros H; cbn; [reflexivity|]. rewrite IHn by auto. apply H; lia. Qed.

Lemma mix_inj n a b k k' : k < n -> k' < n -> a * n + k = b * n + k' -> a = b /\ k = k'.
Proof.
  intros Hk Hk' E. destruct (Nat.lt_trichotomy a b) as [L|[->|L]].
  - assert (S a * n <= b * n) by (apply Nat.mul_le_mono_r; lia). lia.
  - split; lia.
  - assert (S b * n <= a * n) by (apply Nat.mul_le_mono_r; lia). lia.
Qed.
Lemma for_from_pci {S} (f : nat -> S -> res S) (I : nat -> S -> Prop) k :
  forall i s, (forall j t, i <= j < i + k -> I j t -> pc (f j t) (I (Datatypes.S j))) -> I i s -> pc (for_from k i f s) (I (i + k)).
Proof.
  induction k as [|k IH]; intros i s Hf Hi; cbn [for_from]; [now rewrite Nat.add_0_r|].
  eapply pc_seq; [apply Hf; [lia|exact Hi]|]. intros t Ht. rewrite <- Nat.add_succ_comm.
  apply IH; [|exact Ht]. intros j u Hj. apply Hf. lia.
Qed.
Lemma pc_and {A} (r : res A) (P Q : A -> Prop) : pc r P -> pc r Q -> pc r (fun a => P a /\ Q a).
Proof. destruct r; cbn; auto. Qed.
Lemma pc_true {A} (r : res A) : pc r (fun _ => True).
Proof. destruct r; cbn; auto. Qed.
