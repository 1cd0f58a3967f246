(** * Constraints that name a body outside the system. *)

From Verif Require Import Base Targets Matrix Sparse Sle State Ode Forces Constraints System Logic SpecState SpecSys SpecEdge.
Local Open Scope nat_scope.

(** a loop that ends normally has run every turn *)
Lemma for_from_hits {A} (f : nat -> A -> res A) : forall n lo s s', for_from n lo f s = Ok s' ->
  forall i, lo <= i < lo + n -> exists a b, f i a = Ok b.
Proof.
  induction n as [|n IH]; intros lo s s' E i Hi; [lia|]. cbn [for_from] in E. destruct (f lo s) as [s1| | |] eqn:E1; try discriminate. cbn [bind] in E.
  destruct (Nat.eq_dec i lo) as [->|N]; [eauto|]. apply (IH (S lo) s1 s' E). lia.
Qed.
Lemma for_hits {A} (f : nat -> A -> res A) n s s' : for_ n f s = Ok s' -> forall i, i < n -> exists a b, f i a = Ok b.
Proof. intros E i Hi. apply (for_from_hits f n 0 s s' E). lia. Qed.
Lemma bind_inv {A B} (r : res A) (k : A -> res B) b : bind r k = Ok b -> exists a, r = Ok a /\ k a = Ok b.
Proof. destruct r; cbn [bind]; try discriminate. eauto. Qed.

Section S.
Context {tg : target}.
Notation st := (sstate tg).
Implicit Types (hp : heap tg) (w : world tg) (y : sys tg).

Lemma sto_add_index (s : st) f i v s' : sto_add s f i v = Ok s' -> (0 <= i)%Z.
Proof.
  unfold sto_add, ld, aget. destruct (Z.ltb_spec i 0); [discriminate|]. intros; lia.
Qed.
Definition slots_in w y : Prop := forall c k, In c (y_cons y) -> 0 < c_count (w_con w c) -> k < c_bodycount (w_con w c) ->
  exists i, slot_index w c k = Some i /\ (0 <= i)%Z.
Lemma apply_reactions_hits w y hp (s s' : st) : apply_reactions w y hp s = Ok s' -> slots_in w y.
Proof.
  unfold apply_reactions. intros E c k Hc Hj Hk. cbv zeta in E.
  apply bind_inv in E. destruct E as (s1 & _ & E). apply bind_inv in E. destruct E as (s2 & _ & E).
  apply bind_inv in E. destruct E as ([s3 j3] & E & _). apply In_nth_error in Hc. destruct Hc as [i Ei].
  assert (Li : i < con_count y) by (apply nth_error_Some; congruence).
  destruct (for_hits _ _ _ _ E i Li) as ([sa ja] & b & E1). cbv beta iota in E1. unfold nth_con in E1. rewrite Ei in E1. cbn [lift_opt bind] in E1.
  destruct (for_hits _ _ _ _ E1 0 Hj) as ([sb jb] & b2 & E2). cbv beta iota in E2. apply bind_inv in E2. destruct E2 as (sc & E2 & _).
  destruct (for_hits _ _ _ _ E2 k Hk) as (sd & se & E3). cbv beta in E3. unfold con_body_index in E3. unfold slot_index.
  destruct (c_bodies (w_con w c) k) as [b'|]; [|discriminate]. cbn [deref bind] in E3. eexists. split; [reflexivity|].
  cbv zeta in E3. apply bind_inv in E3. destruct E3 as (r & _ & E3). apply bind_inv in E3. destruct E3 as (sf & E3 & _).
  eapply sto_add_index; exact E3.
Qed.
Lemma opt_constraints_hits w y dt hp (s : st) z : opt_process_constraints w y dt hp s = Ok z -> slots_in w y.
Proof.
  unfold opt_process_constraints. intros E.
  do 3 (apply bind_inv in E; destruct E as (? & _ & E)). apply bind_inv in E. destruct E as ([hp1 ok] & _ & E).
  do 3 (apply bind_inv in E; destruct E as (? & _ & E)). apply bind_inv in E. destruct E as (s' & E & _). eapply apply_reactions_hits; exact E.
Qed.
Lemma gen_constraints_hits w y hp (s : st) z : gen_process_constraints w y hp s = Ok z -> slots_in w y.
Proof.
  unfold gen_process_constraints. intros E.
  do 3 (apply bind_inv in E; destruct E as (? & _ & E)). apply bind_inv in E. destruct E as ([hp1 ok] & _ & E).
  do 2 (apply bind_inv in E; destruct E as (? & _ & E)). apply bind_inv in E. destruct E as (s' & E & _). eapply apply_reactions_hits; exact E.
Qed.
Lemma ode_rounds_hits fuel w y pcf (o : ode tg) hp (s : st) z : ode_rounds fuel w y pcf o hp s = Ok z ->
  exists hp' s' z', pcf hp' s' = Ok z'.
Proof.
  destruct fuel as [|fuel]; [discriminate|]. cbn [ode_rounds]. intros E. apply bind_inv in E. destruct E as ([[o1 s1] dn] & _ & E).
  apply bind_inv in E. destruct E as (s2 & _ & E). apply bind_inv in E. destruct E as (z2 & E & _). eauto.
Qed.
Lemma ode_steps_hits n dt w y pcf (o : ode tg) hp (s : st) z : ode_steps (S n) dt w y pcf o hp s = Ok z ->
  exists h hp' s' z', pcf h hp' s' = Ok z'.
Proof.
  unfold ode_steps. intros E. destruct (for_hits _ _ _ _ E 0 ltac:(lia)) as ([[o1 hp1] s1] & b & E1). cbv beta iota in E1.
  apply bind_inv in E1. destruct E1 as (o2 & _ & E1). apply bind_inv in E1. destruct E1 as (z2 & E1 & _).
  destruct (ode_rounds_hits _ _ _ _ _ _ _ _ E1) as (hp' & s' & z' & E2). eauto.
Qed.
Lemma process_hits k dt n t w y w' y' : process k dt (S n) t w y = Ok (w', y') -> slots_in w y.
Proof.
  destruct k; cbn [process]; intros E.
  - unfold opt_process in E. apply bind_inv in E. destruct E as (s0 & _ & E). cbv zeta in E.
    do 2 (apply bind_inv in E; destruct E as (? & _ & E)). apply bind_inv in E. destruct E as (z & E & _).
    destruct (ode_steps_hits _ _ _ _ _ _ _ _ _ E) as (h & hp' & s' & z' & E1). exact (opt_constraints_hits _ _ _ _ _ _ E1).
  - unfold gen_process in E. apply bind_inv in E. destruct E as (s0 & _ & E). cbv zeta in E.
    apply bind_inv in E; destruct E as (? & _ & E). apply bind_inv in E. destruct E as (z & E & _).
    apply bind_inv in E. destruct E as (o & _ & E). apply bind_inv in E. destruct E as (z2 & E & _).
    destruct (ode_steps_hits _ _ _ _ _ _ _ _ _ E) as (h & hp' & s' & z' & E1). exact (gen_constraints_hits _ _ _ _ _ E1).
Qed.
End S.
