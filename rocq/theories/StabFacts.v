(** * A sparse matrix is a table of entries: proof. *)

From Coq Require Import QArith.
From Verif Require Import Base Targets Matrix Sparse Logic SparseFacts SpecSparse SpecStab.
Local Open Scope nat_scope.

Section S.
Context {tg : target}.
Variables st en : nat.
Definition holds (s : sparse tg) (t : stable tg) : Prop := exists v,
  is_sp st en s (e_w t) (e_h t) (e_block t) v /\ forall r e k x, e_val t r e k = Some x -> v r e k = x.

Lemma holds_fresh : holds sp_new stab_fresh.
Proof.
  exists (fun _ _ _ => None). split; [|discriminate]. split; [apply swf_new|]. cbn. repeat split; intros; lia.
Qed.
Lemma step_holds (ss : sps tg) ts o ts' : (forall id, holds (ss id) (ts id)) -> ststep st en ts o = Some ts' ->
  exists ss', sstep st en ss o = Ok ss' /\ forall id, holds (ss' id) (ts' id).
Proof.
  intros H E.
  assert (ONE : forall t T (r : res (sparse tg)), wp r (fun s => holds s T) -> exists ss', (let* s := r in Ok (upd ss t s)) = Ok ss' /\ forall id, holds (ss' id) (upd ts t T id)).
  { intros t T r W. apply wp_ok in W. destruct W as (s & -> & W). eexists. split; [reflexivity|]. intros id. unfold upd. destruct (Nat.eqb id t); auto. }
  destruct o as [t w h|t w h|t r e b|t r e k x|t r e|ms a b t|ms a b t|t]; cbn [ststep] in E; try discriminate; cbn [sstep].
  - injection E as <-. apply ONE. destruct (H t) as (v & (W & _) & _).
    eapply wp_mono; [apply sp_init_spec; exact W|]. intros s (v' & I). exists v'. split; [exact I|]. discriminate.
  - destruct (Nat.ltb r _ && _ && _) eqn:B in E; [|discriminate]. injection E as <-. rewrite !andb_true_iff, !Nat.ltb_lt, Z.ltb_lt in B. destruct B as ((B1 & B2) & B3).
    apply ONE. destruct (H t) as (v & I & V). eapply wp_mono; [exact (sp_set_block_spec st en _ _ _ _ _ r e b I B1 B2 B3)|]. intros s I'. exists v. split; [exact I'|exact V].
  - destruct (Nat.ltb r _ && _ && _) eqn:B in E; [|discriminate]. injection E as <-. rewrite !andb_true_iff, !Nat.ltb_lt in B. destruct B as ((B1 & B2) & B3).
    apply ONE. destruct (H t) as (v & I & V). eapply wp_mono; [exact (sp_set_spec st en _ _ _ _ _ r e k x I B1 B2 B3)|]. intros s I'. exists (vset v r e k x). split; [exact I'|].
    cbn [e_val]. intros r' e' k' x'. unfold vset. destruct (_ && _ && _); [congruence|apply V].
  - destruct (Nat.ltb r _ && _) eqn:B in E; [|discriminate]. injection E as <-. rewrite !andb_true_iff, !Nat.ltb_lt in B. destruct B as (B1 & B2).
    apply ONE. destruct (H t) as (v & I & V). eapply wp_mono; [exact (sp_set_empty_spec st en _ _ _ _ _ r e I B1 B2)|]. intros s I'. eexists. split; [exact I'|].
    cbn [e_val]. intros r' e' k' x'. destruct (_ && _); [congruence|apply V].
Qed.
Lemma entry_table os : forall (ts : nat -> stable tg), strun st en (fun _ => stab_fresh) os = Some ts -> exists ss, srun st en sfresh os = Ok ss /\ sagrees st en ss ts.
Proof.
  assert (G : forall os (ss : sps tg) ts0 ts, (forall id, holds (ss id) (ts0 id)) -> strun st en ts0 os = Some ts -> exists ss', srun st en ss os = Ok ss' /\ forall id, holds (ss' id) (ts id)).
  { clear. induction os as [|o os IH]; intros ss ts0 ts H E; cbn [strun srun] in *; [injection E as <-; exists ss; auto|].
    destruct (ststep st en ts0 o) as [t1|] eqn:E1; [|discriminate]. destruct (step_holds ss ts0 o t1 H E1) as (s1 & -> & H1). cbn [bind]. exact (IH s1 t1 ts H1 E). }
  intros ts E. destruct (G os sfresh _ ts (fun _ => holds_fresh) E) as (ss & ER & H). exists ss. split; [exact ER|].
  intros id. destruct (H id) as (v & I & V). pose proof I as (_ & Ew & Eh & Eb & _). split; [exact Ew|]. split; [exact Eh|]. intros r e Hr He. split; [now apply Eb|].
  intros k Hk. exists (v r e k). split; [eapply sp_get_spec; eassumption|]. intros x X. now apply V.
Qed.
End S.
(** entry 1 of row 0 is filled and emptied, then the object grows *)
Definition emptied : list (sop (QT true)) :=
  [SInit 0 9 2; SSetBlock 0 0 1 2; SSet 0 0 1 0 (cofZ 7); SSet 0 0 1 1 (cofZ 8); SSetBlock 0 1 0 1; SSet 0 1 0 2 (cofZ 5); SSetEmpty 0 0 1; SInit 1 12 4; SSetBlock 1 3 1 3].
Lemma emptied_runs : exists ts, strun 3 2 (fun _ => stab_fresh) emptied = Some ts /\ e_block (ts 0) 0 1 = 255%Z /\ e_val (ts 0) 0 1 2 = Some (cofZ 0) /\
  e_val (ts 0) 1 0 2 = Some (cofZ 5) /\ e_block (ts 1) 3 1 = 3%Z.
Proof.
  assert (H : match strun 3 2 (fun _ => stab_fresh) emptied with
    | Some ts => e_block (ts 0) 0 1 = 255%Z /\ e_val (ts 0) 0 1 2 = Some (cofZ 0) /\ e_val (ts 0) 1 0 2 = Some (cofZ 5) /\ e_block (ts 1) 3 1 = 3%Z
    | None => False end) by (vm_compute; auto).
  revert H. generalize (strun 3 2 (fun _ => stab_fresh) emptied). intros [ts|] H; [|contradiction]. exists ts. split; [reflexivity|exact H].
Qed.
