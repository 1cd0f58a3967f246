(** * Whether a motor reaches its speed. *)

From Coq Require Import Reals Lra.
From Verif Require Import Base Targets Matrix Sparse Sle State Ode Forces Constraints System Logic SpecMatrix SpecState SpecCon SpecSys RegFacts RegWit SpecDyn SpecSolve SolveWit SpecLaw SpecSub SpecLeast
  LeastPart TurnWit SpecMotor MotorReal SpecRun RunStep MotorWit.
Local Open Scope nat_scope.

Section S.
Context {dbg : bool}.
Notation T := (RT dbg).
Notation cl := (cell T).
Variable priv : nat -> bool.
Lemma iter_same {A} (f g : A -> A) n x : (forall x, f x = g x) -> Nat.iter n f x = Nat.iter n g x.
Proof. intros H. induction n as [|n IH]; [reflexivity|]. cbn [Nat.iter nat_rect]. unfold Nat.iter in IH. now rewrite IH, H. Qed.
Lemma scene_calls k z (dt : R) ts (w : world T) y w' y' g b0 b1 (sp ks kd mx v0 v1 r0 r1 : R) : driven priv k z w y g b0 b1 sp ks kd mx -> (0 <= mx)%R ->
  turns w y b0 v0 r0 -> turns w y b1 v1 r1 -> calls_of k (Some dt : cl) ts w y = Ok (w', y') ->
  exists v0' v1', turns w' y' b0 v0' r0 /\ turns w' y' b1 v1' r1 /\ (sp - (v1' - v0'))%R = Nat.iter (length ts) (step_e ks mx ((r1 + r0) * dt)) (sp - (v1 - v0))%R.
Proof.
  intros ((m & H) & HA & HS & HU & H1 & N & HM) Hm T0 T1 E.
  destruct (motor_calls priv k z dt ts m w y w' y' g b0 b1 sp ks kd mx v0 v1 r0 r1 H HA HS HU E H1 N Hm HM T0 T1) as (u0 & u1 & A & B & _ & C).
  exists u0, u1. split; [exact A|]. split; [exact B|]. rewrite C. apply iter_same. intros x. unfold step_e. ring.
Qed.
Lemma speed_reached k z (dt : R) (w : world T) y g b0 b1 (sp ks kd mx v0 v1 r0 r1 eps : R) : driven priv k z w y g b0 b1 sp ks kd mx ->
  turns w y b0 v0 r0 -> turns w y b1 v1 r1 -> (0 < mx -> 0 < ks -> 0 < ks * ((r1 + r0) * dt) < 2 -> 0 < eps ->
  exists N, forall ts w' y', (N <= length ts)%nat -> calls_of k (Some dt : cl) ts w y = Ok (w', y') ->
    exists v0' v1', turns w' y' b0 v0' r0 /\ turns w' y' b1 v1' r1 /\ Rabs (sp - (v1' - v0')) < eps)%R.
Proof.
  intros HS T0 T1 Hm Hk Hc He. destruct (reached ks mx ((r1 + r0) * dt) (sp - (v1 - v0)) eps Hm Hk Hc He) as [N HN].
  exists N. intros ts w' y' HL E. destruct (scene_calls k z dt ts w y w' y' g b0 b1 sp ks kd mx v0 v1 r0 r1 HS ltac:(lra) T0 T1 E) as (u0 & u1 & A & B & C).
  exists u0, u1. split; [exact A|]. split; [exact B|]. rewrite C. now apply HN.
Qed.
Lemma speed_steady k z (dt : R) ts (w : world T) y w' y' g b0 b1 (sp ks kd mx v0 v1 r0 r1 : R) : driven priv k z w y g b0 b1 sp ks kd mx ->
  turns w y b0 v0 r0 -> turns w y b1 v1 r1 -> calls_of k (Some dt : cl) ts w y = Ok (w', y') -> (0 <= mx -> 0 <= ks -> 0 <= (r1 + r0) * dt -> ks * ((r1 + r0) * dt) <= 1 ->
  exists v0' v1', turns w' y' b0 v0' r0 /\ turns w' y' b1 v1' r1 /\
    (v1 - v0 <= sp -> v1 - v0 <= v1' - v0' <= sp) /\ (sp <= v1 - v0 -> sp <= v1' - v0' <= v1 - v0))%R.
Proof.
  intros HS T0 T1 E Hm Hk Hc Hkc. destruct (scene_calls k z dt ts w y w' y' g b0 b1 sp ks kd mx v0 v1 r0 r1 HS Hm T0 T1 E) as (u0 & u1 & A & B & C).
  exists u0, u1. split; [exact A|]. split; [exact B|].
  destruct (steady_iter ks mx ((r1 + r0) * dt) (sp - (v1 - v0)) (length ts) Hm Hk Hc Hkc) as [P Q]. rewrite <- C in P, Q. split; intros L; [specialize (P ltac:(lra))|specialize (Q ltac:(lra))]; lra.
Qed.
Lemma speed_power k z (dt : R) ts (w : world T) y w' y' g b0 b1 (sp ks kd mx v0 v1 r0 r1 : R) : driven priv k z w y g b0 b1 sp ks kd mx ->
  turns w y b0 v0 r0 -> turns w y b1 v1 r1 -> calls_of k (Some dt : cl) ts w y = Ok (w', y') -> (0 <= mx -> 0 <= ks * ((r1 + r0) * dt) <= 2 -> Rabs (ks * (sp - (v1 - v0))) <= mx ->
  exists v0' v1', turns w' y' b0 v0' r0 /\ turns w' y' b1 v1' r1 /\ sp - (v1' - v0') = (1 - ks * ((r1 + r0) * dt)) ^ length ts * (sp - (v1 - v0)))%R.
Proof.
  intros HS T0 T1 E Hm Hc Hs. destruct (scene_calls k z dt ts w y w' y' g b0 b1 sp ks kd mx v0 v1 r0 r1 HS Hm T0 T1 E) as (u0 & u1 & A & B & C).
  exists u0, u1. split; [exact A|]. split; [exact B|]. rewrite C. apply unsat_iter; [exact Hs|]. apply Rabs_le. lra.
Qed.
Lemma pow_m1 n : Rabs ((-1) ^ n) = 1%R.
Proof. rewrite <- RPow_abs, (Rabs_left (-1)) by lra. replace (- -1)%R with 1%R by ring. apply pow1. Qed.

(** several sub-steps *)
Lemma speed_undamped k z (dt : R) n t (w : world T) y w' y' g b0 b1 (sp ks mx v0 v1 r0 r1 : R) : driven priv k z w y g b0 b1 sp ks 0 mx ->
  turns w y b0 v0 r0 -> turns w y b1 v1 r1 -> process k (Some dt : cl) n t w y = Ok (w', y') -> (0 < n)%nat -> (0 <= mx)%R -> let h := (dt / INR n)%R in
  exists v0' v1', turns w' y' b0 v0' r0 /\ turns w' y' b1 v1' r1 /\ (sp - (v1' - v0'))%R = Nat.iter n (fun e => e - cut mx (ks * e) * ((r1 + r0) * h))%R (sp - (v1 - v0))%R.
Proof.
  intros ((m & H) & HA & HS & HU & H1 & N & HM) T0 T1 E Hn Hm h.
  destruct (motor_call priv k z m dt n t w y w' y' g b0 b1 sp ks 0 mx v0 v1 r0 r1 H HA HS HU E Hn H1 N Hm HM T0 T1) as (u0 & u1 & A & B & _ & C).
  exists u0, u1. split; [exact A|]. split; [exact B|]. rewrite C. rewrite undamped_spin. cbn [fst]. fold h. apply iter_same. intros x. unfold step_e. ring.
Qed.
Lemma stall_plays k z (g b0 b1 : nat) (sp ks kd mx r0 r1 : R) : b0 <> b1 -> (0 <= mx)%R -> (0 <= r1 + r0)%R -> (0 <= ks)%R -> forall l (w : world T) y w' y' v0 v1,
  (forall dt n t, In (dt, n, t) l -> (0 <= dt)%R /\ exists i, 0 < i /\ n = 2 * i) -> driven priv k z w y g b0 b1 sp ks kd mx ->
  turns w y b0 v0 r0 -> turns w y b1 v1 r1 -> (mx <= ks * (sp - (v1 - v0)))%R -> (mx + ks * (sp - (v1 - v0)) <= kd * (mx * (r1 + r0)))%R ->
  plays k l w y = Ok (w', y') -> exists v0' v1', turns w' y' b0 v0' r0 /\ turns w' y' b1 v1' r1 /\ (v1' - v0' = v1 - v0)%R.
Proof.
  intros Nb Hm Hr Hk. induction l as [|[[dt n] t] l IH]; intros w y w' y' v0 v1 HL SC T0 T1 C1 C2 E; cbn [plays] in E.
  - injection E as <- <-. exists v0, v1. auto.
  - destruct (process k (Some dt : cl) n t w y) as [[w2 y2]| | |] eqn:E1; try discriminate E. cbn [bind] in E.
    destruct (HL dt n t (or_introl eq_refl)) as (Hd & i & Hi & En). pose proof SC as ((m & H) & HA & HS & HU & H1 & N & HM).
    destruct (motor_call priv k z m dt n t w y w2 y2 g b0 b1 sp ks kd mx v0 v1 r0 r1 H HA HS HU E1 ltac:(lia) H1 N Hm HM T0 T1) as (u0 & u1 & T0' & T1' & _ & EX).
    assert (0 < INR n)%R by (apply lt_0_INR; lia).
    assert (Hh : (0 <= dt / INR n)%R) by now apply Rle_mult_inv_pos.
    set (h := (dt / INR n)%R) in EX, Hh. clearbody h. subst n. rewrite stalls in EX by assumption.
    destruct (motor_next priv k z dt (2 * i) t w y w2 y2 m g b0 b1 sp ks kd mx H HA HS HU HM E1) as ((m2 & H2) & A2 & S2 & _ & M2 & EB).
    assert (U2 : uses k z y2). { destruct i as [|i0]; [lia|]. exact (process_scheme_n k z _ _ t w y w2 y2 HU E1). }
    destruct (IH w2 y2 w' y' u0 u1) as (v0' & v1' & X0 & X1 & X2); auto.
    + intros dt' n' t' Hin. apply (HL dt' n' t'). now right.
    + split; [now exists m2|]. split; [exact A2|]. split; [exact S2|]. split; [exact U2|]. split; [now rewrite EB|]. split; [exact N|exact M2].
    + rewrite EX. exact C1.
    + rewrite EX. exact C2.
    + exists v0', v1'. split; [exact X0|]. split; [exact X1|]. lra.
Qed.
End S.

(** ** two motors that never get there *)
Section W.
Context {dbg : bool}.
Notation T := (RT dbg).
Notation cl := (cell T).
(** ks c = 2 *)
Lemma chatter_world k z : let z' := match k with Optimized => Symplectic | Generic => z end in
  exists (w : world T) y, driven nopriv k z' w y 0 9 6 1%R 6%R 0%R 6%R /\ turns w y 9 0%R 0%R /\ turns w y 6 0%R (/ 3)%R /\
    forall ts, exists w' y' v', calls_of k (Some 1%R : cl) ts w y = Ok (w', y') /\ turns w' y' 6 v' (/ 3)%R /\ Rabs (1 - v') = 1%R.
Proof.
  intros z'. destruct (motor_scene (dbg := dbg) k z false 1 6 0 6 0 0 ltac:(lra)) as (m & w & y & H & HA & HS & HU & I6 & HM & T0 & T1 & _ & _ & _ & _ & _ & R).
  assert (SC : driven nopriv k z' w y 0 9 6 1%R 6%R 0%R 6%R).
  { split; [eauto|]. split; [exact HA|]. split; [exact HS|]. split; [exact HU|]. split; [exact I6|]. split; [lia|exact HM]. }
  exists w, y. split; [exact SC|]. split; [exact T0|]. split; [exact T1|]. intros ts. destruct (R 1%R ts ltac:(lra)) as (w' & y' & E).
  destruct (scene_calls nopriv k z' 1 ts w y w' y' 0 9 6 1 6 0 6 0 0 0 (/ 3) SC ltac:(lra) T0 T1 E) as (u0 & u1 & A & B & C).
  exists w', y', u1. split; [exact E|]. split; [exact B|].
  assert (u0 = 0%R) as -> by (destruct A as [(_ & _ & _ & i & Ni & Ei & _)|(_ & _ & -> & _)]; [exfalso; apply Rinv_neq_0_compat in Ni; lra|reflexivity]).
  replace (1 - u1)%R with (1 - (u1 - 0))%R by ring. rewrite C. replace (1 - (0 - 0))%R with (6 * ((/ 3 + 0) * 1) / 2)%R by field. rewrite chatters by lra.
  rewrite Rabs_mult, pow_m1, Rabs_pos_eq; lra.
Qed.
(** kd 6 *)
Lemma stall_world k z : let z' := match k with Optimized => Symplectic | Generic => z end in
  exists (w : world T) y, driven nopriv k z' w y 0 7 6 1%R 1%R 6%R 1%R /\ turns w y 7 0%R (/ 3)%R /\ turns w y 6 0%R (/ 3)%R /\
    forall l, (forall dt n t, In (dt, n, t) l -> (0 < dt)%R /\ exists i, 0 < i /\ n = 2 * i) ->
      exists w' y' v, plays k l w y = Ok (w', y') /\ turns w' y' 7 v (/ 3)%R /\ turns w' y' 6 v (/ 3)%R.
Proof.
  intros z'. destruct (motor_scene (dbg := dbg) k z true 1 1 6 1 0 0 ltac:(lra)) as (m & w & y & H & HA & HS & HU & I6 & HM & T0 & T1 & _ & _ & D & HF & _ & _).
  assert (SC : driven nopriv k z' w y 0 7 6 1%R 1%R 6%R 1%R).
  { split; [eauto|]. split; [exact HA|]. split; [exact HS|]. split; [exact HU|]. split; [exact I6|]. split; [lia|exact HM]. }
  exists w, y. split; [exact SC|]. split; [exact T0|]. split; [exact T1|]. intros l HL.
  destruct (run_calls nopriv k z' kT _ 1%R MD l w y qD _ D HF) as (w' & y' & _ & _ & E & _).
  { intros dt n t Hi. destruct (HL dt n t Hi) as (X & i & P & Q). split; [lra|lia]. }
  destruct (stall_plays nopriv k z' 0 7 6 1 1 6 1 (/ 3) (/ 3) ltac:(lia) ltac:(lra) ltac:(lra) ltac:(lra) l w y w' y' 0 0) as (u0 & u1 & A & B & C); auto; try lra.
  { intros dt n t Hi. destruct (HL dt n t Hi) as (X & Q). split; [lra|exact Q]. }
  exists w', y', u0. split; [exact E|]. split; [exact A|]. replace u0 with u1 by lra. exact B.
Qed.
End W.
