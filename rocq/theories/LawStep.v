(** * One step with the nine constraint classes. *)

From Coq Require Import Reals Lra.
From Verif Require Import Base Targets Matrix Sparse Sle State Ode Forces Constraints System Logic SpecMatrix SpecState SpecForces SpecCon ConFacts
  SpecSle SpecSys RegFacts SpecDyn DynState DynReact DynRound DynStep SpecSolve SolveReal SolveStep SpecLaw LawReal.
Local Open Scope nat_scope.

Section S.
Context {dbg : bool}.
Notation T := (RT dbg).
Notation cl := (cell T).
Variable priv : nat -> bool.
Implicit Types (w : world T) (y : sys T).

Lemma kinds_shaped w y kc : kinds_are w y kc -> shaped w y.
Proof. intros H c Hc. destruct (H c Hc) as (_ & -> & ->). destruct (kc c); cbn; lia. Qed.
Lemma kinds_parties w y kc : kinds_are w y kc -> forall c, In c (y_cons y) -> 1 <= c_bodycount (w_con w c).
Proof. intros H c Hc. destruct (H c Hc) as (_ & _ & ->). destruct (kc c); cbn; lia. Qed.

Lemma opt_ge_obeys m (dt : R) t w y g (beta : R) q v M f kc :
  yreach Optimized priv m w y -> y_sle y = Some (SleGe g) -> attached w y -> kinds_are w y kc -> all_gentle w y -> body_count y <= 255 -> y_cons y <> [] ->
  dt <> 0%R -> y_bias y = Some beta -> bodies_are w y q v M -> pushesR w y (kin_of w) dt f ->
  regular w y M (fun c j i => J_of (kc c) (pose_at w q c) j i) ->
  exists w' y' v', process Optimized (Some dt : cl) 1 t w y = Ok (w', y') /\
    ends w' y (fun b d => q b d + v' b d * dt)%R v' /\
    forall c, In c (y_cons y) -> obeys (kc c) (pose_at w q c) (pose_at w v' c) (beta / dt)%R.
Proof.
  intros H El HA HK HG H255 HC0 Ndt Eb HB HP HR.
  pose proof (reg_listed _ _ _ (yreach_reg _ _ _ _ _ H)) as HL.
  assert (HW : answers w y (kin_of w) (Some dt : cl) (law_R w kc q v)).
  { apply kinds_answer; auto. intros b d Hb Hd. destruct (HB b d Hb Hd) as (A & B & _). auto. }
  destruct (opt_ge_step priv m dt t w y g beta q v M f (law_R w kc q v) (fun c j i => J_of (kc c) (pose_at w q c) j i)
    (fun c j => C_of (kc c) (pose_at w q c) j) (fun c j => bias_of (kc c)) H El HA (kinds_shaped w y kc HK) HG H255 HC0 Ndt Eb HB HW) as (w' & y' & v' & x & E & EN & ER & _); auto.
  - intros c j _ _ i _. reflexivity.
  - intros c j _ _. reflexivity.
  - intros c j _ _. reflexivity.
  - exists w', y', v'. split; [exact E|]. split; [exact EN|]. apply (obeys_rows w y kc q v' (beta / dt)%R HK ER).
Qed.
End S.
