(** * Momentum: consequences and examples. *)

From Coq Require Import Reals Lra.
From Verif Require Import Base Targets Sle State Forces Constraints System SpecState SpecForces SpecCon SpecSle SpecSys RegWit SpecDyn DynStep SpecLimits SpecSolve SolveWit SpecLaw SpecMom MomForce MomStep MomSpin MomWit.
Local Open Scope nat_scope.

Lemma momentum_conserved dbg priv k z m (dt : R) n t (w : world (RT dbg)) y w' y' l q v M kc q' v' :
    yreach k priv m w y -> uses k z y -> y_sle y = Some l -> supplied l -> attached w y -> kinds_are w y kc ->
    (forall c, In c (y_cons y) -> inner (kc c)) -> (forall g, In g (y_gens y) -> exists r, inner_spring y r (g_kind (w_gen w g))) ->
    body_count y <= 255 -> bodies_are w y q v M -> 0 < n ->
    process k (Some dt : cell (RT dbg)) n t w y = Ok (w', y') -> ends w' y q' v' ->
    forall d, d < 2 -> momentum y M v' d = momentum y M v d.
Proof.
  intros H U L Hs A K I G B Q N E En d Hd.
  rewrite (momentum_law priv k z m dt n t w y w' y' l q v M kc (fun _ _ => 0%R) q' v' H U L Hs A K I) with (d := d); auto.
  - rewrite Lsum_zero. ring.
  - intros g Hg. destruct (G g Hg) as [r X]. left. exists r. auto.
Qed.

Lemma linked_falls k : exists m (w : world (RT true)) y w' y' q' v' l, yreach k nopriv m w y /\ uses k Symplectic y /\ y_sle y = Some l /\ supplied l /\
  attached w y /\ kinds_are w y kL /\ (forall c, In c (y_cons y) -> inner (kL c)) /\ (forall g, In g (y_gens y) -> outer y MD (g_kind (w_gen w g)) (eL g)) /\
  body_count y <= 255 /\ bodies_are w y qD vD MD /\ process k (Some (1 / 60)%R : cell (RT true)) 1 (t0 7) w y = Ok (w', y') /\ ends w' y q' v' /\
  y_cons y = [0] /\ y_gens y = [0; 1] /\ Lsum (y_gens y) (fun g => eL g 1) = (-40)%R.
Proof.
  assert (ND : NoDup [0; 1]) by (repeat constructor; cbn; intuition lia).
  destruct (linked_steps (dbg := true) k [0; 1] (1 / 60)%R (t0 7) ND ltac:(lra)) as (m & w & y & w' & y' & q' & v' & H & U & L & S & A & K & C & G & B & _ & O & _ & Q & E & En & _).
  exists m, w, y, w', y', q', v', (SleGe geS). do 6 (split; [assumption|]). split; [intros c _; exact I|]. split; [assumption|].
  split; [unfold body_count; rewrite B; cbn; lia|]. do 5 (split; [assumption|]). rewrite G. unfold Lsum. cbn [fold_right eL]. lra.
Qed.
Lemma linked_turns k : exists m (w : world (RT true)) y w' y' q' v' l, yreach k nopriv m w y /\ uses k Symplectic y /\ y_sle y = Some l /\ supplied l /\
  attached w y /\ kinds_are w y kL /\ (forall c, In c (y_cons y) -> joint (kL c) /\ closed (kL c) (pose_at w qD c)) /\
  (forall g, In g (y_gens y) -> exists r, inner_spring y r (g_kind (w_gen w g)) /\ sr_kd r = 0%R) /\
  body_count y <= 255 /\ bodies_are w y qD vD MD /\ process k (Some (1 / 60)%R : cell (RT true)) 1 (t0 7) w y = Ok (w', y') /\ ends w' y q' v' /\
  y_cons y = [0] /\ y_gens y = [0] /\ (k = Optimized -> ~ forall b d, In b (y_bodies y) -> d < 3 -> v' b d = vD b d).
Proof.
  assert (ND : NoDup [0]) by (repeat constructor; cbn; intuition lia).
  destruct (linked_steps (dbg := true) k [0] (1 / 60)%R (t0 7) ND ltac:(lra)) as (m & w & y & w' & y' & q' & v' & H & U & L & S & A & K & C & G & B & J & _ & P & Q & E & En & NV).
  exists m, w, y, w', y', q', v', (SleGe geS). do 6 (split; [assumption|]). split; [intros c _; apply J|].
  split; [intros g Hg; exists rL; split; [apply P; auto; rewrite G in Hg; destruct Hg as [<-|[]]; reflexivity|reflexivity]|].
  split; [unfold body_count; rewrite B; cbn; lia|]. do 5 (split; [assumption|]). assumption.
Qed.
