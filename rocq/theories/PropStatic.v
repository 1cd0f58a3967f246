(** * Statics: the theorems. *)

From Coq Require Import Reals.
From Verif Require Import Base Targets Sle State Ode Forces Constraints System SpecState SpecForces SpecCon ConFacts SpecSle SpecSys RegWit SpecDyn DynStep SpecSolve SolveWit SpecLaw LawReal SpecMom MomWit SpecSub SpecLeast TurnWit
  SpecStatic StaticReal StaticWit.
Local Open Scope nat_scope.

(** C94: a system at rest with its constraints met, whose forces some
    multipliers of the rows balance, stays where it is over any number of
    calls; the optimized class reports exactly the balancing forces *)
Theorem C94_rest :
  forall dbg priv k z kc kg (dt beta : R) M, dt <> 0%R -> forall ts (w : world (RT dbg)) y q f x,
    side priv k z kc kg beta M w y q rest -> let J := fun c j i => J_of (kc c) (pose_at w q c) j i in
    regular w y M J -> met w y kc q -> pushesR w y (kin_of w) dt f -> balanced w y J f x ->
    exists w' y', calls_of k (Some dt : cell (RT dbg)) ts w y = Ok (w', y') /\ ends w' y q rest /\
      (k = Optimized -> ts <> [] -> reportsR w w' y (fun d c j p => J c j (3 * p + d)%nat * x c j)%R).
Proof. exact @rest_calls. Qed.
Print Assumptions C94_rest.
(** the other way round: if a call leaves the bodies at rest, the forces are
    balanced, and the optimized class reports what balances them *)
Theorem C94_only :
  forall dbg priv k z kc kg (dt beta : R) M, dt <> 0%R -> forall t (w : world (RT dbg)) y q f w' y' q',
    side priv k z kc kg beta M w y q rest -> let J := fun c j i => J_of (kc c) (pose_at w q c) j i in
    regular w y M J -> pushesR w y (kin_of w) dt f ->
    process k (Some dt : cell (RT dbg)) 1 t w y = Ok (w', y') -> ends w' y q' rest ->
    exists x, balanced w y J f x /\ (k = Optimized -> reportsR w w' y (fun d c j p => J c j (3 * p + d)%nat * x c j)%R).
Proof. exact @rest_only. Qed.
Print Assumptions C94_only.
(** two beams held against gravity and two loads *)
Example C94_example : forall dbg k z, exists (w : world (RT dbg)) y, let z := match k with Optimized => Symplectic | Generic => z end in
  side nopriv k z kT gB 1%R MD w y qB rest /\ regular w y MD (fun c j i => J_of (kT c) (pose_at w qB c) j i) /\ met w y kT qB /\
  (forall dt, pushesR w y (kin_of w) dt fB) /\ balanced w y (fun c j i => J_of (kT c) (pose_at w qB c) j i) fB xB /\
  y_bodies y = [0; 1] /\ y_cons y = [0; 1] /\ y_gens y = [0; 1; 2].
Proof. exact @beams. Qed.
Print Assumptions C94_example.
