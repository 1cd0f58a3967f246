(** * Property C129: the energy of falling bodies. *)

From Coq Require Import Reals.
From Verif Require Import Base Targets State Ode Forces Constraints System SpecState SpecForces SpecSys RegWit SpecDyn SolveWit SpecRk SpecFlight SpecSafe SpecFall FallReal FallWit.
Local Open Scope nat_scope.

(** C129: the energy RigidBody::energy gives for a free body changes by the work
    of the steady force and an error, which is negative in the symplectic
    scheme and positive in the explicit one *)
Theorem C129_work :
  forall dbg priv k z m (dt : R) n t (w : world (RT dbg)) y w' y' b F (x v M : nat -> R),
    yreach k priv m w y -> attached w y -> shaped w y -> all_gentle w y -> uses k z y ->
    process k (Some dt : cell (RT dbg)) n t w y = Ok (w', y') -> 0 < n -> In b (y_bodies y) -> unbound w y b -> steady w y b F -> is_at w b x v M ->
    exists x' v' E E', is_at w' b x' v' M /\ b_energy (w_body w b) = (Some E : cell (RT dbg)) /\ b_energy (w_body w' b) = (Some E' : cell (RT dbg)) /\
      (E' - E = F 0%nat * (x' 0%nat - x 0%nat) + F 1%nat * (x' 1%nat - x 1%nat) + F 2%nat * (x' 2%nat - x 2%nat) +
         side_of z * (F 0%nat * F 0%nat / M 0%nat + F 1%nat * F 1%nat / M 1%nat + F 2%nat * F 2%nat / M 2%nat) * (dt * dt / (2 * INR n)))%R.
Proof. exact @fall. Qed.
Print Assumptions C129_work.
(** the fourth-order solver makes no error *)
Theorem C129_fourth_order :
  forall dbg priv m (dt : R) n t (w : world (RT dbg)) y w' y' b F (x v M : nat -> R),
    yreach Generic priv m w y -> attached w y -> shaped w y -> all_gentle w y -> uses_rk y ->
    process Generic (Some dt : cell (RT dbg)) n t w y = Ok (w', y') -> 0 < n -> In b (y_bodies y) -> unbound w y b -> steady w y b F -> is_at w b x v M ->
    exists x' v' E E', is_at w' b x' v' M /\ b_energy (w_body w b) = (Some E : cell (RT dbg)) /\ b_energy (w_body w' b) = (Some E' : cell (RT dbg)) /\
      (E' - E = F 0%nat * (x' 0%nat - x 0%nat) + F 1%nat * (x' 1%nat - x 1%nat) + F 2%nat * (x' 2%nat - x 2%nat))%R.
Proof. exact @fall_rk. Qed.
Print Assumptions C129_fourth_order.
(** under gravity, over any number of calls of any lengths: the energy of motion
    and height drifts by m G^2 times the coarseness *)
Theorem C129_calls :
  forall dbg priv k z G b (M : nat -> R) l m (w : world (RT dbg)) y w' y' x v,
    yreach k priv m w y -> attached w y -> shaped w y -> uses k z y -> weighs w y G -> In b (y_bodies y) -> unbound w y b -> is_at w b x v M ->
    Forall (fun c => 0 < snd (fst c)) l -> process_all k (as_calls l) w y = Ok (w', y') ->
    exists E E', has_energy w b (M 1%nat) G E /\ has_energy w' b (M 1%nat) G E' /\ (E' = E + side_of z * (M 1%nat * (G * G)) * coarseness l)%R.
Proof. exact @falls. Qed.
Print Assumptions C129_calls.
(** C129_work and C129_fourth_order have the hypotheses of C100 *)
Example C129_example : forall dbg k z (dt : R) t n, dt <> 0%R -> 0 < n -> let z := match k with Optimized => Symplectic | Generic => z end in
  exists m (w : world (RT dbg)) y w' y', yreach k nopriv m w y /\ attached w y /\ shaped w y /\ uses k z y /\ weighs w y 10 /\ In 6 (y_bodies y) /\ unbound w y 6 /\
    is_at w 6 (qD 6) (vD 6) (MD 6) /\ process_all k (as_calls [(dt, n, t)]) w y = Ok (w', y') /\ con_count y = 1.
Proof. exact falls_down. Qed.
