(** * Property C100: bodies in free flight. *)

From Coq Require Import Reals.
From Verif Require Import Base Targets State Ode Forces Constraints System SpecState SpecForces SpecSys RegWit SpecDyn SolveWit SpecRk SpecFlight FlightReal FlightWit.
Local Open Scope nat_scope.

(** C100: n sub-steps of a body that no constraint holds and on which a steady
    force acts: the velocity is the exact one, the position is off by
    a dt^2 / 2n, to the one or the other side *)
Theorem C100_flight :
  forall dbg priv k z m (dt : R) n t (w : world (RT dbg)) y w' y' b F (x v M : nat -> R),
    yreach k priv m w y -> attached w y -> shaped w y -> all_gentle w y -> uses k z y ->
    process k (Some dt : cell (RT dbg)) n t w y = Ok (w', y') -> 0 < n -> In b (y_bodies y) -> unbound w y b -> steady w y b F -> is_at w b x v M ->
    is_at w' b (fun d => x d + v d * dt + F d / M d * (dt * dt) / 2 * match z with Symplectic => (INR n + 1) / INR n | Explicit => (INR n - 1) / INR n end)%R
      (fun d => v d + F d / M d * dt)%R M.
Proof. exact @flight. Qed.
Print Assumptions C100_flight.
(** the fourth-order solver follows the parabola *)
Theorem C100_parabola :
  forall dbg priv m (dt : R) n t (w : world (RT dbg)) y w' y' b F (x v M : nat -> R),
    yreach Generic priv m w y -> attached w y -> shaped w y -> all_gentle w y -> uses_rk y ->
    process Generic (Some dt : cell (RT dbg)) n t w y = Ok (w', y') -> 0 < n -> In b (y_bodies y) -> unbound w y b -> steady w y b F -> is_at w b x v M ->
    is_at w' b (fun d => x d + v d * dt + F d / M d * (dt * dt) / 2)%R (fun d => v d + F d / M d * dt)%R M.
Proof. exact @flight_rk. Qed.
Print Assumptions C100_parabola.
(** any number of gravity generators are such a force *)
Theorem C100_gravity :
  forall dbg (w : world (RT dbg)) y b (m : R) (gr : nat -> R),
    (forall g, In g (y_gens y) -> g_kind (w_gen w g) = GGravity (Some (gr g) : cell (RT dbg))) -> b_f (w_body w b) Bm = (Some m : cell (RT dbg)) ->
    steady w y b (fun d => match d with 1 => (- m * fold_right (fun g r => gr g + r) 0 (y_gens y))%R | _ => 0%R end).
Proof. exact @gravity_steady. Qed.
Print Assumptions C100_gravity.
(** a free body beside a held one, any step and number of sub-steps *)
Example C100_example : forall dbg k z (dt : R) t n, dt <> 0%R -> 0 < n -> let z := match k with Optimized => Symplectic | Generic => z end in
  exists m (w : world (RT dbg)) y w' y', yreach k nopriv m w y /\ attached w y /\ shaped w y /\ all_gentle w y /\ uses k z y /\
    process k (Some dt : cell (RT dbg)) n t w y = Ok (w', y') /\ In 6 (y_bodies y) /\ unbound w y 6 /\ steady w y 6 weightF /\ is_at w 6 (qD 6) (vD 6) (MD 6) /\ con_count y = 1.
Proof. exact @flies. Qed.
Print Assumptions C100_example.
Example C100_example_fourth_order : forall dbg (dt : R) t n, 0 < n ->
  exists m (w : world (RT dbg)) y w' y', yreach Generic nopriv m w y /\ attached w y /\ shaped w y /\ all_gentle w y /\ uses_rk y /\
    process Generic (Some dt : cell (RT dbg)) n t w y = Ok (w', y') /\ In 6 (y_bodies y) /\ unbound w y 6 /\ steady w y 6 weightF /\ is_at w 6 (qD 6) (vD 6) (MD 6) /\ con_count y = 1.
Proof. exact @flies_rk. Qed.
Print Assumptions C100_example_fourth_order.
