(** * Property C128: Newton's first law in binary64. *)

From Coq Require Import Reals.
From Coq Require Import Floats.SpecFloat.
From Verif Require Import Base Targets State Ode Forces Constraints System SpecForces SpecSys RegWit SpecDyn SpecRk SafeWit SpecInert InertStep InertWit.
Local Open Scope nat_scope.

(** C128: a body which no constraint holds and on which no generator puts a
    force in direction d keeps its velocity in that direction bit for bit, and
    its position if it is at rest *)
Theorem C128_inertia :
  forall dbg sn cs priv k z m (dt : cell (F64_trig dbg sn cs)) n t w y w' y' b d,
    yreach k priv m w y -> attached w y -> shaped w y -> all_gentle w y -> uses k z y ->
    process k dt n t w y = Ok (w', y') -> In b (y_bodies y) -> unbound w y b -> d < 3 -> no_force w y b d ->
    finite64 (cdiv dt (cofZ (Z.of_nat n))) -> finite64 (cdiv (cofZ 1) (b_mass (w_body w b) d)) ->
    same64 (b_vel (w_body w b) d) (b_vel (w_body w' b) d) /\
    (zero64 (b_vel (w_body w b) d) -> same64 (b_pos (w_body w b) d) (b_pos (w_body w' b) d)).
Proof. exact @inertia. Qed.
Print Assumptions C128_inertia.
Theorem C128_fourth_order :
  forall dbg sn cs priv m (dt : cell (F64_trig dbg sn cs)) n t w y w' y' b d,
    yreach Generic priv m w y -> attached w y -> shaped w y -> all_gentle w y -> uses_rk y ->
    process Generic dt n t w y = Ok (w', y') -> In b (y_bodies y) -> unbound w y b -> d < 3 -> no_force w y b d ->
    finite64 (cdiv dt (cofZ (Z.of_nat n))) -> finite64 (cdiv (cdiv dt (cofZ (Z.of_nat n))) (cofZ 6)) -> finite64 (cdiv (cofZ 1) (b_mass (w_body w b) d)) ->
    same64 (b_vel (w_body w b) d) (b_vel (w_body w' b) d) /\
    (zero64 (b_vel (w_body w b) d) -> same64 (b_pos (w_body w b) d) (b_pos (w_body w' b) d)).
Proof. exact @inertia_fourth. Qed.
Print Assumptions C128_fourth_order.
(** where there is no generator, and sideways and in rotation where the only
    one is gravity *)
Theorem C128_no_force :
  forall dbg sn cs (w : world (F64_trig dbg sn cs)) y b d,
    (y_gens y = [] \/ d <> 1 /\ exists g gr, y_gens y = [g] /\ g_kind (w_gen w g) = GGravity gr) -> no_force w y b d.
Proof.
  exact (fun dbg sn cs w y b d H => match H with
    | or_introl E => no_generators w y b d E
    | or_intror (conj N (ex_intro _ g (ex_intro _ gr (conj E1 E2)))) => weight_down w y b d g gr E1 E2 N end).
Qed.
Print Assumptions C128_no_force.
(** a spinning body falls beside a clutch *)
Example C128_example : forall k, exists m (w : world (FT true)) y w' y', yreach k nopriv m w y /\ attached w y /\ shaped w y /\ all_gentle w y /\
  uses k Symplectic y /\ process k dtF 3 (t0 7) w y = Ok (w', y') /\ In 2 (y_bodies y) /\ unbound w y 2 /\ no_force w y 2 2 /\ no_force w y 2 0 /\
  finite64 (cdiv (dtF : cell (FT true)) (cofZ (Z.of_nat 3))) /\ finite64 (cdiv (cofZ 1) (b_mass (w_body w 2) 2)) /\
  b_vel (w_body w 2) 2 = cofZ 2 /\ zero64 (b_vel (w_body w 2) 0).
Proof. exact spinning. Qed.
