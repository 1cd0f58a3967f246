(** * Properties C60 - C62: Newton's law and reported constraint forces. *)

From Coq Require Import Reals QArith.
From Verif Require Import Base Targets Sle State Ode Forces Constraints System SpecSys SpecDyn DynStep DynForce DynWit RegWit.
Local Open Scope nat_scope.

(** C60 *)
Theorem C60_free_bodies :
  forall tg priv k z m (dt : cell tg) n t w y w' y' b,
    yreach k priv m w y -> attached w y -> shaped w y -> all_gentle w y -> uses k z y ->
    process k dt n t w y = Ok (w', y') -> In b (y_bodies y) -> unbound w y b ->
    let h := cdiv dt (cofZ (Z.of_nat n)) in
    exists (Ks : nat -> kin tg) fs, Ks 0 = kin_of w /\ arrives w' y (Ks n) /\
      forall i, i < n -> forces_at w y (Ks i) h (fs i) /\ moves z y h (Ks i) (Ks (S i)) /\
        forall d, d < 3 -> k_a (Ks (S i)) b d = cmul (fs i b d) (cdiv (cofZ 1) (b_mass (w_body w b) d)).
Proof. exact @free_bodies. Qed.
Print Assumptions C60_free_bodies.
Theorem C60_step :
  forall dbg priv k z m (dt : R) t (w : world (RT dbg)) (y : sys (RT dbg)) w' y' b d (f : nat -> nat -> cell (RT dbg)) (x v F mass : R),
    yreach k priv m w y -> attached w y -> shaped w y -> all_gentle w y -> uses k z y ->
    process k (Some dt : cell (RT dbg)) 1 t w y = Ok (w', y') -> In b (y_bodies y) -> unbound w y b -> d < 3 ->
    pushes w y (kin_of w) (Some dt : cell (RT dbg)) f ->
    b_pos (w_body w b) d = Some x -> b_vel (w_body w b) d = Some v -> f b d = Some F -> b_mass (w_body w b) d = Some mass -> mass <> 0%R ->
    b_vel (w_body w' b) d = Some (v + F / mass * dt)%R /\
    b_pos (w_body w' b) d = Some (x + (match z with Symplectic => v + F / mass * dt | Explicit => v end) * dt)%R.
Proof. exact free_step. Qed.
Print Assumptions C60_step.
Example C60_example : forall k, exists m (w : world (QT true)) y w' y', yreach k nopriv m w y /\ attached w y /\ shaped w y /\ all_gentle w y /\
  uses k Symplectic y /\ con_count y = 1 /\ gen_count y = 1 /\ In 2 (y_bodies y) /\ unbound w y 2 /\
  process k dtQ 3 (t0 7) w y = Ok (w', y') /\ b_vel (w_body w' 2) 1 <> b_vel (w_body w 2) 1.
Proof. exact three_runs. Qed.
(** what gravity pushes *)
Example C60_gravity : forall tg (w : world tg) y K h g gr, y_gens y = [g] -> g_kind (w_gen w g) = GGravity gr ->
  pushes w y K h (fun b d => match d with 1 => cadd (cofZ 0) (cmul (copp (b_f (w_body w b) Bm)) gr) | _ => cofZ 0 end).
Proof. exact @gravity_pushes. Qed.

(** C61: the bodies move by Newton's law under the generators' forces and
    constraint forces F; the constraints report the F of the last step *)
Theorem C61_reported :
  forall tg priv m (dt : cell tg) n t w y w' y',
    yreach Optimized priv m w y -> attached w y -> shaped w y -> all_gentle w y ->
    process Optimized dt n t w y = Ok (w', y') ->
    exists K F, motion Symplectic w y (cdiv dt (cofZ (Z.of_nat n))) n (kin_of w) K F /\ arrives w' y K /\ reports w w' y F.
Proof. exact @opt_motion. Qed.
Print Assumptions C61_reported.
Example C61_example : exists m (w : world (QT true)) y w' y', yreach Optimized nopriv m w y /\ attached w y /\ shaped w y /\ all_gentle w y /\
  uses Optimized Symplectic y /\ con_count y = 1 /\ gen_count y = 1 /\ In 2 (y_bodies y) /\ unbound w y 2 /\
  process Optimized dtQ 3 (t0 7) w y = Ok (w', y') /\ b_vel (w_body w' 2) 1 <> b_vel (w_body w 2) 1.
Proof. exact (three_runs Optimized). Qed.

(** C62 is false of the code: row r is reported from row r / 2, slot r mod 2 *)
Theorem C62_reported_partial :
  forall tg priv z m (dt : cell tg) n t w y w' y',
    yreach Generic priv m w y -> attached w y -> shaped w y -> all_gentle w y ->
    (exists h, y_ode y = Some (ode_of z h)) ->
    process Generic dt n t w y = Ok (w', y') ->
    exists K F, motion z w y (cdiv dt (cofZ (Z.of_nat n))) n (kin_of w) K F /\ arrives w' y K /\
      forall r c j k c' j' d, nth_error (row_list w y) r = Some (c, j) -> k < c_bodycount (w_con w c) ->
        nth_error (row_list w y) (r / 2) = Some (c', j') -> r mod 2 < c_bodycount (w_con w c') -> d < 3 ->
        c_force (w_con w' c) d j k = F d c' j' (r mod 2).
Proof. exact @gen_reports. Qed.
Print Assumptions C62_reported_partial.
Theorem C62_reported_refuted :
  exists m (w : world (QT true)) y w' y', yreach Generic nopriv m w y /\ attached w y /\ shaped w y /\ all_gentle w y /\
    (exists h, y_ode y = Some (ode_of Symplectic h)) /\ process Generic dtQ 1 (t0 7) w y = Ok (w', y') /\
    ~ exists K F, motion Symplectic w y (cdiv dtQ (cofZ (Z.of_nat 1))) 1 (kin_of w) K F /\ arrives w' y K /\ reports w w' y F.
Proof. exact reports_no_motion. Qed.
Print Assumptions C62_reported_refuted.
