(** * Specification vocabulary for numbers that are not finite, and for bodies
    that have nothing to do with one another. *)

From Coq Require Import Floats.SpecFloat.
From Verif Require Import Base Targets State Ode Forces Constraints System SpecForces SpecSys SpecDyn SpecRk.
Local Open Scope nat_scope.

(** an infinity or not a number *)
Definition endless (x : spec_float) : Prop := match x with S754_infinity _ | S754_nan => True | _ => False end.
Section S.
Context {dbg : bool} {sn cs : spec_float -> option spec_float}.
(** nothing finite is left: indeterminate, infinite or not a number *)
Definition lost (x : cell (F64_trig dbg sn cs)) : Prop := match x with Some x => endless x | None => True end.
(** indeterminate or not a number *)
Definition not_number (x : cell (F64_trig dbg sn cs)) : Prop := match x with Some x => x = S754_nan | None => True end.
(** the body is at a place and moves at a speed which are finite *)
Definition body_finite (o : body (F64_trig dbg sn cs)) : Prop := forall d, d < 3 -> ~ lost (b_pos o d) /\ ~ lost (b_vel o d).
End S.
Section A.
Context {tg : target}.
(** one of the supplied integrators *)
Definition integrates (k : flavour) (y : sys tg) : Prop := (exists z, uses k z y) \/ (k = Generic /\ uses_rk y).
(** no constraint and no spring goes between a body in S and one that is not *)
Definition apart (w : world tg) (y : sys tg) (S : nat -> bool) : Prop :=
  (forall c p p' b b', In c (y_cons y) -> p < c_bodycount (w_con w c) -> p' < c_bodycount (w_con w c) ->
     c_bodies (w_con w c) p = Some b -> c_bodies (w_con w c) p' = Some b' -> S b = S b') /\
  (forall g, In g (y_gens y) -> match g_kind (w_gen w g) with
     | GSpring p => forall b b', sp_b1 p = Some b -> sp_b2 p = Some b' -> S b = S b'
     | GMotor p => forall b b', mo_b0 p = Some b -> mo_b1 p = Some b' -> In b (y_bodies y) -> S b = S b'
     | GCustom _ => False
     | _ => True
     end).
(** w' differs from w in the motion of the bodies outside S only *)
Definition same_inside (w w' : world tg) (S : nat -> bool) : Prop :=
  w_con w' = w_con w /\ w_gen w' = w_gen w /\ forall b, S b = true -> w_body w' b = w_body w b.
End A.
