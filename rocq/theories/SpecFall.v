(** * Specification vocabulary for the energy of falling bodies. *)

From Coq Require Import Reals.
From Verif Require Import Base Targets State Forces Constraints System SpecState SpecSys SpecDyn.
Local Open Scope nat_scope.

(** the side to which the two schemes err *)
Definition side_of (z : scheme) : R := match z with Symplectic => (-1)%R | Explicit => 1%R end.
(** sum over the calls of the square of their length over twice the number of
    their sub-steps *)
Definition coarseness (l : list (R * nat * timing)) : R :=
  fold_right (fun x s => (fst (fst x) * fst (fst x) / (2 * INR (snd (fst x))) + s)%R) 0%R l.
Section S.
Context {dbg : bool}.
Notation T := (RT dbg).
Definition as_calls (l : list (R * nat * timing)) : list (cell T * nat * timing) :=
  map (fun x => (Some (fst (fst x)) : cell T, snd (fst x), snd x)) l.
(** RigidBody::energy and the energy m G y of the height *)
Definition has_energy (w : world T) (b : nat) (m G E : R) : Prop :=
  exists e h, b_energy (w_body w b) = (Some e : cell T) /\ b_f (w_body w b) Bpy = (Some h : cell T) /\ E = (e + m * G * h)%R.
(** the generators are gravity; their strengths add up to G *)
Definition weighs (w : world T) (y : sys T) (G : R) : Prop :=
  exists gr : nat -> R, (forall g, In g (y_gens y) -> g_kind (w_gen w g) = GGravity (Some (gr g) : cell T)) /\
    G = fold_right (fun g r => (gr g + r)%R) 0%R (y_gens y).
End S.
