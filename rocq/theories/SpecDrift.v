(** * Specification vocabulary: how far constraints are from being met. *)

From Coq Require Import Reals.
From Verif Require Import Base Targets State Constraints System SpecMatrix SpecState SpecForces SpecCon SpecSys SpecDyn SpecSolve SpecLaw SpecSub SpecLeast.
Local Open Scope nat_scope.

(** The gap of a constraint, for the classes that hold a body or two in place:
    from the fixed point to the point held there, the distance of a point from
    its line (times the length of its direction), from one end of a link to the
    other, the angle by which a rotation is off. *)
Definition gap (k : rkind) (q : nat -> pose) : R * R :=
  match k with
  | RFixedPosition lx ly wx wy _ _ => (at_x (q 0%nat) lx ly - wx, at_y (q 0%nat) lx ly - wy)
  | RLine lx ly p0x p0y dx dy _ _ => ((at_x (q 0%nat) lx ly - p0x) * - dy + (at_y (q 0%nat) lx ly - p0y) * dx, 0)
  | RLink x1 y1 x2 y2 _ _ _ => (at_x (q 0%nat) x1 y1 - at_x (q 1%nat) x2 y2, at_y (q 0%nat) x1 y1 - at_y (q 1%nat) x2 y2)
  | RFixedRotation rot _ _ => (q_th (q 0%nat) - rot, 0)
  | _ => (0, 0)
  end%R.
Definition holds (k : rkind) : bool := match k with RFixedPosition _ _ _ _ _ _ | RLine _ _ _ _ _ _ _ _ | RLink _ _ _ _ _ _ _ | RFixedRotation _ _ _ => true | _ => false end.
Definition size (x : R * R) : R := sqrt (fst x * fst x + snd x * snd x).
(** how far from the centre of its body the point is that the constraint holds, for the body in slot p *)
Definition arm (k : rkind) (p : nat) : R :=
  match k, p with
  | RFixedPosition lx ly _ _ _ _, 0 => size (lx, ly)
  | RLine lx ly _ _ dx dy _ _, 0 => size (lx, ly) * size (dx, dy)
  | RLink x1 y1 _ _ _ _ _, 0 => size (x1, y1)
  | RLink _ _ x2 y2 _ _ _, 1 => size (x2, y2)
  | _, _ => 0
  end%R.
(** 1 + e + e^2 + ..., n terms *)
Fixpoint series (e : R) (n : nat) : R := match n with 0 => 0%R | S n => (1 + e * series e n)%R end.

Section S.
Context {dbg : bool}.
Notation T := (RT dbg).
(** after each of the calls the bodies of constraint c turn no faster than s *)
Definition turns_within (h : cell T) (ts : list timing) (w : world T) (y : sys T) (c : nat) (s : R) : Prop :=
  forall pre t suf w' y' q v p b, ts = pre ++ t :: suf -> calls_of Optimized h (pre ++ [t]) w y = Ok (w', y') -> ends w' y q v ->
    p < c_bodycount (w_con w c) -> c_bodies (w_con w c) p = Some b -> (Rabs (v b 2%nat) <= s)%R.
End S.
