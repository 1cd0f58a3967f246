(** * Specification vocabulary for two bodies at the ends of a spring in the fourth-order scheme. *)

From Coq Require Import Reals.
From Verif Require Import Base Targets State Ode Forces Constraints System SpecState SpecForces SpecSys SpecDyn SpecSolve SpecFlight SpecSwing SpecRk SpecSpring.
Local Open Scope nat_scope.

(** how the second body speeds up, seen from the first one, at the ends of a
    spring of length L, strength ks and damping kd; r is the sum of one over
    the masses.  The spring does nothing but damp if its ends are closer than
    1/100 *)
Definition drawn (L ks kd r : R) (x : sight) : R * R :=
  let '((dx, dy), (ux, uy)) := x in
  let c := if Rle_dec (1 / 100) (apart x) then (ks * (1 - L / apart x))%R else 0%R in
  (- ((c * dx + kd * ux) * r), - ((c * dy + kd * uy) * r))%R.
(** where a stage of length h that starts at x with the acceleration a ends:
    it is the new velocity that it moves with *)
Definition along (h : R) (x : sight) (a : R * R) : sight :=
  let '((dx, dy), (ux, uy)) := x in
  let ux' := (ux + h * fst a)%R in let uy' := (uy + h * snd a)%R in ((dx + h * ux', dy + h * uy'), (ux', uy'))%R.
(** the four stages of one sub-step of length h and their mean *)
Definition bow (L ks kd r h : R) (x : sight) : sight :=
  let a1 := drawn L ks kd r x in let x2 := along (h / 2) x a1 in
  let a2 := drawn L ks kd r x2 in let x3 := along (h / 2) x a2 in
  let a3 := drawn L ks kd r x3 in let x4 := along h x a3 in
  let a4 := drawn L ks kd r x4 in
  let mean := fun p p1 p2 p3 p4 : R => (p + h / 6 * (p1 + 2 * p2 + 2 * p3 + p4))%R in
  ((mean (fst (fst x)) (fst (snd x)) (fst (snd x2)) (fst (snd x3)) (fst (snd x4)), mean (snd (fst x)) (snd (snd x)) (snd (snd x2)) (snd (snd x3)) (snd (snd x4))),
   (mean (fst (snd x)) (fst a1) (fst a2) (fst a3) (fst a4), mean (snd (snd x)) (snd a1) (snd a2) (snd a3) (snd a4))).
(** calls one after the other, each with its own length and number of sub-steps *)
Fixpoint bows (L ks kd r : R) (l : list (R * nat * timing)) (x : sight) : sight :=
  match l with
  | [] => x
  | (dt, n, _) :: l => bows L ks kd r l (Nat.iter n (bow L ks kd r (dt / INR n)) x)
  end.
(** the same along a line: s is how much longer the spring is than at rest, u
    how fast it gets longer *)
Definition ebb (K D : R) (x : R * R) : R := (- (K * fst x + D * snd x))%R.
Definition onward (h : R) (x : R * R) (a : R) : R * R := (fst x + h * (snd x + h * a), snd x + h * a)%R.
Definition sway (K D h : R) (x : R * R) : R * R :=
  let a1 := ebb K D x in let x2 := onward (h / 2) x a1 in
  let a2 := ebb K D x2 in let x3 := onward (h / 2) x a2 in
  let a3 := ebb K D x3 in let x4 := onward h x a3 in
  let a4 := ebb K D x4 in
  (fst x + h / 6 * (snd x + 2 * snd x2 + 2 * snd x3 + snd x4), snd x + h / 6 * (a1 + 2 * a2 + 2 * a3 + a4))%R.

Section S.
Context {dbg : bool}.
Notation T := (RT dbg).
(** bodies b1 and b2 of a system of the generic class that uses a fourth-order
    solver of its own are at the ends of such a spring and no constraint holds
    them *)
Record strung priv (w : world T) (y : sys T) (g b1 b2 : nat) (L ks kd : R) (gr : nat -> R) (x1 v1 M1 x2 v2 M2 : nat -> R) : Prop := {
  st_reach : exists m, yreach Generic priv m w y;
  st_att : attached w y;
  st_shaped : shaped w y;
  st_lone : lone priv y;
  st_rk : exists r, y_ode y = Some (OdeRk4 r);
  st_in1 : In b1 (y_bodies y);
  st_in2 : In b2 (y_bodies y);
  st_two : b1 <> b2;
  st_free1 : unbound w y b1;
  st_free2 : unbound w y b2;
  st_spring : spring_on w y g b1 b2 L ks kd gr;
  st_at1 : is_at w b1 x1 v1 M1;
  st_at2 : is_at w b2 x2 v2 M2
}.
End S.
