(** * Specification vocabulary for two bodies at the ends of a spring. *)

From Coq Require Import Reals.
From Verif Require Import Base Targets State Forces Constraints System SpecState SpecForces SpecSys SpecDyn SpecSolve SpecFlight SpecSwing.
Local Open Scope nat_scope.

(** where the second body is, seen from the first one, and how fast it goes *)
Notation sight := ((R * R) * (R * R))%type (only parsing).
Definition seen_from (x1 x2 v1 v2 : nat -> R) : sight := ((x2 0%nat - x1 0%nat, x2 1%nat - x1 1%nat), (v2 0%nat - v1 0%nat, v2 1%nat - v1 1%nat))%R.
Definition apart (x : sight) : R := sqrt (fst (fst x) * fst (fst x) + snd (fst x) * snd (fst x)).
Definition speed2 (x : sight) : R := (fst (snd x) * fst (snd x) + snd (snd x) * snd (snd x))%R.
(** one sub-step of length h at the ends of a spring of length L, strength ks
    and damping kd; r is the sum of one over the masses.  The spring does
    nothing but damp if its ends are closer than 1/100 *)
Definition bounce (z : scheme) (L ks kd r h : R) (x : sight) : sight :=
  let '((dx, dy), (ux, uy)) := x in
  let c := if Rle_dec (1 / 100) (apart x) then (ks * (1 - L / apart x))%R else 0%R in
  let ux' := (ux - (c * dx + kd * ux) * r * h)%R in let uy' := (uy - (c * dy + kd * uy) * r * h)%R in
  (match z with Symplectic => (dx + ux' * h, dy + uy' * h) | Explicit => (dx + ux * h, dy + uy * h) end, (ux', uy'))%R.
(** twice the area that the line between the bodies sweeps in a unit of time *)
Definition sweep (x : sight) : R := (fst (fst x) * snd (snd x) - snd (fst x) * fst (snd x))%R.
(** the bodies are at distance l in direction e and move along this direction *)
Definition in_line (ex ey l u : R) : sight := ((l * ex, l * ey), (u * ex, u * ey))%R.

Section S.
Context {dbg : bool}.
Notation T := (RT dbg).
(** generator g is a spring between the centres of bodies b1 and b2, the others are gravity *)
Definition spring_on (w : world T) (y : sys T) (g b1 b2 : nat) (L ks kd : R) (gr : nat -> R) : Prop :=
  In g (y_gens y) /\
  g_kind (w_gen w g) = GSpring (spring_of dbg (mkSp L ks kd 0 0 0 0) b1 b2) /\
  forall g', In g' (y_gens y) -> g' <> g -> g_kind (w_gen w g') = GGravity (Some (gr g') : cell T).
(** the weight per mass of all of the gravity together *)
Definition weight (y : sys T) (g : nat) (gr : nat -> R) : R := Lsum (y_gens y) (fun g' => if Nat.eqb g' g then 0%R else gr g').
(** bodies b1 and b2 of a system in the use of which no rule is broken are at
    the ends of such a spring and no constraint holds them *)
Record tied priv (k : flavour) (z : scheme) (w : world T) (y : sys T) (g b1 b2 : nat) (L ks kd : R) (gr : nat -> R) (x1 v1 M1 x2 v2 M2 : nat -> R) : Prop := {
  ti_reach : exists m, yreach k priv m w y;
  ti_att : attached w y;
  ti_shaped : shaped w y;
  ti_uses : uses k z y;
  ti_in1 : In b1 (y_bodies y);
  ti_in2 : In b2 (y_bodies y);
  ti_two : b1 <> b2;
  ti_free1 : unbound w y b1;
  ti_free2 : unbound w y b2;
  ti_spring : spring_on w y g b1 b2 L ks kd gr;
  ti_at1 : is_at w b1 x1 v1 M1;
  ti_at2 : is_at w b2 x2 v2 M2
}.
End S.
Arguments ti_reach {dbg priv k z w y g b1 b2 L ks kd gr x1 v1 M1 x2 v2 M2} _.
Arguments ti_att {dbg priv k z w y g b1 b2 L ks kd gr x1 v1 M1 x2 v2 M2} _.
Arguments ti_shaped {dbg priv k z w y g b1 b2 L ks kd gr x1 v1 M1 x2 v2 M2} _.
Arguments ti_uses {dbg priv k z w y g b1 b2 L ks kd gr x1 v1 M1 x2 v2 M2} _.
Arguments ti_in1 {dbg priv k z w y g b1 b2 L ks kd gr x1 v1 M1 x2 v2 M2} _.
Arguments ti_in2 {dbg priv k z w y g b1 b2 L ks kd gr x1 v1 M1 x2 v2 M2} _.
Arguments ti_two {dbg priv k z w y g b1 b2 L ks kd gr x1 v1 M1 x2 v2 M2} _.
Arguments ti_free1 {dbg priv k z w y g b1 b2 L ks kd gr x1 v1 M1 x2 v2 M2} _.
Arguments ti_free2 {dbg priv k z w y g b1 b2 L ks kd gr x1 v1 M1 x2 v2 M2} _.
Arguments ti_spring {dbg priv k z w y g b1 b2 L ks kd gr x1 v1 M1 x2 v2 M2} _.
Arguments ti_at1 {dbg priv k z w y g b1 b2 L ks kd gr x1 v1 M1 x2 v2 M2} _.
Arguments ti_at2 {dbg priv k z w y g b1 b2 L ks kd gr x1 v1 M1 x2 v2 M2} _.

(** calls one after the other, each with its own length and number of sub-steps *)
Fixpoint course (z : scheme) (L ks kd r : R) (l : list (R * nat * timing)) (x : sight) : sight :=
  match l with
  | [] => x
  | (dt, n, _) :: l => course z L ks kd r l (Nat.iter n (bounce z L ks kd r (dt / INR n)) x)
  end.
(** all sub-steps have the length h; all calls make some *)
Definition evenly (h : R) (l : list (R * nat * timing)) : Prop := forall dt n t, In (dt, n, t) l -> 0 < n /\ (dt / INR n)%R = h.
Definition busy (l : list (R * nat * timing)) : Prop := forall dt n t, In (dt, n, t) l -> 0 < n.
(** the time all calls together take *)
Fixpoint lasts (l : list (R * nat * timing)) : R := match l with [] => 0%R | (dt, _, _) :: l => (dt + lasts l)%R end.
