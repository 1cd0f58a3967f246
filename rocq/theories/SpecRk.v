(** * Specification vocabulary for steps of the fourth-order solver. *)

From Verif Require Import Base State Ode Forces System SpecState SpecForces SpecSys SpecDyn.
Local Open Scope nat_scope.

Section S.
Context {tg : target}.
Implicit Types (w : world tg) (y : sys tg) (K : kin tg) (h : cell tg) (a : nat -> nat -> cell tg).

(** half a step and a whole step from K with the accelerations a: positions
    move with the new velocities *)
Definition half_way h K a : kin tg :=
  let v := fun b d => cadd (k_v K b d) (cdiv (cmul h (a b d)) (cofZ 2)) in
  mkKin (fun b d => cadd (k_q K b d) (cdiv (cmul h (v b d)) (cofZ 2))) v a.
Definition whole_way h K a : kin tg :=
  let v := fun b d => cadd (k_v K b d) (cmul h (a b d)) in
  mkKin (fun b d => cadd (k_q K b d) (cmul h (v b d))) v a.
(** x + h/6 (x1 + 2 x2 + 2 x3 + x4), summed up in this order *)
Definition blend h (x x1 x2 x3 x4 : cell tg) : cell tg :=
  let t := fun x i => cmul (cmul (cdiv h (cofZ 6)) x) (cofZ i) in
  cadd (cadd (cadd (cadd x (t x1 1%Z)) (t x2 2%Z)) (t x3 2%Z)) (t x4 1%Z).
(** a step of length h from K to K'; A says which accelerations there are in a
    motion if the state shows a given time step *)
Definition four_stages (A : kin tg -> cell tg -> (nat -> nat -> cell tg) -> Prop) h K K' : Prop :=
  exists a1 a2 a3 a4,
    let K2 := half_way h K a1 in let K3 := half_way h K a2 in let K4 := whole_way h K a3 in
    A K (cofZ 0) a1 /\ A K2 (cdiv h (cofZ 2)) a2 /\ A K3 (cdiv h (cofZ 2)) a3 /\ A K4 h a4 /\
    K' = mkKin (fun b d => blend h (k_q K b d) (k_v K b d) (k_v K2 b d) (k_v K3 b d) (k_v K4 b d))
               (fun b d => blend h (k_v K b d) (a1 b d) (a2 b d) (a3 b d) (a4 b d)) a4.
(** n such steps *)
Definition rk_motion A h n K0 Kn : Prop :=
  exists Ks, Ks 0 = K0 /\ Ks n = Kn /\ forall i, i < n -> four_stages A h (Ks i) (Ks (S i)).
(** the accelerations of Newton's law: the generators' forces and constraint
    forces of which P holds *)
Definition feels w y (P : kin tg -> cell tg -> (nat -> nat -> cell tg) -> (nat -> nat -> nat -> nat -> cell tg) -> Prop)
    K h a : Prop := exists f F, forces_at w y K h f /\ newton w y f F a /\ P K h f F.
(** the generic class with this solver *)
Definition uses_rk y : Prop := exists r, y_ode y = Some (OdeRk4 r) /\ sized (rk_init r) /\ sized (rk_acc r).

(** ** A solver of its own *)
Variable priv : nat -> bool.
(** histories in which no fourth-order solver was used before it was given to
    the system and process was called with 1 or more steps, whatever happens to
    bodies, constraints and generators *)
Inductive lone : sys tg -> Prop :=
| lone_created : lone (created Generic)
| lone_initialize y l o y' : lone y -> (forall r, o = OdeRk4 r -> r = rk4_new) -> initialize Generic y l o = Ok y' -> lone y'
| lone_process m w y dt n t w' y' : lone y -> yreach Generic priv m w y -> (forall g, In g (y_gens y) -> orderly (g_kind (w_gen w g))) ->
    0 < n -> process Generic dt n t w y = Ok (w', y') -> lone y'
| lone_other y y' : lone y -> y_ode y' = y_ode y -> y_state y' = y_state y -> lone y'.
End S.
