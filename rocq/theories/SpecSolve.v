(** * Specification vocabulary for what a step does to the constraints. *)

From Coq Require Import Reals.
From Verif Require Import Base Targets State Constraints System SpecMatrix SpecDyn.
Local Open Scope nat_scope.

(** sum over a list *)
Definition Lsum {A} (l : list A) (g : A -> R) : R := fold_right (fun a r => (g a + r)%R) 0%R l.

Section S.
Context {dbg : bool}.
Notation T := (RT dbg).

(** the body in slot k *)
Definition who (w : world T) (c k : nat) : nat := match c_bodies (w_con w c) k with Some b => b | None => 0 end.
(** row (c,j) of the Jacobian J applied to the vector u (one number per body and direction) *)
Definition along (w : world T) (J : nat -> nat -> nat -> R) (u : nat -> nat -> R) (c j : nat) : R :=
  Rsum (c_bodycount (w_con w c)) (fun k => Rsum 3 (fun d => J c j (3 * k + d)%nat * u (who w c k) d)%R).
(** what multipliers x (one per row) put on body b: component (b,d) of J^T x *)
Definition acts (w : world T) (y : sys T) (J : nat -> nat -> nat -> R) (x : nat -> nat -> R) (b d : nat) : R :=
  Lsum (slots w y) (fun '(c, j, k) => if binds w b (c, j, k) then (J c j (3 * k + d)%nat * x c j)%R else 0%R).
Definition every_row (w : world T) (y : sys T) (P : nat -> nat -> Prop) : Prop :=
  forall c j, In c (y_cons y) -> j < c_count (w_con w c) -> P c j.
(** J M^-1 J^T is non-singular *)
Definition regular (w : world T) (y : sys T) (M : nat -> nat -> R) (J : nat -> nat -> nat -> R) : Prop :=
  forall x, every_row w y (fun c j => along w J (fun b d => acts w y J x b d / M b d)%R c j = 0%R) ->
    every_row w y (fun c j => x c j = 0%R).
(** the rows of J are linearly independent *)
Definition independent (w : world T) (y : sys T) (J : nat -> nat -> nat -> R) : Prop :=
  forall x, (forall b d, In b (y_bodies y) -> d < 3 -> acts w y J x b d = 0%R) -> every_row w y (fun c j => x c j = 0%R).

(** the bodies in the system have real positions q, velocities v and masses M other than 0 *)
Definition bodies_are (w : world T) (y : sys T) (q v M : nat -> nat -> R) : Prop :=
  forall b d, In b (y_bodies y) -> d < 3 ->
    b_pos (w_body w b) d = Some (q b d) /\ b_vel (w_body w b) d = Some (v b d) /\ b_mass (w_body w b) d = Some (M b d) /\ M b d <> 0%R.
(** an entry of a law is real *)
Definition row_is (w : world T) (y : sys T) (x : nat -> nat -> cell T) (X : nat -> nat -> R) : Prop :=
  every_row w y (fun c j => x c j = Some (X c j)).
Definition rows_are (w : world T) (y : sys T) (x : nat -> nat -> nat -> cell T) (X : nat -> nat -> nat -> R) : Prop :=
  every_row w y (fun c j => forall i, i < c_bodycount (w_con w c) * 3 -> x c j i = Some (X c j i)).
(** the generators put the forces f on the bodies *)
Definition pushesR (w : world T) (y : sys T) (K : kin T) (h : R) (f : nat -> nat -> R) : Prop :=
  pushes w y K (Some h : cell T) (fun b d => Some (f b d)).
(** after the call: real positions and velocities, and reported forces *)
Definition ends (w' : world T) (y : sys T) (q v : nat -> nat -> R) : Prop :=
  forall b d, In b (y_bodies y) -> d < 3 -> b_pos (w_body w' b) d = Some (q b d) /\ b_vel (w_body w' b) d = Some (v b d).
Definition reportsR (w w' : world T) (y : sys T) (F : nat -> nat -> nat -> nat -> R) : Prop :=
  reports w w' y (fun d c j k => Some (F d c j k) : cell T).
End S.
