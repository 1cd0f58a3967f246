(** * Specification vocabulary for RigidBody and SystemState. *)

From Coq Require Import Reals.
From Verif Require Import Base Targets State.

(** ** Histories of a program that owns SystemStates (named 0, 1, 2, ...) *)

Inductive stop (tg : target) : Type :=
| StNew (t : nat)                              (* a new object takes the place of t *)
| StResize (t b c : nat)
| StDestroy (t : nat)
| StStore (t : nat) (f : fld) (i : Z) (v : cell tg)     (* t.f[i] = v *)
| StMap (t : nat) (i : Z) (v : option Z)                (* t.indexMap[i] = v *)
| StDt (t : nat) (dt : cell tg)
| StCopy (t src : nat)
| StForce (t : nat) (x y fx fy : cell tg) (body : Z).
Arguments StNew {tg}. Arguments StResize {tg}. Arguments StDestroy {tg}. Arguments StStore {tg}.
Arguments StMap {tg}. Arguments StDt {tg}. Arguments StCopy {tg}. Arguments StForce {tg}.

Definition ststep {tg} (st : nat -> sstate tg) (o : stop tg) : res (nat -> sstate tg) :=
  match o with
  | StNew t => Ok (upd st t st_new)
  | StResize t b c => Ok (upd st t (st_resize (st t) b c))
  | StDestroy t => Ok (upd st t (st_destroy (st t)))
  | StStore t f i v => let* s := sto (st t) f i v in Ok (upd st t s)
  | StMap t i v => let* m := aset (s_imap (st t)) i v in Ok (upd st t (st_with_imap (st t) m))
  | StDt t dt => Ok (upd st t (st_with_dt (st t) dt))
  | StCopy t src => let* s := st_copy (st t) (st src) in Ok (upd st t s)
  | StForce t x y fx fy b => let* s := st_apply_force (st t) x y fx fy b in Ok (upd st t s)
  end.

Inductive streach {tg} : (nat -> sstate tg) -> Prop :=
| streach_new : streach (fun _ => st_new)
| streach_step st o st' : streach st -> ststep st o = Ok st' -> streach st'.

Fixpoint strun {tg} (st : nat -> sstate tg) (os : list (stop tg)) : res (nat -> sstate tg) :=
  match os with [] => Ok st | o :: r => let* st := ststep st o in strun st r end.

(** number of elements of an array *)
Definition room (n nc : nat) (f : fld) : nat := if is_reaction f then nc * 2 else n.

(** the arrays have the lengths n and n_c say (C38: true after every history) *)
Definition sized {tg} (s : sstate tg) : Prop :=
  (forall f, length (s_arr s f) = room (s_n s) (s_nc s) f) /\ length (s_imap s) = s_nc s.

(** s has n bodies and its per-body arrays contain g *)
Definition shows_st {tg} (s : sstate tg) (n : nat) (g : fld -> nat -> cell tg) : Prop :=
  s_n s = n /\ forall f i, is_reaction f = false -> i < n -> ld s f (Z.of_nat i) = Ok (g f i).

(** s' differs from s at most in dt and the first n elements of the per-body arrays *)
Definition same_beyond {tg} (s s' : sstate tg) (n : nat) : Prop :=
  s_n s' = s_n s /\ s_nc s' = s_nc s /\ s_imap s' = s_imap s /\
  forall f z, is_reaction f = true \/ ~ (0 <= z < Z.of_nat n)%Z -> ld s' f z = ld s f z.

(** everything the two states hold reads the same *)
Definition reads_same {tg} (s s' : sstate tg) : Prop :=
  s_n s' = s_n s /\ s_nc s' = s_nc s /\
  (forall f z, ld s' f z = ld s f z) /\ (forall z, aget (s_imap s') z = aget (s_imap s) z).

(** ** Rigid motions of the plane *)

(** the point that has local coordinates (x, y) in the frame at (px, py) turned by th *)
Definition world_x (px th x y : R) : R := (px + x * cos th - y * sin th)%R.
Definition world_y (py th x y : R) : R := (py + x * sin th + y * cos th)%R.
Definition dist2 (x y x' y' : R) : R := ((x - x') ^ 2 + (y - y') ^ 2)%R.

(** a body with the given position, angle, velocities, mass and inertia *)
Record pose := mkPose { q_x : R; q_y : R; q_th : R }.
Definition body_pose {b} (o : body (RT b)) (q : pose) : Prop :=
  b_f o Bpx = Some (q_x q) /\ b_f o Bpy = Some (q_y q) /\ b_f o Btheta = Some (q_th q).
Definition state_pose {b} (s : sstate (RT b)) (i : Z) (q : pose) : Prop :=
  ld s Fpx i = Ok (Some (q_x q)) /\ ld s Fpy i = Ok (Some (q_y q)) /\ ld s Ftheta i = Ok (Some (q_th q)).
Definition state_velocity {b} (s : sstate (RT b)) (i : Z) (v : pose) : Prop :=
  ld s Fvx i = Ok (Some (q_x v)) /\ ld s Fvy i = Ok (Some (q_y v)) /\ ld s Fvtheta i = Ok (Some (q_th v)).

(** a motion: a pose for every time; its velocity at a time *)
Definition moves (m : R -> pose) (t : R) (v : pose) : Prop :=
  derivable_pt_lim (fun t => q_x (m t)) t (q_x v) /\
  derivable_pt_lim (fun t => q_y (m t)) t (q_y v) /\
  derivable_pt_lim (fun t => q_th (m t)) t (q_th v).
