(** * Specification vocabulary for sub-stepping. *)

From Coq Require Import Reals.
From Verif Require Import Base Targets Matrix Sparse Sle State Ode Forces Constraints System SpecSle SpecSys SpecDyn.
Local Open Scope nat_scope.

Section S.
Context {tg : target}.

(** one call of process(h, 1) for every entry of ts *)
Fixpoint calls_of (k : flavour) (h : cell tg) (ts : list timing) (w : world tg) (y : sys tg) : res (world tg * sys tg) :=
  match ts with
  | [] => Ok (w, y)
  | t :: ts => let* (w, y) := process k h 1 t w y in calls_of k h ts w y
  end.

(** the objects of w and w' are in the same state: motion and data of every
    body, settings and reported forces of every constraint, every generator *)
Definition same_scene (w w' : world tg) : Prop :=
  (forall b, b_index (w_body w' b) = b_index (w_body w b) /\ forall f, b_f (w_body w' b) f = b_f (w_body w b) f) /\
  (forall c, c_kind (w_con w' c) = c_kind (w_con w c) /\ c_index (w_con w' c) = c_index (w_con w c) /\
     c_bodycount (w_con w' c) = c_bodycount (w_con w c) /\ c_bodies (w_con w' c) = c_bodies (w_con w c) /\
     c_count (w_con w' c) = c_count (w_con w c) /\
     forall j k, c_Fx (w_con w' c) j k = c_Fx (w_con w c) j k /\ c_Fy (w_con w' c) j k = c_Fy (w_con w c) j k /\
       c_Ft (w_con w' c) j k = c_Ft (w_con w c) j k) /\
  (forall g, w_gen w' g = w_gen w g).

Definition is_accel (f : fld) : bool := match f with Fax | Fay | Fatheta => true | _ => false end.
(** s and s' have the same sizes and agree at the places p marks *)
Definition agree (p : fld -> nat -> bool) (s s' : sstate tg) : Prop :=
  s_n s' = s_n s /\ s_nc s' = s_nc s /\ s_imap s' = s_imap s /\ s_dt s' = s_dt s /\
  (forall f, length (s_arr s' f) = length (s_arr s f)) /\
  forall f i, p f i = true -> nth_error (s_arr s' f) i = nth_error (s_arr s f) i.
(** everywhere but in the accelerations of the first n bodies *)
Definition but_accel (n : nat) (f : fld) (i : nat) : bool := negb (is_accel f) || Nat.leb n i.
(** same indices, and the bodies outside any system are the same *)
Definition seen_alike (bs bs' : bodies tg) : Prop :=
  forall b, b_index (bs' b) = b_index (bs b) /\ (b_index (bs b) = (-1)%Z -> forall f, b_f (bs' b) f = b_f (bs b) f).

(** the generator changes forces only and does not look at accelerations, nor
    at the system's bodies other than through the state *)
Definition heedless (g : gkind tg) : Prop :=
  match g with
  | GMotor _ => False
  | GCustom f => gentle (GCustom f) /\ forall n bs bs' s s', seen_alike bs bs' -> agree (but_accel n) s s' ->
      match f bs s, f bs' s' with
      | Ok t, Ok t' => agree (but_accel n) t t'
      | AssertFail, AssertFail | UB, UB | OutOfFuel, OutOfFuel => True
      | _, _ => False
      end
  | _ => True
  end.
(** likewise for a user-written constraint *)
Definition heedless_con (k : ckind tg) : Prop :=
  match k with
  | KCustom f => forall n bs bs' cb o s s', seen_alike bs bs' -> agree (but_accel n) s s' -> f bs' cb o s' = f bs cb o s
  | _ => True
  end.
End S.
