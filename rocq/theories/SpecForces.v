(** * Specification vocabulary for the force generators. *)

From Coq Require Import Reals.
From Coq Require Import Floats.SpecFloat.
From Verif Require Import Base Targets State Forces SpecState.
Local Open Scope nat_scope.

Definition is_force (f : fld) : bool := match f with Ffx | Ffy | Ft => true | _ => false end.

(** s' differs from s at most in the forces and torques of the bodies in zs *)
Definition forces_only {tg} (s s' : sstate tg) (zs : list Z) : Prop :=
  (forall f z, is_force f = false \/ ~ In z zs -> ld s' f z = ld s f z) /\
  s_n s' = s_n s /\ s_nc s' = s_nc s /\ s_imap s' = s_imap s /\ s_dt s' = s_dt s.

(** a generalised force on one body *)
Record gforce := mkGf { gf_x : R; gf_y : R; gf_t : R }.

(** between s and s' body z gained the generalised force F *)
Definition gains {b} (s s' : sstate (RT b)) (z : Z) (F : gforce) : Prop :=
  exists x y t : R,
    (ld s Ffx z = Ok (Some x : cell (RT b)) /\ ld s Ffy z = Ok (Some y : cell (RT b)) /\ ld s Ft z = Ok (Some t : cell (RT b))) /\
    ld s' Ffx z = Ok (Some (x + gf_x F)%R : cell (RT b)) /\
    ld s' Ffy z = Ok (Some (y + gf_y F)%R : cell (RT b)) /\
    ld s' Ft z = Ok (Some (t + gf_t F)%R : cell (RT b)).

(** a pair of generalised forces acts on bodies z1 and z2 (together if they are one body) *)
Definition two_forces {b} (s s' : sstate (RT b)) (z1 z2 : Z) (F1 F2 : gforce) : Prop :=
  forces_only s s' [z1; z2] /\
  (z1 <> z2 -> gains s s' z1 F1 /\ gains s s' z2 F2) /\
  (z1 = z2 -> gains s s' z1 (mkGf (gf_x F1 + gf_x F2) (gf_y F1 + gf_y F2) (gf_t F1 + gf_t F2))%R).

(** moment of a generalised force on a body with pose q about the point (ox, oy) *)
Definition moment (q : pose) (F : gforce) (ox oy : R) : R :=
  ((q_x q - ox) * gf_y F - (q_y q - oy) * gf_x F + gf_t F)%R.
(** its power at velocities v *)
Definition power (v : pose) (F : gforce) : R := (gf_x F * q_x v + gf_y F * q_y v + gf_t F * q_th v)%R.

(** body z of s has pose q, velocities v and determinate forces *)
Definition body_state {b} (s : sstate (RT b)) (z : Z) (q v : pose) : Prop :=
  state_pose s z q /\ state_velocity s z v /\
  exists x y t : R, ld s Ffx z = Ok (Some x : cell (RT b)) /\ ld s Ffy z = Ok (Some y : cell (RT b)) /\ ld s Ft z = Ok (Some t : cell (RT b)).

(** a spring with the given numbers *)
Record spring_pars := mkSp { sr_rest : R; sr_ks : R; sr_kd : R; sr_p1x : R; sr_p1y : R; sr_p2x : R; sr_p2y : R }.
Definition spring_of (b : bool) (r : spring_pars) (i1 i2 : nat) : spring (RT b) :=
  @mkSpring (RT b) (Some (sr_rest r)) (Some (sr_ks r)) (Some (sr_kd r)) (Some (sr_p1x r)) (Some (sr_p1y r))
    (Some (sr_p2x r)) (Some (sr_p2y r)) (Some i1) (Some i2).

(** where the ends of a spring are, and how they move *)
Definition end1x (r : spring_pars) (q : pose) : R := world_x (q_x q) (q_th q) (sr_p1x r) (sr_p1y r).
Definition end1y (r : spring_pars) (q : pose) : R := world_y (q_y q) (q_th q) (sr_p1x r) (sr_p1y r).
Definition end2x (r : spring_pars) (q : pose) : R := world_x (q_x q) (q_th q) (sr_p2x r) (sr_p2y r).
Definition end2y (r : spring_pars) (q : pose) : R := world_y (q_y q) (q_th q) (sr_p2x r) (sr_p2y r).
(** velocity of the point (x, y) fixed to a body with pose q and velocities v *)
Definition ptvx (q v : pose) (x y : R) : R := (q_x v - q_th v * (y - q_y q))%R.
Definition ptvy (q v : pose) (x y : R) : R := (q_y v + q_th v * (x - q_x q))%R.

Definition spring_length (r : spring_pars) (q1 q2 : pose) : R :=
  sqrt (dist2 (end1x r q1) (end1y r q1) (end2x r q2) (end2y r q2)).
(** relative velocity of the ends *)
Definition relvx (r : spring_pars) (q1 v1 q2 v2 : pose) : R :=
  (ptvx q2 v2 (end2x r q2) (end2y r q2) - ptvx q1 v1 (end1x r q1) (end1y r q1))%R.
Definition relvy (r : spring_pars) (q1 v1 q2 v2 : pose) : R :=
  (ptvy q2 v2 (end2x r q2) (end2y r q2) - ptvy q1 v1 (end1x r q1) (end1y r q1))%R.

(** the force a point force (fx, fy) at (x, y) exerts on a body with pose q *)
Definition point_force (q : pose) (x y fx fy : R) : gforce :=
  mkGf fx fy ((x - q_x q) * fy - (y - q_y q) * fx)%R.

(** the same spring without damping *)
Definition undamped (r : spring_pars) : spring_pars :=
  mkSp (sr_rest r) (sr_ks r) 0 (sr_p1x r) (sr_p1y r) (sr_p2x r) (sr_p2y r).
(** the ends approach or separate along the line between them *)
Definition along (r : spring_pars) (q1 v1 q2 v2 : pose) : Prop :=
  (relvx r q1 v1 q2 v2 * (end2y r q2 - end1y r q1) - relvy r q1 v1 q2 v2 * (end2x r q2 - end1x r q1) = 0)%R.

(** ** Motors *)
(** body z1 gained the torque L and body z0, if it is one, lost it *)
Definition torque_pair {tg} (s s' : sstate tg) (z0 z1 : Z) (L : cell tg) : Prop :=
  (forall f z, f <> Ft \/ (z <> z0 /\ z <> z1) -> ld s' f z = ld s f z) /\
  s_n s' = s_n s /\ s_nc s' = s_nc s /\ s_imap s' = s_imap s /\ s_dt s' = s_dt s /\
  (z0 <> z1 -> exists t, ld s Ft z1 = Ok t /\ ld s' Ft z1 = Ok (cadd t L)) /\
  (z0 <> z1 -> z0 <> (-1)%Z -> exists t, ld s Ft z0 = Ok t /\ ld s' Ft z0 = Ok (csub t L)) /\
  (z0 = z1 -> exists t, ld s Ft z0 = Ok t /\ ld s' Ft z0 = Ok (cadd (csub t L) L)).
(** angular velocity and acceleration of a motor's base: zero if it is in no system *)
Definition base_spin {tg} (s : sstate tg) (z : Z) (v a : cell tg) : Prop :=
  (z = (-1)%Z /\ v = cofZ 0 /\ a = cofZ 0) \/ (z <> (-1)%Z /\ ld s Fvtheta z = Ok v /\ ld s Fatheta z = Ok a).

(** ** Two states that differ at most in the forces on the bodies 0 .. n - 1 *)
Definition same_but_forces {tg} (n : nat) (s s' : sstate tg) : Prop :=
  (forall f z, is_force f = false \/ ~ (0 <= z < Z.of_nat n)%Z -> ld s' f z = ld s f z) /\
  (forall f, length (s_arr s' f) = length (s_arr s f)) /\
  s_n s' = s_n s /\ s_nc s' = s_nc s /\ s_imap s' = s_imap s /\ s_dt s' = s_dt s.

(** ** Binary64 *)
Definition f_le (x y : f64) : Prop := SFleb x y = true.
(** binary64 with any sine and cosine *)
Definition F64_trig (dbg : bool) (sn cs : f64 -> option f64) : target := {|
  num := f64; n_ofZ := f_ofZ; n_add := SFadd 53 1024; n_sub := SFsub 53 1024; n_mul := SFmul 53 1024;
  n_opp := SFopp; n_abs := SFabs; n_div := (fun x y => Some (SFdiv 53 1024 x y)); n_sqrt := (fun x => Some (SFsqrt 53 1024 x));
  n_sin := sn; n_cos := cs; n_ltb := SFltb; n_leb := SFleb; n_eqb := SFeqb;
  n_fmin := f_fmin; n_fmax := f_fmax; n_finite := f_finite; n_dblmax := f_dblmax; asserts_on := dbg |}.
Definition f_zero (x : f64) : Prop := exists s, x = S754_zero s.
(** y is minus x; the sign of a zero is left open *)
Definition f_opposite (x y : f64) : Prop := y = SFopp x \/ (f_zero x /\ f_zero y).
Definition c_opposite {b sn cs} (x y : cell (F64_trig b sn cs)) : Prop :=
  match x, y with Some x, Some y => f_opposite x y | None, None => True | _, _ => False end.
