(** * Specification vocabulary for the dynamics of rigid body systems. *)

From Coq Require Import Reals.
From Verif Require Import Base Targets State Ode Forces Constraints System SpecState SpecSys.
Local Open Scope nat_scope.

(** ** Directions: 0 = x, 1 = y, 2 = rotation *)

Definition posf (d : nat) : fld := match d with 0 => Fpx | 1 => Fpy | _ => Ftheta end.
Definition velf (d : nat) : fld := match d with 0 => Fvx | 1 => Fvy | _ => Fvtheta end.
Definition accf (d : nat) : fld := match d with 0 => Fax | 1 => Fay | _ => Fatheta end.
Definition frcf (d : nat) : fld := match d with 0 => Ffx | 1 => Ffy | _ => Ft end.

Section S.
Context {tg : target}.

Definition b_pos (o : body tg) (d : nat) : cell tg := b_f o (match d with 0 => Bpx | 1 => Bpy | _ => Btheta end).
Definition b_vel (o : body tg) (d : nat) : cell tg := b_f o (match d with 0 => Bvx | 1 => Bvy | _ => Bvtheta end).
(** mass in the directions x and y, moment of inertia for rotation *)
Definition b_mass (o : body tg) (d : nat) : cell tg := b_f o (match d with 0 | 1 => Bm | _ => BI end).
(** the reported constraint force: row j, body slot k *)
Definition c_force (c : constraint tg) (d j k : nat) : cell tg :=
  match d with 0 => c_Fx c j k | 1 => c_Fy c j k | _ => c_Ft c j k end.

(** ** Who acts on whom *)

(** every body slot of every constraint in the system names a body in the system *)
Definition attached (w : world tg) (y : sys tg) : Prop :=
  forall c k, In c (y_cons y) -> k < c_bodycount (w_con w c) ->
    exists b, c_bodies (w_con w c) k = Some b /\ In b (y_bodies y).
(** the constraints in the system have 1 to 3 rows and at most 2 bodies *)
Definition shaped (w : world tg) (y : sys tg) : Prop :=
  forall c, In c (y_cons y) -> 1 <= c_count (w_con w c) <= 3 /\ c_bodycount (w_con w c) <= 2.

(** all (constraint, row, body slot), in the order of registration *)
Definition slots (w : world tg) (y : sys tg) : list (nat * nat * nat) :=
  flat_map (fun c => flat_map (fun j => map (fun k => (c, j, k)) (seq 0 (c_bodycount (w_con w c))))
    (seq 0 (c_count (w_con w c)))) (y_cons y).
(** all (constraint, row), in the order of registration *)
Definition row_list (w : world tg) (y : sys tg) : list (nat * nat) :=
  flat_map (fun c => map (fun j => (c, j)) (seq 0 (c_count (w_con w c)))) (y_cons y).
(** slot e is bound to body b *)
Definition binds (w : world tg) (b : nat) (e : nat * nat * nat) : bool :=
  let '(c, _, k) := e in match c_bodies (w_con w c) k with Some b' => Nat.eqb b' b | None => false end.
(** x0 plus what F gives for the slots bound to body b *)
Definition total_on (w : world tg) (y : sys tg) (F : nat -> nat -> nat -> cell tg) (b : nat) (x0 : cell tg) : cell tg :=
  fold_left (fun a e => if binds w b e then let '(c, j, k) := e in cadd a (F c j k) else a) (slots w y) x0.

(** ** Motions and states *)

(** positions, velocities and accelerations of the bodies *)
Record kin := mkKin { k_q : nat -> nat -> cell tg; k_v : nat -> nat -> cell tg; k_a : nat -> nat -> cell tg }.
(** as the bodies have it; accelerations start at zero *)
Definition kin_of (w : world tg) : kin :=
  mkKin (fun b d => b_pos (w_body w b) d) (fun b d => b_vel (w_body w b) d) (fun _ _ => cofZ 0).

(** the state a generator or constraint gets to see: long enough arrays which
    contain the motion and the masses of the bodies in the system *)
Definition presents (w : world tg) (y : sys tg) (K : kin) (h : cell tg) (s : sstate tg) : Prop :=
  sized s /\ body_count y <= s_n s /\ full_count w y <= s_nc s /\ s_dt s = h /\
  forall i b, nth_error (y_bodies y) i = Some b ->
    ld s Fm (Z.of_nat i) = Ok (b_f (w_body w b) Bm) /\
    forall d, d < 3 ->
      ld s (posf d) (Z.of_nat i) = Ok (k_q K b d) /\ ld s (velf d) (Z.of_nat i) = Ok (k_v K b d) /\
      ld s (accf d) (Z.of_nat i) = Ok (k_a K b d).

(** a user-written generator changes the forces only *)
Definition gentle (g : gkind tg) : Prop :=
  match g with
  | GCustom f => forall bs s s', f bs s = Ok s' ->
      s_n s' = s_n s /\ s_nc s' = s_nc s /\ s_imap s' = s_imap s /\ s_dt s' = s_dt s /\
      (forall x, length (s_arr s' x) = length (s_arr s x)) /\
      forall x, x <> Ffx -> x <> Ffy -> x <> Ft -> s_arr s' x = s_arr s x
  | _ => True
  end.
Definition all_gentle (w : world tg) (y : sys tg) : Prop := forall g, In g (y_gens y) -> gentle (g_kind (w_gen w g)).

(** the force generators together put the force f b d on body b *)
Definition pushes (w : world tg) (y : sys tg) (K : kin) (h : cell tg) (f : nat -> nat -> cell tg) : Prop :=
  forall s, presents w y K h s ->
    exists s', process_forces w y s = Ok s' /\
      forall i b d, nth_error (y_bodies y) i = Some b -> d < 3 -> ld s' (frcf d) (Z.of_nat i) = Ok (f b d).

(** what the constraints compute: C, J, dJ/dt, velocity bias, limits and
    spring constants per constraint and row (and column) *)
Record law := mkLaw {
  l_C : nat -> nat -> cell tg; l_J : nat -> nat -> nat -> cell tg; l_Jd : nat -> nat -> nat -> cell tg;
  l_vb : nat -> nat -> cell tg; l_lo : nat -> nat -> cell tg; l_hi : nat -> nat -> cell tg;
  l_ks : nat -> nat -> cell tg; l_kd : nat -> nat -> cell tg }.
Definition answers (w : world tg) (y : sys tg) (K : kin) (h : cell tg) (L : law) : Prop :=
  forall s, presents w y K h s -> forall c o, In c (y_cons y) ->
    exists o', calculate (w_body w) (w_con w c) o s = Ok o' /\
      forall j, j < c_count (w_con w c) ->
        o_C o' j = l_C L c j /\ o_vbias o' j = l_vb L c j /\
        o_limits o' j 0 = l_lo L c j /\ o_limits o' j 1 = l_hi L c j /\
        o_ks o' j = l_ks L c j /\ o_kd o' j = l_kd L c j /\
        forall i, i < c_bodycount (w_con w c) * 3 -> o_J o' j i = l_J L c j i /\ o_Jdot o' j i = l_Jd L c j i.

(** Newton's law: body b feels the force f b d and the constraint forces
    F d c j k of the slots bound to it *)
Definition newton (w : world tg) (y : sys tg) (f : nat -> nat -> cell tg) (F : nat -> nat -> nat -> nat -> cell tg)
    (a : nat -> nat -> cell tg) : Prop :=
  forall b d, In b (y_bodies y) -> d < 3 ->
    a b d = cmul (total_on w y (F d) b (f b d)) (cdiv (cofZ 1) (b_mass (w_body w b) d)).
(** one step of length h: positions move with the new velocities (NSV) or
    with the old ones (Euler) *)
Inductive scheme := Symplectic | Explicit.
Definition moves (z : scheme) (y : sys tg) (h : cell tg) (K K' : kin) : Prop :=
  forall b d, In b (y_bodies y) -> d < 3 ->
    k_v K' b d = cadd (k_v K b d) (cmul (k_a K' b d) h) /\
    k_q K' b d = cadd (k_q K b d) (cmul (k_v (match z with Symplectic => K' | Explicit => K end) b d) h).
Definition kicks (z : scheme) (w : world tg) (y : sys tg) (h : cell tg) (f : nat -> nat -> cell tg) (F : nat -> nat -> nat -> nat -> cell tg)
    (K K' : kin) : Prop := newton w y f F (k_a K') /\ moves z y h K K'.
Definition ode_of (z : scheme) (h : cell tg) : ode tg := match z with Symplectic => OdeNsv h | Explicit => OdeEuler h end.
(** the optimized class has one scheme, the generic class is given one *)
Definition uses (k : flavour) (z : scheme) (y : sys tg) : Prop :=
  match k with Optimized => z = Symplectic | Generic => exists h, y_ode y = Some (ode_of z h) end.
(** f is the force on the bodies in the motion K, if the generators have one *)
Definition forces_at (w : world tg) (y : sys tg) (K : kin) (h : cell tg) (f : nat -> nat -> cell tg) : Prop :=
  forall f', pushes w y K h f' -> forall b d, In b (y_bodies y) -> d < 3 -> f b d = f' b d.
(** n rounds of length h from K0 to Kn, each of which satisfies P (motion at
    the start, generator forces, constraint forces); Fn are the constraint
    forces of the last round *)
Definition motion_by (P : kin -> (nat -> nat -> cell tg) -> (nat -> nat -> nat -> nat -> cell tg) -> Prop)
    (z : scheme) (w : world tg) (y : sys tg) (h : cell tg) (n : nat) (K0 Kn : kin) (Fn : nat -> nat -> nat -> nat -> cell tg) : Prop :=
  exists (Ks : nat -> kin) fs Fs, Ks 0 = K0 /\ Ks n = Kn /\
    (forall i, i < n -> forces_at w y (Ks i) h (fs i) /\ kicks z w y h (fs i) (Fs i) (Ks i) (Ks (S i)) /\ P (Ks i) (fs i) (Fs i)) /\
    (0 < n -> Fs (n - 1) = Fn).
Definition motion := motion_by (fun _ _ _ => True).
(** the bodies of w' have the positions and velocities of K *)
Definition arrives (w' : world tg) (y : sys tg) (K : kin) : Prop :=
  forall b d, In b (y_bodies y) -> d < 3 -> b_pos (w_body w' b) d = k_q K b d /\ b_vel (w_body w' b) d = k_v K b d.
(** the constraints of w' report the forces F *)
Definition reports (w w' : world tg) (y : sys tg) (F : nat -> nat -> nat -> nat -> cell tg) : Prop :=
  forall c j k d, In c (y_cons y) -> j < c_count (w_con w c) -> k < c_bodycount (w_con w c) -> d < 3 ->
    c_force (w_con w' c) d j k = F d c j k.
(** no constraint in the system is bound to body b *)
Definition unbound (w : world tg) (y : sys tg) (b : nat) : Prop :=
  forall c k, In c (y_cons y) -> k < c_bodycount (w_con w c) -> c_bodies (w_con w c) k <> Some b.
End S.
Arguments kin : clear implicits.
Arguments law : clear implicits.
