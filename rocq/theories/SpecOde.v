(** * Specification vocabulary for the integrators. *)

From Coq Require Import Reals.
From Verif Require Import Base Targets State Ode SpecState.
Local Open Scope nat_scope.

(** the field holding the rate of change of a field *)
Definition rate (f : fld) : option fld :=
  match f with
  | Fpx => Some Fvx | Fpy => Some Fvy | Ftheta => Some Fvtheta
  | Fvx => Some Fax | Fvy => Some Fay | Fvtheta => Some Fatheta
  | _ => None
  end.

(** one Euler step of a table of values *)
Definition euler_table {tg} (dt : cell tg) (g : fld -> nat -> cell tg) : fld -> nat -> cell tg :=
  fun f i => match rate f with Some r => cadd (g f i) (cmul (g r i) dt) | None => g f i end.
(** velocities first, then positions by the new velocities *)
Definition nsv_table {tg} (dt : cell tg) (g : fld -> nat -> cell tg) : fld -> nat -> cell tg :=
  fun f i => match rate f with
             | Some r => match rate r with
                         | Some r' => cadd (g f i) (cmul (cadd (g r i) (cmul (g r' i) dt)) dt)   (* a position *)
                         | None => cadd (g f i) (cmul (g r i) dt)                                (* a velocity *)
                         end
             | None => g f i
             end.

Fixpoint repeated {A} (k : nat) (f : A -> res A) (a : A) : res A :=
  match k with O => Ok a | S k => let* a := f a in repeated k f a end.

(** ** The protocol of the RK4 solver *)

(** rounds of step and solve; between them, and between rounds, the caller may
    do anything to the state *)
Inductive rounds {tg} : rk4 tg -> list bool -> rk4 tg -> Prop :=
| rounds_nil r : rounds r [] r
| rounds_cons r s r1 s1 b s2 r2 s3 bs r' :
    rk4_step r s = Ok (r1, s1, b) -> rk4_solve r1 s2 = Ok (r2, s3) ->
    rounds r2 bs r' -> rounds r (b :: bs) r'.

(** the driver loop of the systems, around an evaluation ev of the accelerations *)
Fixpoint rk_drive {tg} (fuel : nat) (ev : sstate tg -> res (sstate tg)) (r : rk4 tg) (s : sstate tg)
  : res (nat * (rk4 tg * sstate tg)) :=
  match fuel with
  | O => OutOfFuel
  | S k =>
      let* (r, s, done) := rk4_step r s in
      let* s := ev s in
      let* (r, s) := rk4_solve r s in
      if done then Ok (1, (r, s))
      else let* (c, x) := rk_drive k ev r s in Ok (S c, x)
  end.
(** start, driver loop, end *)
Definition rk_run {tg} (ev : sstate tg -> res (sstate tg)) (dt : cell tg) (rs : rk4 tg * sstate tg) : res (rk4 tg * sstate tg) :=
  let* r := rk4_start (fst rs) (snd rs) dt in
  let* (_, x) := rk_drive 4 ev r (snd rs) in
  Ok (rk4_end (fst x), snd x).
Fixpoint rk_runs {tg} (ev : sstate tg -> res (sstate tg)) (dts : list (cell tg)) (rs : rk4 tg * sstate tg) : res (rk4 tg * sstate tg) :=
  match dts with [] => Ok rs | dt :: r => let* rs := rk_run ev dt rs in rk_runs ev r rs end.

(** the solver's own two states can be overwritten by a state of the size of s
    (a new solver, or one last used with a state of the same size) *)
Definition fits {tg} (d s : sstate tg) : Prop :=
  sized d /\ (s_n d < s_n s \/ s_nc d < s_nc s \/ (s_n d = s_n s /\ s_nc d = s_nc s)).
Definition rk_fits {tg} (r : rk4 tg) (s : sstate tg) : Prop := fits (rk_init r) s /\ fits (rk_acc r) s.

(** ev keeps the sizes of s *)
Definition keeps_size {tg} (ev : sstate tg -> res (sstate tg)) : Prop :=
  forall s, sized s -> exists s', ev s = Ok s' /\ sized s' /\ s_n s' = s_n s /\ s_nc s' = s_nc s.

(** ** Accelerations given by a law, exact arithmetic *)

(** s has n bodies; their positions and velocities are those in g *)
Definition shows_motion {b} (s : sstate (RT b)) (n : nat) (g : fld -> nat -> R) : Prop :=
  s_n s = n /\ forall f i, rate f <> None -> i < n -> ld s f (Z.of_nat i) = Ok (Some (g f i) : cell (RT b)).
(** ev computes the accelerations A g from the positions and velocities g, which it keeps *)
Definition obeys {b} (ev : sstate (RT b) -> res (sstate (RT b))) (n : nat) (A : (fld -> nat -> R) -> fld -> nat -> R) : Prop :=
  forall s g, sized s -> shows_motion s n g ->
    exists s', ev s = Ok s' /\ sized s' /\ s_nc s' = s_nc s /\ shows_motion s' n g /\
      forall f i, (f = Fax \/ f = Fay \/ f = Fatheta) -> i < n -> ld s' f (Z.of_nat i) = Ok (Some (A g f i) : cell (RT b)).
(** the value of the right hand side of the equations of motion at g: the rate of change of field f of body i *)
Definition rhs (A : (fld -> nat -> R) -> fld -> nat -> R) (g : fld -> nat -> R) (f : fld) (i : nat) : R :=
  match rate f with
  | Some r => match rate r with Some _ => g r i | None => A g r i end
  | None => 0%R
  end.

(** the classical fourth-order Runge-Kutta step *)
Definition classical (A : (fld -> nat -> R) -> fld -> nat -> R) (h : R) (y : fld -> nat -> R) : fld -> nat -> R :=
  let k1 := rhs A y in
  let k2 := rhs A (fun f i => y f i + h / 2 * k1 f i)%R in
  let k3 := rhs A (fun f i => y f i + h / 2 * k2 f i)%R in
  let k4 := rhs A (fun f i => y f i + h * k3 f i)%R in
  fun f i => (y f i + h / 6 * (k1 f i + 2 * k2 f i + 2 * k3 f i + k4 f i))%R.

(** a stage as the code computes it: new velocities by the accelerations k,
    then positions by the new velocities *)
Definition stage (h : R) (y : fld -> nat -> R) (k : fld -> nat -> R) : fld -> nat -> R :=
  fun f i => match rate f with
             | Some r => match rate r with
                         | Some _ => y f i + h * (y r i + h * k r i)
                         | None => y f i + h * k f i
                         end
             | None => y f i
             end%R.
(** the method the code implements *)
Definition coded (A : (fld -> nat -> R) -> fld -> nat -> R) (h : R) (y : fld -> nat -> R) : fld -> nat -> R :=
  let k1 := rhs A y in
  let k2 := rhs A (stage (h / 2) y k1) in
  let k3 := rhs A (stage (h / 2) y k2) in
  let k4 := rhs A (stage h y k3) in
  fun f i => (y f i + h / 6 * (k1 f i + 2 * k2 f i + 2 * k3 f i + k4 f i))%R.

(** k symplectic steps of size dt under constant accelerations, from the values g *)
Definition nsv_closed {b} (k : nat) (dt : R) (g : fld -> nat -> R) (c : fld -> nat -> cell (RT b)) : fld -> nat -> cell (RT b) :=
  fun f i => match rate f with
             | Some r => match rate r with
                         | Some a => Some (g f i + INR k * dt * g r i + INR k * (INR k + 1) / 2 * dt ^ 2 * g a i)%R
                         | None => Some (g f i + INR k * dt * g r i)%R
                         end
             | None => c f i
             end.

(** motion for a time T under constant accelerations a *)
Definition closed_form (a : fld -> nat -> R) (T : R) (y : fld -> nat -> R) : fld -> nat -> R :=
  fun f i => match rate f with
             | Some r => match rate r with
                         | Some ac => y f i + T * y r i + T ^ 2 / 2 * a ac i
                         | None => y f i + T * a r i
                         end
             | None => y f i
             end%R.

(** accelerations depending on the velocities only *)
Definition velocity_law (n : nat) (A : (fld -> nat -> R) -> fld -> nat -> R) : Prop :=
  forall g g', (forall f i, (f = Fvx \/ f = Fvy \/ f = Fvtheta) -> i < n -> g f i = g' f i) -> forall f i, A g f i = A g' f i.
