(** * Specification vocabulary for rows that do not interact, and for slipping. *)

From Coq Require Import Reals.
From Verif Require Import Base Targets Sle State Forces Constraints System SpecMatrix SpecState SpecForces SpecCon ConFacts SpecSys SpecDyn SpecSolve SpecLaw SpecLimits SpecLeast.
Local Open Scope nat_scope.

Section S.
Context {dbg : bool}.
Notation T := (RT dbg).

(** what a unit multiplier of row (c',j') does to row (c,j) *)
Definition coupling (w : world T) (y : sys T) (M : nat -> nat -> R) (J : nat -> nat -> nat -> R) (c j c' j' : nat) : R :=
  along w J (fun b d => acts w y J (fun c0 j0 => if Nat.eqb c0 c' && Nat.eqb j0 j' then 1%R else 0%R) b d / M b d)%R c j.
(** no row does anything to another one *)
Definition uncoupled (w : world T) (y : sys T) (M : nat -> nat -> R) (J : nat -> nat -> nat -> R) : Prop :=
  every_row w y (fun c j => every_row w y (fun c' j' => (c, j) <> (c', j') -> coupling w y M J c j c' j' = 0%R)).
(** z, limited to the range from lo to hi *)
Definition limited (lo hi z : R) : R := Rmax lo (Rmin hi z).
(** the multiplier is the one that gives the row its wanted rate (the bias of
    the class and a share beta of the gap, per dt), as far as the limits of
    the class allow *)
Definition as_allowed (w : world T) (y : sys T) (kc : nat -> rkind) (q u M : nat -> nat -> R) (beta dt : R) (x : nat -> nat -> R) : Prop :=
  let J := fun c j i => J_of (kc c) (pose_at w q c) j i in
  every_row w y (fun c j =>
    let z := ((- bias_of (kc c) - beta / dt * C_of (kc c) (pose_at w q c) j - along w J u c j) / (mobility w y M J c j * dt))%R in
    x c j = match limits_of (kc c) with Some (a, b) => limited a b z | None => limited (- R_dblmax) R_dblmax z end).

(** what a friction, a clutch or a rotor slips at: how far the spins are from
    what it wants; None: some other class *)
Definition slip (k : rkind) (v : nat -> pose) : option R :=
  match k with
  | RFriction _ _ _ _ => Some (q_th (v 0%nat))
  | RClutch _ _ _ _ => Some (q_th (v 1%nat) - q_th (v 0%nat))%R
  | RConstantRotation sp _ _ _ _ => Some (q_th (v 0%nat) + sp)%R
  | _ => None
  end.
(** the angular acceleration of the slip per torque; I: moments of inertia of the bodies in the slots *)
Definition give (k : rkind) (I : nat -> R) : R := match k with RClutch _ _ _ _ => (/ I 0%nat + / I 1%nat)%R | _ => (/ I 0%nat)%R end.
(** the force generators leave the spins of the bodies of constraint c alone *)
Definition unspun (w : world T) (y : sys T) (kg : nat -> rgen) (c : nat) : Prop :=
  forall g p, In g (y_gens y) -> p < c_bodycount (w_con w c) -> match kg g with VGravity _ => True | k => ~ aims k (who w c p) end.

(** what the theorem about several calls asks of a system: an optimized one
    with Gauss-Seidel that may do at least two sweeps *)
Record shop (priv : nat -> bool) (kc : nat -> rkind) (kg : nat -> rgen) (beta : R) (M : nat -> nat -> R) (w : world T) (y : sys T) (q v : nat -> nat -> R) : Prop := {
  sh_reach : exists m, yreach Optimized priv m w y;
  sh_sle : exists g tol, y_sle y = Some (SleGs g) /\ 2 <= gs_max_iterations g /\ gs_min_delta g = Some tol /\ (0 < tol)%R;
  sh_att : attached w y;
  sh_kinds : kinds_are w y kc;
  sh_gens : gens_are w y kg;
  sh_255 : body_count y <= 255;
  sh_some : y_cons y <> [];
  sh_rem : remembers w y;
  sh_bias : y_bias y = (Some beta : cell T);
  sh_are : bodies_are w y q v M
}.
(** wherever the bodies are, no row does anything to another one, and each does something to itself *)
Definition apart (w : world T) (y : sys T) (kc : nat -> rkind) (M : nat -> nat -> R) : Prop :=
  forall q, let J := fun c j i => J_of (kc c) (pose_at w q c) j i in uncoupled w y M J /\ every_row w y (fun c j => mobility w y M J c j <> 0%R).
End S.
Arguments sh_reach {dbg priv kc kg beta M w y q v} _.
Arguments sh_sle {dbg priv kc kg beta M w y q v} _.
Arguments sh_att {dbg priv kc kg beta M w y q v} _.
Arguments sh_kinds {dbg priv kc kg beta M w y q v} _.
Arguments sh_gens {dbg priv kc kg beta M w y q v} _.
Arguments sh_255 {dbg priv kc kg beta M w y q v} _.
Arguments sh_some {dbg priv kc kg beta M w y q v} _.
Arguments sh_rem {dbg priv kc kg beta M w y q v} _.
Arguments sh_bias {dbg priv kc kg beta M w y q v} _.
Arguments sh_are {dbg priv kc kg beta M w y q v} _.
