(** * Specification vocabulary for systems without constraints and for
      constraints that name absent bodies. *)

From Verif Require Import Base Targets Matrix Sle State Ode Forces Constraints System SpecState SpecSys SpecDyn.
Local Open Scope nat_scope.

Section S.
Context {tg : target}.

(** the solver copes with a system without equations; [lam] is the vector of
    multipliers it left behind at the last call *)
Definition idles (l : sle tg) (lam : matrix tg) : Prop :=
  match l with
  | SleBase _ => asserts_on tg = false
  | SleGe _ => asserts_on tg = true -> m_h lam = 0
  | SleGs g => 0 < gs_max_iterations g /\ clt (cofZ 0) (gs_min_delta g) = Ok true
  | SleCg _ => m_h lam <> 0 \/ m_w lam = 1
  end.

(** it does not: Gaussian elimination leaves multipliers of the wrong height,
    conjugate gradient starts from multipliers of the wrong width *)
Definition balks (l : sle tg) (lam : matrix tg) : Prop :=
  match l with
  | SleGe _ => m_h lam <> 0
  | SleCg _ => m_h lam = 0 /\ m_w lam <> 1
  | SleBase _ | SleGs _ => False
  end.

(** every body in the system moves under the forces f alone *)
Definition free_motion (z : scheme) (w : world tg) (y : sys tg) (h : cell tg) (f : nat -> nat -> cell tg) (K K' : kin tg) : Prop :=
  (forall b d, In b (y_bodies y) -> d < 3 -> k_a K' b d = cmul (f b d) (cdiv (cofZ 1) (b_mass (w_body w b) d))) /\
  moves z y h K K'.

(** the position of the body in slot k of constraint c, as the code has it *)
Definition slot_index (w : world tg) (c k : nat) : option Z :=
  match c_bodies (w_con w c) k with Some b => Some (b_index (w_body w b)) | None => None end.
End S.
