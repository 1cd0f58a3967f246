(** * Property C135: springs against the exact motion. *)

From Coq Require Import Reals.
From Verif Require Import Base Targets State Forces Constraints System SpecState SpecSys RegWit SpecDyn SpecRk SpecFlight SpecSwing SpecDamp SpecRun SpecSpring SolveWit MomWit LeastWit TurnWit SpringWit SpecBow SpecOsc.
From Verif Require OscReal OscRun OscWit.
Local Open Scope R_scope.

(** C135: without damping, for bodies that move in line and om^2 = ks r, the
    distance from the exact motion after n sub-steps of length h is at most
    exp(n q) - 1 times the amplitude, in the norm of the energy, with
    q = (om h)^2 in the explicit and the semi-implicit scheme *)
Theorem C135_first_order :
  forall dbg priv k z (L ks h om : R) gr g b1 b2 M1 M2 l (w : world (RT dbg)) y w' y' x1 v1 x2 v2 ex ey l0 u0, tied priv k z w y g b1 b2 L ks 0 gr x1 v1 M1 x2 v2 M2 -> plays k l w y = Ok (w', y') -> evenly h l ->
  ex * ex + ey * ey = 1 -> seen_from x1 x2 v1 v2 = in_line ex ey l0 u0 -> 0 < om -> ks * (/ M1 0%nat + / M2 0%nat) = om * om -> 0 <= om * h <= 1 ->
  let q := om * h * (om * h) in let x := (l0 - L, u0) in roomy om L q (subs l) x ->
  exists x1' v1' x2' v2' l' u', tied priv k z w' y' g b1 b2 L ks 0 gr x1' v1' M1 x2' v2' M2 /\ seen_from x1' x2' v1' v2' = in_line ex ey l' u' /\
    gap2 om (l' - L, u') (oscillates om (lasts l) x) <= (exp (INR (subs l) * q) - 1) * (exp (INR (subs l) * q) - 1) * energy2 om x.
Proof. exact @OscRun.osc_tied. Qed.
Print Assumptions C135_first_order.
(** C135: the same with q = (om h)^3 / 4 in the fourth-order scheme *)
Theorem C135_second_order :
  forall dbg priv (L ks h om : R) gr g b1 b2 M1 M2 l (w : world (RT dbg)) y w' y' x1 v1 x2 v2 ex ey l0 u0, strung priv w y g b1 b2 L ks 0 gr x1 v1 M1 x2 v2 M2 -> plays Generic l w y = Ok (w', y') -> evenly h l ->
  ex * ex + ey * ey = 1 -> seen_from x1 x2 v1 v2 = in_line ex ey l0 u0 -> 0 < om -> ks * (/ M1 0%nat + / M2 0%nat) = om * om -> 0 <= om * h <= 1 ->
  let q := (om * h) ^ 3 / 4 in let x := (l0 - L, u0) in roomy om L q (subs l) x ->
  exists x1' v1' x2' v2' l' u', strung priv w' y' g b1 b2 L ks 0 gr x1' v1' M1 x2' v2' M2 /\ seen_from x1' x2' v1' v2' = in_line ex ey l' u' /\
    gap2 om (l' - L, u') (oscillates om (lasts l) x) <= (exp (INR (subs l) * q) - 1) * (exp (INR (subs l) * q) - 1) * energy2 om x.
Proof. exact @OscRun.osc_strung. Qed.
Print Assumptions C135_second_order.
(** C135: it is no better than that: after one sub-step from a standstill the
    velocity is off by at least (om h)^3 / 10 of the greatest one *)
Theorem C135_not_fourth_order :
  forall dbg priv (L ks h om : R) gr g b1 b2 M1 M2 t (w : world (RT dbg)) y w' y' x1 v1 x2 v2 ex ey l0, strung priv w y g b1 b2 L ks 0 gr x1 v1 M1 x2 v2 M2 -> plays Generic [(h, 1%nat, t)] w y = Ok (w', y') ->
  ex * ex + ey * ey = 1 -> seen_from x1 x2 v1 v2 = in_line ex ey l0 0 -> 0 < om -> ks * (/ M1 0%nat + / M2 0%nat) = om * om -> 0 <= om * h <= 1 -> roomy om L ((om * h) ^ 3 / 4) 1 (l0 - L, 0) ->
  exists x1' v1' x2' v2' l' u', strung priv w' y' g b1 b2 L ks 0 gr x1' v1' M1 x2' v2' M2 /\ seen_from x1' x2' v1' v2' = in_line ex ey l' u' /\
    (om * h) ^ 3 / 10 * Rabs (om * (l0 - L)) <= Rabs (u' - snd (oscillates om h (l0 - L, 0))).
Proof. exact @OscRun.osc_not_fourth. Qed.
Print Assumptions C135_not_fourth_order.
(** C135: a call of length t comes as close to the exact motion as wanted, if it
    has enough sub-steps *)
Theorem C135_converges :
  forall dbg priv k z (L ks om t eps : R) gr g b1 b2 (M1 M2 : nat -> R) l0 u0, 0 < om -> ks * (/ M1 0%nat + / M2 0%nat) = om * om -> 0 <= t -> 1 / 100 <= L -> 0 < eps ->
  let x := (l0 - L, u0) in 3 * energy2 om x <= om * (L - 1 / 100) * (om * (L - 1 / 100)) ->
  exists N, forall n tm (w : world (RT dbg)) y w' y' x1 v1 x2 v2 ex ey, (N <= n)%nat -> tied priv k z w y g b1 b2 L ks 0 gr x1 v1 M1 x2 v2 M2 -> plays k [(t, n, tm)] w y = Ok (w', y') ->
    ex * ex + ey * ey = 1 -> seen_from x1 x2 v1 v2 = in_line ex ey l0 u0 ->
    exists x1' v1' x2' v2' l' u', tied priv k z w' y' g b1 b2 L ks 0 gr x1' v1' M1 x2' v2' M2 /\ seen_from x1' x2' v1' v2' = in_line ex ey l' u' /\ gap2 om (l' - L, u') (oscillates om t x) < eps.
Proof. exact @OscRun.osc_converges. Qed.
Print Assumptions C135_converges.
Theorem C135_converges_fourth_order :
  forall dbg priv (L ks om t eps : R) gr g b1 b2 (M1 M2 : nat -> R) l0 u0, 0 < om -> ks * (/ M1 0%nat + / M2 0%nat) = om * om -> 0 <= t -> 1 / 100 <= L -> 0 < eps ->
  let x := (l0 - L, u0) in 3 * energy2 om x <= om * (L - 1 / 100) * (om * (L - 1 / 100)) ->
  exists N, forall n tm (w : world (RT dbg)) y w' y' x1 v1 x2 v2 ex ey, (N <= n)%nat -> strung priv w y g b1 b2 L ks 0 gr x1 v1 M1 x2 v2 M2 -> plays Generic [(t, n, tm)] w y = Ok (w', y') ->
    ex * ex + ey * ey = 1 -> seen_from x1 x2 v1 v2 = in_line ex ey l0 u0 ->
    exists x1' v1' x2' v2' l' u', strung priv w' y' g b1 b2 L ks 0 gr x1' v1' M1 x2' v2' M2 /\ seen_from x1' x2' v1' v2' = in_line ex ey l' u' /\ gap2 om (l' - L, u') (oscillates om t x) < eps.
Proof. exact @OscRun.osc_converges_four. Qed.
Print Assumptions C135_converges_fourth_order.
(** the exact motion is the solution of s'' = - om^2 s *)
Theorem C135_exact :
  forall om x, om <> 0 -> oscillates om 0 x = x /\
  forall t, derivable_pt_lim (fun t => fst (oscillates om t x)) t (snd (oscillates om t x)) /\ derivable_pt_lim (fun t => snd (oscillates om t x)) t (- (om * om * fst (oscillates om t x))).
Proof. exact OscReal.osc_exact. Qed.
Print Assumptions C135_exact.
(** springs that meet what the theorems ask for, for ten sub-steps of length
    1/10; all calls succeed *)
Example C135_example :
  forall dbg k z, let z' := match k with Optimized => Symplectic | Generic => z end in
  exists (w : world (RT dbg)) y x1 v1 x2 v2, tied nopriv k z' w y 0 6 7 1 1 0 (fun _ => 10) x1 v1 (MD 6) x2 v2 (MD 7) /\ (3 / 5) * (3 / 5) + (4 / 5) * (4 / 5) = 1 /\
    seen_from x1 x2 v1 v2 = in_line (3 / 5) (4 / 5) (11 / 10) 0 /\ 1 * (/ MD 6 0%nat + / MD 7 0%nat) = 1 * 1 /\ 0 <= 1 * (1 / 10) <= 1 /\
    roomy 1 1 (1 * (1 / 10) * (1 * (1 / 10))) 10 (11 / 10 - 1, 0) /\ 3 * energy2 1 (11 / 10 - 1, 0) <= 1 * (1 - 1 / 100) * (1 * (1 - 1 / 100)) /\
    forall l, (forall dt n t, In (dt, n, t) l -> dt <> 0 /\ (0 < n)%nat) -> exists w' y', plays k l w y = Ok (w', y').
Proof. exact OscWit.osc_scene. Qed.
Print Assumptions C135_example.
Example C135_example_fourth_order :
  forall dbg,
  exists (w : world (RT dbg)) y x1 v1 x2 v2, strung nopriv w y 0 6 7 1 1 0 (fun _ => 10) x1 v1 (MD 6) x2 v2 (MD 7) /\ (3 / 5) * (3 / 5) + (4 / 5) * (4 / 5) = 1 /\
    seen_from x1 x2 v1 v2 = in_line (3 / 5) (4 / 5) (11 / 10) 0 /\ 1 * (/ MD 6 0%nat + / MD 7 0%nat) = 1 * 1 /\ 0 <= 1 * (1 / 10) <= 1 /\
    roomy 1 1 ((1 * (1 / 10)) ^ 3 / 4) 10 (11 / 10 - 1, 0) /\ roomy 1 1 ((1 * (1 / 10)) ^ 3 / 4) 1 (11 / 10 - 1, 0) /\ 3 * energy2 1 (11 / 10 - 1, 0) <= 1 * (1 - 1 / 100) * (1 * (1 - 1 / 100)) /\
    forall l, busy l -> exists w' y', plays Generic l w y = Ok (w', y').
Proof. exact OscWit.osc_scene_four. Qed.
Print Assumptions C135_example_fourth_order.
