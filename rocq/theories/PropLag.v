(** * Property C137: springs with dampers against the exact motion. *)

From Coq Require Import Reals.
From Verif Require Import Base Targets State Forces Constraints System SpecState SpecSys RegWit SpecDyn SpecFlight SpecSwing SpecDamp SpecRun SpecSpring SolveWit MomWit LeastWit TurnWit SpringWit SpecFade SpecLag.
From Verif Require LagRun.
Local Open Scope R_scope.

(** C137: for bodies that move in line, with r the sum of the inverse masses,
    ks r = mu^2 + nu^2 = om^2 and kd r = 2 mu, the distance from the exact motion
    after n sub-steps of length h is at most exp(- mu n h) (exp(n q) - 1) times
    the amplitude, with q = 7 (om h)^2 om / nu, in the explicit and the
    semi-implicit scheme *)
Theorem C137_near :
  forall dbg priv k z (L ks kd h mu nu om : R) gr g b1 b2 M1 M2 l (w : world (RT dbg)) y w' y' x1 v1 x2 v2 ex ey l0 u0,
  tied priv k z w y g b1 b2 L ks kd gr x1 v1 M1 x2 v2 M2 -> plays k l w y = Ok (w', y') -> evenly h l ->
  ex * ex + ey * ey = 1 -> seen_from x1 x2 v1 v2 = in_line ex ey l0 u0 -> ks * (/ M1 0%nat + / M2 0%nat) = om * om -> kd * (/ M1 0%nat + / M2 0%nat) = 2 * mu -> mu * mu + nu * nu = om * om ->
  0 <= mu -> 0 < nu -> 0 <= om -> 0 <= h -> om * h <= 1 ->
  let q := 7 * (om * h * (om * h)) * (om / nu) in let x := (l0 - L, u0) in ample mu nu L q (subs l) x ->
  exists x1' v1' x2' v2' l' u', tied priv k z w' y' g b1 b2 L ks kd gr x1' v1' M1 x2' v2' M2 /\ seen_from x1' x2' v1' v2' = in_line ex ey l' u' /\
    let d := exp (- (mu * lasts l)) * (exp (INR (subs l) * q) - 1) in apart2 mu nu (l' - L, u') (fades mu nu (lasts l) x) <= d * d * ampl2 mu nu x.
Proof. exact @LagRun.lag_tied. Qed.
Print Assumptions C137_near.
(** C137: a call of length t comes as close to the exact motion as wanted, if it
    has enough sub-steps *)
Theorem C137_converges :
  forall dbg priv k z (L ks kd mu nu om t eps : R) gr g b1 b2 (M1 M2 : nat -> R) l0 u0,
  ks * (/ M1 0%nat + / M2 0%nat) = om * om -> kd * (/ M1 0%nat + / M2 0%nat) = 2 * mu -> mu * mu + nu * nu = om * om ->
  0 <= mu -> 0 < nu -> 0 <= om -> 0 <= t -> 1 / 100 <= L -> 0 < eps -> let x := (l0 - L, u0) in 3 / 2 * ampl2 mu nu x <= nu * (L - 1 / 100) * (nu * (L - 1 / 100)) ->
  exists N, forall n tm (w : world (RT dbg)) y w' y' x1 v1 x2 v2 ex ey, (N <= n)%nat -> tied priv k z w y g b1 b2 L ks kd gr x1 v1 M1 x2 v2 M2 -> plays k [(t, n, tm)] w y = Ok (w', y') ->
    ex * ex + ey * ey = 1 -> seen_from x1 x2 v1 v2 = in_line ex ey l0 u0 ->
    exists x1' v1' x2' v2' l' u', tied priv k z w' y' g b1 b2 L ks kd gr x1' v1' M1 x2' v2' M2 /\ seen_from x1' x2' v1' v2' = in_line ex ey l' u' /\ apart2 mu nu (l' - L, u') (fades mu nu t x) < eps.
Proof. exact @LagRun.lag_converges. Qed.
Print Assumptions C137_converges.
(** a spring that meets what the theorems ask for, for a hundred sub-steps of
    length 1/100; all calls succeed *)
Example C137_example :
  forall dbg k z,
  let z' := match k with Optimized => Symplectic | Generic => z end in
  exists (w : world (RT dbg)) y x1 v1 x2 v2, tied nopriv k z' w y 0 6 7 1 1 (6 / 5) (fun _ => 10) x1 v1 (MD 6) x2 v2 (MD 7) /\ (3 / 5) * (3 / 5) + (4 / 5) * (4 / 5) = 1 /\
    seen_from x1 x2 v1 v2 = in_line (3 / 5) (4 / 5) (11 / 10) 0 /\ 1 * (/ MD 6 0%nat + / MD 7 0%nat) = 1 * 1 /\ 6 / 5 * (/ MD 6 0%nat + / MD 7 0%nat) = 2 * (3 / 5) /\
    ample (3 / 5) (4 / 5) 1 (7 * (1 * (1 / 100) * (1 * (1 / 100))) * (1 / (4 / 5))) 100 (11 / 10 - 1, 0) /\ 3 / 2 * ampl2 (3 / 5) (4 / 5) (11 / 10 - 1, 0) <= 4 / 5 * (1 - 1 / 100) * (4 / 5 * (1 - 1 / 100)) /\
    forall l, (forall dt n t, In (dt, n, t) l -> dt <> 0 /\ (0 < n)%nat) -> exists w' y', plays k l w y = Ok (w', y').
Proof. exact @LagRun.lag_scene. Qed.
Print Assumptions C137_example.
