(** * Properties C117 - C120: two bodies at the ends of a spring. *)

From Coq Require Import Reals.
From Verif Require Import Base Targets State Forces Constraints System SpecState SpecSys RegWit SpecDyn SpecFlight SpecSwing SpecDamp SolveWit SpecRun SpecSpring SpringReal SpringStep SpringRun SpringWit.
Local Open Scope R_scope.

(** C117: seen from the first body, the second one goes through [bounce] once
    per sub-step, over any calls, whatever else is in the system; the two bodies
    together gain the momentum of their weight and do not start to turn *)
Theorem C117_calls :
  forall dbg priv k z (L ks kd : R) gr g b1 b2 M1 M2 l (w : world (RT dbg)) y w' y' x1 v1 x2 v2,
    tied priv k z w y g b1 b2 L ks kd gr x1 v1 M1 x2 v2 M2 -> plays k l w y = Ok (w', y') -> busy l ->
    exists x1' v1' x2' v2', tied priv k z w' y' g b1 b2 L ks kd gr x1' v1' M1 x2' v2' M2 /\ weight y' g gr = weight y g gr /\
      seen_from x1' x2' v1' v2' = course z L ks kd (/ M1 0%nat + / M2 0%nat) l (seen_from x1 x2 v1 v2) /\
      M1 0%nat * (v1' 0%nat - v1 0%nat) + M2 0%nat * (v2' 0%nat - v2 0%nat) = 0 /\
      M1 0%nat * (v1' 1%nat - v1 1%nat) + M2 0%nat * (v2' 1%nat - v2 1%nat) = - ((M1 0%nat + M2 0%nat) * weight y g gr * lasts l) /\
      (v1' 2%nat = v1 2%nat /\ x1' 2%nat = x1 2%nat + v1 2%nat * lasts l /\ v2' 2%nat = v2 2%nat /\ x2' 2%nat = x2 2%nat + v2 2%nat * lasts l).
Proof. exact @spring_calls. Qed.
Print Assumptions C117_calls.
(** two bodies at the ends of a spring of any length and strength, in any
    position, beside a body with a constraint and with gravity; all calls succeed *)
Example C117_example :
  forall dbg k z (L ks kd dx dy ux uy : R), let z' := match k with Optimized => Symplectic | Generic => z end in
  exists (w : world (RT dbg)) y, tied nopriv k z' w y 0 6 7 L ks kd (fun _ => 10) (qS dx dy 6) (vS ux uy 6) (MD 6) (qS dx dy 7) (vS ux uy 7) (MD 7) /\
    weight y 0 (fun _ => 10) = 10 /\ y_cons y = [3%nat] /\ y_gens y = [0%nat; 1%nat] /\
    forall l, (forall dt n t, In (dt, n, t) l -> dt <> 0 /\ (0 < n)%nat) -> exists w' y', plays k l w y = Ok (w', y').
Proof. exact @spring_scene. Qed.
Print Assumptions C117_example.

(** C118: in the semi-implicit scheme the line between the bodies sweeps equal
    areas in equal times; a damper takes the same part of it in every sub-step *)
Theorem C118_partial :
  forall dbg priv k z (L ks kd : R) gr g b1 b2 M1 M2 l (w : world (RT dbg)) y w' y' x1 v1 x2 v2,
    tied priv k z w y g b1 b2 L ks kd gr x1 v1 M1 x2 v2 M2 -> z = Symplectic -> plays k l w y = Ok (w', y') -> busy l ->
    exists x1' v1' x2' v2', tied priv k z w' y' g b1 b2 L ks kd gr x1' v1' M1 x2' v2' M2 /\
      sweep (seen_from x1' x2' v1' v2') = brakes (kd * (/ M1 0%nat + / M2 0%nat)) l * sweep (seen_from x1 x2 v1 v2) /\
      (kd = 0 -> sweep (seen_from x1' x2' v1' v2') = sweep (seen_from x1 x2 v1 v2)).
Proof. exact @area_law. Qed.
Print Assumptions C118_partial.
(** C118: in the explicit scheme it does not *)
Theorem C118_refuted :
  forall dbg, exists (w : world (RT dbg)) y w' y' x1 v1 x2 v2 x1' v1' x2' v2', tied nopriv Generic Explicit w y 0 6 7 0 1 0 (fun _ => 10) x1 v1 (MD 6) x2 v2 (MD 7) /\
    plays Generic [(1, 1%nat, tS)] w y = Ok (w', y') /\ tied nopriv Generic Explicit w' y' 0 6 7 0 1 0 (fun _ => 10) x1' v1' (MD 6) x2' v2' (MD 7) /\
    sweep (seen_from x1 x2 v1 v2) = 1 /\ sweep (seen_from x1' x2' v1' v2') = 2.
Proof. exact @euler_sweeps. Qed.
Print Assumptions C118_refuted.

(** C119: in the semi-implicit scheme a spring without damping whose ends move
    along it never goes beyond A, if its energy (with a correction of the order
    of the step) does not allow more, whatever the number of calls *)
Theorem C119_partial :
  forall dbg priv k z (L ks h A : R) gr g b1 b2 M1 M2 l (w : world (RT dbg)) y w' y' x1 v1 x2 v2 ex ey l0 u0,
    tied priv k z w y g b1 b2 L ks 0 gr x1 v1 M1 x2 v2 M2 -> z = Symplectic -> plays k l w y = Ok (w', y') -> evenly h l ->
    ex * ex + ey * ey = 1 -> seen_from x1 x2 v1 v2 = in_line ex ey l0 u0 ->
    let K := ks * (/ M1 0%nat + / M2 0%nat) in let E := fun s u => u * u + K * (s * s) - h * K * (s * u) in
    0 < K -> K * (h * h) < 4 -> 0 <= A -> A <= L - 1 / 100 -> E (l0 - L) u0 <= K * (1 - K * (h * h) / 4) * (A * A) ->
    exists x1' v1' x2' v2' l' u', tied priv k z w' y' g b1 b2 L ks 0 gr x1' v1' M1 x2' v2' M2 /\ seen_from x1' x2' v1' v2' = in_line ex ey l' u' /\
      Rabs (l' - L) <= A /\ E (l' - L) u' = E (l0 - L) u0.
Proof. exact @undamped_line. Qed.
Print Assumptions C119_partial.
(** C119: in the explicit scheme every sub-step multiplies the energy by the
    same number above 1 *)
Theorem C119_euler_partial :
  forall dbg priv k z (L ks h : R) gr g b1 b2 M1 M2 l (w : world (RT dbg)) y w' y' x1 v1 x2 v2 ex ey l0 u0,
    tied priv k z w y g b1 b2 L ks 0 gr x1 v1 M1 x2 v2 M2 -> z = Explicit -> plays k l w y = Ok (w', y') -> evenly h l ->
    ex * ex + ey * ey = 1 -> seen_from x1 x2 v1 v2 = in_line ex ey l0 u0 ->
    let K := ks * (/ M1 0%nat + / M2 0%nat) in let E := fun s u => u * u + K * (s * s) in
    (forall i, (i < subs l)%nat -> 1 / 100 <= L + fst (Nat.iter i (swing Explicit K 0 h) (l0 - L, u0))) ->
    exists x1' v1' x2' v2' l' u', tied priv k z w' y' g b1 b2 L ks 0 gr x1' v1' M1 x2' v2' M2 /\ seen_from x1' x2' v1' v2' = in_line ex ey l' u' /\
      E (l' - L) u' = (1 + K * (h * h)) ^ subs l * E (l0 - L) u0.
Proof. exact @euler_line. Qed.
Print Assumptions C119_euler_partial.
(** C119: so it swings out further and further: it is as far out as at the
    start and moves as well *)
Theorem C119_refuted :
  forall dbg, exists (w : world (RT dbg)) y w' y' x1 v1 x2 v2 x1' v1' x2' v2', tied nopriv Generic Explicit w y 0 6 7 1 1 0 (fun _ => 10) x1 v1 (MD 6) x2 v2 (MD 7) /\
    plays Generic [(1, 1%nat, tS)] w y = Ok (w', y') /\ tied nopriv Generic Explicit w' y' 0 6 7 1 1 0 (fun _ => 10) x1' v1' (MD 6) x2' v2' (MD 7) /\
    seen_from x1 x2 v1 v2 = in_line 1 0 2 0 /\ seen_from x1' x2' v1' v2' = in_line 1 0 2 (-1).
Proof. exact @euler_gains. Qed.
Print Assumptions C119_refuted.
(** C119: if it is too stiff for the step, the semi-implicit scheme does the
    same in both classes: stretched by 1 it is compressed by 4 *)
Theorem C119_stiff_refuted :
  forall dbg k, exists (w : world (RT dbg)) y w' y' x1 v1 x2 v2 x1' v1' x2' v2', tied nopriv k Symplectic w y 0 6 7 100 5 0 (fun _ => 10) x1 v1 (MD 6) x2 v2 (MD 7) /\
    plays k [(1, 1%nat, tS)] w y = Ok (w', y') /\ tied nopriv k Symplectic w' y' 0 6 7 100 5 0 (fun _ => 10) x1' v1' (MD 6) x2' v2' (MD 7) /\
    seen_from x1 x2 v1 v2 = in_line 1 0 101 0 /\ seen_from x1' x2' v1' v2' = in_line 1 0 96 (-5).
Proof. exact @stiff_gains. Qed.
Print Assumptions C119_stiff_refuted.
(** bodies that move along a spring of any kind *)
Example C119_example :
  forall dbg k z (L ks kd l0 u0 : R), let z' := match k with Optimized => Symplectic | Generic => z end in
  exists (w : world (RT dbg)) y x1 v1 x2 v2, tied nopriv k z' w y 0 6 7 L ks kd (fun _ => 10) x1 v1 (MD 6) x2 v2 (MD 7) /\ weight y 0 (fun _ => 10) = 10 /\
    (3 / 5) * (3 / 5) + (4 / 5) * (4 / 5) = 1 /\ seen_from x1 x2 v1 v2 = in_line (3 / 5) (4 / 5) l0 u0 /\ / MD 6 0%nat + / MD 7 0%nat = 1 /\
    forall l, (forall dt n t, In (dt, n, t) l -> dt <> 0 /\ (0 < n)%nat) -> exists w' y', plays k l w y = Ok (w', y').
Proof. exact @spring_line_scene. Qed.
Print Assumptions C119_example.

(** C120: a damped spring whose ends move along it comes to rest at its length,
    if the steps are short enough ([calms]) and it starts close enough *)
Theorem C120_partial :
  forall dbg priv k z (L ks kd h : R) gr g b1 b2 M1 M2, let r := / M1 0%nat + / M2 0%nat in 1 / 100 < L -> calms z (ks * r) (kd * r) h ->
  exists a, 0 < a /\ forall eps, 0 < eps -> exists N, forall l (w : world (RT dbg)) y w' y' x1 v1 x2 v2 ex ey l0 u0,
    tied priv k z w y g b1 b2 L ks kd gr x1 v1 M1 x2 v2 M2 -> plays k l w y = Ok (w', y') -> evenly h l -> (N <= subs l)%nat ->
    ex * ex + ey * ey = 1 -> seen_from x1 x2 v1 v2 = in_line ex ey l0 u0 -> stir (l0 - L, u0) <= a ->
    exists x1' v1' x2' v2' l' u', tied priv k z w' y' g b1 b2 L ks kd gr x1' v1' M1 x2' v2' M2 /\ seen_from x1' x2' v1' v2' = in_line ex ey l' u' /\ stir (l' - L, u') < eps.
Proof. exact @damped_line. Qed.
Print Assumptions C120_partial.
(** C120: a spring whose ends are closer than 1/100 does not push *)
Theorem C120_close_partial :
  forall dbg priv k z (L ks kd : R) gr g b1 b2 M1 M2 l (w : world (RT dbg)) y w' y' x1 v1 x2 v2,
    tied priv k z w y g b1 b2 L ks kd gr x1 v1 M1 x2 v2 M2 -> plays k l w y = Ok (w', y') -> busy l ->
    apart (seen_from x1 x2 v1 v2) < 1 / 100 -> speed2 (seen_from x1 x2 v1 v2) = 0 ->
    exists x1' v1' x2' v2', tied priv k z w' y' g b1 b2 L ks kd gr x1' v1' M1 x2' v2' M2 /\ seen_from x1' x2' v1' v2' = seen_from x1 x2 v1 v2.
Proof. exact @dead_calls. Qed.
Print Assumptions C120_close_partial.
(** C120: so a spring of length 1 can stay at 1/200 for ever *)
Theorem C120_refuted :
  forall dbg k z, let z' := match k with Optimized => Symplectic | Generic => z end in
  exists (w : world (RT dbg)) y x1 v1 x2 v2, tied nopriv k z' w y 0 6 7 1 1 1 (fun _ => 10) x1 v1 (MD 6) x2 v2 (MD 7) /\
    calms z' (1 * (/ MD 6 0%nat + / MD 7 0%nat)) (1 * (/ MD 6 0%nat + / MD 7 0%nat)) (1 / 2) /\ apart (seen_from x1 x2 v1 v2) = 1 / 200 /\
    forall l, evenly (1 / 2) l -> exists w' y' x1' v1' x2' v2', plays k l w y = Ok (w', y') /\ tied nopriv k z' w' y' 0 6 7 1 1 1 (fun _ => 10) x1' v1' (MD 6) x2' v2' (MD 7) /\
      apart (seen_from x1' x2' v1' v2') = 1 / 200.
Proof. exact @dead_stays. Qed.
Print Assumptions C120_refuted.
