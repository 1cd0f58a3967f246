(** * Springs that meet what the comparison with the exact motion asks for. *)

From Coq Require Import Reals Lra.
From Verif Require Import Base Targets State Forces Constraints System SpecState SpecSys RegWit SpecDyn SpecRk SpecFlight SpecSwing SpecDamp SpecRun SpecSpring SolveWit MomWit LeastWit TurnWit SpringWit SpecBow BowWit SpecOsc OscReal.
Local Open Scope R_scope.

Lemma roomy_ten q : 0 <= q <= 1 / 100 -> roomy 1 1 q 10 (11 / 10 - 1, 0).
Proof.
  intros H. split; [lra|]. replace (INR 10) with 10 by (cbn; ring). destruct (exp_small (10 * q) ltac:(lra)) as [A B]. unfold energy2. cbn [fst snd]. pose proof (exp_pos (10 * q)).
  assert (exp (10 * q) * exp (10 * q) <= 12 / 10 * (12 / 10)) by (apply Rmult_le_compat; lra). lra.
Qed.
Lemma room : 3 * energy2 1 (11 / 10 - 1, 0) <= 1 * (1 - 1 / 100) * (1 * (1 - 1 / 100)).
Proof. unfold energy2. cbn [fst snd]. lra. Qed.
Lemma osc_scene dbg k z : let z' := match k with Optimized => Symplectic | Generic => z end in
  exists (w : world (RT dbg)) y x1 v1 x2 v2, tied nopriv k z' w y 0 6 7 1 1 0 (fun _ => 10) x1 v1 (MD 6) x2 v2 (MD 7) /\ (3 / 5) * (3 / 5) + (4 / 5) * (4 / 5) = 1 /\
    seen_from x1 x2 v1 v2 = in_line (3 / 5) (4 / 5) (11 / 10) 0 /\ 1 * (/ MD 6 0%nat + / MD 7 0%nat) = 1 * 1 /\ 0 <= 1 * (1 / 10) <= 1 /\
    roomy 1 1 (1 * (1 / 10) * (1 * (1 / 10))) 10 (11 / 10 - 1, 0) /\ 3 * energy2 1 (11 / 10 - 1, 0) <= 1 * (1 - 1 / 100) * (1 * (1 - 1 / 100)) /\
    forall l, (forall dt n t, In (dt, n, t) l -> dt <> 0 /\ (0 < n)%nat) -> exists w' y', plays k l w y = Ok (w', y').
Proof.
  intros z'. destruct (spring_line_scene (dbg := dbg) k z 1 1 0 (11 / 10) 0) as (w & y & x1 & v1 & x2 & v2 & HT & _ & Ue & ES & Er & HP).
  exists w, y, x1, v1, x2, v2. split; [exact HT|]. split; [exact Ue|]. split; [exact ES|]. split; [rewrite Er; ring|]. split; [lra|]. split; [apply roomy_ten; lra|]. split; [apply room|exact HP].
Qed.
Lemma osc_scene_four dbg :
  exists (w : world (RT dbg)) y x1 v1 x2 v2, strung nopriv w y 0 6 7 1 1 0 (fun _ => 10) x1 v1 (MD 6) x2 v2 (MD 7) /\ (3 / 5) * (3 / 5) + (4 / 5) * (4 / 5) = 1 /\
    seen_from x1 x2 v1 v2 = in_line (3 / 5) (4 / 5) (11 / 10) 0 /\ 1 * (/ MD 6 0%nat + / MD 7 0%nat) = 1 * 1 /\ 0 <= 1 * (1 / 10) <= 1 /\
    roomy 1 1 ((1 * (1 / 10)) ^ 3 / 4) 10 (11 / 10 - 1, 0) /\ roomy 1 1 ((1 * (1 / 10)) ^ 3 / 4) 1 (11 / 10 - 1, 0) /\ 3 * energy2 1 (11 / 10 - 1, 0) <= 1 * (1 - 1 / 100) * (1 * (1 - 1 / 100)) /\
    forall l, busy l -> exists w' y', plays Generic l w y = Ok (w', y').
Proof.
  destruct (bow_line_scene (dbg := dbg) 1 1 0 (11 / 10) 0) as (w & y & x1 & v1 & x2 & v2 & HT & _ & Ue & ES & Er & HP).
  assert (Q : 0 <= (1 * (1 / 10)) ^ 3 / 4 <= 1 / 100) by (cbn [pow]; lra).
  exists w, y, x1, v1, x2, v2. split; [exact HT|]. split; [exact Ue|]. split; [exact ES|]. split; [rewrite Er; ring|]. split; [lra|]. split; [apply roomy_ten; exact Q|].
  split; [apply (roomy_part 1 1 _ 10); [lra|lia|apply roomy_ten; exact Q]|]. split; [apply room|exact HP].
Qed.
