(** * Integrators without memory may be shared. *)

From Verif Require Import Base Targets Matrix Sparse Sle State Ode Forces Constraints System Logic SpecSle SpecSys SpecDyn SpecShare.
Local Open Scope nat_scope.
Section S.
Context {tg : target}.
Implicit Types (o : ode tg) (w : world tg) (y : sys tg).
Lemma start_same o o' s h : same_method (tg := tg) o o' -> ode_start o s h = ode_start o' s h.
Proof. destruct o, o'; cbn; intros []; reflexivity. Qed.
Lemma steps_start n dt w y pc o o' hp s : same_method o o' -> ode_steps (S n) dt w y pc o hp s = ode_steps (S n) dt w y pc o' hp s.
Proof. intros M. unfold ode_steps, for_. cbn [for_from]. now rewrite (start_same o o' s _ M). Qed.
Lemma process_method k dt steps t w y o o' : same_method o o' -> 0 < steps ->
  process k dt steps t w (with_ode y (Some o)) = process k dt steps t w (with_ode y (Some o')).
Proof.
  intros M H. destruct steps as [|n]; [now apply Nat.nlt_0_r in H|].
  assert (P1 : populate_state w (with_ode y (Some o)) = populate_state w (with_ode y (Some o'))) by reflexivity.
  destruct k; cbn [process]; unfold opt_process, gen_process; rewrite P1;
  (destruct (populate_state w (with_ode y (Some o'))) as [s| | |]; [cbn [bind]|reflexivity..]);
  change (populate_mass w (with_state (with_ode y (Some o)) s)) with (populate_mass w (with_state (with_ode y (Some o')) s)); cbn [with_state with_ode y_heap];
  (destruct (populate_mass w _ _) as [ms| | |]; [cbn [bind]|reflexivity..]);
  unfold the_ode; cbn [with_state with_ode y_ode bind].
  - pose proof (steps_start n dt w (with_state (with_ode y (Some o')) s) (opt_process_constraints w (with_state (with_ode y (Some o')) s)) o o' (with_hm (y_heap y) ms) s M) as G.
    match goal with |- bind ?a _ = bind ?b _ => assert (E : a = b) by exact G end. rewrite E. reflexivity.
  - pose proof (steps_start n dt w (with_state (with_ode y (Some o')) s) (fun _ => gen_process_constraints w (with_state (with_ode y (Some o')) s)) o o' (with_hm (y_heap y) ms) s M) as G.
    match goal with |- bind (bind ?a _) _ = bind (bind ?b _) _ => assert (E : a = b) by exact G end. rewrite E. reflexivity.
Qed.
End S.
