(** * Properties C30 - C32, C70, C73: registries, elapsed time, profiling. *)

From Verif Require Import Base Targets Sle State Ode Forces Constraints System SpecSys RegFacts RegWit.
Local Open Scope nat_scope.

(** C30 *)
Theorem C30_bodies :
  forall tg k priv (m : books tg) (w : world tg) (y : sys tg), yreach k priv m w y ->
    exists l, registered (in_body m) (fun b => Some (b_index (w_body w b))) l /\
      body_count y = length l /\ (forall i, get_body y (Z.of_nat i) =
        match nth_error l i with Some b => Ok b | None => if asserts_on tg then AssertFail else UB end) /\
      (forall b, in_body m b = true -> exists w' y', remove_body w y b = Ok (w', y')).
Proof. exact @bodies_registered. Qed.
Print Assumptions C30_bodies.
Example C30_example : forall k, exists m (w : world (QT true)) y, yreach k nopriv m w y /\
  length (calls m) = 2 /\ body_count y = 2 /\ con_count y = 1 /\ gen_count y = 1 /\ in_body m 7 = false /\ in_body m 1 = true.
Proof. exact shaft_runs. Qed.

(** C31 *)
Theorem C31_constraints :
  forall tg k priv (m : books tg) (w : world tg) (y : sys tg), yreach k priv m w y ->
    exists l, registered (in_con m) (fun c => Some (c_index (w_con w c))) l /\
      con_count y = length l /\ full_count w y = list_sum (map (fun c => c_count (w_con w c)) l) /\
      (forall c, in_con m c = true -> exists w' y', remove_con w y c = Ok (w', y')).
Proof. exact @constraints_registered. Qed.
Print Assumptions C31_constraints.
Theorem C31_generators :
  forall tg k priv (m : books tg) (w : world tg) (y : sys tg), yreach k priv m w y ->
    exists l, registered (in_gen m) (fun g => g_index (w_gen w g)) l /\ gen_count y = length l /\
      (forall g, in_gen m g = true -> exists w' y', remove_gen w y g = Ok (w', y')).
Proof. exact @generators_registered. Qed.
Print Assumptions C31_generators.
Example C31_example : forall k, exists m (w : world (QT true)) y, yreach k nopriv m w y /\
  length (calls m) = 2 /\ body_count y = 2 /\ con_count y = 1 /\ gen_count y = 1 /\ in_body m 7 = false /\ in_body m 1 = true.
Proof. exact shaft_runs. Qed.

(** C32 is false of the code: the removed body keeps its index, and unless it
    was the last one, another body now has that index too. *)
Theorem C32_removed_refuted :
  forall tg k priv (m : books tg) (w : world tg) (y : sys tg) b w' y',
    yreach k priv m w y -> in_body m b = true -> remove_body w y b = Ok (w', y') ->
    exists i, b_index (w_body w b) = Z.of_nat i /\ b_index (w_body w' b) = Z.of_nat i /\
      (S i < body_count y -> exists b', b' <> b /\ in_body (put_body m b false) b' = true /\ b_index (w_body w' b') = Z.of_nat i).
Proof. exact @removed_keeps. Qed.
Print Assumptions C32_removed_refuted.
(** the only force acts on a removed body, yet it moves another one *)
Theorem C32_removed_acts_refuted :
  forall k, exists m (w : world (QT true)) y w' y' f, yreach k nopriv m w y /\
    in_body m 0 = false /\ in_body m 1 = true /\ y_cons y = [] /\ y_gens y = [5] /\ g_kind (w_gen w 5) = GStatic f /\ sf_body f = Some 0 /\
    process k (cofZ 1) 1 (t0 0) w y = Ok (w', y') /\ b_f (w_body w 1) Bvx = cofZ 0 /\ b_f (w_body w' 1) Bvx <> cofZ 0.
Proof. exact removed_pushes. Qed.
Print Assumptions C32_removed_acts_refuted.

(** C70 *)
Theorem C70_elapsed :
  forall tg priv (m : books tg) (w : world tg) (y : sys tg), yreach Optimized priv m w y ->
    y_t y = fold_right (fun c acc => cadd acc (fst c)) (cofZ 0) (calls m).
Proof. exact @elapsed. Qed.
Print Assumptions C70_elapsed.
Theorem C70_profiling :
  forall tg k priv (m : books tg) (w : world tg) (y : sys tg), yreach k priv m w y ->
    y_frame y < length (y_prof y) /\
    ((forall c, In c (calls m) -> (0 <= t_ode (snd c) /\ 0 <= t_solve (snd c) /\ 0 <= t_force (snd c) /\ 0 <= t_eval (snd c))%Z) ->
     let recent := map snd (firstn 600 (calls m)) in
     ode_microseconds y = totals (map t_ode recent) /\ solve_microseconds y = totals (map t_solve recent) /\
     force_microseconds y = totals (map t_force recent) /\ eval_microseconds y = totals (map t_eval recent)).
Proof. exact @profiling. Qed.
Print Assumptions C70_profiling.
Example C70_example : forall k, exists m (w : world (QT true)) y, yreach k nopriv m w y /\
  length (calls m) = 2 /\ body_count y = 2 /\ con_count y = 1 /\ gen_count y = 1 /\ in_body m 7 = false /\ in_body m 1 = true.
Proof. exact shaft_runs. Qed.

(** C73 *)
Theorem C73_only_motion :
  forall tg k dt steps t (w : world tg) (y : sys tg) w' y', process k dt steps t w y = Ok (w', y') -> left_alone w y w' y'.
Proof. exact @process_alone. Qed.
Print Assumptions C73_only_motion.
Example C73_example : forall k, exists m (w : world (QT true)) y w' y', yreach k nopriv m w y /\ con_count y = 1 /\
  process k dtQ 2 (t0 7) w y = Ok (w', y') /\ b_f (w_body w' 0) Bvy <> b_f (w_body w 0) Bvy.
Proof. exact shaft_steps. Qed.
