(** * Two systems of different classes and sizes that use one linear solver. *)

From Coq Require Import Reals QArith.
From Verif Require Import Base Targets Matrix Sparse Sle State Ode Forces Constraints System Logic SpecMatrix SpecSparse SpecSle SpecSys RegFacts RegWit
  SpecDyn DynState DynReact DynStep DynForce DynWit SpecEdge LimitWit EdgeWit SpecShare ShareRun.
Local Open Scope nat_scope.

(** constraint 5 is a brake on body 0, the others are clutches between 0 and 1 *)
Definition wTwo : world (QT true) :=
  {| w_body := w_body wS;
     w_con := fun c => if Nat.eqb c 5 then on_body 0 (conT (KFriction (@mkFric (QT true) (cofZ 5) (cofZ (-5)) (cofZ 1) (cofZ 1))) 1 1) else w_con wS c;
     w_gen := w_gen wS |}.
(** system 0, of the optimized class, has the clutch; system 1 a third body and the brake besides *)
Definition smaller (l : sle (QT true)) : list (ev (QT true)) := [EInit l odeW; EAddB 0; EAddB 1; EAddC 4].
Definition larger (l : sle (QT true)) : list (ev (QT true)) := [EInit l odeW; EAddB 0; EAddB 1; EAddB 2; EAddC 4; EAddC 5; EAddG 2].
Definition class_no (k : flavour) (i : nat) : flavour := match i with 0 => Optimized | _ => k end.
Definition pick {A} (a b : A) (i : nat) : A := match i with 0 => a | _ => b end.
Definition calls_two : list (turn (QT true)) := [mkTurn 0 dtQ 1 (t0 3); mkTurn 1 dtQ 2 (t0 5); mkTurn 0 dtQ 2 (t0 7); mkTurn 1 dtQ 1 (t0 9)].

Definition differs (m m' : matrix (QT true)) : bool := negb (Nat.eqb (m_h m) (m_h m')).
Lemma differs_ok m m' : differs m m' = true -> m <> m'.
Proof. unfold differs. rewrite negb_true_iff, Nat.eqb_neq. congruence. Qed.
Definition share_test k (l : sle (QT true)) : bool :=
  runs (evrun Optimized privc (no_books, wTwo, created Optimized) (smaller l)) (fun _ w0 y0 =>
  runs (evrun k privc (no_books, wTwo, created k) (larger l)) (fun _ w1 y1 =>
    okays w0 y0 && okays w1 y1 && Nat.eqb (con_count y0) 1 && Nat.eqb (con_count y1) 2 &&
    match y_sle y0, y_sle y1 with Some a, Some b => same_class a l && same_class b l | _, _ => false end &&
    match take_turns (class_no k) calls_two (pick w0 w1) (pick y0 y1), in_row Optimized (own_calls 0 calls_two) w0 y0 with
    | Ok (w', y'), Ok (_, y2) => existsb (fun i => differs (hm (y_heap (y' 0)) i) (hm (y_heap y2) i)) [20; 21; 22; 23; 24; 25] &&
        negb (is_q (b_f (w_body (w' 0) 1) Bvtheta) 1) && negb (is_q (b_f (w_body (w' 1) 1) Bvtheta) 1)
    | _, _ => false end)).
Lemma share_ok k l : share_test k l = true -> exists (w : nat -> world (QT true)) (y : nat -> sys (QT true)),
  (forall i, in_order privc (class_no k i) (w i) (y i)) /\ con_count (y 0) = 1 /\ con_count (y 1) = 2 /\
  (exists a b, y_sle (y 0) = Some a /\ y_sle (y 1) = Some b /\ same_class a l = true /\ same_class b l = true) /\
  exists w' y' w2 y2 i, take_turns (class_no k) calls_two w y = Ok (w', y') /\ in_row Optimized (own_calls 0 calls_two) (w 0) (y 0) = Ok (w2, y2) /\
    hm (y_heap (y' 0)) i <> hm (y_heap y2) i.
Proof.
  intros T. destruct (runs_reach _ _ _ _ _ T) as (m0 & w0 & y0 & H0 & T1). destruct (runs_reach _ _ _ _ _ T1) as (m1 & w1 & y1 & H1 & T2).
  rewrite !andb_true_iff in T2. destruct T2 as (((((X1 & X2) & X3) & X4) & X5) & X6).
  destruct (okays_ok _ _ X1) as (A & B & C). destruct (okays_ok _ _ X2) as (A' & B' & C').
  assert (O : forall w y, builtins (tg := QT true) w y = true -> forall g, In g (y_gens y) -> orderly (g_kind (w_gen w g))).
  { intros w y Hb g Hg. unfold builtins in Hb. rewrite forallb_forall in Hb. now apply builtin_orderly, Hb. }
  exists (pick w0 w1), (pick y0 y1). split.
  { unfold okays in X1, X2. rewrite !andb_true_iff in X1, X2. intros [|i]; (split; [eexists; eassumption|]); split; [assumption|split;[assumption|]|assumption|split;[assumption|]]; apply O; tauto. }
  split; [now apply Nat.eqb_eq|]. split; [now apply Nat.eqb_eq|]. split.
  { cbn [pick]. destruct (y_sle y0) as [a|], (y_sle y1) as [b|]; try discriminate. apply andb_true_iff in X5. destruct X5. exists a, b. auto. }
  destruct (take_turns (class_no k) calls_two (pick w0 w1) (pick y0 y1)) as [[w' y']| | |] eqn:E1; try discriminate.
  destruct (in_row Optimized (own_calls 0 calls_two) w0 y0) as [[w2 y2]| | |] eqn:E2; try discriminate.
  rewrite !andb_true_iff in X6. destruct X6 as ((X6 & _) & _). apply existsb_exists in X6. destruct X6 as (i & _ & Di).
  exists w', y', w2, y2, i. split; [reflexivity|]. split; [exact E2|]. now apply differs_ok.
Qed.
(** the generic class has Gauss-Seidel read an uninitialised result (C29), so system 1 is then of the optimized class *)
Definition class_with (i : nat) : flavour := match i with 1 => Optimized | _ => Generic end.
Lemma share_runs i : let k := class_with i in exists (w : nat -> world (QT true)) (y : nat -> sys (QT true)),
  (forall j, in_order privc (class_no k j) (w j) (y j)) /\ con_count (y 0) = 1 /\ con_count (y 1) = 2 /\
  (exists a b, y_sle (y 0) = Some a /\ y_sle (y 1) = Some b /\ same_class a (solver_no i) = true /\ same_class b (solver_no i) = true) /\
  exists w' y' w2 y2 j, take_turns (class_no k) calls_two w y = Ok (w', y') /\ in_row Optimized (own_calls 0 calls_two) (w 0) (y 0) = Ok (w2, y2) /\
    hm (y_heap (y' 0)) j <> hm (y_heap y2) j.
Proof. intros k. apply share_ok. unfold k. destruct i as [|[|i]]; vm_compute; reflexivity. Qed.

(** ** the solver of a system used directly *)
Definition plain (priv : nat -> bool) (o : hop (QT true)) : bool :=
  match o with
  | HM (MSwap _ _ _) | HM (MLoad _ _) => false
  | HS o => negb (is_destroy o)
  | HSolve (SleGe g) _ _ _ _ _ => negb (priv (ge_a g))
  | _ => true
  end.
Lemma plain_ok priv hp o : plain priv o = true -> hallowed priv hp o.
Proof.
  destruct o as [o|o|l ? ? ? ? ?|l ? ? ? ? ? ?]; cbn [plain hallowed]; intros H; try exact I.
  - split; [destruct o; try exact I; discriminate|]. intros t a b ->. discriminate.
  - now apply negb_true_iff.
  - destruct l; try exact I. now apply negb_true_iff.
Qed.
Fixpoint using_it (y : sys (QT true)) (os : list (hop (QT true))) : res (sys (QT true)) :=
  match os with
  | [] => Ok y
  | o :: os => if plain privc o then let* hp := hstep (y_heap y) o in using_it (with_heap y (lent (y_heap y) hp)) os else UB
  end.
Lemma using_ok os : forall y y', using_it y os = Ok y' -> used_directly privc y y'.
Proof.
  induction os as [|o os IH]; intros y y' E; cbn [using_it] in E; [injection E as <-; constructor|].
  destruct (plain privc o) eqn:P; [|discriminate]. destruct (hstep (y_heap y) o) as [hp| | |] eqn:S; try discriminate. cbn [bind] in E.
  apply (used_once privc y o hp); [now apply plain_ok|exact S|now apply IH].
Qed.
(** a system of two equations, in matrices 30, 31 and sparse matrix 30 *)
Definition other_use : list (hop (QT true)) :=
  [HM (MInitVal 30 1 6 (cofZ 1)); HM (MInitVal 31 1 2 (cofZ 5)); HS (SInit 30 6 2);
   HS (SSetBlock 30 0 0 0%Z); HS (SSetBlock 30 1 0 1%Z);
   HS (SSet 30 0 0 0 (cofZ 2)); HS (SSet 30 0 0 1 (cofZ 0)); HS (SSet 30 0 0 2 (cofZ 0));
   HS (SSet 30 1 0 0 (cofZ 3)); HS (SSet 30 1 0 1 (cofZ 1)); HS (SSet 30 1 0 2 (cofZ 0));
   HS (SSetEmpty 30 0 1); HS (SSetEmpty 30 1 1); HSolve (SleGe geS) 30 30 31 32 33].
Lemma direct_runs : exists (w : world (QT true)) (y y' : sys (QT true)), in_order privc Optimized w y /\ y_sle y = Some (SleGe geS) /\
  used_directly privc y y' /\ m_h (hm (y_heap y) (ge_a geS)) = 1 /\ m_h (hm (y_heap y') (ge_a geS)) = 2 /\
  exists w2 y2, process Optimized dtQ 1 (t0 9) w y' = Ok (w2, y2).
Proof.
  destruct (runs_reach Optimized privc wTwo (smaller (SleGe geS) ++ [EProc dtQ 1 (t0 7)]) (fun _ w y => okays w y &&
    match y_sle y with Some (SleGe g) => Nat.eqb (ge_a g) 20 && Nat.eqb (ge_M g) 21 && Nat.eqb (ge_reg g) 3 | _ => false end && Nat.eqb (m_h (hm (y_heap y) 20)) 1 &&
    match using_it y other_use with Ok y' => Nat.eqb (m_h (hm (y_heap y') 20)) 2 && match process Optimized dtQ 1 (t0 9) w y' with Ok _ => true | _ => false end | _ => false end)) as (m & w & y & H & X).
  { vm_compute; reflexivity. }
  rewrite !andb_true_iff in X. destruct X as (((X1 & X2) & X3) & X4). destruct (okays_ok _ _ X1) as (A & B & C).
  destruct (using_it y other_use) as [y'| | |] eqn:U; try discriminate. apply andb_true_iff in X4. destruct X4 as [X4 X5].
  destruct (process Optimized dtQ 1 (t0 9) w y') as [[w2 y2]| | |] eqn:E; try discriminate. exists w, y, y'. split.
  { unfold okays in X1. rewrite !andb_true_iff in X1. destruct X1 as [_ X1]. split; [eexists; eassumption|]. split; [exact A|]. split; [exact B|].
    intros g Hg. unfold builtins in X1. rewrite forallb_forall in X1. now apply builtin_orderly, X1. }
  split. { destruct (y_sle y) as [[|[a M r]| |]|]; try discriminate. cbn [ge_a ge_M ge_reg] in X2. rewrite !andb_true_iff, !Nat.eqb_eq in X2.
    destruct X2 as ((-> & ->) & ->). reflexivity. }
  split; [exact (using_ok _ _ _ U)|]. split; [now apply Nat.eqb_eq|]. split; [now apply Nat.eqb_eq|]. eauto.
Qed.
