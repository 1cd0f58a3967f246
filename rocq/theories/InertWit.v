(** * A spinning body that falls. *)

From Coq Require Import Reals.
From Coq Require Import Floats.SpecFloat.
From Verif Require Import Base Targets Matrix Sparse Sle State Ode Forces Constraints System Logic SpecSle SpecState SpecForces SpecSys RegFacts RegWit
  SpecDyn DynState DynStep DynForce DynWit SpecRk RkWit SafeWit SpecInert InertStep.
Local Open Scope nat_scope.

Definition falling {dbg} (y : sys (FT dbg)) (w : world (FT dbg)) : bool :=
  match y_gens y with [g] => match g_kind (w_gen w g) with GGravity _ => true | _ => false end | _ => false end.
Lemma falling_ok {dbg} (w : world (FT dbg)) y b d : falling y w = true -> d <> 1 -> no_force w y b d.
Proof.
  unfold falling. destruct (y_gens y) as [|g [|]] eqn:E; try discriminate. destruct (g_kind (w_gen w g)) eqn:E2; try discriminate.
  intros _. eapply weight_down; eassumption.
Qed.
Definition finb64 {dbg} (x : cell (FT dbg)) : bool := match x with Some (S754_zero _) | Some (S754_finite _ _ _) => true | _ => false end.
Lemma finb64_ok {dbg} (x : cell (FT dbg)) : finb64 x = true -> finite64 x.
Proof. destruct x as [[| | |]|]; cbn; auto; discriminate. Qed.
Definition sfb (x : option spec_float) (y : spec_float) : bool := match x with Some x => SFeqb x y | None => false end.

Lemma spinning k : exists m (w : world (FT true)) y w' y', yreach k nopriv m w y /\ attached w y /\ shaped w y /\ all_gentle w y /\
  uses k Symplectic y /\ process k dtF 3 (t0 7) w y = Ok (w', y') /\ In 2 (y_bodies y) /\ unbound w y 2 /\ no_force w y 2 2 /\ no_force w y 2 0 /\
  finite64 (cdiv (dtF : cell (FT true)) (cofZ (Z.of_nat 3))) /\ finite64 (cdiv (cofZ 1) (b_mass (w_body w 2) 2)) /\
  b_vel (w_body w 2) 2 = cofZ 2 /\ zero64 (b_vel (w_body w 2) 0).
Proof.
  destruct (runs_reach k nopriv wS (three (dtF : cell (FT true))) (fun m w y => okays w y &&
     existsb (Nat.eqb 2) (y_bodies y) && unboundb w y 2 && falling y w && finb64 (cdiv (cofZ 1) (b_mass (w_body w 2) 2)) &&
     match y_ode y with Some (OdeNsv _) => true | _ => false end &&
     match process k dtF 3 (t0 7) w y with Ok (w', y') => true | _ => false end &&
     match b_vel (w_body w 2) 2 with Some (S754_finite false 4503599627370496 (-51)) => true | _ => false end &&
     match b_vel (w_body w 2) 0 with Some (S754_zero _) => true | _ => false end)) as (m & w & y & H & T).
  - destruct k; vm_compute; reflexivity.
  - rewrite !andb_true_iff in T. destruct T as ((((((((T1 & T2) & T3) & T4) & T5) & T6) & T7) & T8) & T9).
    destruct (process k dtF 3 (t0 7) w y) as [[w' y']| | |] eqn:E; try discriminate. destruct (okays_ok _ _ T1) as (A & B & C).
    exists m, w, y, w', y'. do 4 (split; [assumption|]). split.
    { destruct k; [reflexivity|]. destruct (y_ode y) as [[|h|h|r]|] eqn:Eo; try discriminate. exists h. exact Eo. }
    split; [exact E|]. split.
    { apply existsb_exists in T2. destruct T2 as (x & Hx & Ex). apply Nat.eqb_eq in Ex. now subst x. }
    split; [now apply unboundb_ok|]. split; [apply falling_ok; [exact T4|discriminate]|]. split; [apply falling_ok; [exact T4|discriminate]|].
    split; [apply finb64_ok; vm_compute; reflexivity|]. split; [now apply finb64_ok|]. split.
    + clear - T8. destruct (b_vel (w_body w 2) 2) as [[s|s| |s mm e]|]; try discriminate.
      destruct s; try discriminate.
      assert (X : mm = 4503599627370496%positive /\ e = (-51)%Z).
      { repeat match type of T8 with context [match ?p with xI _ => _ | xO _ => _ | xH => _ end] => destruct p; try discriminate
          | context [match ?p with Z0 => _ | Zpos _ => _ | Zneg _ => _ end] => destruct p; try discriminate end. split; reflexivity. }
      destruct X as [-> ->]. vm_compute. reflexivity.
    + clear - T9. destruct (b_vel (w_body w 2) 0) as [[s|s| |s mm e]|]; try discriminate. now exists s.
Qed.
