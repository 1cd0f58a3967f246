(** * The tests computed, and scenes for the theorems about them (C121 - C124). *)

From Coq Require Import Reals Lra.
From Coq Require Import Floats.SpecFloat.
From Verif Require Import Base Targets Matrix Sparse Sle State Ode Forces Constraints SpecState StateWit SpecOde OdeFacts OdeWit SpecForces SpecCon SpecSuite Suite SuiteRun SuiteOde.
Local Open Scope nat_scope.

(** C121 *)
Lemma suite_passes (b : bool) : Forall (fun r => r = Ok true) (suite (F64 b)).
Proof. destruct b; vm_compute; repeat constructor. Qed.
Lemma suite_length (b : bool) : length (suite (F64 b)) = 21.
Proof. reflexivity. Qed.

(** C123: the elements of the two matrices differ everywhere *)
Lemma scale_blind (left : bool) : t_sparse_scale (tg := F64 true) left 1 [3; 1; 4; 1; 5; 9]%Z (repeat 7%Z 9) = Ok true.
Proof. destruct left; vm_compute; reflexivity. Qed.
Lemma scale_blind2 : t_sparse_scale (tg := F64 true) false 2 (repeat 1%Z 12) (repeat 7%Z 18) = Ok true.
Proof. vm_compute. reflexivity. Qed.

(** C122: a pendulum arm of length 5 *)
Definition kW : rkind := RFixedPosition 3 4 0 0 10 1.
Definition cW : constraint (RT true) :=
  {| c_kind := kind_of true kW; c_index := (-1)%Z; c_bodycount := 1; c_bodies := Some;
     c_Fx := fun _ _ => cofZ 0; c_Fy := fun _ _ => cofZ 0; c_Ft := fun _ _ => cofZ 0; c_count := 2 |}.
Definition qW (p : nat) : pose := mkPose 1 2 3.
Definition sW : sstate (RT true) := @stN (RT true) [fun f => Some match f with Fpx => 1 | Fpy => 2 | Ftheta => 3 | _ => 0 end%R].
Lemma pendulum_rests : rests (fun i => b_set_index b_new (Z.of_nat i)) cW (parties kW) sW qW /\ (reach kW qW <= 10000)%R /\ positional kW = true.
Proof.
  split; [|split; [|reflexivity]].
  - intros p Hp. cbn in Hp. assert (p = 0) by lia. subst. exists 0. repeat split; reflexivity.
  - cbn. rewrite !Rabs_right by lra. lra.
Qed.
(** C124 *)
Lemma ball_fall : scheme (OdeRk4 rk4_new) s1W 0 /\ scheme (OdeEuler (cofZ 0)) s1W (-1) /\ scheme (OdeNsv (cofZ 0)) s1W 1 /\
  sized s1W /\ shows_motion s1W 1 y1 /\ under s1W 1 (fun _ _ => 0%R).
Proof.
  split; [split; [reflexivity|apply new_fits; exact (le_n 1)]|]. split; [reflexivity|]. split; [reflexivity|]. split; [apply stN_sized|]. split; [exact s1W_motion|].
  intros f i Hf Hi. assert (i = 0) by lia. subst. destruct Hf as [->|[->| ->]]; reflexivity.
Qed.
