(** * Concrete cases for the examples and refutations of C52 - C57. *)

From Coq Require Import Reals Lra.
From Coq Require Import Floats.SpecFloat.
From Verif Require Import Base Targets State Forces Constraints Logic SpecMatrix SpecState StateFacts StateReal StateWit SpecOde OdeFacts OdeWit SpecForces ForceFacts ForceReal ForceFloat ForceWit SpecCon ConFacts ConReal.
Local Open Scope nat_scope.

(** a constraint between bodies 0 and 1 *)
Definition conW {tg} (k : ckind tg) : constraint tg :=
  @mkCon tg k 0 2 (fun p => Some p) (fun _ _ => cofZ 0) (fun _ _ => cofZ 0) (fun _ _ => cofZ 0) 2.
Definition two {A} (x y : A) (p : nat) : A := match p with O => x | _ => y end.
Lemma conW_bound k q1 v1 q2 v2 n : n <= 2 -> bound bsW (@conW (RT true) k) n (pairS q1 v1 q2 v2) (two q1 q2) (two v1 v2).
Proof.
  intros Hn p Hp. exists p. split; [reflexivity|]. destruct p as [|[|p]]; [| |exfalso; lia].
  - split; now repeat split.
  - split; now repeat split.
Qed.

(** the moving bodies m1W and m2W, joined by a link, one rolling on the other, ... *)
Definition kLink : rkind := RLink 1 2 3 4 9 5 6.
Definition kRoll : rkind := RRolling 1 2 (3 / 5) (4 / 5) 2 5 6.
Definition SW (t : R) : sstate (RT true) := pairS (m1W t) v1W (m2W t) v2W.
Definition mW (p : nat) (t : R) : pose := two (m1W t) (m2W t) p.
Lemma SW_bound k n t : n <= 2 -> bound bsW (@conW (RT true) k) n (SW t) (fun p => mW p t) (fun p => two v1W v2W p).
Proof. intros Hn p Hp. destruct (conW_bound k (m1W t) v1W (m2W t) v2W n Hn p Hp) as (i & H). exists i. exact H. Qed.
Lemma mW_moves n t p : p < n -> moves (mW p) t (two v1W v2W p).
Proof. intros _. destruct p; [apply m1W_moves|apply m2W_moves]. Qed.

(** only coordinate 2, the angle of the first body, changes *)
Definition SB (t : R) : sstate (RT true) := pairS (bump 2 t (fun p => mW p 0) 0) v1W (bump 2 t (fun p => mW p 0) 1) v2W.
Lemma SB_bound k n t : n <= 2 -> bound bsW (@conW (RT true) k) n (SB t) (bump 2 t (fun p => mW p 0)) (fun p => two v1W v2W p).
Proof.
  intros Hn p Hp. destruct (conW_bound k (bump 2 t (fun p => mW p 0) 0) v1W (bump 2 t (fun p => mW p 0) 1) v2W n Hn p Hp) as (i & H).
  exists i. destruct p as [|[|p]]; [exact H|exact H|exfalso; lia].
Qed.

(** C55: a wheel of radius r on the x axis, moving right at unit speed *)
Definition kWheel (r : R) : rkind := RRolling 0 0 1 0 r 0 0.
Definition qWheel (r : R) : pose := mkPose 7 r 0.
Definition vWheel (r : R) : pose := mkPose 1 0 (- r).
Definition rest : pose := mkPose 0 0 0.
Definition SWheel (r : R) : sstate (RT true) := pairS rest rest (qWheel r) (vWheel r).
Lemma wheel_rows (r : R) :
  exists o' J, calculate bsW (conW (kind_of true (kWheel r))) out_new (SWheel r) = Ok o' /\
    (forall a i, a < 2 -> i < 6 -> o_J o' a i = (Some (J a i) : cell (RT true))) /\
    (Rsum 6 (fun i => J 0%nat i * coord (two rest (vWheel r)) i) = 0)%R /\ (Rsum 6 (fun i => J 1%nat i * coord (two rest (vWheel r)) i) = 0)%R /\
    o_C o' 1 = (Some 0%R : cell (RT true)).
Proof.
  destruct (calc_R bsW (conW (kind_of true (kWheel r))) out_new (SWheel r) (kWheel r) (two rest (qWheel r)) (two rest (vWheel r)) eq_refl) as (o' & E & H).
  { apply conW_bound. cbn. lia. }
  exists o', (J_of (kWheel r) (two rest (qWheel r))). split; [exact E|]. split; [intros a i Ha Hi; now apply (H a Ha)|].
  split; [|split].
  - cbn -[sin cos]. unfold at_x, at_y, world_x, world_y. cbn -[sin cos]. rewrite sin_0, cos_0. ring.
  - cbn -[sin cos]. unfold at_x, at_y, world_x, world_y. cbn -[sin cos]. rewrite sin_0, cos_0. ring.
  - rewrite (proj1 (H 1 ltac:(cbn; lia))). apply some_eq. cbn -[sin cos]. unfold at_x, at_y, world_x, world_y. cbn -[sin cos]. rewrite sin_0, cos_0. ring.
Qed.
Lemma wheel_slips :
  exists o' J, calculate bsW (conW (kind_of true (kWheel 2))) out_new (SWheel 2) = Ok o' /\
    (forall a i, a < 2 -> i < 6 -> o_J o' a i = (Some (J a i) : cell (RT true))) /\
    (Rsum 6 (fun i => J 0%nat i * coord (two rest (vWheel 2)) i) = 0)%R /\ (Rsum 6 (fun i => J 1%nat i * coord (two rest (vWheel 2)) i) = 0)%R /\
    o_C o' 1 = (Some 0%R : cell (RT true)) /\
    (** the contact point is (7, 0), at the bottom of the wheel *)
    (ptvx (qWheel 2) (vWheel 2) 7 0 = -3)%R.
Proof.
  destruct (wheel_rows 2) as (o' & J & H1 & H2 & H3 & H4 & H5). exists o', J. repeat split; try assumption.
  unfold ptvx. cbn. ring.
Qed.

(** C56 *)
Definition kClutchT {tg} : ckind tg := @KClutch tg (@mkClutch tg (cofZ 5) (cofZ (-5)) (cofZ 1) (cofZ 1)).
Definition dirty {tg} : output tg := @mkOut tg (fun _ => cofZ 7) (fun _ _ => cofZ 7) (fun _ _ => cofZ 7) (fun _ => cofZ 7) (fun _ _ => cofZ 7) (fun _ => cofZ 7) (fun _ => cofZ 7).
Lemma base_leaks : forall b, con_new (@KBase (F64 b)) 1 1 = Ok (@mkCon (F64 b) KBase (-1) 1 (fun _ => None) (fun _ _ => cofZ 0) (fun _ _ => cofZ 0) (fun _ _ => cofZ 0) 1) /\
  forall s, ~ rel (calculate bsW (@mkCon (F64 b) KBase (-1) 1 (fun _ => None) (fun _ _ => cofZ 0) (fun _ _ => cofZ 0) (fun _ _ => cofZ 0) 1) dirty s)
                  (calculate bsW (@mkCon (F64 b) KBase (-1) 1 (fun _ => None) (fun _ _ => cofZ 0) (fun _ _ => cofZ 0) (fun _ _ => cofZ 0) 1) out_new s) (same_rows 1 1).
Proof.
  intros b. split; [destruct b; reflexivity|]. intros s H. cbn in H. destruct (H 0 ltac:(lia)) as (X & _). discriminate.
Qed.
Lemma clutch_ordered : forall b, limits_given (@kClutchT (F64 b)) /\ n_leb (F64 b) (n_opp (F64 b) (n_dblmax (F64 b))) (n_dblmax (F64 b)) = true /\
  n_leb (F64 b) (n_ofZ (F64 b) 0) (n_ofZ (F64 b) 0) = true.
Proof.
  intros b. split; [|split; reflexivity]. exists (n_ofZ (F64 b) (-5)), (n_ofZ (F64 b) 5). repeat split; reflexivity.
Qed.
Lemma link_limits_crossed : forall b s, exists o', calculate bsW (@conW (F64 b) (@KClutch (F64 b) (@mkClutch (F64 b) (cofZ (-1)) (cofZ 1) (cofZ 1) (cofZ 1)))) out_new s = Ok o' /\
  ~ ordered (o_limits o' 0 0) (o_limits o' 0 1).
Proof. intros b s. eexists. split; [reflexivity|]. intros (x & y & E1 & E2 & L). inversion E1. inversion E2. subst. discriminate. Qed.

(** C57: the joint of two bodies at (0,0) and (3,1), closed at (1,2) *)
Definition kJoint : rkind := RLink 1 2 (-2) 1 9 5 6.
Lemma joint_closed : at_x rest 1 2 = at_x (mkPose 3 1 0) (-2) 1 /\ at_y rest 1 2 = at_y (mkPose 3 1 0) (-2) 1.
Proof. unfold at_x, at_y, world_x, world_y. cbn [rest q_x q_y q_th]. rewrite sin_0, cos_0. split; ring. Qed.
