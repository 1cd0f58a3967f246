(** * A wheel on a base that turns. *)

From Coq Require Import Reals Lra.
From Verif Require Import Base Targets State Forces Constraints Logic SpecMatrix SpecState StateReal SpecForces ForceReal ForceWit SpecCon ConFacts ConReal ConWit.
Local Open Scope nat_scope.

Section R.
Context {dbg : bool}.
Notation tg := (RT dbg).
Notation cl := (cell tg).
Lemma rolling_turning (bs : bodies tg) (c : constraint tg) (o : output tg) s q v lx ly dx dy rad ks kd :
  c_kind c = kind_of dbg (RRolling lx ly dx dy rad ks kd) -> bound bs c 2 s q v -> (dx ^ 2 + dy ^ 2 = 1)%R ->
  exists o' J, calculate bs c o s = Ok o' /\ (forall r i, r < 2 -> i < 6 -> o_J o' r i = (Some (J r i) : cl)) /\
    let Dx := (dx * cos (q_th (q 0%nat)) - dy * sin (q_th (q 0%nat)))%R in let Dy := (dx * sin (q_th (q 0%nat)) + dy * cos (q_th (q 0%nat)))%R in
    let px := (q_x (q 1%nat) + rad * Dy)%R in let py := (q_y (q 1%nat) - rad * Dx)%R in
    let ux := (q_x (v 1%nat) - ptvx (q 0%nat) (v 0%nat) (q_x (q 1%nat)) (q_y (q 1%nat)))%R in let uy := (q_y (v 1%nat) - ptvy (q 0%nat) (v 0%nat) (q_x (q 1%nat)) (q_y (q 1%nat)))%R in
    let slip := ((1 - rad ^ 2) * (ux * Dx + uy * Dy) - rad * q_th (v 0%nat))%R in
    ((Rsum 6%nat (fun i => J 0%nat i * coord v i) = 0 /\ Rsum 6%nat (fun i => J 1%nat i * coord v i) = 0)%R ->
      (ptvx (q 1%nat) (v 1%nat) px py - ptvx (q 0%nat) (v 0%nat) px py = slip * Dx)%R /\
      (ptvy (q 1%nat) (v 1%nat) px py - ptvy (q 0%nat) (v 0%nat) px py = slip * Dy)%R).
Proof.
  intros Ek B N. destruct (calc_R bs c o s (RRolling lx ly dx dy rad ks kd) q v Ek B) as (o' & E & H).
  exists o', (J_of (RRolling lx ly dx dy rad ks kd) q). split; [exact E|]. split.
  { intros r i Hr Hi. now apply (H r Hr). }
  cbv zeta. unfold ptvx, ptvy. cbn -[sin cos]. unfold at_x, at_y, world_x, world_y.
  set (cs := cos (q_th (q 0%nat))). set (sn := sin (q_th (q 0%nat))).
  assert (SC : (sn * sn + cs * cs = 1)%R) by apply sc1.
  set (U := q_x (v 1%nat)). set (V := q_y (v 1%nat)). set (w := q_th (v 1%nat)). set (U0 := q_x (v 0%nat)). set (V0 := q_y (v 0%nat)). set (w0 := q_th (v 0%nat)).
  set (X := q_x (q 1%nat)). set (Y := q_y (q 1%nat)). set (X0 := q_x (q 0%nat)). set (Y0 := q_y (q 0%nat)).
  intros [E0 E1]. set (Dx := (cs * dx - sn * dy)%R) in *. set (Dy := (sn * dx + cs * dy)%R) in *.
  assert (DD : (Dx * Dx + Dy * Dy = 1)%R).
  { unfold Dx, Dy. transitivity ((sn * sn + cs * cs) * (dx ^ 2 + dy ^ 2))%R; [ring|]. rewrite SC, N. ring. }
  replace (dx * cs - dy * sn)%R with Dx by (unfold Dx; ring). replace (dx * sn + dy * cs)%R with Dy by (unfold Dy; ring).
  set (ux := (U - (U0 - w0 * (Y - Y0)))%R). set (uy := (V - (V0 + w0 * (X - X0)))%R).
  assert (W : (w = - (ux * Dx + uy * Dy) * rad)%R).
  { unfold ux, uy. clearbody Dx Dy. 
    apply Rminus_diag_uniq. match type of E0 with (?a = 0)%R => transitivity (- a)%R; [ring|rewrite E0; ring] end. }
  assert (P : (Dy * ux = Dx * uy)%R).
  { unfold ux, uy. clearbody Dx Dy. apply Rminus_diag_uniq. match type of E1 with (?a = 0)%R => transitivity a; [ring|exact E1] end. }
  assert (EX : (ux = (ux * Dx + uy * Dy) * Dx)%R).
  { transitivity (ux * (Dx * Dx + Dy * Dy))%R; [rewrite DD; ring|]. transitivity (ux * Dx * Dx + Dy * (Dy * ux))%R; [ring|]. rewrite P. ring. }
  assert (EY : (uy = (ux * Dx + uy * Dy) * Dy)%R).
  { transitivity (uy * (Dx * Dx + Dy * Dy))%R; [rewrite DD; ring|]. transitivity (uy * Dy * Dy + Dx * (Dx * uy))%R; [ring|]. rewrite <- P. ring. }
  set (sl := (ux * Dx + uy * Dy)%R) in *. rewrite W. split.
  - transitivity (ux - sl * rad * rad * Dx - rad * w0 * Dx)%R; [unfold ux; ring|]. rewrite EX. ring.
  - transitivity (uy - sl * rad * rad * Dy - rad * w0 * Dy)%R; [unfold uy; ring|]. rewrite EY. ring.
Qed.
End R.

(** a wheel of unit radius on a base that turns with unit angular velocity: the
    wheel is carried along but does not turn with the base *)
Definition vBase : pose := mkPose 0 0 1.
Definition qCarried : pose := mkPose 0 1 0.
Definition vCarried : pose := mkPose (-1) 0 0.
Lemma wheel_carried :
  bound bsW (conW (kind_of true (kWheel 1))) 2 (pairS rest vBase qCarried vCarried) (two rest qCarried) (two vBase vCarried) /\
  exists o' J, calculate bsW (conW (kind_of true (kWheel 1))) out_new (pairS rest vBase qCarried vCarried) = Ok o' /\
    (forall a i, a < 2 -> i < 6 -> o_J o' a i = (Some (J a i) : cell (RT true))) /\
    (Rsum 6 (fun i => J 0%nat i * coord (two vBase vCarried) i) = 0)%R /\ (Rsum 6 (fun i => J 1%nat i * coord (two vBase vCarried) i) = 0)%R /\
    o_C o' 0 = (Some 0%R : cell (RT true)) /\ o_C o' 1 = (Some 0%R : cell (RT true)) /\
    (** the contact point is (0, 0) *)
    (ptvx qCarried vCarried 0 0 = -1)%R /\ (ptvx rest vBase 0 0 = 0)%R.
Proof.
  split; [exact (conW_bound _ _ _ _ _ _ (le_n 2))|].
  destruct (calc_R bsW (conW (kind_of true (kWheel 1))) out_new (pairS rest vBase qCarried vCarried) (kWheel 1) (two rest qCarried) (two vBase vCarried) eq_refl) as (o' & E & H).
  { apply conW_bound. cbn. lia. }
  exists o', (J_of (kWheel 1) (two rest qCarried)). split; [exact E|]. split; [intros a i Ha Hi; now apply (H a Ha)|].
  split; [|split; [|split; [|split]]].
  - cbn -[sin cos]. unfold at_x, at_y, world_x, world_y. cbn -[sin cos]. rewrite sin_0, cos_0. ring.
  - cbn -[sin cos]. unfold at_x, at_y, world_x, world_y. cbn -[sin cos]. rewrite sin_0, cos_0. ring.
  - rewrite (proj1 (H 0 ltac:(cbn; lia))). apply some_eq. cbn -[sin cos]. unfold at_x, at_y, world_x, world_y. cbn -[sin cos]. rewrite sin_0, cos_0. ring.
  - rewrite (proj1 (H 1 ltac:(cbn; lia))). apply some_eq. cbn -[sin cos]. unfold at_x, at_y, world_x, world_y. cbn -[sin cos]. rewrite sin_0, cos_0. ring.
  - unfold ptvx. cbn. split; ring.
Qed.
