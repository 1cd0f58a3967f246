(** * Springs at work. *)

From Coq Require Import Reals Lra.
From Verif Require Import Base Targets Matrix Sparse Sle State Ode Forces Constraints System Logic RealSum SpecMatrix SpecState SpecForces SpecCon ConFacts SleHist
  SpecSle SpecSys RegFacts RegWit SpecDyn DynState DynReact DynRound DynStep SpecLimits SpecSolve SolveReal SolveStep SolveWit SpecLaw LawReal LawStep Assemble SpecMom MomForce MomStep MomWit
  SpecSub SpecLeast LeastReal LeastStep LeastPart LeastGal LeastWit SpecTurn TurnReal TurnStep TurnWit SpecMotor MotorReal SpecRun RunStep MotorWit SpecFlight FlightReal SpecSwing SpecDamp DampReal SpecSpring SpringReal SpringStep SpringRun.
Local Open Scope nat_scope.

(** bodies 6 and 7 at the ends of a spring; body 3 keeps its angle; gravity *)
Definition gS (L ks kd : R) (g : nat) : dgen := match g with 0 => DPlain (VSpring (mkSp L ks kd 0 0 0 0) 6 7) | _ => DPlain (VGravity 10) end.
(** body 7 is at (dx, dy) and goes with (ux, uy), seen from body 6 *)
Definition qS (dx dy : R) (b d : nat) : R := match b, d with 7, 0 => (1 + dx)%R | 7, 1 => (2 + dy)%R | _, 0 => 1%R | _, 1 => 2%R | _, _ => 3%R end.
Definition vS (ux uy : R) (b d : nat) : R := match b, d with 7, 0 => (4 + ux)%R | 7, 1 => (5 + uy)%R | _, 0 => 4%R | _, 1 => 5%R | _, _ => 6%R end.
Lemma seen_S dx dy ux uy : seen_from (qS dx dy 6) (qS dx dy 7) (vS ux uy 6) (vS ux uy 7) = ((dx, dy), (ux, uy)).
Proof. unfold seen_from, qS, vS. f_equal; f_equal; ring. Qed.

Section S.
Context {dbg : bool}.
Notation T := (RT dbg).
Notation cl := (cell T).
Lemma spring_scene k z (L ks kd dx dy ux uy : R) : let z' := match k with Optimized => Symplectic | Generic => z end in
  exists (w : world T) y, tied nopriv k z' w y 0 6 7 L ks kd (fun _ => 10%R) (qS dx dy 6) (vS ux uy 6) (MD 6) (qS dx dy 7) (vS ux uy 7) (MD 7) /\
    weight y 0 (fun _ => 10%R) = 10%R /\ y_cons y = [3] /\ y_gens y = [0; 1] /\
    forall l, (forall dt n t, In (dt, n, t) l -> dt <> 0%R /\ 0 < n) -> exists w' y', plays k l w y = Ok (w', y').
Proof.
  intros z'.
  assert (X : exists m (w : world T) y, yreach k nopriv m w y /\ stage nopriv k z' kT (gS L ks kd) 1%R MD w y (qS dx dy) (vS ux uy) /\
    same_objects (wG kT (gS L ks kd) (qS dx dy) (vS ux uy)) w /\ y_bodies y = [3; 6; 7] /\ y_cons y = [3] /\ y_gens y = [0; 1] /\ b_index (w_body w 9) = (-1)%Z).
  { apply scene_d; [repeat constructor; cbn; intuition lia|repeat constructor; cbn; intuition lia|repeat constructor; cbn; intuition lia|cbn; lia|discriminate| |cbn; lia|].
    - intros c p Hc. cbn in Hc. destruct Hc as [<-|[]]. destruct p; cbn; auto.
    - intros g Hg. cbn in Hg. destruct Hg as [<-|[<-|[]]]; cbn [gS names]; [|intros b []]. intros b [<-|[<-|[]]]; cbn; auto. }
  destruct X as (m & w & y & H & D & HS & B & C & G & _).
  assert (HF : firm w y MD kT).
  { apply (scene_firm (gS L ks kd) (qS dx dy) (vS ux uy) k m); auto.
    - rewrite B, C. intros c p [<-|[]]. destruct p; cbn; auto.
    - rewrite C. intros c [<-|[]]. lia.
    - unfold body_count. rewrite B. cbn. lia. }
  assert (EC : forall p, c_bodies (w_con w 3) p = Some 3).
  { intros p. destruct HS as (_ & Ec & _). destruct (Ec 3) as (_ & _ & -> & _). destruct p; reflexivity. }
  assert (UN : forall b, b <> 3 -> SpecDyn.unbound w y b).
  { intros b Hb c p Hc Hp Eb. rewrite C in Hc. destruct Hc as [<-|[]]. rewrite EC in Eb. injection Eb as <-. lia. }
  assert (AT : forall b, In b (y_bodies y) -> is_at w b (qS dx dy b) (vS ux uy b) (MD b)) by (intros b Hb d Hd; exact (sg_are D b d Hb Hd)).
  assert (I6 : In 6 (y_bodies y)) by (rewrite B; cbn; auto). assert (I7 : In 7 (y_bodies y)) by (rewrite B; cbn; auto).
  exists w, y. split; [|split; [|split; [exact C|split; [exact G|]]]].
  - constructor; auto; try lia.
    + eauto.
    + exact (sg_att D).
    + exact (kinds_shaped w y kT (sg_kinds D)).
    + exact (sg_uses D).
    + destruct HS as (_ & _ & Eg). split; [rewrite G; cbn; auto|]. split; [rewrite Eg; reflexivity|]. intros g' Hg' N. rewrite G in Hg'. destruct Hg' as [<-|[<-|[]]]; [contradiction|]. rewrite Eg. reflexivity.
  - unfold weight. rewrite G. unfold Lsum. cbn [fold_right]. change (0 + (10 + 0) = 10)%R. ring.
  - intros l Hl. destruct (run_calls nopriv k z' kT _ 1%R MD l w y _ _ D HF Hl) as (w' & y' & _ & _ & E & _). eauto.
Qed.
End S.


Local Open Scope R_scope.
Lemma MD_sum : / MD 6 0%nat + / MD 7 0%nat = 1.
Proof. cbn. lra. Qed.
Definition tS : timing := mkTiming 0 0 0 0.

Section W.
Context {dbg : bool}.
Notation T := (RT dbg).
Lemma one_call k z (L ks kd dt dx dy ux uy : R) : dt <> 0 -> let z' := match k with Optimized => Symplectic | Generic => z end in
  exists (w : world T) y w' y' x1 v1 x2 v2 x1' v1' x2' v2', tied nopriv k z' w y 0 6 7 L ks kd (fun _ => 10) x1 v1 (MD 6) x2 v2 (MD 7) /\ plays k [(dt, 1%nat, tS)] w y = Ok (w', y') /\
    tied nopriv k z' w' y' 0 6 7 L ks kd (fun _ => 10) x1' v1' (MD 6) x2' v2' (MD 7) /\ seen_from x1 x2 v1 v2 = ((dx, dy), (ux, uy)) /\
    seen_from x1' x2' v1' v2' = bounce z' L ks kd 1 dt ((dx, dy), (ux, uy)).
Proof.
  intros Hd z'. destruct (@spring_scene dbg k z L ks kd dx dy ux uy) as (w & y & HT & _ & _ & _ & HP). fold z' in HT.
  destruct (HP [(dt, 1%nat, tS)]) as (w' & y' & E). { intros dt' n t [X|[]]. injection X as <- <- _. split; [exact Hd|lia]. }
  destruct (spring_calls nopriv k z' L ks kd _ 0 6 7 _ _ _ _ _ _ _ _ _ _ _ HT E) as (x1' & v1' & x2' & v2' & HT' & _ & EX & _). { intros dt' n t [X|[]]. injection X as _ <- _. lia. }
  exists w, y, w', y', (qS dx dy 6), (vS ux uy 6), (qS dx dy 7), (vS ux uy 7), x1', v1', x2', v2'. split; [exact HT|]. split; [exact E|]. split; [exact HT'|]. split; [apply seen_S|]. rewrite EX, seen_S. cbn [course Nat.iter nat_rect]. rewrite MD_sum.
  replace (dt / INR 1) with dt by (cbn; field). reflexivity.
Qed.
Lemma euler_sweeps : exists (w : world T) y w' y' x1 v1 x2 v2 x1' v1' x2' v2', tied nopriv Generic Explicit w y 0 6 7 0 1 0 (fun _ => 10) x1 v1 (MD 6) x2 v2 (MD 7) /\
  plays Generic [(1, 1%nat, tS)] w y = Ok (w', y') /\ tied nopriv Generic Explicit w' y' 0 6 7 0 1 0 (fun _ => 10) x1' v1' (MD 6) x2' v2' (MD 7) /\
  sweep (seen_from x1 x2 v1 v2) = 1 /\ sweep (seen_from x1' x2' v1' v2') = 2.
Proof.
  destruct (one_call Generic Explicit 0 1 0 1 1 0 0 1 ltac:(lra)) as (w & y & w' & y' & x1 & v1 & x2 & v2 & x1' & v1' & x2' & v2' & A & B & C & D & E).
  exists w, y, w', y', x1, v1, x2, v2, x1', v1', x2', v2'. split; [exact A|]. split; [exact B|]. split; [exact C|]. rewrite D, E. unfold sweep, bounce. cbn [fst snd].
  assert (AP : apart ((1, 0), (0, 1)) = 1) by (unfold apart; cbn [fst snd]; replace (1 * 1 + 0 * 0) with 1 by ring; apply sqrt_1). rewrite AP. destruct (Rle_dec (1 / 100) 1) as [_|X]; [|lra]. split; field.
Qed.
Lemma euler_gains : exists (w : world T) y w' y' x1 v1 x2 v2 x1' v1' x2' v2', tied nopriv Generic Explicit w y 0 6 7 1 1 0 (fun _ => 10) x1 v1 (MD 6) x2 v2 (MD 7) /\
  plays Generic [(1, 1%nat, tS)] w y = Ok (w', y') /\ tied nopriv Generic Explicit w' y' 0 6 7 1 1 0 (fun _ => 10) x1' v1' (MD 6) x2' v2' (MD 7) /\
  seen_from x1 x2 v1 v2 = in_line 1 0 2 0 /\ seen_from x1' x2' v1' v2' = in_line 1 0 2 (-1).
Proof.
  destruct (one_call Generic Explicit 1 1 0 1 2 0 0 0 ltac:(lra)) as (w & y & w' & y' & x1 & v1 & x2 & v2 & x1' & v1' & x2' & v2' & A & B & C & D & E).
  exists w, y, w', y', x1, v1, x2, v2, x1', v1', x2', v2'. split; [exact A|]. split; [exact B|]. split; [exact C|]. rewrite D, E. split; [unfold in_line; f_equal; f_equal; ring|].
  replace ((2, 0), (0, 0)) with (in_line 1 0 2 0) by (unfold in_line; f_equal; f_equal; ring). rewrite bounce_line by lra. unfold swing, in_line. cbn [fst snd]. f_equal; f_equal; ring.
Qed.
Lemma stiff_gains k : exists (w : world T) y w' y' x1 v1 x2 v2 x1' v1' x2' v2', tied nopriv k Symplectic w y 0 6 7 100 5 0 (fun _ => 10) x1 v1 (MD 6) x2 v2 (MD 7) /\
  plays k [(1, 1%nat, tS)] w y = Ok (w', y') /\ tied nopriv k Symplectic w' y' 0 6 7 100 5 0 (fun _ => 10) x1' v1' (MD 6) x2' v2' (MD 7) /\
  seen_from x1 x2 v1 v2 = in_line 1 0 101 0 /\ seen_from x1' x2' v1' v2' = in_line 1 0 96 (-5).
Proof.
  destruct (one_call k Symplectic 100 5 0 1 101 0 0 0 ltac:(lra)) as (w & y & w' & y' & x1 & v1 & x2 & v2 & x1' & v1' & x2' & v2' & A & B & C & D & E).
  replace (match k with Optimized => Symplectic | Generic => Symplectic end) with Symplectic in * by (now destruct k).
  exists w, y, w', y', x1, v1, x2, v2, x1', v1', x2', v2'. split; [exact A|]. split; [exact B|]. split; [exact C|]. rewrite D, E. split; [unfold in_line; f_equal; f_equal; ring|].
  replace ((101, 0), (0, 0)) with (in_line 1 0 101 0) by (unfold in_line; f_equal; f_equal; ring). rewrite bounce_line by lra. unfold swing, in_line. cbn [fst snd]. f_equal; f_equal; ring.
Qed.
Lemma dead_stays k z : let z' := match k with Optimized => Symplectic | Generic => z end in
  exists (w : world T) y x1 v1 x2 v2, tied nopriv k z' w y 0 6 7 1 1 1 (fun _ => 10) x1 v1 (MD 6) x2 v2 (MD 7) /\
    calms z' (1 * (/ MD 6 0%nat + / MD 7 0%nat)) (1 * (/ MD 6 0%nat + / MD 7 0%nat)) (1 / 2) /\ apart (seen_from x1 x2 v1 v2) = 1 / 200 /\
    forall l, evenly (1 / 2) l -> exists w' y' x1' v1' x2' v2', plays k l w y = Ok (w', y') /\ tied nopriv k z' w' y' 0 6 7 1 1 1 (fun _ => 10) x1' v1' (MD 6) x2' v2' (MD 7) /\
      apart (seen_from x1' x2' v1' v2') = 1 / 200.
Proof.
  intros z'. destruct (@spring_scene dbg k z 1 1 1 (1 / 200) 0 0 0) as (w & y & HT & _ & _ & _ & HP). fold z' in HT.
  assert (AP : apart ((1 / 200, 0), (0, 0)) = 1 / 200) by (unfold apart; cbn [fst snd]; replace (1 / 200 * (1 / 200) + 0 * 0) with ((1 / 200) * (1 / 200)) by ring; apply sqrt_square; lra).
  exists w, y, (qS (1 / 200) 0 6), (vS 0 0 6), (qS (1 / 200) 0 7), (vS 0 0 7). split; [exact HT|]. split; [rewrite MD_sum; unfold calms; destruct z'; lra|]. split; [now rewrite seen_S|]. intros l Hl.
  destruct (HP l) as (w' & y' & E).
  { intros dt n t Hi. destruct (Hl dt n t Hi) as [Hn Ed]. split; [|exact Hn]. intros ->. unfold Rdiv in Ed. rewrite Rmult_0_l in Ed. lra. }
  destruct (dead_calls nopriv k z' 1 1 1 _ 0 6 7 _ _ l w y w' y' _ _ _ _ HT E (even_busy _ _ Hl)) as (x1' & v1' & x2' & v2' & HT' & EX).
  { rewrite seen_S, AP. lra. } { rewrite seen_S. unfold speed2. cbn [fst snd]. ring. }
  exists w', y', x1', v1', x2', v2'. split; [exact E|]. split; [exact HT'|]. now rewrite EX, seen_S.
Qed.
(** a system that meets what the theorems ask for *)
Lemma spring_line_scene k z (L ks kd l0 u0 : R) : let z' := match k with Optimized => Symplectic | Generic => z end in
  exists (w : world T) y x1 v1 x2 v2, tied nopriv k z' w y 0 6 7 L ks kd (fun _ => 10) x1 v1 (MD 6) x2 v2 (MD 7) /\ weight y 0 (fun _ => 10) = 10 /\
    (3 / 5) * (3 / 5) + (4 / 5) * (4 / 5) = 1 /\ seen_from x1 x2 v1 v2 = in_line (3 / 5) (4 / 5) l0 u0 /\ / MD 6 0%nat + / MD 7 0%nat = 1 /\
    forall l, (forall dt n t, In (dt, n, t) l -> dt <> 0 /\ (0 < n)%nat) -> exists w' y', plays k l w y = Ok (w', y').
Proof.
  intros z'. destruct (@spring_scene dbg k z L ks kd (l0 * (3 / 5)) (l0 * (4 / 5)) (u0 * (3 / 5)) (u0 * (4 / 5))) as (w & y & HT & W & _ & _ & HP).
  exists w, y, (qS (l0 * (3 / 5)) (l0 * (4 / 5)) 6), (vS (u0 * (3 / 5)) (u0 * (4 / 5)) 6), (qS (l0 * (3 / 5)) (l0 * (4 / 5)) 7), (vS (u0 * (3 / 5)) (u0 * (4 / 5)) 7). split; [exact HT|]. split; [exact W|]. split; [lra|]. split; [apply seen_S|]. split; [exact MD_sum|exact HP].
Qed.
End W.
