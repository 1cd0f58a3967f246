(** * Springs at work with a fourth-order solver. *)

From Coq Require Import Reals Lra.
From Verif Require Import Base Targets Matrix Sparse Sle State Ode Forces Constraints System Logic RealSum SpecMatrix SpecState SpecForces SpecCon ConFacts SleHist
  SpecSle SpecSys RegFacts RegWit SpecDyn DynState DynReact DynRound DynStep SpecLimits SpecSolve SolveReal SolveStep SolveWit SpecLaw LawReal LawStep Assemble SpecMom MomForce MomStep MomWit SpecRk
  SpecSub SpecLeast LeastReal LeastStep LeastPart LeastGal LeastWit SpecTurn TurnReal TurnStep TurnWit SpecMotor MotorReal SpecRun RunStep MotorWit SpecFlight SpecSwing SpecDamp SpecSpring SpringWit SpecFour FourReal SpecSpin FourWit SpecBow BowReal BowRun.
Local Open Scope nat_scope.

Section S.
Context {dbg : bool}.
Notation T := (RT dbg).
Notation cl := (cell T).
Lemma bow_scene (L ks kd dx dy ux uy : R) :
  exists (w : world T) y, strung nopriv w y 0 6 7 L ks kd (fun _ => 10%R) (qS dx dy 6) (vS ux uy 6) (MD 6) (qS dx dy 7) (vS ux uy 7) (MD 7) /\
    weight y 0 (fun _ => 10%R) = 10%R /\ y_cons y = [3] /\ y_gens y = [0; 1] /\
    forall l, busy l -> exists w' y', plays Generic l w y = Ok (w', y').
Proof.
  assert (X : exists m (w : world T) y, yreach Generic nopriv m w y /\ stage_four nopriv kT (gS L ks kd) MD w y (qS dx dy) (vS ux uy) /\
    same_objects (wG kT (gS L ks kd) (qS dx dy) (vS ux uy)) w /\ y_bodies y = [3; 6; 7] /\ y_cons y = [3] /\ y_gens y = [0; 1] /\ b_index (w_body w 9) = (-1)%Z).
  { apply scene_four; [repeat constructor; cbn; intuition lia|repeat constructor; cbn; intuition lia|repeat constructor; cbn; intuition lia|cbn; lia|discriminate|discriminate| |cbn; lia|].
    - intros c p Hc. cbn in Hc. destruct Hc as [<-|[]]. destruct p; cbn; auto.
    - intros g Hg. cbn in Hg. destruct Hg as [<-|[<-|[]]]; cbn [gS names]; [|intros b []]. intros b [<-|[<-|[]]]; cbn; auto. }
  destruct X as (m & w & y & H & D & HS & B & C & G & _).
  assert (HF : firm w y MD kT).
  { apply (scene_firm (gS L ks kd) (qS dx dy) (vS ux uy) Generic m); auto.
    - rewrite B, C. intros c p [<-|[]]. destruct p; cbn; auto.
    - rewrite C. intros c [<-|[]]. lia.
    - unfold body_count. rewrite B. cbn. lia. }
  assert (EC : forall p, c_bodies (w_con w 3) p = Some 3).
  { intros p. destruct HS as (_ & Ec & _). destruct (Ec 3) as (_ & _ & -> & _). destruct p; reflexivity. }
  assert (UN : forall b, b <> 3 -> SpecDyn.unbound w y b).
  { intros b Hb c p Hc Hp Eb. rewrite C in Hc. destruct Hc as [<-|[]]. rewrite EC in Eb. injection Eb as <-. lia. }
  assert (AT : forall b, In b (y_bodies y) -> is_at w b (qS dx dy b) (vS ux uy b) (MD b)) by (intros b Hb d Hd; exact (sf_are D b d Hb Hd)).
  assert (I6 : In 6 (y_bodies y)) by (rewrite B; cbn; auto). assert (I7 : In 7 (y_bodies y)) by (rewrite B; cbn; auto).
  exists w, y. split; [|split; [|split; [exact C|split; [exact G|]]]].
  - constructor; auto; try lia.
    + eauto.
    + exact (sf_att D).
    + exact (kinds_shaped w y kT (sf_kinds D)).
    + exact (sf_lone D).
    + exact (sf_ode D).
    + destruct HS as (_ & _ & Eg). split; [rewrite G; cbn; auto|]. split; [rewrite Eg; reflexivity|]. intros g' Hg' N. rewrite G in Hg'. destruct Hg' as [<-|[<-|[]]]; [contradiction|]. rewrite Eg. reflexivity.
  - unfold weight. rewrite G. unfold Lsum. cbn [fold_right]. change (0 + (10 + 0) = 10)%R. ring.
  - intros l Hl. destruct (four_calls nopriv kT _ MD l w y _ _ D HF Hl) as (w' & y' & _ & _ & E & _). eauto.
Qed.
Local Open Scope R_scope.
Lemma bow_line_scene (L ks kd l0 u0 : R) :
  exists (w : world T) y x1 v1 x2 v2, strung nopriv w y 0 6 7 L ks kd (fun _ => 10) x1 v1 (MD 6) x2 v2 (MD 7) /\ weight y 0 (fun _ => 10) = 10 /\
    (3 / 5) * (3 / 5) + (4 / 5) * (4 / 5) = 1 /\ seen_from x1 x2 v1 v2 = in_line (3 / 5) (4 / 5) l0 u0 /\ / MD 6 0%nat + / MD 7 0%nat = 1 /\
    forall l, busy l -> exists w' y', plays Generic l w y = Ok (w', y').
Proof.
  destruct (bow_scene L ks kd (l0 * (3 / 5)) (l0 * (4 / 5)) (u0 * (3 / 5)) (u0 * (4 / 5))) as (w & y & HT & W & _ & _ & HP).
  exists w, y, (qS (l0 * (3 / 5)) (l0 * (4 / 5)) 6), (vS (u0 * (3 / 5)) (u0 * (4 / 5)) 6), (qS (l0 * (3 / 5)) (l0 * (4 / 5)) 7), (vS (u0 * (3 / 5)) (u0 * (4 / 5)) 7). split; [exact HT|]. split; [exact W|]. split; [lra|]. split; [apply seen_S|]. split; [exact MD_sum|exact HP].
Qed.
(** one call from a standstill: s * s + u * u goes from 1 to less than 17/20 *)
Lemma bow_one : exists (w : world T) y w' y' x1 v1 x2 v2 x1' v1' x2' v2', strung nopriv w y 0 6 7 1 1 0 (fun _ => 10) x1 v1 (MD 6) x2 v2 (MD 7) /\ plays Generic [(1, 1%nat, tS)] w y = Ok (w', y') /\
  strung nopriv w' y' 0 6 7 1 1 0 (fun _ => 10) x1' v1' (MD 6) x2' v2' (MD 7) /\ seen_from x1 x2 v1 v2 = in_line (3 / 5) (4 / 5) 2 0 /\ seen_from x1' x2' v1' v2' = in_line (3 / 5) (4 / 5) (1 + 55 / 96) (- (23 / 32)) /\
  stir (2 - 1, 0) = 1 /\ stir (1 + 55 / 96 - 1, - (23 / 32)) < 17 / 20.
Proof.
  destruct (bow_line_scene 1 1 0 2 0) as (w & y & x1 & v1 & x2 & v2 & HT & _ & Ue & ES & Er & HP).
  destruct (HP [(1, 1%nat, tS)]) as (w' & y' & E). { intros dt n t [X|[]]. injection X as _ <- _. lia. }
  destruct (bow_inline nopriv 1 1 0 1 _ 0 6 7 _ _ _ w y w' y' x1 v1 x2 v2 (3 / 5) (4 / 5) 2 0 HT E) as (x1' & v1' & x2' & v2' & HT' & EX).
  { intros dt n t [X|[]]. injection X as <- <- _. split; [lia|]. cbn [INR]. field. } { exact Ue. } { exact ES. }
  { cbn [subs Nat.add]. intros i Hi. replace i with 0%nat by lia. cbn [Nat.iter nat_rect]. rewrite Er. unfold legs_long, leg4, leg3, leg2, onward, ebb. cbn [fst snd]. repeat split; lra. }
  exists w, y, w', y', x1, v1, x2, v2, x1', v1', x2', v2'. split; [exact HT|]. split; [exact E|]. split; [exact HT'|]. split; [exact ES|]. split; [|unfold stir; cbn [fst snd]; split; lra].
  rewrite EX, Er. cbn [subs Nat.add Nat.iter nat_rect]. unfold sway, onward, ebb. cbn [fst snd]. f_equal; field.
Qed.
(** the same spring comes to rest *)
Lemma bow_stops (eps : R) : 0 < eps -> exists a, 0 < a /\ exists (w : world T) y x1 v1 x2 v2, strung nopriv w y 0 6 7 1 1 0 (fun _ => 10) x1 v1 (MD 6) x2 v2 (MD 7) /\
  seen_from x1 x2 v1 v2 = in_line (3 / 5) (4 / 5) (1 + a) 0 /\ exists N, forall l, evenly 1 l -> (N <= subs l)%nat ->
    exists w' y' x1' v1' x2' v2' l' u', plays Generic l w y = Ok (w', y') /\ strung nopriv w' y' 0 6 7 1 1 0 (fun _ => 10) x1' v1' (MD 6) x2' v2' (MD 7) /\
      seen_from x1' x2' v1' v2' = in_line (3 / 5) (4 / 5) l' u' /\ stir (l' - 1, u') < eps.
Proof.
  intros He. destruct (bow_rest (dbg := dbg) nopriv 1 1 1 (fun _ => 10) 0 6 7 (MD 6) (MD 7)) as (a & Pa & H); [lra|rewrite MD_sum; lra|rewrite MD_sum; lra|].
  set (a' := Rmin a 1). assert (0 < a') by (apply Rmin_pos; lra). assert (a' <= 1) by apply Rmin_r. assert (a' <= a) by apply Rmin_l.
  exists a'. split; [assumption|]. destruct (bow_line_scene 1 1 0 (1 + a') 0) as (w & y & x1 & v1 & x2 & v2 & HT & _ & Ue & ES & Er & HP).
  exists w, y, x1, v1, x2, v2. split; [exact HT|]. split; [exact ES|]. destruct (H eps He) as [N HN]. exists N. intros l Hl Hn.
  destruct (HP l (SpringRun.even_busy _ _ Hl)) as (w' & y' & E). destruct (HN l w y w' y' x1 v1 x2 v2 (3 / 5) (4 / 5) (1 + a') 0 HT E Hl Hn Ue ES) as (x1' & v1' & x2' & v2' & l' & u' & HT' & EX & S').
  - unfold stir. cbn [fst snd]. replace (1 + a' - 1) with a' by ring. assert (a' * a' <= 1 * a') by (apply Rmult_le_compat_r; lra). lra.
  - exists w', y', x1', v1', x2', v2', l', u'. auto.
Qed.
End S.
