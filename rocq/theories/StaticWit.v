(** * A beam that hangs from another one. *)

From Coq Require Import Reals Lra.
From Verif Require Import Base Targets Matrix Sparse Sle State Ode Forces Constraints System Logic RealSum SpecMatrix SpecState SpecForces ForceFacts ForceReal SpecCon ConFacts
  SpecSle SpecSys RegFacts RegWit SpecDyn DynState DynReact DynRound DynStep SpecLimits SpecSolve SolveReal SolveStep SolveWit SpecLaw LawReal LawStep Assemble SpecMom MomForce MomStep MomWit
  SpecSub SpecLeast LeastReal LeastStep LeastPart LeastGal LeastWit SpecTurn TurnReal TurnStep TurnWit SpecStatic StaticReal.
Local Open Scope nat_scope.

(** body 0 is held at its right end and pushed up at its left end, body 1 hangs
    from it at its own right end and is pushed up at its left end *)
Definition qB (b d : nat) : R := match b, d with 0, 1 => 2%R | 1, 0 => (-1)%R | 1, 1 => 3%R | _, _ => 0%R end.
Definition gB (g : nat) : rgen := match g with 0 => VGravity 10 | 1 => VStatic (-1) 0 0 15 0 | _ => VStatic (-1) 0 0 10 1 end.
Definition fB (b d : nat) : R := match b, d with 0, 1 => (-5)%R | 0, 2 => (-15)%R | 1, 1 => (-10)%R | 1, 2 => (-10)%R | _, _ => 0%R end.
Definition xB (c j : nat) : R := match c, j with 0, 1 => 15%R | 1, 1 => (-10)%R | _, _ => 0%R end.

Section S.
Context {dbg : bool}.
Notation T := (RT dbg).
Notation cl := (cell T).
Ltac nodup := repeat constructor; cbn; intuition lia.
Lemma beams k z : exists (w : world T) y, let z := match k with Optimized => Symplectic | Generic => z end in
  side nopriv k z kT gB 1%R MD w y qB rest /\ regular w y MD (fun c j i => J_of (kT c) (pose_at w qB c) j i) /\ met w y kT qB /\
  (forall dt, pushesR w y (kin_of w) dt fB) /\ balanced w y (fun c j i => J_of (kT c) (pose_at w qB c) j i) fB xB /\ y_bodies y = [0; 1] /\ y_cons y = [0; 1] /\ y_gens y = [0; 1; 2].
Proof.
  destruct (@scene dbg kT gB qB rest k z [0; 1] [0; 1] [0; 1; 2]) as (m & w & y & H & D & HS & B & C & G); [nodup|nodup|nodup|cbn; lia|discriminate| | |].
  { intros c p [<-|[<-|[]]]; [cbn; auto|]. destruct p; cbn; auto. }
  { intros g b [<-|[<-|[<-|[]]]]; cbn; tauto. }
  exists w, y. cbv zeta. split; [exact D|].
  assert (EP : forall c p, pose_at w qB c p = pose_of qB (bT c p)).
  { intros c p. unfold pose_at, who. now destruct (T_con MD kT gB qB rest w HS c) as (_ & _ & _ & ->). }
  split.
  { apply (T_unsingular gB qB rest k m w y (Some 1%R : cl) [mkTiming 0 0 0 0]%Z H HS) with (pre := []) (t := (mkTiming 0 0 0 0)%Z) (suf := []) (y' := y) (v := rest); auto.
    - rewrite B, C. intros c p [<-|[<-|[]]]; [cbn; auto|]. destruct p; cbn; auto.
    - rewrite C. intros c [<-|[<-|[]]]; lia.
    - exact (sd_255 D).
    - exact (sd_gens D).
    - exact (are_ends _ _ _ _ _ (sd_are D)). }
  pose proof cos_0 as Ec. pose proof sin_0 as Es.
  split.
  { intros c j Hc Hj. rewrite C in Hc. destruct (T_con MD kT gB qB rest w HS c) as (_ & E & _). rewrite E in Hj.
    destruct Hc as [<-|[<-|[]]]; cbn in Hj; destruct j as [|[|]]; try lia; (split; [|reflexivity]); cbn [C_of kT]; rewrite !EP; unfold at_x, at_y, world_x, world_y, pose_of, bT;
      cbn [q_x q_y q_th qB nth]; rewrite Ec, Es; lra. }
  split.
  { intros dt s Hs. pose proof (reg_listed _ _ _ (yreach_reg _ _ _ _ _ H)) as HL.
    destruct (gens_push w y gB dt qB rest MD HL (sd_are D) (sd_gens D) s Hs) as (s' & E & F). exists s'. split; [exact E|]. intros i b d Hi Hd. rewrite (F i b d Hi Hd). f_equal. f_equal.
    rewrite G. assert (Hb : b = 0 \/ b = 1) by (apply nth_error_In in Hi; rewrite B in Hi; cbn in Hi; intuition).
    unfold Lsum. cbn [fold_right gB force_of]. unfold on, point_force, at_x, at_y, world_x, world_y, pose_of. 
    destruct Hb as [-> | ->]; destruct d as [|[|[|]]]; try lia; cbn [Nat.eqb gf_at gf_x gf_y gf_t q_x q_y q_th qB fB MD]; cbv [Nat.eqb]; rewrite ?Ec, ?Es; lra. }
  split; [|auto].
  intros b d Hb Hd. rewrite B in Hb. unfold acts, slots. rewrite C. cbn [flat_map].
  destruct (T_con MD kT gB qB rest w HS 0) as (_ & -> & -> & E0), (T_con MD kT gB qB rest w HS 1) as (_ & -> & -> & E1).
  cbn [rows parties kT seq flat_map map app]. unfold Lsum. cbn [fold_right]. unfold binds. rewrite !E0, !E1.
  destruct Hb as [<-|[<-|[]]]; destruct d as [|[|[|]]]; try lia; cbn [bT Nat.eqb Nat.mul Nat.add J_of kT nth xB fB]; rewrite ?EP; unfold pose_of, bT; cbv [Nat.eqb]; cbn [q_th qB]; rewrite ?Ec, ?Es; lra.
Qed.
Lemma beams_stand z : exists (w : world T) y, side nopriv Generic z kT gB 1%R MD w y qB rest /\ regular w y MD (fun c j i => J_of (kT c) (pose_at w qB c) j i).
Proof. destruct (beams Generic z) as (w & y & A & B & _). exists w, y. split; assumption. Qed.
End S.
