(** * A wheel on an axle, a clutch, a brake and a rotor. *)

From Coq Require Import Reals Lra.
From Verif Require Import Base Targets Matrix Sparse Sle State Ode Forces Constraints System Logic RealSum SpecMatrix SpecState SpecForces SpecCon ConFacts
  SpecSle SpecSys RegFacts RegWit SpecDyn DynState DynReact DynRound DynStep SpecLimits SpecSolve SolveReal SolveStep SolveWit SpecLaw LawReal LawStep LimitWit Assemble SpecMom MomForce MomStep MomWit
  SpecSub SpecLeast LeastReal LeastStep LeastPart LeastGal LeastWit SpecTurn TurnReal TurnStep TurnWit SpecSlip SlipStep SlipRun.
From Verif Require GeReal.
Local Open Scope nat_scope.

(** body 0 turns about a fixed axle through its centre, a clutch joins it to
    body 1, a brake acts on body 2 and a rotor on body 3; gravity acts on all *)
Definition kP (c : nat) : rkind :=
  match c with
  | 0 => RFixedPosition 0 0 0 0 10 1
  | 1 => RClutch 5 (-5) 10 1
  | 2 => RFriction 2 (-3) 10 1
  | _ => RConstantRotation 4 1 (-1) 10 1
  end.
Definition gP (g : nat) : rgen := VGravity 10.
Definition qP (b d : nat) : R := 0%R.
Definition vP (b d : nat) : R := match b, d with 0, 2 => 1%R | 1, 2 => 7%R | 2, 2 => (-6)%R | 3, 2 => 2%R | _, _ => 0%R end.

Section S.
Context {dbg : bool}.
Notation T := (RT dbg).
Notation cl := (cell T).
Ltac nodup := repeat constructor; cbn; intuition lia.
Lemma workshop : exists (w : world T) y, shop nopriv kP gP 1%R MD w y qP vP /\ apart w y kP MD /\ (forall b, In b (y_bodies y) -> (0 < MD b 2)%R) /\
  y_cons y = [0; 1; 2; 3] /\ (forall c, unspun w y gP c) /\ slip (kP 1) (pose_at w vP 1) = Some 6%R /\ slip (kP 2) (pose_at w vP 2) = Some (-6)%R /\ slip (kP 3) (pose_at w vP 3) = Some 6%R.
Proof.
  destruct (assembled_fresh nopriv Optimized (wM (dbg := dbg) MD kP gP qP vP) (SleGs gsW) (OdeNsv (cofZ 0)) [0; 1; 2; 3] [0; 1; 2; 3] [0]) as (m & w & y & H & S & B & C & G & L & O & Bi & Hh).
  - cbn. unfold ifree, sfree, nopriv. repeat split; lia.
  - nodup.
  - nodup.
  - nodup.
  - pose proof (T_con MD kP gP qP vP w S) as K.
    exists w, y. split; [constructor|].
    + eauto.
    + exists gsW. eexists. split; [exact L|]. split; [cbn; lia|]. split; [unfold gsW, gs_default; cbn [gs_min_delta]; unfold clit, cdiv, lift2p, cofZ; cbn; rewrite GeReal.R_div_some by lra; reflexivity|lra].
    + apply (T_attached MD kP gP qP vP w y S). rewrite B, C. intros c p [<-|[<-|[<-|[<-|[]]]]]; [| destruct p| |]; cbn; auto.
    + exact (T_kinds MD kP gP qP vP w y S).
    + apply (T_gens MD kP gP qP vP w y S). intros g b _ [].
    + unfold body_count. rewrite B. cbn. lia.
    + rewrite C. discriminate.
    + intros r Hr Hr2. rewrite Hh in Hr. lia.
    + exact Bi.
    + exact (T_bodies MD kP gP qP vP w y S MD_heavy).
    + split; [|split; [|split; [exact C|split; [|]]]].
      * intros q J.
        assert (ES : slots w y = [(0, 0, 0); (0, 1, 0); (1, 0, 0); (1, 0, 1); (2, 0, 0); (3, 0, 0)]).
        { unfold slots. rewrite C. cbn [flat_map]. destruct (K 0) as (_ & -> & -> & _), (K 1) as (_ & -> & -> & _), (K 2) as (_ & -> & -> & _), (K 3) as (_ & -> & -> & _). reflexivity. }
        assert (EB : forall b c j k, binds w b (c, j, k) = Nat.eqb (bT c k) b).
        { intros b c j k. unfold binds. now destruct (K c) as (_ & _ & _ & ->). }
        assert (EW : forall c k, who w c k = bT c k) by (intros c k; unfold who; now destruct (K c) as (_ & _ & _ & ->)).
        assert (EV : forall c j c' j', In c [0; 1; 2; 3] -> In c' [0; 1; 2; 3] -> j < rows (kP c) -> j' < rows (kP c') ->
          coupling w y MD J c j c' j' = if Nat.eqb c c' && Nat.eqb j j' then match c with 0 => (1 / 2)%R | 1 => (2 / 3)%R | _ => (1 / 3)%R end else 0%R).
        { intros c j c' j' Hc Hc' Hj Hj'. unfold coupling, along. destruct (K c) as (_ & _ & -> & _). unfold acts. rewrite ES. unfold Lsum. cbn [fold_right].
          destruct Hc as [<-|[<-|[<-|[<-|[]]]]]; destruct Hc' as [<-|[<-|[<-|[<-|[]]]]]; cbn [kP rows] in Hj, Hj'; destruct j as [|[|]]; try lia; destruct j' as [|[|]]; try lia;
          unfold J; cbn [kP parties rows Rsum Nat.mul Nat.add nth J_of]; rewrite ?EB, ?EW; cbn [bT]; cbv [Nat.eqb andb]; unfold MD; field. }
        split.
        -- intros c j Hc Hj c' j' Hc' Hj' N. rewrite C in Hc, Hc'. destruct (K c) as (_ & E1 & _), (K c') as (_ & E2 & _). rewrite E1 in Hj. rewrite E2 in Hj'. rewrite EV by assumption.
           destruct (Nat.eqb_spec c c') as [->|], (Nat.eqb_spec j j') as [->|]; cbn [andb]; try reflexivity. contradiction.
        -- intros c j Hc Hj. rewrite C in Hc. destruct (K c) as (_ & E1 & _). rewrite E1 in Hj. change (coupling w y MD J c j c j <> 0%R). rewrite EV by assumption. rewrite !Nat.eqb_refl. cbn [andb].
           destruct c as [|[|]]; lra.
      * intros b _. cbn. lra.
      * intros c g p _ _. exact I.
      * assert (EW : forall c k, who w c k = bT c k) by (intros c k; unfold who; now destruct (K c) as (_ & _ & _ & ->)).
        cbn [slip kP]. unfold pose_at. cbn [q_th]. rewrite !EW. cbn [bT vP]. split; [f_equal; lra|]. split; [reflexivity|f_equal; lra].
Qed.

(** nine calls of a tenth of a second bring the slip of the clutch from 6 to 3, that of the brake from -6 to -27/5 and that of the rotor from 6 to 57/10; eighteen calls stop the clutch *)
Lemma workshop_slows (t : timing) n : exists (w : world T) y w' y' q' v', shop nopriv kP gP 1%R MD w y qP vP /\
  calls_of Optimized (Some (1 / 10)%R : cl) (repeat t n) w y = Ok (w', y') /\ ends w' y q' v' /\
  (n = 9 -> slip (kP 1) (pose_at w v' 1) = Some 3%R /\ slip (kP 2) (pose_at w v' 2) = Some (- 27 / 5)%R /\ slip (kP 3) (pose_at w v' 3) = Some (57 / 10)%R) /\
  (n = 18 -> slip (kP 1) (pose_at w v' 1) = Some 0%R).
Proof.
  destruct workshop as (w & y & SH & AP & HM & C & U & S1 & S2 & S3).
  destruct (slip_calls nopriv kP gP (1 / 10)%R 1%R MD ltac:(lra) (repeat t n) w y qP vP SH AP HM) as (w' & y' & q' & v' & E & En & SL).
  exists w, y, w', y', q', v'. split; [exact SH|]. split; [exact E|]. split; [exact En|]. rewrite repeat_length in SL.
  destruct (SL 1 (-5)%R 5%R 6%R ltac:(rewrite C; cbn; auto) (U 1) eq_refl ltac:(lra) S1) as (s1 & E1 & X1 & _).
  destruct (SL 2 (-3)%R 2%R (-6)%R ltac:(rewrite C; cbn; auto) (U 2) eq_refl ltac:(lra) S2) as (s2 & E2 & _ & X2).
  destruct (SL 3 (-1)%R 1%R 6%R ltac:(rewrite C; cbn; auto) (U 3) eq_refl ltac:(lra) S3) as (s3 & E3 & X3 & _).
  rewrite E1, E2, E3, X1, X2, X3 by lra. unfold give, kP, MD.
  split; [intros ->|intros ->]; rewrite INR_IZR_INZ; cbn [Z.of_nat Pos.of_succ_nat Pos.succ]; [split; [|split]|]; f_equal; unfold Rmax, Rmin; destruct (Rle_dec _ _); lra.
Qed.
End S.
