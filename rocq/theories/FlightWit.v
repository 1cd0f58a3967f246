(** * A body in free flight beside a held one. *)

From Coq Require Import Reals Lra.
From Verif Require Import Base Targets Matrix Sparse Sle State Ode Forces Constraints System Logic RealSum SpecMatrix SpecState SpecForces SpecCon ConFacts
  SpecSle SpecSys RegFacts RegWit SpecDyn DynState DynReact DynRound DynStep DynForce DynWit SpecLimits SpecSolve SolveReal SolveStep SolveWit SpecLaw LawReal LawStep Assemble SpecMom MomForce MomStep MomWit
  SpecSub SubRun SubWit SpecLeast LeastReal LeastStep LeastPart LeastGal LeastWit SpecTurn TurnReal TurnStep TurnWit SpecRk RkStep RkOwn SpecRkR RkReal RkWit SpecFlight FlightReal.
Local Open Scope nat_scope.

(** body 3 keeps its angle, nothing holds body 6, gravity acts on both *)
Definition gF (g : nat) : rgen := VGravity 10.
(** the weight of a body of mass 2 *)
Definition weightF (d : nat) : R := match d with 1 => (- 2 * (10 + 0))%R | _ => 0%R end.

Section S.
Context {dbg : bool}.
Notation T := (RT dbg).
Notation cl := (cell T).
Ltac nodup := repeat constructor; cbn; intuition lia.
Section Any.
Variables (w : world T) (y : sys T).
Hypotheses (HS : same_objects (wM MD kT gF qD vD) w) (B : y_bodies y = [3; 6]) (C : y_cons y = [3]) (G : y_gens y = [0]).
Lemma F_unbound : SpecDyn.unbound w y 6.
Proof.
  intros c p Hc Hp. rewrite C in Hc. destruct Hc as [<-|[]]. destruct (T_con MD kT gF qD vD w HS 3) as (_ & _ & _ & ->). cbn. congruence.
Qed.
Lemma F_kind g : g_kind (w_gen w g) = GGravity (Some 10%R : cl).
Proof. destruct HS as (_ & _ & E). now rewrite E. Qed.
Lemma F_steady : steady w y 6 weightF.
Proof.
  pose proof (gravity_steady w y 6 2%R (fun _ => 10%R)) as X. rewrite G in X. apply X.
  - intros g _. apply F_kind.
  - destruct HS as (E & _). now rewrite E.
Qed.
Lemma F_at : is_at w 6 (qD 6) (vD 6) (MD 6).
Proof.
  intros d Hd. destruct HS as (E & _). unfold b_pos, b_vel, b_mass. rewrite E. destruct d as [|[|[|]]]; try lia; cbn; repeat split; lra.
Qed.
Lemma F_in c p : In c (y_cons y) -> In (bT c p) (y_bodies y).
Proof. rewrite B, C. intros [<-|[]]. cbn. auto. Qed.
End Any.

Lemma flies_down k z (dt : R) t n : dt <> 0%R -> 0 < n -> let z := match k with Optimized => Symplectic | Generic => z end in
  exists m (w : world T) y w' y', yreach k nopriv m w y /\ attached w y /\ shaped w y /\ all_gentle w y /\ uses k z y /\
    process k (Some dt : cl) n t w y = Ok (w', y') /\ In 6 (y_bodies y) /\ SpecDyn.unbound w y 6 /\ steady w y 6 weightF /\ is_at w 6 (qD 6) (vD 6) (MD 6) /\ con_count y = 1 /\ y_gens y = [0] /\ g_kind (w_gen w 0) = GGravity (Some 10%R : cl).
Proof.
  intros Ndt Hn z'.
  destruct (scene (dbg := dbg) kT gF qD vD k z [3; 6] [3] [0]) as (m & w & y & H & D & HS & B & C & G); [nodup|nodup|nodup|cbn; lia|discriminate| |cbn; tauto|].
  { intros c p [<-|[]]. cbn. auto. }
  pose proof (fun c p => F_in y B C c p) as HB.
  assert (Ni : INR n <> 0%R) by (apply not_0_INR; lia).
  set (h := (dt / INR n)%R). assert (Nh : h <> 0%R) by (unfold h, Rdiv; apply Rmult_integral_contrapositive_currified; [exact Ndt|now apply Rinv_neq_0_compat]).
  assert (U : unsingular k (Some h : cl) (repeat t n) w y MD kT).
  { apply (T_unsingular gF qD vD k m w y); auto; [rewrite C; intros c [<-|[]]; lia|exact (sd_255 D)|exact (sd_gens D)]. }
  assert (PP : part_of w y w y) by (repeat split; auto; intros c p b X1 X2; contradiction).
  assert (GP : gens_part y y gF) by (split; auto; intros g b X1 X2; contradiction).
  destruct (part_calls nopriv k z' kT gF h 1%R MD Nh (repeat t n) (repeat t n) w y w y qD vD eq_refl D D PP GP U) as (w1 & y1 & _ & _ & _ & _ & E & _).
  assert (Ei : h = (dt / IZR (Z.of_nat (length (repeat t n))))%R) by (rewrite repeat_length, <- INR_IZR_INZ; reflexivity).
  destruct (sub_stepping_R dbg k nopriv dt t (repeat t n) m w y H) as [_ SR].
  - destruct n; [lia|discriminate].
  - intros g _. now rewrite (F_kind w HS).
  - intros c _. destruct (T_con MD kT gF qD vD w HS c) as (-> & _). destruct (kT c); exact I.
  - rewrite <- Ei in SR. destruct (SR w1 y1 E) as (w' & y' & P & _). rewrite repeat_length in P.
    exists m, w, y, w', y'. split; [exact H|]. split; [exact (sd_att D)|]. split; [exact (kinds_shaped w y kT (sd_kinds D))|]. split; [exact (gens_gentle w y gF (sd_gens D))|].
    split; [exact (sd_uses D)|]. split; [exact P|]. split; [rewrite B; cbn; auto|]. split; [now apply F_unbound|]. split; [now apply F_steady|]. split; [now apply F_at|].
    split; [unfold con_count; now rewrite C|]. split; [exact G|]. now apply F_kind.
Qed.
Lemma flies k z (dt : R) t n : dt <> 0%R -> 0 < n -> let z := match k with Optimized => Symplectic | Generic => z end in
  exists m (w : world T) y w' y', yreach k nopriv m w y /\ attached w y /\ shaped w y /\ all_gentle w y /\ uses k z y /\
    process k (Some dt : cl) n t w y = Ok (w', y') /\ In 6 (y_bodies y) /\ SpecDyn.unbound w y 6 /\ steady w y 6 weightF /\ is_at w 6 (qD 6) (vD 6) (MD 6) /\ con_count y = 1.
Proof.
  intros Ndt Hn. destruct (flies_down k z dt t n Ndt Hn) as (m & w & y & w' & y' & H). exists m, w, y, w', y'. tauto.
Qed.
Definition fF (b d : nat) : R := match d with 1 => (-20)%R | _ => 0%R end.
Lemma flies_rk (dt : R) t n : 0 < n ->
  exists m (w : world T) y w' y', yreach Generic nopriv m w y /\ attached w y /\ shaped w y /\ all_gentle w y /\ uses_rk y /\
    process Generic (Some dt : cl) n t w y = Ok (w', y') /\ In 6 (y_bodies y) /\ SpecDyn.unbound w y 6 /\ steady w y 6 weightF /\ is_at w 6 (qD 6) (vD 6) (MD 6) /\ con_count y = 1.
Proof.
  intros Hn.
  destruct (assembled_from (tg := T) nopriv Generic (wM MD kT gF qD vD) (SleGe geS) (OdeRk4 rk4_new) [3; 6] [3] [0]) as (m & w & y & H & HS & B & C & G & L & O & _ & _ & y0 & I0 & R0).
  - cbn. unfold ifree, sfree, nopriv. repeat split; lia.
  - nodup.
  - nodup.
  - nodup.
  - pose proof (reg_listed _ _ _ (yreach_reg _ _ _ _ _ H)) as HL. pose proof (fun c p => F_in y B C c p) as HB.
    pose proof (T_attached MD kT gF qD vD w y HS HB) as HA. pose proof (T_kinds MD kT gF qD vD w y HS) as HK.
    assert (HG : gens_are w y gF) by (apply (T_gens MD kT gF qD vD w y HS); intros g b _ []).
    assert (LO : lone nopriv y).
    { apply (lone_other nopriv y0); [|apply R0|apply R0]. eapply lone_initialize; [apply lone_created| |exact I0]. intros r E. now injection E as ->. }
    assert (HW : lawful w y MD (fun _ _ => fF) (J_is w kT) (Jd_is w kT) (C_is w kT) (fun _ _ c j => ks_of (kT c) j) (fun _ _ c j => kd_of (kT c) j)).
    { apply kinds_lawful; auto.
      - intros K h q v _ s HP. destruct (gravity_pushes w y K (Some h : cl) 0 (Some 10%R : cl) G (F_kind w HS 0) s HP) as (s' & E & Ls). exists s'. split; [exact E|].
        intros i b d Hi Hd. rewrite (Ls i b d Hi Hd). destruct HS as (F & _). rewrite F. destruct d as [|[|]]; cbn; try reflexivity. f_equal. f_equal. rr. unfold fF. lra.
      - intros q. apply (independent_regular w y); auto.
        + exact (kinds_shaped w y kT HK).
        + unfold body_count. rewrite B. cbn. lia.
        + intros b d _ Hd. destruct d as [|[|[|]]]; cbn; lra || lia.
        + apply (T_independent MD gF qD vD w y HS HB); [rewrite C; intros c [<-|[]]; lia|]. now destruct (reach_nodup nopriv _ _ _ _ H) as (_ & N & _). }
    destruct (stabilised_fourth nopriv m dt n t w y geS rk4_new qD vD MD _ _ _ _ _ _ H LO O L HA (kinds_shaped w y kT HK) (kinds_parties w y kT HK) (gens_gentle w y gF HG)
      ltac:(unfold body_count; rewrite B; cbn; lia) ltac:(rewrite C; discriminate) ltac:(rewrite B; discriminate) (T_bodies MD kT gF qD vD w y HS MD_heavy) HW Hn) as (w' & y' & _ & _ & _ & P & _).
    destruct (lone_rk nopriv m w y rk4_new H LO O) as (Z1 & Z2 & _).
    exists m, w, y, w', y'. split; [exact H|]. split; [exact HA|]. split; [exact (kinds_shaped w y kT HK)|]. split; [exact (gens_gentle w y gF HG)|].
    split; [exists rk4_new; auto|]. split; [exact P|]. split; [rewrite B; cbn; auto|]. split; [now apply F_unbound|]. split; [now apply F_steady|]. split; [now apply F_at|].
    unfold con_count. now rewrite C.
Qed.
End S.
