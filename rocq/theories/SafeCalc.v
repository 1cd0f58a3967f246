(** * What the library's constraints compute is determinate. *)

From Coq Require Import Reals.
From Verif Require Import Base Matrix Sle State Ode Forces Constraints System Logic SpecSle SpecState SpecSys SpecDyn
  SpecCon DynReact SpecSafe.
From Verif Require GeHist ConReal.
Local Open Scope nat_scope.

Section S.
Context {tg : target}.
Hypothesis TA : total_arithmetic tg.
Implicit Types (w : world tg) (y : sys tg) (K : kin tg).

Lemma defined_sin (x : cell tg) : defined x -> defined (csin x).
Proof. destruct TA as (_ & _ & H & _). destruct x as [x|]; intros E; [|now destruct E]. destruct (H x) as [z Ez]. unfold csin. cbn. rewrite Ez. discriminate. Qed.
Lemma defined_cos (x : cell tg) : defined x -> defined (ccos x).
Proof. destruct TA as (_ & _ & _ & H). destruct x as [x|]; intros E; [|now destruct E]. destruct (H x) as [z Ez]. unfold ccos. cbn. rewrite Ez. discriminate. Qed.
Lemma defined_sqrt (x : cell tg) : defined x -> defined (csqrt x).
Proof. destruct TA as (_ & H & _ & _). destruct x as [x|]; intros E; [|now destruct E]. destruct (H x) as [z Ez]. unfold csqrt. cbn. rewrite Ez. discriminate. Qed.
Lemma defined_over (x y : cell tg) : defined x -> defined y -> defined (cdiv x y).
Proof. destruct TA as (H & _). now apply GeHist.defined_div. Qed.
Lemma defined_max : defined (cdblmax : cell tg).
Proof. discriminate. Qed.
Lemma all_set_cons (x : cell tg) l : all_set (x :: l) -> defined x /\ all_set l.
Proof. intros H. split; [apply H; now left|]. intros z Hz. apply H. now right. Qed.

Definition kin_set y K : Prop :=
  forall b d, In b (y_bodies y) -> d < 3 -> defined (k_q K b d) /\ defined (k_v K b d) /\ defined (k_a K b d).

(** rows of an output which are determinate *)
Definition rows_set n m (o : output tg) : Prop :=
  forall r, r < n -> defined (o_C o r) /\ defined (o_vbias o r) /\ defined (o_ks o r) /\ defined (o_kd o r) /\
    (forall i, i < 2 -> defined (o_limits o r i)) /\
    (forall i, i < 3 * m -> defined (o_J o r i) /\ defined (o_Jdot o r i)).

Lemma body_reads w y K h h' (s s' : sstate tg) c k : listed w y -> attached w y -> presents w y K h s -> presents w y K h' s' ->
  In c (y_cons y) -> k < c_bodycount (w_con w c) -> exists b i, In b (y_bodies y) /\
    con_body_index (w_body w) (c_bodies (w_con w c)) k = Ok i /\
    (forall d, d < 3 -> ld s (posf d) i = Ok (k_q K b d) /\ ld s (velf d) i = Ok (k_v K b d)) /\
    (forall d, d < 3 -> ld s' (posf d) i = Ok (k_q K b d) /\ ld s' (velf d) i = Ok (k_v K b d)).
Proof.
  intros [HL _] HA (_ & _ & _ & _ & P) (_ & _ & _ & _ & P') Hc Hk. destruct (HA c k Hc Hk) as (b & Eb & Hb). exists b.
  destruct (In_nth_error _ _ Hb) as [i Ei]. exists (Z.of_nat i). split; [exact Hb|]. split; [|split].
  - unfold con_body_index. rewrite Eb. cbn [deref bind]. f_equal. now apply HL.
  - intros d Hd. destruct (P i b Ei) as [_ Q]. destruct (Q d Hd) as (A & B & _). auto.
  - intros d Hd. destruct (P' i b Ei) as [_ Q]. destruct (Q d Hd) as (A & B & _). auto.
Qed.

Ltac small r := destruct r as [|[|[|[|[|[|]]]]]]; try lia.
Ltac dd := repeat first [apply GeHist.defined_cofZ|assumption|apply defined_max|apply GeHist.defined_add|apply GeHist.defined_sub|
  apply GeHist.defined_mul|apply GeHist.defined_opp|apply defined_sin|apply defined_cos].
Ltac rows1 := let r := fresh "r" in let Hr := fresh "Hr" in intros r Hr; small r; cbn [write_out o_C o_J o_Jdot o_vbias o_limits o_ks o_kd];
  ((split; [|split; [|split; [|split; [|split]]]]);
  [| | | |let i := fresh "i" in let Hi := fresh "Hi" in intros i Hi; small i|let i := fresh "i" in let Hi := fresh "Hi" in intros i Hi; small i; split]);
  cbn [wr1 wr2 nth_error List.nth_error no_limits]; dd.
Ltac params H := cbn [pars_set] in H; repeat (apply all_set_cons in H; let X := fresh "X" in destruct H as [X H]).

Lemma calc_set w y K h h' (s s' : sstate tg) c o : listed w y -> attached w y -> presents w y K h s -> presents w y K h' s' ->
  In c (y_cons y) -> con_set (w_con w c) -> kin_set y K ->
  exists o', calculate (w_body w) (w_con w c) o s = Ok o' /\ calculate (w_body w) (w_con w c) o s' = Ok o' /\
    rows_set (c_count (w_con w c)) (c_bodycount (w_con w c)) o'.
Proof.
  intros HL HA HP HP' Hc [CC PS] HK.
  assert (B : forall k, k < c_bodycount (w_con w c) -> exists i q0 q1 q2 v0 v1 v2,
    con_body_index (w_body w) (c_bodies (w_con w c)) k = Ok i /\
    (ld s Fpx i = Ok q0 /\ ld s Fpy i = Ok q1 /\ ld s Ftheta i = Ok q2 /\ ld s Fvx i = Ok v0 /\ ld s Fvy i = Ok v1 /\ ld s Fvtheta i = Ok v2) /\
    (ld s' Fpx i = Ok q0 /\ ld s' Fpy i = Ok q1 /\ ld s' Ftheta i = Ok q2 /\ ld s' Fvx i = Ok v0 /\ ld s' Fvy i = Ok v1 /\ ld s' Fvtheta i = Ok v2) /\
    defined q0 /\ defined q1 /\ defined q2 /\ defined v0 /\ defined v1 /\ defined v2).
  { intros k Hk. destruct (body_reads w y K h h' s s' c k HL HA HP HP' Hc Hk) as (b & i & Hb & Ei & R & R').
    exists i, (k_q K b 0), (k_q K b 1), (k_q K b 2), (k_v K b 0), (k_v K b 1), (k_v K b 2).
    pose proof (R 0 ltac:(lia)) as [? ?]. pose proof (R 1 ltac:(lia)) as [? ?]. pose proof (R 2 ltac:(lia)) as [? ?].
    pose proof (R' 0 ltac:(lia)) as [? ?]. pose proof (R' 1 ltac:(lia)) as [? ?]. pose proof (R' 2 ltac:(lia)) as [? ?].
    pose proof (HK b 0 Hb ltac:(lia)) as (? & ? & _). pose proof (HK b 1 Hb ltac:(lia)) as (? & ? & _). pose proof (HK b 2 Hb ltac:(lia)) as (? & ? & _).
    cbn [posf velf] in *. tauto. }
  unfold calculate. clear HP HP' HK.
  destruct (c_kind (w_con w c)) as [|p|p|p|p|p|p|p|p|p|]; try discriminate; injection CC as C1 C2; rewrite <- C1, <- C2 in *; params PS.
  - destruct (B 0 ltac:(lia)) as (i & q0 & q1 & q2 & v0 & v1 & v2 & -> & (A0 & A1 & A2 & A3 & A4 & A5) & (A0' & A1' & A2' & A3' & A4' & A5') & D0 & D1 & D2 & D3 & D4 & D5).
    cbn [bind]. unfold fp_calculate. rewrite A0, A1, A2, A5, A0', A1', A2', A5'. cbn [bind]. cbv zeta. eexists. split; [reflexivity|]. split; [reflexivity|]. rows1.
  - destruct (B 0 ltac:(lia)) as (i & q0 & q1 & q2 & v0 & v1 & v2 & -> & (A0 & A1 & A2 & A3 & A4 & A5) & (A0' & A1' & A2' & A3' & A4' & A5') & D0 & D1 & D2 & D3 & D4 & D5).
    cbn [bind]. unfold line_calculate. rewrite A0, A1, A2, A5, A0', A1', A2', A5'. cbn [bind]. cbv zeta. eexists. split; [reflexivity|]. split; [reflexivity|]. rows1.
  - destruct (B 0 ltac:(lia)) as (i & q0 & q1 & q2 & v0 & v1 & v2 & -> & (A0 & A1 & A2 & A3 & A4 & A5) & (A0' & A1' & A2' & A3' & A4' & A5') & D0 & D1 & D2 & D3 & D4 & D5).
    destruct (B 1 ltac:(lia)) as (j & r0 & r1 & r2 & u0 & u1 & u2 & -> & (F0 & F1 & F2 & F3 & F4 & F5) & (F0' & F1' & F2' & F3' & F4' & F5') & G0 & G1 & G2 & G3 & G4 & G5).
    cbn [bind]. unfold link_calculate. rewrite A0, A1, A2, A5, A0', A1', A2', A5', F0, F1, F2, F5, F0', F1', F2', F5'. cbn [bind]. cbv zeta. eexists. split; [reflexivity|]. split; [reflexivity|]. rows1.
  - destruct (B 0 ltac:(lia)) as (i & q0 & q1 & q2 & v0 & v1 & v2 & -> & (A0 & A1 & A2 & A3 & A4 & A5) & (A0' & A1' & A2' & A3' & A4' & A5') & D0 & D1 & D2 & D3 & D4 & D5).
    destruct (B 1 ltac:(lia)) as (j & r0 & r1 & r2 & u0 & u1 & u2 & -> & (F0 & F1 & F2 & F3 & F4 & F5) & (F0' & F1' & F2' & F3' & F4' & F5') & G0 & G1 & G2 & G3 & G4 & G5).
    cbn [bind]. unfold rolling_calculate. rewrite A0, A1, A2, A3, A4, A5, A0', A1', A2', A3', A4', A5', F0, F1, F2, F3, F4, F0', F1', F2', F3', F4'. cbn [bind]. cbv zeta. eexists. split; [reflexivity|]. split; [reflexivity|]. rows1.
  - destruct (B 0 ltac:(lia)) as (i & q0 & q1 & q2 & v0 & v1 & v2 & -> & (A0 & A1 & A2 & A3 & A4 & A5) & (A0' & A1' & A2' & A3' & A4' & A5') & D0 & D1 & D2 & D3 & D4 & D5).
    cbn [bind]. unfold fr_calculate. rewrite A2, A2'. cbn [bind]. cbv zeta. eexists. split; [reflexivity|]. split; [reflexivity|]. rows1.
  - eexists. split; [reflexivity|]. split; [reflexivity|]. unfold cr_calculate. rows1.
  - eexists. split; [reflexivity|]. split; [reflexivity|]. unfold clutch_calculate. rows1.
  - destruct (B 0 ltac:(lia)) as (i & q0 & q1 & q2 & v0 & v1 & v2 & -> & _). cbn [bind].
    eexists. split; [reflexivity|]. split; [reflexivity|]. unfold friction_calculate. rows1.
  - eexists. split; [reflexivity|]. split; [reflexivity|]. unfold gear_calculate. destruct (ge_neutral p); rows1.
Qed.

(** the law the constraints follow in the state s *)
Definition law_at w (s : sstate tg) : law tg :=
  let o c := match calculate (w_body w) (w_con w c) {| o_C := fun _ => cofZ 0; o_J := fun _ _ => cofZ 0; o_Jdot := fun _ _ => cofZ 0;
      o_vbias := fun _ => cofZ 0; o_limits := fun _ _ => cofZ 0; o_ks := fun _ => cofZ 0; o_kd := fun _ => cofZ 0 |} s with
    | Ok o => Some o | _ => None end in
  let g {A} (f : output tg -> A -> cell tg) c x := match o c with Some o => f o x | None => None end in
  mkLaw (g o_C) (fun c j i => g (fun o x => o_J o (fst x) (snd x)) c (j, i)) (fun c j i => g (fun o x => o_Jdot o (fst x) (snd x)) c (j, i))
    (g o_vbias) (g (fun o j => o_limits o j 0)) (g (fun o j => o_limits o j 1)) (g o_ks) (g o_kd).
(** a law whose values are determinate *)
Definition law_set w y (L : law tg) : Prop := forall c j, In c (y_cons y) -> j < c_count (w_con w c) ->
  defined (l_C L c j) /\ defined (l_vb L c j) /\ defined (l_lo L c j) /\ defined (l_hi L c j) /\ defined (l_ks L c j) /\ defined (l_kd L c j) /\
  forall i, i < 3 * c_bodycount (w_con w c) -> defined (l_J L c j i) /\ defined (l_Jd L c j i).

Lemma law_answers w y K h (s : sstate tg) : listed w y -> attached w y -> presents w y K h s ->
  (forall c, In c (y_cons y) -> con_set (w_con w c)) -> kin_set y K ->
  answers w y K h (law_at w s) /\ law_set w y (law_at w s).
Proof.
  intros HL HA HP HC HK.
  assert (G : forall c, In c (y_cons y) -> exists o0, (forall L, L = law_at w s -> 
     forall j, l_C L c j = o_C o0 j /\ l_vb L c j = o_vbias o0 j /\ l_lo L c j = o_limits o0 j 0 /\ l_hi L c j = o_limits o0 j 1 /\ l_ks L c j = o_ks o0 j /\ l_kd L c j = o_kd o0 j /\
      forall i, l_J L c j i = o_J o0 j i /\ l_Jd L c j i = o_Jdot o0 j i) /\
     rows_set (c_count (w_con w c)) (c_bodycount (w_con w c)) o0 /\
     forall s' o, presents w y K h s' -> exists o', calculate (w_body w) (w_con w c) o s' = Ok o' /\ same_rows (c_count (w_con w c)) (c_bodycount (w_con w c)) o' o0).
  { intros c Hc. pose proof (HC c Hc) as CS. destruct CS as [CC PS].
    set (oo := {| o_C := fun _ => cofZ 0; o_J := fun _ _ => cofZ 0; o_Jdot := fun _ _ => cofZ 0;
      o_vbias := fun _ => cofZ 0; o_limits := fun _ _ => cofZ 0; o_ks := fun _ => cofZ 0; o_kd := fun _ => cofZ 0 |} : output tg).
    destruct (calc_set w y K h h s s c oo HL HA HP HP Hc (HC c Hc) HK) as (o0 & E0 & _ & R0).
    exists o0. split; [|split; [exact R0|]].
    - intros L -> j. unfold law_at. cbn [l_C l_vb l_lo l_hi l_ks l_kd l_J l_Jd fst snd]. fold oo. rewrite E0. repeat split.
    - intros s' o HP'. destruct (calc_set w y K h h s s' c o HL HA HP HP' Hc (HC c Hc) HK) as (o' & E & E' & _).
      exists o'. split; [exact E'|]. pose proof (ConReal.own_output (w_body w) (w_con w c) o oo s _ _ CC) as X. rewrite E, E0 in X. exact X. }
  split.
  - intros s' HP' c o Hc. destruct (G c Hc) as (o0 & L0 & _ & X). destruct (X s' o HP') as (o' & E & S). exists o'. split; [exact E|].
    intros j Hj. destruct (L0 _ eq_refl j) as (A1 & A2 & A3 & A4 & A5 & A6 & A7). destruct (S j Hj) as (S1 & S2 & S3 & S4 & S5 & S6).
    rewrite A1, A2, A3, A4, A5, A6. repeat split; auto; try (apply S5; lia).
    + rewrite (proj1 (A7 i)). apply S6. lia.
    + rewrite (proj2 (A7 i)). apply S6. lia.
  - intros c j Hc Hj. destruct (G c Hc) as (o0 & L0 & R & _). destruct (L0 _ eq_refl j) as (A1 & A2 & A3 & A4 & A5 & A6 & A7).
    destruct (R j Hj) as (S1 & S2 & S3 & S4 & S5 & S6). rewrite A1, A2, A3, A4, A5, A6. repeat split; auto; try (apply S5; lia).
    + rewrite (proj1 (A7 i)). now apply S6.
    + rewrite (proj2 (A7 i)). now apply S6.
Qed.
End S.
