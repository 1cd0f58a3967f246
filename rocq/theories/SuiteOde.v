(** * The drivers of the integrator tests in exact arithmetic (C124). *)

From Coq Require Import Reals Lra.
From Verif Require Import Base Targets State Ode Logic Destroy SpecState StateFacts StateReal SpecOde OdeFacts OdeReal SpecCon SpecSuite Suite.
Local Open Scope nat_scope.

Section S.
Context {dbg : bool}.
Notation tg := (RT dbg).
Notation cl := (cell tg).

Definition stepe (e h : R) (a y : fld -> nat -> R) : fld -> nat -> R :=
  fun f i => match rate f with
             | Some r => match rate r with
                         | Some ac => y f i + h * y r i + h * h / 2 * (1 + e) * a ac i
                         | None => y f i + h * a r i
                         end
             | None => y f i
             end%R.
Definition inv (n : nat) (a y : fld -> nat -> R) (s : sstate tg) : Prop := exists c, shows_st s n c /\ mot n c y /\ accs n c a.

Lemma resized_dt (s : sstate tg) n c dt : shows_st s n c -> shows_st (st_with_dt s dt) n c.
Proof. exact (fun H => H). Qed.

Lemma euler_one n a y (s : sstate tg) (h : R) : inv n a y s -> exists s', euler_solve (Some h : cl) (st_with_dt s (Some h : cl)) = Ok s' /\ inv n a (stepe (-1) h a y) s'.
Proof.
  intros (c & SC & M & A). destruct (euler_steps _ n c (Some h : cl) (resized_dt s n c (Some h : cl) SC)) as (s' & E & S' & _).
  exists s'. split; [exact E|]. exists (euler_table (Some h : cl) c). split; [exact S'|]. split.
  - intros f i Hf Hi. unfold euler_table, stepe.
    destruct f; cbn [rate] in *; try (now destruct Hf); rewrite ?(M Fpx), ?(M Fpy), ?(M Ftheta), ?(M Fvx), ?(M Fvy), ?(M Fvtheta), ?(A Fax), ?(A Fay), ?(A Fatheta) by (auto; discriminate);
      rt_unfold; f_equal; lra.
  - intros f i Hf Hi. rewrite <- (A f i Hf Hi). destruct Hf as [->|[->| ->]]; reflexivity.
Qed.
Lemma nsv_one n a y (s : sstate tg) (h : R) : inv n a y s -> exists s', nsv_solve (Some h : cl) (st_with_dt s (Some h : cl)) = Ok s' /\ inv n a (stepe 1 h a y) s'.
Proof.
  intros (c & SC & M & A). destruct (nsv_steps _ n c (Some h : cl) (resized_dt s n c (Some h : cl) SC)) as (s' & E & S' & _).
  exists s'. split; [exact E|]. exists (nsv_table (Some h : cl) c). split; [exact S'|]. split.
  - intros f i Hf Hi. unfold nsv_table, stepe.
    destruct f; cbn [rate] in *; try (now destruct Hf); rewrite ?(M Fpx), ?(M Fpy), ?(M Ftheta), ?(M Fvx), ?(M Fvy), ?(M Fvtheta), ?(A Fax), ?(A Fay), ?(A Fatheta) by (auto; discriminate);
      rt_unfold; f_equal; lra.
  - intros f i Hf Hi. rewrite <- (A f i Hf Hi). destruct Hf as [->|[->| ->]]; reflexivity.
Qed.

(** ** One step of the Runge-Kutta solver without any evaluation in between *)
Section Run.
Variables (n : nat) (a : fld -> nat -> R) (h : R) (y : fld -> nat -> R) (I : sstate tg) (nc : nat).
Hypothesis HI : exists c0, shows_st I n c0 /\ mot n c0 y.

Record ainv (T : rk_stage) (r : rk4 tg) (s : sstate tg) (z b : fld -> nat -> R) : Prop := {
  ai_st : rk_st r = T;
  ai_dt : rk_dt r = (Some h : cl);
  ai_init : rk_init r = I;
  ai_acc : exists ca, shows_st (rk_acc r) n ca /\ mot n ca b;
  ai_sacc : sized (rk_acc r);
  ai_nacc : s_nc (rk_acc r) = nc;
  ai_s : sized s;
  ai_nc : s_nc s = nc;
  ai_inv : inv n a z s }.
Notation A := (fun _ : fld -> nat -> R => a).

Lemma round_a T r s z b : ainv T r s z b -> T <> Complete -> T <> Undefined ->
  let z1 := zstep A h y T z in let b1 := astep A h T z1 b in
  exists s1 r2 s2, rk4_step r s = Ok (with_next r, s1, match T with Stage4 => true | _ => false end) /\
    rk4_solve (with_next r) s1 = Ok (r2, s2) /\
    (T <> Stage4 -> ainv (next_stage T) r2 s2 z1 b1) /\
    (T = Stage4 -> inv n a b1 s2) /\
    sized s2 /\ s_n s2 = n /\ s_nc s2 = nc /\ rk_init r2 = I /\ sized (rk_acc r2) /\ s_n (rk_acc r2) = n /\ s_nc (rk_acc r2) = nc.
Proof.
  intros [ET Ed Ei (ca & SA & MA) ZA NA Zs Ns (c & SC & MC & AC)] N1 N2 z1 b1.
  destruct HI as (c0 & S0 & M0).
  destruct (rk4_step_spec r s n c0 c) as (s1 & E1 & S1 & Z1 & C1); [now rewrite Ei|exact SC|exact Zs|].
  rewrite ET in E1.
  pose proof (step_mot n A h y r c0 c z T ET Ed M0 MC (fun _ => AC) N1 N2) as M1. fold z1 in M1.
  assert (A1 : accs n (step_table r c0 c) a).
  { intros f i Hf Hi. rewrite <- (AC f i Hf Hi). unfold step_table. rewrite ET. destruct T; try reflexivity; destruct Hf as [->|[->| ->]]; reflexivity. }
  set (c1 := step_table r c0 c) in *.
  destruct (rk4_solve_spec (with_next r) s1 n ca c1 SA ZA ltac:(cbn; congruence) S1 Z1)
      as (r2 & s2 & Q1 & Q2 & Q3 & Q4 & Q5 & Q6 & Q7 & Q8 & Q9 & Q10).
  assert (MA2 : mot n (acc_table (with_next r) ca c1) b1).
  { apply (acc_mot n A h (with_next r) ca c1 z1 b T); auto. }
  exists s1, r2, s2. split; [exact E1|]. split; [exact Q1|].
  refine (conj _ (conj _ (conj Q9 (conj (proj1 Q8) (conj _ (conj _ (conj Q6 (conj (proj1 Q5) _)))))))).
  - intros N4. constructor.
    + rewrite Q3. cbn. now rewrite ET.
    + rewrite Q2. exact Ed.
    + rewrite Q4. exact Ei.
    + eauto.
    + exact Q6.
    + congruence.
    + exact Q9.
    + congruence.
    + exists c1. assert (X : emit_table (with_next r) ca c1 = c1).
      { unfold emit_table. cbn. rewrite ET. now destruct T. }
      rewrite X in Q8. split; [exact Q8|]. auto.
  - intros E4. exists (emit_table (with_next r) ca c1). split; [exact Q8|]. split.
    + apply (emit_mot n (with_next r) ca c1 T b1); [exact ET|exact E4|exact MA2].
    + intros f i Hf Hi. rewrite <- (A1 f i Hf Hi). unfold emit_table. cbn. rewrite ET, E4. destruct Hf as [->|[->| ->]]; reflexivity.
  - congruence.
  - rewrite Q4. exact Ei.
  - congruence.
Qed.

Lemma drive_a r s : ainv Stage1 r s y y -> sized I -> s_n I = n -> s_nc I = nc ->
  exists r' s', ode_rounds 5 (OdeRk4 r) s = Ok (OdeRk4 r', s') /\ inv n a (stepe 0 h a y) s' /\ sized s' /\ rk_fits (rk4_end r') s'.
Proof.
  intros H1 ZI NI CI.
  destruct (round_a _ _ _ _ _ H1) as (sa & r2 & s2 & A1 & A3 & A4 & _); try discriminate.
  specialize (A4 ltac:(discriminate)). cbn [next_stage] in A4.
  destruct (round_a _ _ _ _ _ A4) as (sb & r3 & s3 & B1 & B3 & B4 & _); try discriminate.
  specialize (B4 ltac:(discriminate)). cbn [next_stage] in B4.
  destruct (round_a _ _ _ _ _ B4) as (sc & r4 & s4 & C1 & C3 & C4 & _); try discriminate.
  specialize (C4 ltac:(discriminate)). cbn [next_stage] in C4.
  destruct (round_a _ _ _ _ _ C4) as (sd & r5 & s5 & D1 & D3 & _ & D4 & D5 & D6 & D7 & D8 & D9 & D10 & D11); try discriminate.
  specialize (D4 eq_refl). exists r5, s5.
  unfold ode_rounds, ode_step, ode_solve. rewrite A1. cbn [bind]. rewrite A3. cbn [bind].
  rewrite B1. cbn [bind]. rewrite B3. cbn [bind]. rewrite C1. cbn [bind]. rewrite C3. cbn [bind]. rewrite D1. cbn [bind]. rewrite D3. cbn [bind].
  split; [reflexivity|]. split; [|split; [exact D5|]].
  - destruct D4 as (c & S4 & M4 & A4'). exists c. split; [exact S4|]. split; [|exact A4'].
    intros f i Hf Hi. rewrite M4 by auto. f_equal. unfold astep, stepe, rhs. cbn [zstep weight]. unfold stage, rhs. destruct f; cbn [rate]; field.
  - split; (split; [cbn; first [rewrite D8; exact ZI|exact D9]|right; right; cbn]).
    + rewrite D8, NI, CI. auto.
    + rewrite D10, D11. auto.
Qed.
End Run.

Lemma rk_one n a y (r : rk4 tg) (s : sstate tg) (h : R) : 0 < n -> sized s -> rk_fits r s -> inv n a y s ->
  exists r1 r' s', rk4_start r s (Some h : cl) = Ok r1 /\ ode_rounds 5 (OdeRk4 r1) s = Ok (OdeRk4 r', s') /\ inv n a (stepe 0 h a y) s' /\ sized s' /\ rk_fits (rk4_end r') s'.
Proof.
  intros Hn Hs Hf (c & SC & MC & AC).
  destruct (rk4_start_spec r s n c (Some h : cl) Hf Hs Hn SC) as (r1 & E & D & T & I1 & A1 & ZI & ZA & NI & NA).
  destruct (drive_a n a h y (rk_init r1) (s_nc s)) with (r := r1) (s := s) as (r2 & s2 & E2 & S2 & Z2 & F2); auto.
  - eauto.
  - constructor; auto; eauto. exists c. auto.
  - apply I1.
  - exists r1, r2, s2. auto.
Qed.

(** ** Any number of steps *)
Definition good (o : ode tg) (s : sstate tg) (e : R) : Prop := scheme o s e /\ match o with OdeRk4 _ => sized s | _ => True end.
Lemma one n a y e (o : ode tg) s (h : R) : 0 < n -> good o s e -> inv n a y s ->
  exists o' s', (let* o1 := ode_start o s (Some h : cl) in let* (o2, s2) := ode_rounds 5 o1 s in Ok (ode_end o2, s2)) = Ok (o', s') /\
    good o' s' e /\ inv n a (stepe e h a y) s'.
Proof.
  intros Hn [Hg Hz] Hi. destruct o as [d|d|d|r]; cbn [scheme] in Hg; [destruct Hg| | |].
  - subst e. destruct (euler_one n a y s h Hi) as (s' & E & I'). exists (OdeEuler (Some h : cl)), s'.
    cbn [ode_start bind ode_rounds ode_step ode_solve]. rewrite E. cbn [bind ode_end]. split; [reflexivity|]. split; [split; [reflexivity|exact Logic.I]|exact I'].
  - subst e. destruct (nsv_one n a y s h Hi) as (s' & E & I'). exists (OdeNsv (Some h : cl)), s'.
    cbn [ode_start bind ode_rounds ode_step ode_solve]. rewrite E. cbn [bind ode_end]. split; [reflexivity|]. split; [split; [reflexivity|exact Logic.I]|exact I'].
  - destruct Hg as [-> Hf]. destruct (rk_one n a y r s h Hn Hz Hf Hi) as (r1 & r' & s' & E1 & E2 & I' & Z' & F'). exists (OdeRk4 (rk4_end r')), s'.
    cbn [ode_start]. rewrite E1. cbn [bind]. rewrite E2. cbn [bind ode_end]. split; [reflexivity|]. split; [split; [split; [reflexivity|exact F']|exact Z']|exact I'].
Qed.

(* k steps of size h *)
Definition after (e : R) (k : nat) (h : R) (a y : fld -> nat -> R) : fld -> nat -> R :=
  fun f i => match rate f with
             | Some r => match rate r with
                         | Some ac => y f i + INR k * h * y r i + INR k * (INR k + e) * (h * h) / 2 * a ac i
                         | None => y f i + INR k * h * a r i
                         end
             | None => y f i
             end%R.
Lemma inv_ext n a y y' (s : sstate tg) : (forall f i, rate f <> None -> y f i = y' f i) -> inv n a y s -> inv n a y' s.
Proof. intros E (c & S & M & A). exists c. split; [exact S|]. split; [|exact A]. intros f i Hf Hi. rewrite <- E by auto. auto. Qed.
Lemma many n a y e (h : R) (o : ode tg) s k : 0 < n -> good o s e -> inv n a y s ->
  exists o' s', for_ k (fun _ '(o, s) => let* o1 := ode_start o s (Some h : cl) in let* (o2, s2) := ode_rounds 5 o1 s in Ok (ode_end o2, s2)) (o, s) = Ok (o', s') /\
    good o' s' e /\ inv n a (after e k h a y) s'.
Proof.
  intros Hn Hg Hi.
  assert (X : wp (for_ k (fun _ '(o, s) => let* o1 := ode_start o s (Some h : cl) in let* (o2, s2) := ode_rounds 5 o1 s in Ok (ode_end o2, s2)) (o, s))
     (fun '(o, s) => good o s e /\ inv n a (after e k h a y) s)).
  { apply (for_inv _ (fun k '(o, s) => good o s e /\ inv n a (after e k h a y) s)).
    - split; [exact Hg|]. eapply inv_ext; [|exact Hi]. intros f i _. unfold after. cbn [INR]. destruct f; cbn [rate]; lra.
    - intros j [o1 s1] Hj [G1 I1]. destruct (one n a _ e o1 s1 h Hn G1 I1) as (o' & s' & E & G' & I'). rewrite E. cbn [wp].
      split; [exact G'|]. eapply inv_ext; [|exact I']. intros f i Hf. unfold stepe, after. rewrite S_INR. destruct f; cbn [rate] in *; try (now destruct Hf); field.
    - auto. }
  apply wp_ok in X. destruct X as ([o' s'] & E & G & I'). now exists o', s'.
Qed.

Lemma test_driver n a y e steps t (o : ode tg) s : 0 < n -> 0 < steps -> sized s -> scheme o s e -> shows_motion s n y -> under s n a ->
  exists s', ode_test_solve o steps (Some t : cl) s = Ok s' /\ s_n s' = n /\
    forall p v ac i, rate p = Some v -> rate v = Some ac -> i < n ->
      ld s' p (Z.of_nat i) = Ok (Some (fst (falls e steps t (a ac i) (y p i) (y v i))) : cl) /\
      ld s' v (Z.of_nat i) = Ok (Some (snd (falls e steps t (a ac i) (y p i) (y v i))) : cl).
Proof.
  intros Hn Hk Hs Hg Hm Ha.
  assert (N0 : INR steps <> 0%R) by (apply not_0_INR; lia).
  assert (D : cdiv (Some t : cl) (cofZ (Z.of_nat steps)) = (Some (t / INR steps)%R : cl)).
  { unfold cofZ. rt_unfold. cbn [n_ofZ RT]. rewrite <- INR_IZR_INZ. now apply Rdiv_some. }
  destruct (many n a y e (t / INR steps)%R o s steps Hn) as (o' & s' & E & [G _] & (c & [S1 S2] & M & A)).
  - split; [exact Hg|]. now destruct o.
  - exists (ldc s). split; [|split].
    + rewrite <- (proj1 Hm). now apply sized_shows.
    + intros f i Hf Hi. unfold ldc. now rewrite (proj2 Hm).
    + intros f i Hf Hi. unfold ldc. now rewrite Ha.
  - exists s'. unfold ode_test_solve. cbv zeta. rewrite D. rewrite E. cbn [bind].
    assert (DT : ode_dtor o' = Ok tt) by (destruct o'; reflexivity). rewrite DT. cbn [bind]. split; [reflexivity|]. split; [exact S1|].
    intros p v ac i Hp Hv Hi.
    assert (Rp : is_reaction p = false) by (destruct p; try reflexivity; discriminate Hp).
    assert (Rv : is_reaction v = false) by (destruct v; try reflexivity; discriminate Hv).
    rewrite (S2 p i Rp Hi), (S2 v i Rv Hi), (M p i), (M v i) by (auto; congruence).
    unfold after, falls. rewrite Hp, Hv. cbn [rate].
    assert (NA : rate ac = None) by (destruct p; inversion Hp; subst v; inversion Hv; reflexivity). rewrite NA. cbn [fst snd].
    split; do 2 f_equal; field; exact N0.
Qed.
End S.
