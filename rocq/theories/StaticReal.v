(** * A system at rest whose forces are balanced by its constraints. *)

From Coq Require Import Reals Lra.
From Verif Require Import Base Targets Matrix Sparse Sle State Ode Forces Constraints System Logic RealSum SpecMatrix SpecState SpecForces ForceFacts ForceReal SpecCon ConFacts SleHist
  SpecSys RegFacts SysInv SpecDyn DynState DynReact DynRound DynStep SpecSolve SolveReal SolveStep SpecLaw LawReal LawStep SpecMom MomForce MomStep SpecSub SubOde SubRun SpecLeast LeastReal
  LeastStep LeastPart SpecStatic.
Local Open Scope nat_scope.

Section S.
Context {dbg : bool}.
Notation T := (RT dbg).
Notation cl := (cell T).
Implicit Types (w : world T) (y : sys T) (K : kin T).
Variable priv : nat -> bool.

Lemma along_rest w J c j : along w J rest c j = 0%R.
Proof. unfold along. apply Rsum_eq0. intros k _. apply Rsum_eq0. intros d _. unfold rest. ring. Qed.

(** the generators have one force only *)
Lemma pushes_once k m w y h f f' : yreach k priv m w y -> shaped w y -> pushesR w y (kin_of w) h f -> pushesR w y (kin_of w) h f' ->
  forall b d, In b (y_bodies y) -> d < 3 -> f b d = f' b d.
Proof.
  intros H HS P P' b d Hb Hd. pose proof (yreach_inv priv _ m w y H) as (_ & Hs & _).
  pose proof (populate_state_presents w y Hs HS) as W. unfold wp in W. destruct (populate_state w y) as [s| | |]; try contradiction. destruct W as (h0 & W).
  apply (presents_dt w y (kin_of w) h0 (Some h : cl)) in W. destruct (P _ W) as (s1 & E1 & F1), (P' _ W) as (s2 & E2 & F2). rewrite E1 in E2. injection E2 as <-.
  destruct (In_nth_error _ _ Hb) as (i & Hi). pose proof (F1 i b d Hi Hd) as A. rewrite (F2 i b d Hi Hd) in A. injection A as A. now symmetry.
Qed.

Section Step.
Variables (k : flavour) (z : scheme) (kc : nat -> rkind) (kg : nat -> rgen) (dt beta : R) (M : nat -> nat -> R).
Hypothesis Ndt : dt <> 0%R.

Lemma rest_step t w y q f x : side priv k z kc kg beta M w y q rest -> regular w y M (Jat w kc q) -> met w y kc q ->
  pushesR w y (kin_of w) dt f -> balanced w y (Jat w kc q) f x ->
  exists w' y', process k (Some dt : cl) 1 t w y = Ok (w', y') /\ ends w' y q rest /\
    (k = Optimized -> reportsR w w' y (fun d c j p => Jat w kc q c j (3 * p + d)%nat * x c j)%R).
Proof.
  intros [(m & H) U (g & L) A HK HG B N E Q] HR HC HP HX.
  set (Jd := fun c j i => Jd_of (kc c) (pose_at w q c) (pose_at w rest c) j i). set (C := fun c j => C_of (kc c) (pose_at w q c) j).
  pose proof (reg_listed _ _ _ (yreach_reg _ _ _ _ _ H)) as HL.
  assert (HM : forall b d, In b (y_bodies y) -> d < 3 -> M b d <> 0%R) by (intros b d Hb Hd; apply (Q b d Hb Hd)).
  destruct (ge_step priv k z m dt t w y g beta q rest M f kc (Jat w kc q) Jd C H U L A HK (gens_gentle _ _ _ HG) B N Ndt E Q HP HR)
    as (w' & y' & u & x1 & P & En & AL & EQ); [intros c j Hc Hj; repeat split|].
  assert (AL0 : allowed w y (Jat w kc q) (wanted k w kc rest (Jat w kc q) Jd C beta dt) rest).
  { intros c j Hc Hj. rewrite along_rest. destruct (HC c j Hc Hj) as [C1 C2]. unfold wanted. fold (C c j) in C1. rewrite C1. destruct k; [rewrite C2|rewrite !along_rest]; ring. }
  assert (EQ0 : forall b d, In b (y_bodies y) -> d < 3 -> (M b d * (rest b d - start k M f rest dt b d) = acts w y (Jat w kc q) x b d * tau k dt)%R).
  { intros b d Hb Hd. pose proof (HX b d Hb Hd) as X. replace (acts w y (Jat w kc q) x b d) with (- f b d)%R by lra. unfold start, SpecLeast.unbound, tau, rest. destruct k; field; now apply HM. }
  destruct (only_one w y (Jat w kc q) M (wanted k w kc rest (Jat w kc q) Jd C beta dt) (tau k dt) (start k M f rest dt) x1 x u rest) as [EX EU]; auto.
  { unfold tau. destruct k; [exact Ndt|lra]. }
  exists w', y'. split; [exact P|]. split.
  - intros b d Hb Hd. destruct (En b d Hb Hd) as [X1 X2]. rewrite X1, X2. unfold newq, newv. rewrite (EU b d Hb Hd). unfold rest. split; destruct k; try destruct z; f_equal; ring.
  - intros Ek. subst k.
    pose proof (kinds_answer w y kc (kin_of w) (Some dt : cl) q rest HL A HK ltac:(intros b d Hb Hd; destruct (Q b d Hb Hd) as (X1 & X2 & _); now split)) as HW.
    destruct (opt_ge_step priv m dt t w y g beta q rest M f (law_R w kc q rest) (Jat w kc q) C (fun c j => bias_of (kc c)) H L A (kinds_shaped w y kc HK) (gens_gentle _ _ _ HG) B N Ndt E Q HW
      ltac:(intros c j _ _ i _; reflexivity) ltac:(intros c j _ _; reflexivity) ltac:(intros c j _ _; reflexivity) HP HR) as (w2 & y2 & v2 & x2 & P2 & En2 & _ & EM2 & RP).
    rewrite P in P2. injection P2 as <- <-.
    assert (EV : forall b d, In b (y_bodies y) -> d < 3 -> v2 b d = 0%R).
    { intros b d Hb Hd. destruct (En b d Hb Hd) as [_ X2], (En2 b d Hb Hd) as [_ Y2]. rewrite X2 in Y2. unfold newv in Y2. rewrite (EU b d Hb Hd) in Y2. now injection Y2 as <-. }
    assert (EX2 : every_row w y (fun c j => x2 c j - x c j = 0)%R).
    { apply HR. intros c j Hc Hj. rewrite (along_ext w _ _ rest); [apply along_rest|]. intros p d Hp Hd. destruct (A c p Hc Hp) as (b & Eb & Ib). unfold who. rewrite Eb.
      rewrite acts_minus. pose proof (EM2 b d Ib Hd) as X. rewrite (EV b d Ib Hd) in X. unfold rest in *. pose proof (HX b d Ib Hd) as Y.
      assert (Z1 : ((f b d + acts w y (Jat w kc q) x2 b d) * dt = 0)%R) by (rewrite <- X; ring). apply Rmult_integral in Z1. destruct Z1 as [Z1|Z1]; [|contradiction].
      replace (acts w y (Jat w kc q) x2 b d - acts w y (Jat w kc q) x b d)%R with 0%R by lra. unfold Rdiv. apply Rmult_0_l. }
    intros c j p d Hc Hj Hp Hd. rewrite (RP c j p d Hc Hj Hp Hd). pose proof (EX2 c j Hc Hj) as X. cbv beta in X. do 2 f_equal. lra.
Qed.

(** the same forces in another world where the bodies are at the same place *)
Lemma pushes_moved m w y q v f w' y' t : yreach k priv m w y -> bodies_are w y q v M -> kinds_are w y kc -> gens_are w y kg -> pushesR w y (kin_of w) dt f ->
  process k (Some dt : cl) 1 t w y = Ok (w', y') -> side priv k z kc kg beta M w' y' q v -> pushesR w' y' (kin_of w') dt f.
Proof.
  intros H Q HK HG HP P SD'. pose proof (reg_listed _ _ _ (yreach_reg _ _ _ _ _ H)) as HL. destruct (sd_reach SD') as (m' & H').
  pose proof (reg_listed _ _ _ (yreach_reg _ _ _ _ _ H')) as HL'. pose proof (gens_push w' y' kg dt q v M HL' (sd_are SD') (sd_gens SD')) as X.
  pose proof (process_alone _ _ _ _ _ _ _ _ P) as ((E1 & _ & E3 & _) & _).
  intros s Hs. destruct (X s Hs) as (s' & Es & F). exists s'. split; [exact Es|]. intros i b d Hi Hd. rewrite (F i b d Hi Hd). f_equal. f_equal. rewrite E3.
  symmetry. apply (pushes_once k m w y dt f _ H (kinds_shaped w y kc HK) HP (gens_push w y kg dt q v M HL Q HG)); [|exact Hd]. rewrite <- E1. now apply nth_error_In in Hi.
Qed.
Lemma acts_moved w y w' y' t q x b d : process k (Some dt : cl) 1 t w y = Ok (w', y') -> acts w' y' (Jat w' kc q) x b d = acts w y (Jat w kc q) x b d.
Proof.
  intros P. pose proof (process_alone _ _ _ _ _ _ _ _ P) as ((_ & E2 & _) & _ & Fc & _). unfold acts.
  assert (ES : slots w' y' = slots w y).
  { unfold slots. rewrite E2. apply flat_map_ext. intros c. destruct (Fc c) as (_ & _ & -> & _ & -> & _). reflexivity. }
  rewrite ES. apply Lsum_ext. intros [[c j] p] _. assert (EB : binds w' b (c, j, p) = binds w b (c, j, p)) by (unfold binds; destruct (Fc c) as (_ & _ & _ & -> & _); reflexivity).
  rewrite EB. destruct (binds w b (c, j, p)); [|reflexivity]. f_equal. unfold Jat. apply J_ext. intros p'. unfold pose_at, who. now destruct (Fc c) as (_ & _ & _ & -> & _).
Qed.
Lemma along_moved w y w' y' t q u c j : process k (Some dt : cl) 1 t w y = Ok (w', y') -> along w' (Jat w' kc q) u c j = along w (Jat w kc q) u c j.
Proof.
  intros P. pose proof (process_alone _ _ _ _ _ _ _ _ P) as (_ & _ & Fc & _). destruct (Fc c) as (_ & _ & E3 & E4 & _). unfold along. rewrite E3.
  apply Rsum_ext. intros p _. apply Rsum_ext. intros d _. unfold Jat, pose_at, who. now rewrite E4.
Qed.
Lemma rest_calls : forall ts w y q f x, side priv k z kc kg beta M w y q rest -> regular w y M (Jat w kc q) -> met w y kc q ->
  pushesR w y (kin_of w) dt f -> balanced w y (Jat w kc q) f x ->
  exists w' y', calls_of k (Some dt : cl) ts w y = Ok (w', y') /\ ends w' y q rest /\
    (k = Optimized -> ts <> [] -> reportsR w w' y (fun d c j p => Jat w kc q c j (3 * p + d)%nat * x c j)%R).
Proof.
  induction ts as [|t ts IH]; intros w y q f x SD HR HC HP HX.
  { exists w, y. split; [reflexivity|]. split; [exact (are_ends _ _ _ _ _ (sd_are SD))|]. now intros _ []. }
  destruct (rest_step t w y q f x SD HR HC HP HX) as (w1 & y1 & P & En & RP). destruct (side_next priv k z kc kg beta M w y q rest _ t w1 y1 q rest SD P En) as (SD1 & _).
  pose proof (process_alone _ _ _ _ _ _ _ _ P) as ((E1 & E2 & E3 & _) & _ & Fc & _). destruct (sd_reach SD) as (m & H).
  assert (RW : forall Q : nat -> nat -> Prop, every_row w y Q -> every_row w1 y1 Q).
  { intros Q HQ c j Hc Hj. rewrite E2 in Hc. destruct (Fc c) as (_ & _ & _ & _ & F5 & _). rewrite F5 in Hj. now apply HQ. }
  assert (RW' : forall Q : nat -> nat -> Prop, every_row w1 y1 Q -> every_row w y Q).
  { intros Q HQ c j Hc Hj. rewrite <- E2 in Hc. destruct (Fc c) as (_ & _ & _ & _ & F5 & _). rewrite <- F5 in Hj. now apply HQ. }
  assert (EP : forall c p, pose_at w1 q c p = pose_at w q c p) by (intros c p; unfold pose_at, who; now destruct (Fc c) as (_ & _ & _ & -> & _)).
  destruct (IH w1 y1 q f x SD1) as (w' & y' & C & En' & RP').
  - intros x0 Hx. apply RW. apply HR. intros c j Hc Hj. apply RW' in Hx. rewrite <- (Hx c j Hc Hj). rewrite (along_moved _ _ _ _ _ q _ c j P). apply along_ext.
    intros p d _ _. now rewrite (acts_moved _ _ _ _ _ q x0 _ d P).
  - apply RW. intros c j Hc Hj. destruct (HC c j Hc Hj) as [X1 X2]. split; [|exact X2]. rewrite <- X1. apply C_ext. apply EP.
  - exact (pushes_moved m w y q rest f w1 y1 t H (sd_are SD) (sd_kinds SD) (sd_gens SD) HP P SD1).
  - intros b d Hb Hd. rewrite (acts_moved _ _ _ _ _ q x b d P). rewrite E1 in Hb. now apply HX.
  - exists w', y'. cbn [calls_of]. rewrite P. cbn [bind]. split; [exact C|]. split; [intros b d Hb Hd; apply En'; [now rewrite E1|exact Hd]|]. intros Ek _.
    destruct ts as [|t' ts].
    + cbn [calls_of] in C. injection C as <- <-. now apply RP.
    + intros c j p d Hc Hj Hp Hd. rewrite <- E2 in Hc. destruct (Fc c) as (_ & _ & F3 & _ & F5 & _). rewrite <- F5 in Hj. rewrite <- F3 in Hp.
      rewrite (RP' Ek ltac:(discriminate) c j p d Hc Hj Hp Hd). do 2 f_equal. unfold Jat. apply J_ext. apply EP.
Qed.
(** and if a call leaves the bodies at rest, the constraints balance the forces *)
Lemma rest_only t w y q f w' y' q' : side priv k z kc kg beta M w y q rest -> regular w y M (Jat w kc q) ->
  pushesR w y (kin_of w) dt f -> process k (Some dt : cl) 1 t w y = Ok (w', y') -> ends w' y q' rest ->
  exists x, balanced w y (Jat w kc q) f x /\ (k = Optimized -> reportsR w w' y (fun d c j p => Jat w kc q c j (3 * p + d)%nat * x c j)%R).
Proof.
  intros [(m & H) U (g & L) A HK HG B N E Q] HR HP P En0. pose proof (reg_listed _ _ _ (yreach_reg _ _ _ _ _ H)) as HL.
  assert (HM : forall b d, In b (y_bodies y) -> d < 3 -> M b d <> 0%R) by (intros b d Hb Hd; apply (Q b d Hb Hd)).
  pose proof (kinds_answer w y kc (kin_of w) (Some dt : cl) q rest HL A HK ltac:(intros b d Hb Hd; destruct (Q b d Hb Hd) as (X1 & X2 & _); now split)) as HW.
  set (Jd := fun c j i => Jd_of (kc c) (pose_at w q c) (pose_at w rest c) j i). set (C := fun c j => C_of (kc c) (pose_at w q c) j).
  destruct k.
  - destruct (opt_ge_step priv m dt t w y g beta q rest M f (law_R w kc q rest) (Jat w kc q) C (fun c j => bias_of (kc c)) H L A (kinds_shaped w y kc HK) (gens_gentle _ _ _ HG) B N Ndt E Q HW
      ltac:(intros c j _ _ i _; reflexivity) ltac:(intros c j _ _; reflexivity) ltac:(intros c j _ _; reflexivity) HP HR) as (w2 & y2 & v2 & x2 & P2 & En2 & _ & EM2 & RP).
    rewrite P in P2. injection P2 as <- <-. exists x2. split; [|intros _; exact RP]. intros b d Hb Hd.
    destruct (En0 b d Hb Hd) as [_ X2], (En2 b d Hb Hd) as [_ Y2]. rewrite X2 in Y2. injection Y2 as Y2. pose proof (EM2 b d Hb Hd) as X. rewrite <- Y2 in X. unfold rest in X.
    assert (Z1 : ((f b d + acts w y (Jat w kc q) x2 b d) * dt = 0)%R) by (rewrite <- X; ring). apply Rmult_integral in Z1. destruct Z1 as [Z1|Z1]; [exact Z1|contradiction].
  - destruct (gen_ge_step priv z m dt t w y g q rest M f (law_R w kc q rest) (Jat w kc q) Jd C (fun c j => ks_of (kc c) j) (fun c j => kd_of (kc c) j) H U L A (kinds_shaped w y kc HK) (kinds_parties w y kc HK)
      (gens_gentle _ _ _ HG) B N Q HW ltac:(intros c j _ _ i _; reflexivity) ltac:(intros c j _ _ i _; reflexivity) ltac:(intros c j _ _; reflexivity)
      ltac:(intros c j _ _; reflexivity) ltac:(intros c j _ _; reflexivity) HP HR) as (w2 & y2 & a & x & P2 & En2 & _ & EM).
    rewrite P in P2. injection P2 as <- <-. exists x. split; [|discriminate]. intros b d Hb Hd.
    destruct (En0 b d Hb Hd) as [_ X2], (En2 b d Hb Hd) as [_ Y2]. rewrite X2 in Y2. injection Y2 as Y2. unfold rest in Y2. assert (Z1 : (a b d * dt = 0)%R) by lra.
    apply Rmult_integral in Z1. destruct Z1 as [Z1|Z1]; [|contradiction]. rewrite <- (EM b d Hb Hd), Z1. ring.
Qed.
End Step.
End S.
