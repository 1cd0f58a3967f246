(** * Calls of length zero in the generic class. *)

From Coq Require Import Reals Lra.
From Verif Require Import Base Targets Matrix Sparse Sle State Ode Forces Constraints System Logic RealSum SpecMatrix SpecState SpecForces ForceFacts ForceReal SpecCon ConFacts SleHist
  SpecSys RegFacts SysInv SpecDyn DynState DynReact DynRound DynStep SpecSolve SolveReal SolveStep SpecLaw LawReal LawStep SpecMom MomForce MomStep SpecSub SubOde SubRun SpecLeast LeastReal
  LeastStep LeastPart SpecStatic StaticReal.
Local Open Scope nat_scope.

Section S.
Context {dbg : bool}.
Notation T := (RT dbg).
Notation cl := (cell T).
Implicit Types (w : world T) (y : sys T).
Variables (priv : nat -> bool) (z : scheme) (kc : nat -> rkind) (kg : nat -> rgen) (beta : R) (M : nat -> nat -> R).
Lemma no_time t w y q v : side priv Generic z kc kg beta M w y q v -> regular w y M (Jat w kc q) ->
  exists w' y', process Generic (Some 0%R : cl) 1 t w y = Ok (w', y') /\ ends w' y q v.
Proof.
  intros [(m & H) U (g & L) A HK HG B N E Q] HR. pose proof (reg_listed _ _ _ (yreach_reg _ _ _ _ _ H)) as HL.
  pose proof (kinds_answer w y kc (kin_of w) (Some 0%R : cl) q v HL A HK ltac:(intros b d Hb Hd; destruct (Q b d Hb Hd) as (X1 & X2 & _); now split)) as HW.
  destruct (gen_ge_step priv z m 0%R t w y g q v M _ (law_R w kc q v) (Jat w kc q) (fun c j i => Jd_of (kc c) (pose_at w q c) (pose_at w v c) j i) (fun c j => C_of (kc c) (pose_at w q c) j)
    (fun c j => ks_of (kc c) j) (fun c j => kd_of (kc c) j) H U L A (kinds_shaped w y kc HK) (kinds_parties w y kc HK)
    (gens_gentle _ _ _ HG) B N Q HW ltac:(intros c j _ _ i _; reflexivity) ltac:(intros c j _ _ i _; reflexivity) ltac:(intros c j _ _; reflexivity)
    ltac:(intros c j _ _; reflexivity) ltac:(intros c j _ _; reflexivity) (gens_push w y kg 0%R q v M HL Q HG) HR) as (w' & y' & a & x & P & En & _).
  exists w', y'. split; [exact P|]. intros b d Hb Hd. destruct (En b d Hb Hd) as [X1 X2]. rewrite X1, X2. split; f_equal; ring.
Qed.
Lemma no_time_calls : forall ts w y q v, side priv Generic z kc kg beta M w y q v -> regular w y M (Jat w kc q) ->
  exists w' y', calls_of Generic (Some 0%R : cl) ts w y = Ok (w', y') /\ ends w' y q v.
Proof.
  induction ts as [|t ts IH]; intros w y q v SD HR.
  { exists w, y. split; [reflexivity|]. exact (are_ends _ _ _ _ _ (sd_are SD)). }
  destruct (no_time t w y q v SD HR) as (w1 & y1 & P & En). destruct (side_next priv Generic z kc kg beta M w y q v _ t w1 y1 q v SD P En) as (SD1 & _).
  pose proof (process_alone _ _ _ _ _ _ _ _ P) as ((E1 & E2 & E3 & _) & _ & Fc & _).
  destruct (IH w1 y1 q v SD1) as (w' & y' & C & En').
  - intros x Hx c j Hc Hj. rewrite E2 in Hc. destruct (Fc c) as (_ & _ & _ & _ & F5 & _). rewrite F5 in Hj. apply HR; auto. clear c j Hc Hj F5. intros c j Hc Hj.
    destruct (Fc c) as (_ & _ & _ & _ & F5 & _). specialize (Hx c j ltac:(now rewrite E2) ltac:(now rewrite F5)). rewrite <- Hx. rewrite (along_moved Generic kc 0%R _ _ _ _ _ q _ c j P). apply along_ext.
    intros p d _ _. now rewrite (acts_moved Generic kc 0%R _ _ _ _ _ q x _ d P).
  - exists w', y'. cbn [calls_of]. rewrite P. cbn [bind]. split; [exact C|]. intros b d Hb Hd. apply En'; [now rewrite E1|exact Hd].
Qed.
End S.
