(** * Concrete histories of systems: witnesses for examples and refutations. *)

From Coq Require Import Reals QArith.
From Coq Require Import Floats.SpecFloat.
From Verif Require Import Base Targets Matrix Sparse Sle State Ode Forces Constraints System Logic SpecSle SpecSys RegFacts.
Local Open Scope nat_scope.

(** running a history with its checks *)
Inductive ev (tg : target) : Type :=
| EInit (l : sle tg) (o : ode tg)
| EAddB (b : nat) | ERemB (b : nat) | EAddC (c : nat) | ERemC (c : nat) | EAddG (g : nat) | ERemG (g : nat)
| EReset | EProc (dt : cell tg) (steps : nat) (t : timing)
| ESetB (b : nat) (f : bfld) (v : cell tg).
Arguments EInit {tg}. Arguments EAddB {tg}. Arguments ERemB {tg}. Arguments EAddC {tg}. Arguments ERemC {tg}.
Arguments EAddG {tg}. Arguments ERemG {tg}. Arguments EReset {tg}. Arguments EProc {tg}. Arguments ESetB {tg}.

Section S.
Context {tg : target}.
Definition nodupb (l : list nat) : bool := (fix go l := match l with [] => true | x :: r => negb (existsb (Nat.eqb x) r) && go r end) l.
Lemma nodupb_ok l : nodupb l = true -> NoDup l.
Proof.
  induction l as [|x l IH]; intros H; [constructor|]. cbn in H. apply andb_true_iff in H. destruct H as [H1 H2].
  constructor; [|now apply IH]. intros I. apply negb_true_iff in H1. assert (E : existsb (Nat.eqb x) l = true); [|congruence].
  apply existsb_exists. exists x. split; [exact I|apply Nat.eqb_refl].
Qed.
Definition apartb (priv : nat -> bool) (l : sle tg) : bool :=
  match l with
  | SleBase _ => true
  | SleGe g => Nat.leb ifree (ge_a g) && Nat.leb ifree (ge_M g) && negb (Nat.eqb (ge_a g) (ge_M g)) && Nat.leb sfree (ge_reg g) && negb (priv (ge_a g))
  | SleGs g => Nat.leb ifree (gs_M g) && Nat.leb sfree (gs_reg g)
  | SleCg g => let l := [cg_mreg0 g; cg_mreg1 g; cg_Ap g; cg_x g; cg_r g; cg_p g] in
      nodupb l && forallb (Nat.leb ifree) l && (priv (cg_Ap g) && priv (cg_r g) && priv (cg_p g))
  end.
Lemma apartb_ok priv l : apartb priv l = true -> solver_apart priv l.
Proof.
  destruct l as [b|g|g|g]; cbn [apartb solver_apart]; auto; rewrite ?andb_true_iff.
  - intros [[[[H1 H2] H3] H4] H5]. apply Nat.leb_le in H1, H2, H4. apply negb_true_iff in H3, H5. apply Nat.eqb_neq in H3. auto.
  - intros [H1 H2]. apply Nat.leb_le in H1, H2. auto.
  - cbv zeta. rewrite ?andb_true_iff. intros [[H1 H2] [[H3 H4] H5]]. split; [now apply nodupb_ok|]. split.
    + intros i Hi. rewrite forallb_forall in H2. apply H2 in Hi. now apply Nat.leb_le in Hi.
    + now repeat split.
Qed.

Definition builtin (g : gkind tg) : bool := match g with GCustom _ => false | _ => true end.
Lemma builtin_orderly g : builtin g = true -> orderly g.
Proof. destruct g; easy. Qed.
Definition st3 : Type := (books tg * world tg * sys tg)%type.
Definition evstep (k : flavour) (priv : nat -> bool) (x : st3) (e : ev tg) : res st3 :=
  let '(m, w, y) := x in
  match e with
  | EInit l o => if apartb priv l then let* y' := initialize k y l o in Ok (m, w, y') else UB
  | EAddB b => if in_body m b then UB else let '(w', y') := add_body w y b in Ok (put_body m b true, w', y')
  | ERemB b => if in_body m b then let* (w', y') := remove_body w y b in Ok (put_body m b false, w', y') else UB
  | EAddC b => if in_con m b then UB else let '(w', y') := add_con w y b in Ok (put_con m b true, w', y')
  | ERemC b => if in_con m b then let* (w', y') := remove_con w y b in Ok (put_con m b false, w', y') else UB
  | EAddG b => if in_gen m b then UB else let '(w', y') := add_gen w y b in Ok (put_gen m b true, w', y')
  | ERemG b => if in_gen m b then let* (w', y') := remove_gen w y b in Ok (put_gen m b false, w', y') else UB
  | EReset => Ok (mkBooks (fun _ => false) (fun _ => false) (fun _ => false) (calls m), w, sys_reset y)
  | EProc dt steps t => if forallb (fun g => builtin (g_kind (w_gen w g))) (y_gens y) then
      let* (w', y') := process k dt steps t w y in
      Ok (mkBooks (in_body m) (in_con m) (in_gen m) ((dt, t) :: calls m), w', y') else UB
  | ESetB b f v => Ok (m, set_body w b (b_set (w_body w b) f v), y)
  end.
Fixpoint evrun (k : flavour) (priv : nat -> bool) (x : st3) (es : list (ev tg)) : res st3 :=
  match es with [] => Ok x | e :: r => let* x := evstep k priv x e in evrun k priv x r end.

Lemma evstep_reach k priv m w y e m' w' y' : yreach k priv m w y -> evstep k priv (m, w, y) e = Ok (m', w', y') -> yreach k priv m' w' y'.
Proof.
  intros H E. destruct e; cbn [evstep] in E.
  - destruct (apartb priv l) eqn:A; [|discriminate]. destruct (initialize k y l o) eqn:E1; try discriminate. cbn in E. injection E as <- <- <-.
    eapply y_initialize; eauto. now apply apartb_ok.
  - destruct (in_body m b) eqn:A; [discriminate|]. destruct (add_body w y b) eqn:E1. injection E as <- <- <-. eapply y_add_body; eauto.
  - destruct (in_body m b) eqn:A; [|discriminate]. destruct (remove_body w y b) as [[w1 y1]| | |] eqn:E1; try discriminate. cbn [bind] in E. injection E as <- <- <-. eapply y_remove_body; eauto.
  - destruct (in_con m c) eqn:A; [discriminate|]. destruct (add_con w y c) eqn:E1. injection E as <- <- <-. eapply y_add_con; eauto.
  - destruct (in_con m c) eqn:A; [|discriminate]. destruct (remove_con w y c) as [[w1 y1]| | |] eqn:E1; try discriminate. cbn [bind] in E. injection E as <- <- <-. eapply y_remove_con; eauto.
  - destruct (in_gen m g) eqn:A; [discriminate|]. destruct (add_gen w y g) eqn:E1. injection E as <- <- <-. eapply y_add_gen; eauto.
  - destruct (in_gen m g) eqn:A; [|discriminate]. destruct (remove_gen w y g) as [[w1 y1]| | |] eqn:E1; try discriminate. cbn [bind] in E. injection E as <- <- <-. eapply y_remove_gen; eauto.
  - injection E as <- <- <-. now apply y_reset.
  - destruct (forallb _ _) eqn:A; [|discriminate]. rewrite forallb_forall in A.
    destruct (process k dt steps t w y) as [[w1 y1]| | |] eqn:E1; try discriminate. cbn [bind] in E. injection E as <- <- <-.
    eapply y_process; eauto. intros g Hg. now apply builtin_orderly, A.
  - injection E as <- <- <-. eapply y_edit_body; [exact H|reflexivity].
Qed.
Lemma evrun_reach k priv es : forall m w y m' w' y', yreach k priv m w y -> evrun k priv (m, w, y) es = Ok (m', w', y') -> yreach k priv m' w' y'.
Proof.
  induction es as [|e es IH]; intros m w y m' w' y' H E; cbn [evrun] in E; [now injection E as <- <- <-|].
  destruct (evstep k priv (m, w, y) e) as [[[m1 w1] y1]| | |] eqn:E1; try discriminate. cbn [bind] in E.
  eapply IH; [|exact E]. eapply evstep_reach; eauto.
Qed.

(** the history ends normally in a state that passes a test *)
Definition runs (r : res st3) (t : books tg -> world tg -> sys tg -> bool) : bool :=
  match r with Ok (m, w, y) => t m w y | _ => false end.
Lemma runs_reach k priv w es t : runs (evrun k priv (no_books, w, created k) es) t = true ->
  exists m w' y, yreach k priv m w' y /\ t m w' y = true.
Proof.
  unfold runs. destruct (evrun _ _ _ _) as [[[m w'] y]| | |] eqn:E; try discriminate. intros T.
  exists m, w', y. split; [|exact T]. eapply evrun_reach; [apply y_created|exact E].
Qed.
End S.
Arguments st3 : clear implicits.

(** ** a shaft with two discs *)
Definition nopriv (_ : nat) : bool := false.
Definition geS : ge_solver := {| ge_a := 20; ge_M := 21; ge_reg := 3 |}.
Definition bodyT {tg} (m I th vth : cell tg) : body tg :=
  {| b_f := fun f => match f with Bm => m | BI => I | Btheta => th | Bvtheta => vth | _ => cofZ 0 end; b_index := (-1)%Z |}.
Definition conT {tg} (k : ckind tg) (rows parties : nat) : constraint tg :=
  {| c_kind := k; c_index := (-1)%Z; c_bodycount := parties; c_bodies := fun p => Some p;
     c_Fx := fun _ _ => cofZ 0; c_Fy := fun _ _ => cofZ 0; c_Ft := fun _ _ => cofZ 0; c_count := rows |}.
(** every constraint is a clutch between bodies 0 and 1, every generator gravity *)
Definition wS {tg} : world tg :=
  {| w_body := fun i => bodyT (cofZ 2) (cofZ 3) (cofZ 0) (cofZ (Z.of_nat i));
     w_con := fun _ => conT (KClutch (@mkClutch tg (cofZ 5) (cofZ (-5)) (cofZ 1) (cofZ 1))) 1 2;
     w_gen := fun _ => {| g_kind := GGravity (cofZ 10); g_index := None |} |}.
Definition t0 (n : Z) : timing := mkTiming n n n n.
Definition shaft {tg} (dt : cell tg) : list (ev tg) :=
  [EInit (SleGe geS) (OdeNsv (cofZ 0)); EAddB 0; EAddB 7; EAddB 1; ERemB 7; EAddC 4; EAddG 2; EProc dt 1 (t0 3); EProc dt 1 (t0 5)].

(** ** examples *)
Definition dtQ : cell (QT true) := cdiv (cofZ 1) (cofZ 10).
Lemma shaft_runs k : exists m (w : world (QT true)) y, yreach k nopriv m w y /\
  length (calls m) = 2 /\ body_count y = 2 /\ con_count y = 1 /\ gen_count y = 1 /\ in_body m 7 = false /\ in_body m 1 = true.
Proof.
  destruct (runs_reach k nopriv wS (shaft dtQ) (fun m w y => Nat.eqb (length (calls m)) 2 && Nat.eqb (body_count y) 2 &&
    Nat.eqb (con_count y) 1 && Nat.eqb (gen_count y) 1 && negb (in_body m 7) && in_body m 1)) as (m & w & y & H & T).
  - destruct k; vm_compute; reflexivity.
  - exists m, w, y. split; [exact H|]. rewrite !andb_true_iff, !Nat.eqb_eq, negb_true_iff in T. tauto.
Qed.
(** the third process call, in a state with history *)
Lemma shaft_steps k : exists m (w : world (QT true)) y w' y', yreach k nopriv m w y /\ con_count y = 1 /\
  process k dtQ 2 (t0 7) w y = Ok (w', y') /\ b_f (w_body w' 0) Bvy <> b_f (w_body w 0) Bvy.
Proof.
  destruct (runs_reach k nopriv wS (shaft dtQ) (fun m w y => Nat.eqb (con_count y) 1 &&
     match process k dtQ 2 (t0 7) w y with Ok (w', y') =>
       match b_f (w_body w' 0) Bvy, b_f (w_body w 0) Bvy with Some a, Some b => negb (Qeq_bool a b) | _, _ => false end | _ => false end)) as (m & w & y & H & T).
  - destruct k; vm_compute; reflexivity.
  - rewrite andb_true_iff, Nat.eqb_eq in T. destruct T as [T1 T]. destruct (process k dtQ 2 (t0 7) w y) as [[w' y']| | |] eqn:E; try discriminate.
    exists m, w, y, w', y'. split; [exact H|]. split; [exact T1|]. split; [exact E|]. intros X. rewrite X in T.
    destruct (b_f (w_body w 0) Bvy) as [a|]; [|discriminate]. apply negb_true_iff in T. now rewrite Qeq_bool_refl in T.
Qed.

(** ** a force on a removed body moves another one *)
Definition pushS {tg} : static_force tg := @mkStatic tg (cofZ 4) (cofZ 0) (cofZ 0) (cofZ 0) (Some 0).
Definition wP {tg} : world tg :=
  {| w_body := fun i => bodyT (cofZ 2) (cofZ 3) (cofZ 0) (cofZ 0);
     w_con := fun _ => conT (KClutch (@mkClutch tg (cofZ 5) (cofZ (-5)) (cofZ 1) (cofZ 1))) 1 2;
     w_gen := fun _ => {| g_kind := GStatic pushS; g_index := None |} |}.
Definition pushed {tg} : list (ev tg) := [EInit (SleGe geS) (OdeNsv (cofZ 0)); EAddB 0; EAddB 1; EAddG 5; ERemB 0].
Lemma removed_pushes k : exists m (w : world (QT true)) y w' y' f, yreach k nopriv m w y /\
  in_body m 0 = false /\ in_body m 1 = true /\ y_cons y = [] /\ y_gens y = [5] /\ g_kind (w_gen w 5) = GStatic f /\ sf_body f = Some 0 /\
  process k (cofZ 1) 1 (t0 0) w y = Ok (w', y') /\ b_f (w_body w 1) Bvx = cofZ 0 /\ b_f (w_body w' 1) Bvx <> cofZ 0.
Proof.
  destruct (runs_reach k nopriv wP pushed (fun (m : books (QT true)) (w : world (QT true)) (y : sys (QT true)) => negb (in_body m 0) && in_body m 1 &&
     match y_cons y, y_gens y, g_kind (w_gen w 5) with [], [5], GStatic f => match sf_body f with Some 0 => true | _ => false end | _, _, _ => false end &&
     match b_f (w_body w 1) Bvx with Some {| Qnum := 0%Z; Qden := 1%positive |} => true | _ => false end &&
     match process k (cofZ 1) 1 (t0 0) w y with Ok (w', y') =>
       match b_f (w_body w' 1) Bvx with Some {| Qnum := 0%Z; Qden := 1%positive |} => false | _ => true end | _ => false end)) as (m & w & y & H & T).
  - destruct k; vm_compute; reflexivity.
  - rewrite !andb_true_iff, !negb_true_iff in T. destruct T as ((((T1 & T2) & T3) & T4) & T5).
    destruct (y_cons y) as [|] eqn:Y1; [|discriminate]. destruct (y_gens y) as [|n l] eqn:Y2; [discriminate|].
    do 6 (destruct n as [|n]; try discriminate). destruct l; [|discriminate].
    destruct (g_kind (w_gen w 5)) as [|f| | |] eqn:G; try discriminate. destruct (sf_body f) as [[|]|] eqn:F; try discriminate.
    destruct (process k (cofZ 1) 1 (t0 0) w y) as [[w' y']| | |] eqn:E; try discriminate.
    exists m, w, y, w', y', f. do 8 (split; [eauto|]). split.
    + destruct (b_f (w_body w 1) Bvx) as [[[| |] [| |]]|]; try discriminate. reflexivity.
    + intros X. rewrite X in T5. discriminate.
Qed.
