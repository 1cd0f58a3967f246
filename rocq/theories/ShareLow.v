(** * What a system does with its own matrices does not depend on the other
      matrices in the store. *)

From Coq Require Import Reals.
From Verif Require Import Base Targets Matrix Sparse Sle State Ode Forces Constraints System Logic
  SpecSle SleGe SpecSys SpecSub SubSim SpecShare.
Local Open Scope nat_scope.

Section S.
Context {tg : target}.
Notation st := (sstate tg).
Implicit Types (ms : mats tg) (ss : sps tg) (hp : heap tg) (w : world tg) (y : sys tg).

Definition under {A} (N : nat) (f f' : nat -> A) : Prop := forall i, i < N -> f' i = f i.
Lemma under_refl {A} N (f : nat -> A) : under N f f.
Proof. now intros i. Qed.
Lemma under_upd {A} N (f f' : nat -> A) t v : under N f f' -> under N (upd f t v) (upd f' t v).
Proof. intros H i Hi. unfold upd. destruct (Nat.eqb i t); auto. Qed.
Lemma for2_rel {A B} h (w : nat) (f : nat -> nat -> A -> res A) (g : nat -> nat -> B -> res B) (R : A -> B -> Prop) a b :
  (forall i j x (z : B), R x z -> rel (f i j x) (g i j z) R) -> R a b -> rel (for2 h w f a) (for2 h w g b) R.
Proof.
  intros Hf H. unfold for2. apply (for_rel _ _ (fun _ => R)); [exact H|]. intros i x y _ Hx.
  apply (for_rel _ _ (fun _ => R)); [exact Hx|]. auto.
Qed.
Lemma for_rel' {A B} n (f : nat -> A -> res A) (g : nat -> B -> res B) (R : A -> B -> Prop) a b :
  (forall i x (z : B), R x z -> rel (f i x) (g i z) R) -> R a b -> rel (for_ n f a) (for_ n g b) R.
Proof. intros Hf H. apply (for_rel _ _ (fun _ => R)); [exact H|]. auto. Qed.

Notation lowm := (under ifree).
Notation lows := (under sfree).
Ltac one := unfold rset, mset, mresize, minit0, minit_val; intros; match goal with H : lowm ?ms ?ms' |- _ => rewrite (H _) by assumption end;
  apply rel_any; intros ?; apply rel_ret; now apply under_upd.
Lemma rset_low ms ms' t r c v : lowm ms ms' -> t < ifree -> rel (rset ms t r c v) (rset ms' t r c v) lowm.
Proof. one. Qed.
Lemma mset_low ms ms' t c r v : lowm ms ms' -> t < ifree -> rel (mset ms t c r v) (mset ms' t c r v) lowm.
Proof. one. Qed.
Lemma mresize_low ms ms' t a b : lowm ms ms' -> t < ifree -> rel (mresize ms t a b) (mresize ms' t a b) lowm.
Proof. one. Qed.
Lemma minit0_low ms ms' t a b : lowm ms ms' -> t < ifree -> rel (minit0 ms t a b) (minit0 ms' t a b) lowm.
Proof. one. Qed.
Lemma minit_val_low ms ms' t a b v : lowm ms ms' -> t < ifree -> rel (minit_val ms t a b v) (minit_val ms' t a b v) lowm.
Proof. one. Qed.
(* look at the matrices in one store *)
Ltac see := unfold rget, mget; repeat match goal with H : lowm ?ms ?ms' |- context [?ms' ?i] => rewrite (H i) by assumption end.
Ltac whole := intros; see; repeat (apply rel_any; intros ?); eapply rel_bind; [apply mresize_low; assumption|]; intros ? ? ?; cbv beta; see;
  apply for2_rel; [|assumption]; intros; see; repeat (apply rel_any; intros ?); now apply rset_low.
Lemma mset_ref_low ms ms' t a : lowm ms ms' -> t < ifree -> a < ifree -> rel (mset_ref ms t a) (mset_ref ms' t a) lowm.
Proof. unfold mset_ref. whole. Qed.
Lemma mscale_low ms ms' a s t : lowm ms ms' -> a < ifree -> t < ifree -> rel (mscale ms a s t) (mscale ms' a s t) lowm.
Proof. unfold mscale. whole. Qed.
Lemma mnegate_low ms ms' a t : lowm ms ms' -> a < ifree -> t < ifree -> rel (mnegate ms a t) (mnegate ms' a t) lowm.
Proof. unfold mnegate. whole. Qed.
Lemma mleft_scale_low ms ms' a b t : lowm ms ms' -> a < ifree -> b < ifree -> t < ifree -> rel (mleft_scale ms a b t) (mleft_scale ms' a b t) lowm.
Proof. unfold mleft_scale. whole. Qed.
Lemma msubtract_low ms ms' a b t : lowm ms ms' -> a < ifree -> b < ifree -> t < ifree -> rel (msubtract ms a b t) (msubtract ms' a b t) lowm.
Proof. unfold msubtract. whole. Qed.
Lemma madd2_low ms ms' a b t : lowm ms ms' -> a < ifree -> b < ifree -> t < ifree -> rel (madd2 ms a b t) (madd2 ms' a b t) lowm.
Proof. unfold madd2. whole. Qed.
Lemma sp_multiply_low (s : sparse tg) ms ms' b t : lowm ms ms' -> b < ifree -> t < ifree -> rel (sp_multiply 3 2 s ms b t) (sp_multiply 3 2 s ms' b t) lowm.
Proof.
  unfold sp_multiply. intros Hm Hb Ht. see. apply rel_any; intros _. eapply rel_bind; [apply minit0_low; assumption|]. intros ms1 ms1' H1. cbv beta.
  apply for2_rel; [|exact H1]. intros i j ms2 ms2' H2. see. apply rel_any; intros v. now apply mset_low.
Qed.
Lemma left_scale_low ss ss' ms ms' J a t : lowm ms ms' -> lows ss ss' -> J < sfree -> a < ifree -> t < sfree ->
  rel (sp_left_scale 3 2 ss ms J a t) (sp_left_scale 3 2 ss' ms' J a t) lows.
Proof.
  unfold sp_left_scale. intros Hm Hs HJ Ha Ht. see. rewrite (Hs J HJ), (Hs t Ht). do 3 (apply rel_any; intros ?).
  apply for2_rel; [|now apply under_upd]. intros i j s2 s2' H2. rewrite (H2 J HJ), (H2 t Ht). apply rel_any; intros b.
  destruct (Z.eqb b 255); [exact H2|]. apply rel_any; intros t1.
  apply for_rel'; [|now apply under_upd]. intros k s3 s3' H3. rewrite (H3 J HJ), (H3 t Ht). do 3 (apply rel_any; intros ?). apply rel_ret. now apply under_upd.
Qed.

(** ** the parts of process *)
Ltac small := unfold iC, iM, iMinv, iberr, ivbias, ilimits, iqdot, iqdotp, ireg0, ireg1, ireg2, iright, iFext, iFC, iR, ilambda, iks, ikd, iJT,
  sJ, sJdot, ssreg0, ifree, sfree; lia.
Lemma populate_mass_low w y ms ms' : lowm ms ms' -> rel (populate_mass w y ms) (populate_mass w y ms') lowm.
Proof.
  intros H. unfold populate_mass. eapply rel_bind; [apply minit0_low; [exact H|small]|]. intros ms1 ms1' H1. cbv beta.
  eapply rel_bind; [apply minit0_low; [exact H1|small]|]. intros ms2 ms2' H2. cbv beta.
  apply for_rel'; [|exact H2]. clear. intros i m m' H. apply rel_any; intros b.
  do 5 (eapply rel_bind; [apply mset_low; [eassumption|small]|]; clear m m' H; intros m m' H; cbv beta).
  apply mset_low; [exact H|small].
Qed.
Lemma gather3_low n (s : st) fx fy ft id ms ms' : lowm ms ms' -> id < ifree -> rel (gather3 n s fx fy ft id ms) (gather3 n s fx fy ft id ms') lowm.
Proof.
  intros H Hi. unfold gather3. apply for_rel'; [|exact H]. clear ms ms' H. intros i m m' H.
  do 2 (apply rel_any; intros ?; eapply rel_bind; [apply mset_low; eassumption|]; clear m m' H; intros m m' H; cbv beta).
  apply rel_any; intros ?. now apply mset_low.
Qed.
Lemma alike_refl hp : alike hp hp.
Proof. now split. Qed.
Definition seq_alike {A B} (x : A * heap tg * B) (x' : A * heap tg * B) : Prop :=
  fst (fst x') = fst (fst x) /\ alike (snd (fst x)) (snd (fst x')) /\ snd x' = snd x.
Definition pair_alike {A} (x x' : A * heap tg) : Prop := fst x' = fst x /\ alike (snd x) (snd x').
Ltac steps H := eapply rel_bind; [apply mset_low; [exact H|small]|]; clear H; intros ? ? H; cbv beta.
Lemma opt_con_rows_low w c o dt jf hp hp' : alike hp hp' -> rel (opt_con_rows w c o dt jf hp) (opt_con_rows w c o dt jf hp') pair_alike.
Proof.
  intros H. unfold opt_con_rows. apply for_rel'; [|now split]. clear. intros k [jf hp] [jf' hp'] [E [Hm Hs]]. cbn [fst snd] in *. subst jf'.
  rewrite (Hs sJ) by small. do 3 (apply rel_any; intros ?).
  steps Hm. apply rel_any; intros ?. steps Hm. apply rel_any; intros ?. steps Hm. apply rel_any; intros ?. steps Hm.
  apply rel_ret. split; [reflexivity|]. split; [exact Hm|]. now apply under_upd.
Qed.
Lemma opt_gather_low w y dt hp hp' (s : st) : alike hp hp' -> rel (opt_gather w y dt hp s) (opt_gather w y dt hp' s) alike.
Proof.
  intros [Hm Hs]. unfold opt_gather. cbv zeta. rewrite (Hs sJ) by small. apply rel_any; intros J. cbn [hupd_s hm].
  do 3 (eapply rel_bind; [apply minit0_low; [exact Hm|small]|]; clear Hm; intros ? ? Hm; cbv beta).
  eapply rel_bind.
  - apply (for_rel' _ _ _ seq_alike); [|split; [reflexivity|split; [split; [exact Hm|now apply under_upd]|reflexivity]]].
    clear. intros j [[jf hp] o] [[jf' hp'] o'] (E1 & H & E2). cbn [fst snd] in *. subst jf' o'.
    do 2 (apply rel_any; intros ?). eapply rel_bind; [apply opt_con_rows_low, H|].
    intros [j1 hp1] [j1' hp1'] [E1 H1]. cbn [fst snd] in *. apply rel_ret. now repeat split; try apply H1.
  - intros [[jf hp1] o] [[jf' hp1'] o'] (_ & H1 & _). exact H1.
Qed.
Lemma opt_right_low w y dt hp hp' (s : st) : alike hp hp' -> rel (opt_right w y dt hp s) (opt_right w y dt hp' s) alike.
Proof.
  intros [Hm Hs]. unfold opt_right. cbv zeta. rewrite (Hs sJ) by small.
  eapply rel_bind; [apply mresize_low; [exact Hm|small]|]; clear Hm; intros ? ? Hm; cbv beta.
  eapply rel_bind; [apply gather3_low; [exact Hm|small]|]; clear Hm; intros ? ? Hm; cbv beta.
  eapply rel_bind; [apply minit_val_low; [exact Hm|small]|]; clear Hm; intros ? ? Hm; cbv beta.
  eapply rel_bind; [apply gather3_low; [exact Hm|small]|]; clear Hm; intros ? ? Hm; cbv beta.
  eapply rel_bind; [apply mscale_low; [exact Hm|small|small]|]; clear Hm; intros ? ? Hm; cbv beta.
  eapply rel_bind; [apply mleft_scale_low; [exact Hm|small|small|small]|]; clear Hm; intros ? ? Hm; cbv beta.
  eapply rel_bind; [apply madd2_low; [exact Hm|small|small|small]|]; clear Hm; intros ? ? Hm; cbv beta.
  eapply rel_bind; [apply mscale_low; [exact Hm|small|small]|]; clear Hm; intros ? ? Hm; cbv beta.
  eapply rel_bind; [apply sp_multiply_low; [exact Hm|small|small]|]; clear Hm; intros ? ? Hm; cbv beta.
  do 2 (eapply rel_bind; [apply madd2_low; [exact Hm|small|small|small]|]; clear Hm; intros ? ? Hm; cbv beta).
  eapply rel_bind; [apply mnegate_low; [exact Hm|small|small]|]; clear Hm; intros ? ? Hm; cbv beta.
  apply rel_ret. now split.
Qed.
Definition triple_low (x x' : sparse tg * sparse tg * mats tg) : Prop := fst x' = fst x /\ lowm (snd x) (snd x').
Lemma gen_con_rows_low w c o jf hp hp' : alike hp hp' -> rel (gen_con_rows w c o jf hp) (gen_con_rows w c o jf hp') pair_alike.
Proof.
  intros H. unfold gen_con_rows. apply for_rel'; [|now split]. clear. intros k [jf hp] [jf' hp'] [E [Hm Hs]]. cbn [fst snd] in *. subst jf'.
  rewrite (Hs sJ), (Hs sJdot) by small. apply rel_any; intros J. apply rel_any; intros Jd.
  eapply rel_bind.
  - apply (for_rel' _ _ _ triple_low); [|now split]. clear. intros i [[J Jd] ms] [[J' Jd'] ms'] [E Hm]. cbn [fst snd] in *. injection E as -> ->.
    apply rel_any; intros ix. destruct (Z.eqb ix (-1)); [now split|]. do 5 (apply rel_any; intros ?).
    steps Hm. apply rel_any; intros ?. steps Hm. apply rel_any; intros ?. steps Hm. apply rel_ret. now split.
  - intros [[J1 Jd1] m1] [[J1' Jd1'] m1'] [E Hm1]. cbn [fst snd] in *. injection E as -> ->. apply rel_ret.
    split; [reflexivity|]. split; [exact Hm1|]. now do 2 apply under_upd.
Qed.
Lemma gen_gather_low w y hp hp' (s : st) : alike hp hp' -> rel (gen_gather w y hp s) (gen_gather w y hp' s) alike.
Proof.
  intros [Hm Hs]. unfold gen_gather. cbv zeta.
  eapply rel_bind; [apply mresize_low; [exact Hm|small]|]; clear Hm; intros ? ? Hm; cbv beta.
  eapply rel_bind; [apply gather3_low; [exact Hm|small]|]; clear Hm; intros ? ? Hm; cbv beta.
  rewrite (Hs sJ), (Hs sJdot) by small. apply rel_any; intros J. apply rel_any; intros Jd.
  do 3 (eapply rel_bind; [apply minit0_low; [exact Hm|small]|]; clear Hm; intros ? ? Hm; cbv beta).
  eapply rel_bind.
  - apply (for_rel' _ _ _ seq_alike); [|split; [reflexivity|split; [split; [exact Hm|now do 2 apply under_upd]|reflexivity]]].
    clear. intros j [[jf hp] o] [[jf' hp'] o'] (E1 & H & E2). cbn [fst snd] in *. subst jf' o'.
    do 2 (apply rel_any; intros ?). eapply rel_bind; [apply gen_con_rows_low, H|].
    intros [j1 hp1] [j1' hp1'] [E1 H1]. cbn [fst snd] in *. apply rel_ret. now repeat split; try apply H1.
  - intros [[jf hp1] o] [[jf' hp1'] o'] (_ & H1 & _). exact H1.
Qed.
Lemma gen_right_low w y hp hp' (s : st) : alike hp hp' -> rel (gen_right w y hp s) (gen_right w y hp' s) alike.
Proof.
  intros [Hm Hs]. unfold gen_right. cbv zeta. rewrite (Hs sJ), (Hs sJdot) by small.
  eapply rel_bind; [apply sp_multiply_low; [exact Hm|small|small]|]; clear Hm; intros ? ? Hm; cbv beta.
  eapply rel_bind.
  { apply (for_rel' _ _ _ lowm); [|exact Hm]. clear. intros i m m' H. unfold mget. rewrite (H ikd), (H ireg0) by small. do 2 (apply rel_any; intros ?).
    steps H. rewrite (H iks), (H iC) by small. do 2 (apply rel_any; intros ?). apply mset_low; [exact H|small]. }
  clear Hm; intros ? ? Hm; cbv beta.
  eapply rel_bind; [apply minit_val_low; [exact Hm|small]|]; clear Hm; intros ? ? Hm; cbv beta.
  eapply rel_bind; [apply gather3_low; [exact Hm|small]|]; clear Hm; intros ? ? Hm; cbv beta.
  eapply rel_bind; [apply mleft_scale_low; [exact Hm|small|small|small]|]; clear Hm; intros ? ? Hm; cbv beta.
  do 2 (eapply rel_bind; [apply sp_multiply_low; [exact Hm|small|small]|]; clear Hm; intros ? ? Hm; cbv beta).
  eapply rel_bind; [apply mnegate_low; [exact Hm|small|small]|]; clear Hm; intros ? ? Hm; cbv beta.
  do 3 (eapply rel_bind; [apply msubtract_low; [exact Hm|small|small|small]|]; clear Hm; intros ? ? Hm; cbv beta).
  apply rel_ret. now split.
Qed.
Lemma apply_reactions_low w y hp hp' (s : st) : alike hp hp' -> apply_reactions w y hp' s = apply_reactions w y hp s.
Proof.
  intros [Hm Hs]. unfold apply_reactions, mget. rewrite (Hs ssreg0), (Hm iFext), (Hm iMinv) by small. reflexivity.
Qed.
End S.
