(** * Lemmas on the heap arrays of whole systems and solvers. *)

From Verif Require Import Base Alloc SpecAlloc AllocFacts AllocHist.

(** sparse matrices that were never destroyed *)
Definition unspent (o : obj) : Prop := match o with OSp a => ap_matrix a = None -> ap_ch a = 0 | _ => True end.
(** objects that were never resized *)
Definition untouched (o : obj) : Prop := match o with OMat a => a = am_new | _ => True end.
Definition all_at (s : place) (ks : list kind) (P : obj -> Prop) : Prop :=
  forall i, match nth_error ks i with Some k => exists o, s i = Some o /\ kind_of o = k /\ P o | None => s i = None end.
Lemma construct_unspent k p : unspent (fst (construct k p)) /\ untouched (fst (construct k p)).
Proof. destruct k; cbn; auto. Qed.
Lemma resize_unspent o x y p : ordered p -> wf o p -> unspent o ->
  exists o' p', resize_obj o x y p = Fine (o', p') /\ step (blocks (pointers o)) p o' p' (is_state o) /\ kind_of o' = kind_of o /\ unspent o'.
Proof.
  intros O W U. destruct o as [a|a|a|l]; cbn [resize_obj is_state].
  - destruct (resize_mat a x y p O W) as (a' & p' & D & St & _). rewrite D. eexists _, _. split; [reflexivity|]. split; [exact St|]. split; [reflexivity|exact Logic.I].
  - destruct (resize_sp a x y p O W) as [(a' & p' & D & St & Ew & Eh)|(E1 & E2 & _)].
    + rewrite D. eexists _, _. split; [reflexivity|]. split; [exact St|]. split; [reflexivity|]. cbn [unspent]. intros En.
      cbn in U. unfold ap_resize in D. destruct (Nat.eqb x (ap_w a) && Nat.eqb y (ap_h a)); [injection D as <- _; now apply U|].
      destruct (Nat.ltb (ap_ch a) y) eqn:El.
      * destruct (ap_destroy a p) as [[a1 p1]| | |]; cbn [obind new_array] in D; try discriminate D. destruct (write_first _ _ _); cbn [obind] in D; try discriminate D. injection D as <- _. discriminate En.
      * cbn [obind] in D. destruct (write_first _ _ _); cbn [obind] in D; try discriminate D. injection D as <- _. cbn in En |- *. now apply U.
    + cbn in U. rewrite (U E1) in E2. lia.
  - destruct (resize_st a x y p O W) as (a' & p' & D & St & _). rewrite D. eexists _, _. split; [reflexivity|]. split; [exact St|]. split; [reflexivity|exact Logic.I].
  - exists (OBuf l), p. split; [reflexivity|]. split; [now apply step_refl|auto].
Qed.
Lemma destroy_clean o p : ordered p -> wf o p -> exists o' p', destroy_obj o p = Fine (o', p') /\ step (blocks (pointers o)) p o' p' false /\ kind_of o' = kind_of o /\ clean o'.
Proof.
  intros O W. destruct o as [a|a|a|l]; cbn [destroy_obj].
  - destruct (destroy_mat a p O W) as (a' & p' & D & St & _ & _ & _ & _ & _ & E & _). rewrite D. eexists _, _. split; [reflexivity|]. split; [exact St|]. split; [reflexivity|exact E].
  - destruct (destroy_sp a p O W) as (a' & p' & D & St & _ & E1 & E2 & E3 & _). rewrite D. eexists _, _. split; [reflexivity|]. split; [exact St|]. split; [reflexivity|]. cbn; auto.
  - destruct (destroy_st a p O W) as (a' & p' & D & St & E1 & E2 & _). rewrite D. eexists _, _. split; [reflexivity|]. split; [exact St|]. split; [reflexivity|]. cbn; auto.
  - exists (OBuf l), p. split; [reflexivity|]. split; [now apply step_refl|]. cbn; auto.
Qed.
(** making the members *)
Lemma news_step dbg zz ks : forall n s p, Inv s p -> Kept zz s p -> (In StateK ks -> zz = true) -> (forall i, n <= i -> s i = None) ->
  exists s' p', do_acts dbg (map (fun x => New (snd x) (fst x)) (combine (seq n (length ks)) ks)) s p = Fine (s', p') /\ Inv s' p' /\ Kept zz s' p' /\
  (forall i, i < n -> s' i = s i) /\ forall i, match nth_error ks i with Some k => exists o, s' (n + i) = Some o /\ kind_of o = k /\ unspent o /\ untouched o | None => s' (n + i) = None end.
Proof.
  induction ks as [|k ks IH]; intros n s p HI K Hz Hn; cbn [length seq combine map do_acts].
  - exists s, p. split; [reflexivity|]. split; [exact HI|]. split; [exact K|]. split; [reflexivity|]. intros [|i]; cbn [nth_error]; apply Hn; lia.
  - cbn [do_act fst snd]. rewrite (Hn n) by lia. pose proof (construct_step k p (proj1 HI)) as St. pose proof (construct_kind k p) as Ek. pose proof (construct_unspent k p) as U. destruct (construct k p) as [o p']. cbn [fst snd obind] in *.
    assert (Hold : match s n with Some q => @nil nat = blocks (pointers q) | None => @nil nat = [] end) by now rewrite (Hn n).
    destruct (IH (S n) (upd s n (Some o)) p') as (s2 & p2 & D & I2 & K2 & L2 & T2).
    + exact (inv_step s p n [] o p' false HI Hold St).
    + apply (kept_step zz s p n [] o p' false K Hold St); [discriminate|]. intros Es. apply Hz. left. apply state_kind in Es. congruence.
    + intros Hi. apply Hz. now right.
    + intros i Hi. unfold upd. destruct (Nat.eqb_spec i n); [lia|]. apply Hn. lia.
    + exists s2, p2. split; [exact D|]. split; [exact I2|]. split; [exact K2|]. split.
      * intros i Hi. rewrite L2 by lia. unfold upd. destruct (Nat.eqb_spec i n); [lia|reflexivity].
      * intros [|i]; cbn [nth_error].
        -- exists o. rewrite Nat.add_0_r, L2 by lia. unfold upd. rewrite Nat.eqb_refl. auto.
        -- rewrite <- Nat.add_succ_comm. apply T2.
Qed.
(** resizing the members *)
Lemma use_step dbg zz ks safe l : forall s p, Inv s p -> Kept zz s p -> all_at s ks unspent -> (forall i o, safe i = true -> s i = Some o -> untouched o) ->
  (forall x, In x l -> exists i w h, x = Resize i w h /\ i < length ks /\ safe i = false) ->
  exists s' p', do_acts dbg l s p = Fine (s', p') /\ Inv s' p' /\ Kept zz s' p' /\ all_at s' ks unspent /\ forall i o, safe i = true -> s' i = Some o -> untouched o.
Proof.
  induction l as [|x l IH]; intros s p HI K T Sf Hl; cbn [do_acts].
  - exists s, p. auto.
  - destruct (Hl x (or_introl eq_refl)) as (i & w & h & -> & Li & Si). cbn [do_act]. pose proof (T i) as Ti. destruct (nth_error ks i) as [k|] eqn:Ek; [|apply nth_error_None in Ek; lia].
    destruct Ti as (o & E & Ko & U). rewrite E. destruct HI as (O & W & X). destruct (resize_unspent o w h p O (W i o E) U) as (o' & p' & D & St & Ko' & U'). rewrite D. cbn [obind].
    assert (Hold : match s i with Some q => blocks (pointers o) = blocks (pointers q) | None => blocks (pointers o) = [] end) by now rewrite E.
    apply IH.
    + exact (inv_step s p i _ o' p' _ (conj O (conj W X)) Hold St).
    + apply (kept_step zz s p i _ o' p' _ K Hold St); [exact (proj1 K i o E)|]. intros Es. apply (proj1 K i o E). apply state_kind in Es. apply state_kind. congruence.
    + intros j. unfold upd. destruct (Nat.eqb_spec j i) as [->|N]; [|exact (T j)]. rewrite Ek. exists o'. split; [reflexivity|]. split; [congruence|exact U'].
    + intros j q Sj. unfold upd. destruct (Nat.eqb_spec j i) as [->|N]; [congruence|]. exact (Sf j q Sj).
    + intros y Hy. apply Hl. now right.
Qed.
(** destroying members *)
Lemma destroy_list dbg zz l : forall s p, Inv s p -> Kept zz s p -> (forall i, In i l -> exists o, s i = Some o) ->
  exists s' p', do_acts dbg (map Destroy l) s p = Fine (s', p') /\ Inv s' p' /\ Kept zz s' p' /\
  (forall i, ~ In i l -> s' i = s i) /\ (forall i, In i l -> exists o, s' i = Some o /\ clean o).
Proof.
  induction l as [|i l IH]; intros s p HI K Hl; cbn [map do_acts].
  - exists s, p. split; [reflexivity|]. split; [exact HI|]. split; [exact K|]. split; [reflexivity|]. intros i [].
  - cbn [do_act]. destruct (Hl i (or_introl eq_refl)) as (o & E). rewrite E. destruct HI as (O & W & X). destruct (destroy_clean o p O (W i o E)) as (o' & p' & D & St & Ko & C). rewrite D. cbn [obind].
    assert (Hold : match s i with Some q => blocks (pointers o) = blocks (pointers q) | None => blocks (pointers o) = [] end) by now rewrite E.
    destruct (IH (upd s i (Some o')) p') as (s2 & p2 & D2 & I2 & K2 & L2 & C2).
    + exact (inv_step s p i _ o' p' _ (conj O (conj W X)) Hold St).
    + apply (kept_step zz s p i _ o' p' _ K Hold St); [discriminate|]. intros Es. apply (proj1 K i o E). apply state_kind in Es. apply state_kind. congruence.
    + intros j Hj. unfold upd. destruct (Nat.eqb_spec j i) as [->|N]; [exists o'; reflexivity|]. apply Hl. now right.
    + exists s2, p2. split; [exact D2|]. split; [exact I2|]. split; [exact K2|]. split.
      * intros j Hj. rewrite L2 by (intros H; apply Hj; now right). unfold upd. destruct (Nat.eqb_spec j i) as [->|N]; [elim Hj; now left|reflexivity].
      * intros j [<-|Hj]; [|now apply C2]. destruct (in_dec Nat.eq_dec i l) as [Hi|Hi]; [now apply C2|]. exists o'. rewrite L2 by exact Hi. unfold upd. rewrite Nat.eqb_refl. auto.
Qed.
(** the lives of members end *)
Lemma gone_list dbg zz l : forall s p, NoDup l -> Inv s p -> Kept zz s p -> (forall i, In i l -> exists o, s i = Some o /\ clean o) ->
  exists s' p', do_acts dbg (map Gone l) s p = Fine (s', p') /\ Inv s' p' /\ Kept zz s' p' /\
  (forall i, ~ In i l -> s' i = s i) /\ (forall i, In i l -> s' i = None).
Proof.
  induction l as [|i l IH]; intros s p ND HI K Hl; cbn [map do_acts].
  - exists s, p. split; [reflexivity|]. split; [exact HI|]. split; [exact K|]. split; [reflexivity|]. intros i [].
  - cbn [do_act]. destruct (Hl i (or_introl eq_refl)) as (o & E & C). rewrite E. pose proof HI as (O & W & X). destruct (destruct_ok dbg o p O (W i o E) (fun _ => C)) as (p' & D & N & L1 & L2 & L3 & L4). rewrite D. cbn [obind].
    inversion ND as [|? ? Ni ND']; subst. destruct (IH (upd s i None) p' ND') as (s2 & p2 & D2 & I2 & K2 & M2 & C2).
    + exact (inv_gone s p i o p' HI E N L1 L2).
    + apply (kept_gone zz s p i o p' K E L3). intros b len Hb El. destruct (L4 C b len Hb El) as [Es El0]. split; [exact (proj1 K i o E Es)|exact El0].
    + intros j Hj. unfold upd. destruct (Nat.eqb_spec j i) as [->|Nj]; [contradiction|]. apply Hl. now right.
    + exists s2, p2. split; [exact D2|]. split; [exact I2|]. split; [exact K2|]. split.
      * intros j Hj. rewrite M2 by (intros H; apply Hj; now right). unfold upd. destruct (Nat.eqb_spec j i) as [->|Nj]; [elim Hj; now left|reflexivity].
      * intros j [<-|Hj]; [|now apply C2]. rewrite M2 by exact Ni. unfold upd. now rewrite Nat.eqb_refl.
Qed.
Definition safe_of (c : class) : nat -> bool := fun i => match c with GradientC => Nat.eqb i 6 | _ => false end.
Lemma birth_use dbg c l : uses c l -> let zz := existsb (fun k => match k with StateK => true | _ => false end) (members c) in
  exists s p, do_acts dbg (birth c ++ l) nowhere pool_new = Fine (s, p) /\ Inv s p /\ Kept zz s p /\ all_at s (members c) unspent /\ (forall i o, safe_of c i = true -> s i = Some o -> untouched o).
Proof.
  intros U zz. unfold birth. rewrite <- app_assoc, acts_app.
  destruct (news_step dbg zz (members c) 0 nowhere pool_new inv_start (kept_start zz)) as (s & p & D & HI & K & _ & T).
  - intros Hi. apply existsb_exists. exists StateK. auto.
  - reflexivity.
  - unfold news. rewrite D. cbn [obind]. apply (use_step dbg zz (members c) (safe_of c)); [exact HI|exact K| | |].
    + intros i. specialize (T i). destruct (nth_error (members c) i); [|exact T]. destruct T as (o & T1 & T2 & T3 & _). exists o. auto.
    + intros i o _ E. specialize (T i). cbn [Nat.add] in T. destruct (nth_error (members c) i); [|congruence]. destruct T as (o' & T1 & _ & _ & T4). rewrite E in T1. injection T1 as <-. exact T4.
    + intros x Hx. apply in_app_or in Hx. destruct Hx as [Hx|Hx].
      * destruct c; cbn in Hx; try contradiction.
        -- destruct Hx as [<-|[<-|[]]]; [exists 0, 1, 1|exists 1, 1, 1]; cbn; auto with arith.
        -- destruct Hx as [<-|[]]. exists 0, 1, 1. cbn; auto with arith.
      * destruct (U x Hx) as (i & w & h & E & Li & Ni). exists i, w, h. split; [exact E|]. split; [exact Li|]. unfold safe_of. destruct c; try reflexivity. apply Nat.eqb_neq. now apply Ni.
Qed.
Lemma in_members s c i : all_at s (members c) unspent -> i < length (members c) -> exists o, s i = Some o.
Proof. intros T L. specialize (T i). destruct (nth_error (members c) i) as [k|] eqn:E; [destruct T as (o & T & _); exists o; exact T|apply nth_error_None in E; lia]. Qed.
Lemma not_members s c i : all_at s (members c) unspent -> length (members c) <= i -> s i = None.
Proof. intros T L. specialize (T i). destruct (nth_error (members c) i) as [k|] eqn:E; [|exact T]. assert (nth_error (members c) i <> None) by (rewrite E; discriminate). apply nth_error_Some in H. lia. Qed.
(** a class that destroys all members *)
Lemma simple_death dbg zz s p d g : NoDup g -> Inv s p -> Kept zz s p -> (forall i, In i d -> In i g) -> (forall i, In i g -> exists o, s i = Some o /\ (In i d \/ clean o)) ->
  (forall i, ~ In i g -> s i = None) -> exists s' p', do_acts dbg (map Destroy d ++ map Gone g) s p = Fine (s', p') /\ (forall i, s' i = None) /\ Inv s' p' /\ Kept zz s' p'.
Proof.
  intros ND HI K Sub Hg Hn. rewrite acts_app. destruct (destroy_list dbg zz d s p HI K) as (s1 & p1 & D1 & I1 & K1 & L1 & C1).
  - intros i Hi. destruct (Hg i (Sub i Hi)) as (o & E & _). exists o. exact E.
  - rewrite D1. cbn [obind]. destruct (gone_list dbg zz g s1 p1 ND I1 K1) as (s2 & p2 & D2 & I2 & K2 & L2 & C2).
    + intros i Hi. destruct (in_dec Nat.eq_dec i d) as [Hd|Hd]; [now apply C1|]. destruct (Hg i Hi) as (o & E & [H|H]); [contradiction|]. exists o. rewrite L1 by exact Hd. auto.
    + rewrite D2. exists s2, p2. split; [reflexivity|]. split; [|auto]. intros i. destruct (in_dec Nat.eq_dec i g) as [Hg'|Hg']; [now apply C2|]. rewrite L2, L1 by auto. now apply Hn.
Qed.
Lemma death_base_step dbg zz s p : Inv s p -> Kept zz s p -> (exists l, s 18 = Some (OBuf l)) -> (exists o, s 19 = Some o) -> (forall i, i <> 18 -> i <> 19 -> s i = None) ->
  exists s' p', do_acts dbg (death_base 18 19) s p = Fine (s', p') /\ (forall i, s' i = None) /\ Inv s' p' /\ Kept zz s' p'.
Proof.
  intros HI K (l & E18) (o & E19) Hn. change (death_base 18 19) with (map Gone [18] ++ map Destroy [19] ++ map Gone [19]). rewrite acts_app.
  destruct (gone_list dbg zz [18] s p) as (s1 & p1 & D1 & I1 & K1 & L1 & C1); [constructor; [intros []|constructor]|exact HI|exact K| |].
  - intros i [<-|[]]. exists (OBuf l). split; [exact E18|exact Logic.I].
  - rewrite D1. cbn [obind]. apply simple_death; [constructor; [intros []|constructor]|exact I1|exact K1|auto| |].
    + intros i [<-|[]]. exists o. rewrite L1 by (intros [H|[]]; discriminate H). split; [exact E19|left; now left].
    + intros i Hi. destruct (Nat.eq_dec i 18) as [->|N]; [apply C1; now left|]. rewrite L1 by (intros [H|[]]; congruence). apply Hn; [exact N|]. intros ->. apply Hi. now left.
Qed.
Lemma class_death dbg c zz s p : c <> GenericC -> Inv s p -> Kept zz s p -> all_at s (members c) unspent -> (forall i o, safe_of c i = true -> s i = Some o -> untouched o) ->
  exists s' p', do_acts dbg (death c) s p = Fine (s', p') /\ (forall i, s' i = None) /\ Inv s' p' /\ Kept zz s' p'.
Proof.
  intros NG HI K T Sf. destruct c; [|congruence| | | |]; cbn [death].
  - rewrite app_assoc, acts_app. rewrite acts_app.
    destruct (destroy_list dbg zz (seq 0 18) s p HI K) as (s1 & p1 & D1 & I1 & K1 & L1 & C1).
    { intros i Hi. apply in_seq in Hi. apply (in_members s OptimizedC i T). cbn. lia. }
    rewrite D1. cbn [obind]. destruct (gone_list dbg zz (seq 0 18) s1 p1 (seq_NoDup 18 0) I1 K1 C1) as (s2 & p2 & D2 & I2 & K2 & L2 & C2). rewrite D2. cbn [obind].
    apply death_base_step; [exact I2|exact K2| | |].
    + pose proof (T 18) as T18. cbn in T18. destruct T18 as (o & T18 & Ko & _). rewrite L2, L1 by (rewrite in_seq; lia). destruct o; try discriminate Ko. exists l. exact T18.
    + pose proof (T 19) as T19. cbn in T19. destruct T19 as (o & T19 & Ko & _). rewrite L2, L1 by (rewrite in_seq; lia). exists o. exact T19.
    + intros i N1 N2. destruct (in_dec Nat.eq_dec i (seq 0 18)) as [Hi|Hi]; [now apply C2|]. rewrite L2, L1 by exact Hi. rewrite in_seq in Hi. apply (not_members s OptimizedC i T). cbn. lia.
  - apply simple_death; [exact (seq_NoDup 3 0)|exact HI|exact K|auto| |].
    + intros i Hi. destruct (in_members s EliminationC i T) as (o & E); [cbn in *; lia|]. exists o. auto.
    + intros i Hi. apply (not_members s EliminationC i T). cbn in *. lia.
  - apply simple_death; [exact (seq_NoDup 2 0)|exact HI|exact K|auto| |].
    + intros i Hi. destruct (in_members s SeidelC i T) as (o & E); [cbn in *; lia|]. exists o. auto.
    + intros i Hi. apply (not_members s SeidelC i T). cbn in *. lia.
  - apply simple_death; [exact (seq_NoDup 7 0)|exact HI|exact K| | |].
    + intros i Hi. rewrite in_seq in *. lia.
    + intros i Hi. rewrite in_seq in Hi. pose proof (T i) as Ti. destruct (nth_error (members GradientC) i) as [k|] eqn:Ek; [|apply nth_error_None in Ek; cbn in Ek; lia].
      destruct Ti as (o & E & Ko & _). exists o. split; [exact E|]. destruct (Nat.eq_dec i 6) as [->|N]; [|left; rewrite in_seq; lia]. right.
      cbn in Ek. injection Ek as <-. specialize (Sf 6 o eq_refl E). destruct o; try discriminate Ko. cbn in Sf |- *. now rewrite Sf.
    + intros i Hi. rewrite in_seq in Hi. apply (not_members s GradientC i T). cbn. lia.
  - apply simple_death; [exact (seq_NoDup 2 0)|exact HI|exact K|auto| |].
    + intros i Hi. destruct (in_members s Rk4C i T) as (o & E); [cbn in *; lia|]. exists o. auto.
    + intros i Hi. apply (not_members s Rk4C i T). cbn in *. lia.
Qed.
Lemma class_whole dbg c l : c <> GenericC -> uses c l -> exists s p, do_acts dbg (birth c ++ l ++ death c) nowhere pool_new = Fine (s, p) /\ (forall i, s i = None) /\
  forall b len, there p b len -> len = 0 /\ In StateK (members c).
Proof.
  intros NG U. destruct (birth_use dbg c l U) as (s & p & D & HI & K & T & Sf). rewrite app_assoc, acts_app, D. cbn [obind].
  destruct (class_death dbg c _ s p NG HI K T Sf) as (s' & p' & D' & Hs & _ & [_ K']). rewrite D'. exists s', p'. split; [reflexivity|]. split; [exact Hs|].
  intros b len Hb. destruct (K' b len Hb) as [(i & o & E & _)|[Z0 L]]; [rewrite Hs in E; discriminate E|]. split; [exact L|]. apply existsb_exists in Z0. destruct Z0 as (k & Hk & Ek). destruct k; try discriminate Ek. exact Hk.
Qed.
(** the generic class without assertions loses everything its matrices own *)
Lemma gone_lost l : forall s p, NoDup l -> Inv s p -> (forall i, In i l -> exists o, s i = Some o /\ kind_of o <> BuffersK) ->
  exists s', do_acts false (map Gone l) s p = Fine (s', p) /\ Inv s' p /\ (forall i, ~ In i l -> s' i = s i) /\ (forall i, In i l -> s' i = None).
Proof.
  induction l as [|i l IH]; intros s p ND HI Hl; cbn [map do_acts].
  - exists s. split; [reflexivity|]. split; [exact HI|]. split; [reflexivity|]. intros i [].
  - cbn [do_act]. destruct (Hl i (or_introl eq_refl)) as (o & E & Ko). rewrite E. assert (D : destruct_obj false o p = Fine p) by (destruct o; try reflexivity; elim Ko; reflexivity). rewrite D. cbn [obind].
    inversion ND as [|? ? Ni ND']; subst. destruct (IH (upd s i None) p ND') as (s2 & D2 & I2 & M2 & C2).
    + apply (inv_gone s p i o p HI E); auto.
    + intros j Hj. unfold upd. destruct (Nat.eqb_spec j i) as [->|Nj]; [contradiction|]. apply Hl. now right.
    + exists s2. split; [exact D2|]. split; [exact I2|]. split.
      * intros j Hj. rewrite M2 by (intros H; apply Hj; now right). unfold upd. destruct (Nat.eqb_spec j i) as [->|Nj]; [elim Hj; now left|reflexivity].
      * intros j [<-|Hj]; [|now apply C2]. rewrite M2 by exact Ni. unfold upd. now rewrite Nat.eqb_refl.
Qed.
Lemma kept_live p p' o b len z o' : step o p o' p' z -> there p b len -> ordered p -> ~ In b o -> there p' b len.
Proof. intros (_ & _ & _ & A & _) Hb O N. unfold there. rewrite A; [exact Hb| |exact N]. apply O. unfold there in Hb. rewrite Hb. discriminate. Qed.
Lemma generic_lost l : uses GenericC l -> exists s p s' p', do_acts false (birth GenericC ++ l) nowhere pool_new = Fine (s, p) /\
  do_acts false (birth GenericC ++ l ++ death GenericC) nowhere pool_new = Fine (s', p') /\ (forall i, s' i = None) /\
  forall i b len, i < 18 -> owns s i b -> there p b len -> leaked s' p' b len.
Proof.
  intros U. destruct (birth_use false GenericC l U) as (s & p & D & HI & K & T & _). rewrite app_assoc, (acts_app false (birth GenericC ++ l) (death GenericC)), D. cbn [obind]. exists s, p. cbn [death]. rewrite acts_app.
  destruct (gone_lost (seq 0 18) s p (seq_NoDup 18 0) HI) as (s1 & D1 & I1 & L1 & C1).
  { intros i Hi. apply in_seq in Hi. pose proof (T i) as Ti. destruct (nth_error (members GenericC) i) as [k|] eqn:Ek; [|apply nth_error_None in Ek; cbn in Ek; lia].
    destruct Ti as (o & E & Ko & _). exists o. split; [exact E|]. rewrite Ko. intros ->. do 18 (destruct i as [|i]; [discriminate Ek|]). lia. }
  rewrite D1. cbn [obind]. pose proof (T 18) as T18. cbn in T18. destruct T18 as (o18 & E18 & Ko & _). pose proof (T 19) as T19. cbn in T19. destruct T19 as (o19 & E19 & Ko19 & _).
  assert (F18 : s1 18 = Some o18) by (rewrite L1 by (rewrite in_seq; lia); exact E18). assert (F19 : s1 19 = Some o19) by (rewrite L1 by (rewrite in_seq; lia); exact E19).
  unfold death_base. cbn [do_acts do_act]. rewrite F18. pose proof I1 as (O1 & W1 & X1). destruct (destruct_ok false o18 p O1 (W1 18 o18 F18)) as (p2 & D2 & N2 & M1 & M2 & M3 & _); [discriminate|]. rewrite D2. cbn [obind].
  assert (I2 : Inv (upd s1 18 None) p2) by (apply (inv_gone s1 p 18 o18 p2); auto).
  assert (G19 : upd s1 18 None 19 = Some o19) by (unfold upd; exact F19). rewrite G19. destruct (destroy_clean o19 p2 (proj1 I2) (proj1 (proj2 I2) 19 o19 G19)) as (o' & p3 & D3 & St & Ko' & C). rewrite D3. cbn [obind].
  assert (G : upd (upd s1 18 None) 19 (Some o') 19 = Some o') by reflexivity. rewrite G.
  assert (D4 : destruct_obj false o' p3 = Fine p3) by (rewrite Ko19 in Ko'; destruct o'; try discriminate Ko'; reflexivity). rewrite D4. cbn [obind].
  eexists _, p3. split; [reflexivity|]. split; [reflexivity|].
  assert (Hs : forall i, upd (upd (upd s1 18 None) 19 (Some o')) 19 None i = None).
  { intros i. unfold upd. destruct (Nat.eqb_spec i 19); [reflexivity|]. destruct (Nat.eqb_spec i 18); [reflexivity|]. destruct (in_dec Nat.eq_dec i (seq 0 18)) as [Hi|Hi]; [now apply C1|]. rewrite L1 by exact Hi. rewrite in_seq in Hi. apply (not_members s GenericC i T). cbn. lia. }
  split; [exact Hs|]. intros i b len Li (o & E & Hb) Ht. apply in_blocks in Hb. split.
  - apply (kept_live p2 p3 _ b len _ _ St); [|exact (proj1 I2)|].
    + unfold there. rewrite M1; [exact Ht|]. intros Hc. pose proof (proj2 (proj2 HI) i 18 o o18 b E E18 Hb Hc). lia.
    + intros Hc. pose proof (proj2 (proj2 HI) i 19 o o19 b E E19 Hb Hc). lia.
  - intros j (q & Ej & _). rewrite Hs in Ej. discriminate Ej.
Qed.
