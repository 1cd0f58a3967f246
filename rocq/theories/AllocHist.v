(** * Lemmas on the ownership of heap arrays, over whole programs. *)

From Verif Require Import Base Alloc SpecAlloc AllocFacts.

Definition clean (o : obj) : Prop :=
  match o with
  | OMat a => am_matrix a = None
  | OSp a => ap_matrix a = None /\ ap_data a = None /\ ap_block a = None
  | OSt a => as_n a = 0 /\ as_nc a = 0
  | OBuf _ => True
  end.
Lemma destruct_ok dbg o p : ordered p -> wf o p -> (dbg = true -> clean o) -> exists p', destruct_obj dbg o p = Fine p' /\ p_next p' = p_next p /\
  (forall b, ~ In b (blocks (pointers o)) -> p_live p' b = p_live p b) /\ (forall b, p_live p b = None -> p_live p' b = None) /\
  (forall b len, p_live p' b = Some len -> p_live p b = Some len) /\
  (clean o -> forall b len, In b (blocks (pointers o)) -> p_live p' b = Some len -> is_state o = true /\ len = 0).
Proof.
  intros O W C. destruct o as [a|a|a|l]; cbn [destruct_obj].
  - exists p. split.
    + destruct dbg; [|reflexivity]. cbn in C. now rewrite C by reflexivity.
    + split; [reflexivity|]. split; [reflexivity|]. split; [auto|]. split; [auto|]. cbn [clean]. intros E b len Hb. destruct W as (_ & _ & [(_ & E2 & _)|(X & _)]).
      * cbn [pointers] in Hb. rewrite E, E2 in Hb. destruct Hb.
      * rewrite E in X. destruct X.
  - exists p. split.
    + destruct dbg; [|reflexivity]. destruct (C eq_refl) as (E1 & E2 & E3). rewrite E1, E2, E3. reflexivity.
    + split; [reflexivity|]. split; [reflexivity|]. split; [auto|]. split; [auto|]. intros (E1 & E2 & E3) b len Hb. cbn [pointers] in Hb. rewrite E1, E2, E3 in Hb. destruct Hb.
  - exists p. split.
    + destruct dbg; [|reflexivity]. destruct (C eq_refl) as (E1 & E2). now rewrite E1, E2.
    + split; [reflexivity|]. split; [reflexivity|]. split; [auto|]. split; [auto|]. intros (E1 & E2) b len Hb E. split; [reflexivity|].
      destruct W as (_ & _ & _ & _ & W3 & W4). apply in_blocks in Hb. cbn [pointers] in Hb. apply in_app_or in Hb.
      assert (X : p_live p b = Some 0) by (destruct Hb as [Hb|Hb]; [rewrite <- E1; now apply W3|now apply W4]). rewrite X in E. now injection E.
  - destruct W as (ND & HL & _). destruct (delete_spec l p ND HL) as (p' & D & N & L). exists p'. split; [exact D|]. split; [exact N|]. split; [|split; [|split]].
    + intros b Hb. rewrite L. destruct (in_dec _ _ _); [contradiction|reflexivity].
    + intros b Hb. rewrite L. destruct (in_dec _ _ _); [reflexivity|exact Hb].
    + intros b len. rewrite L. destruct (in_dec _ _ _); [discriminate|auto].
    + intros _ b len Hb. rewrite L. destruct (in_dec _ _ _); [discriminate|contradiction].
Qed.
Lemma destruct_cases dbg o p : ordered p -> wf o p -> (clean o \/ (dbg = true /\ destruct_obj dbg o p = Assert) \/ dbg = false).
Proof.
  intros O W. destruct dbg; [|auto]. destruct o as [a|a|a|l]; cbn [destruct_obj clean].
  - destruct (am_matrix a) eqn:E; [right; left; auto|auto].
  - destruct (ap_matrix a); [right; left; auto|]. destruct (ap_data a); [right; left; auto|]. destruct (ap_block a); [right; left; auto|auto].
  - destruct (as_n a); [|right; left; auto]. destruct (as_nc a); [auto|right; left; auto].
  - auto.
Qed.
Definition kind_of (o : obj) : kind := match o with OMat _ => MatrixK | OSp _ => SparseK | OSt _ => StateK | OBuf _ => BuffersK end.
Lemma construct_kind k p : kind_of (fst (construct k p)) = k.
Proof. destruct k; reflexivity. Qed.
Lemma state_kind o : is_state o = true <-> kind_of o = StateK.
Proof. destruct o; cbn; split; congruence. Qed.
Definition taken (s : place) (i : nat) : bool := match s i with Some _ => true | None => false end.
Definition places_after (x : act) (here : nat -> bool) : nat -> bool :=
  match x with New _ i => upd here i true | Gone i => upd here i false | Clone _ j => upd here j true | _ => here end.
Definition ready (x : act) (here : nat -> bool) : Prop :=
  match x with New _ i => here i = false | Gone i | Resize i _ _ | Destroy i => here i = true | Clone i j => here i = true /\ here j = false end.
Definition cloning (x : act) : Prop := match x with Clone _ _ => True | _ => False end.
Definition ext {A : Type} (f g : nat -> A) : Prop := forall i, f i = g i.
Definition sparse_at (s : place) (x : act) : Prop := exists i w h o, x = Resize i w h /\ s i = Some o /\ is_sparse o = true.
Lemma act_step dbg x s p : Inv s p -> ~ cloning x ->
  match do_act dbg x s p with
  | Fine (s', p') => Inv s' p' /\ ready x (taken s) /\ ext (taken s') (places_after x (taken s)) /\
      (dbg = true -> forall zz, Kept zz s p -> (forall i, x = New StateK i -> zz = true) -> Kept zz s' p') /\
      (forall i o', s' i = Some o' -> (exists o, s i = Some o /\ is_sparse o = is_sparse o') \/ exists k, x = New k i /\ kind_of o' = k)
  | DeleteTwice => False
  | BadAccess => ready x (taken s) -> sparse_at s x
  | Assert => dbg = true /\ exists i, x = Gone i
  end.
Proof.
  intros HI NC. pose proof HI as (O & W & X). destruct x as [k i|i w h|i|i|i j]; cbn [do_act]; [| | | |elim NC; exact Logic.I].
  - destruct (s i) as [o|] eqn:E.
    + intros R. cbn in R. unfold taken in R. rewrite E in R. discriminate R.
    + pose proof (construct_step k p O) as St. pose proof (construct_kind k p) as Ek. destruct (construct k p) as [o' p']. cbn [fst snd] in St, Ek.
      assert (Hold : match s i with Some o => @nil nat = blocks (pointers o) | None => @nil nat = [] end) by now rewrite E.
      split; [exact (inv_step s p i [] o' p' false HI Hold St)|]. split; [unfold ready, taken; now rewrite E|]. split; [|split].
      * intros a. cbn [places_after]. unfold taken, upd. destruct (Nat.eqb a i); reflexivity.
      * intros _ zz K Hz. apply (kept_step zz s p i [] o' p' false K Hold St); [discriminate|]. intros Es. apply (Hz i). apply state_kind in Es. congruence.
      * intros a o1. unfold upd. destruct (Nat.eqb_spec a i) as [->|N]; [intros E1; injection E1 as <-; right; exists k; auto|intros E1; left; exists o1; auto].
  - destruct (s i) as [o|] eqn:E.
    + destruct (resize_step o w h p O (W i o E)) as [(o' & p' & D & St & Es & Ep)|(Es & D)]; rewrite D; cbn [obind].
      * assert (Hold : match s i with Some q => blocks (pointers o) = blocks (pointers q) | None => blocks (pointers o) = [] end) by now rewrite E.
        split; [exact (inv_step s p i _ o' p' _ HI Hold St)|]. split; [unfold ready, taken; now rewrite E|]. split; [|split].
        -- intros a. cbn [places_after]. unfold taken, upd. destruct (Nat.eqb_spec a i) as [->|N]; [now rewrite E|reflexivity].
        -- intros _ zz K _. apply (kept_step zz s p i _ o' p' _ K Hold St); [exact (proj1 K i o E)|rewrite Es; exact (proj1 K i o E)].
        -- intros a o1. unfold upd. destruct (Nat.eqb_spec a i) as [->|N]; [intros E1; injection E1 as <-; left; exists o; auto|intros E1; left; exists o1; auto].
      * intros _. exists i, w, h, o. auto.
    + intros R. cbn in R. unfold taken in R. rewrite E in R. discriminate R.
  - destruct (s i) as [o|] eqn:E.
    + destruct (destroy_step o p O (W i o E)) as (o' & p' & D & St & Es & Ep); rewrite D; cbn [obind].
      assert (Hold : match s i with Some q => blocks (pointers o) = blocks (pointers q) | None => blocks (pointers o) = [] end) by now rewrite E.
      split; [exact (inv_step s p i _ o' p' _ HI Hold St)|]. split; [unfold ready, taken; now rewrite E|]. split; [|split].
      * intros a. cbn [places_after]. unfold taken, upd. destruct (Nat.eqb_spec a i) as [->|N]; [now rewrite E|reflexivity].
      * intros _ zz K _. apply (kept_step zz s p i _ o' p' _ K Hold St); [discriminate|rewrite Es; exact (proj1 K i o E)].
      * intros a o1. unfold upd. destruct (Nat.eqb_spec a i) as [->|N]; [intros E1; injection E1 as <-; left; exists o; auto|intros E1; left; exists o1; auto].
    + intros R. cbn in R. unfold taken in R. rewrite E in R. discriminate R.
  - destruct (s i) as [o|] eqn:E.
    + assert (F : (dbg = true -> clean o) -> match (let! p' := destruct_obj dbg o p in Fine (upd s i None, p')) with
        | Fine (s', p') => Inv s' p' /\ ready (Gone i) (taken s) /\ ext (taken s') (places_after (Gone i) (taken s)) /\
          (dbg = true -> forall zz, Kept zz s p -> (forall j, Gone i = New StateK j -> zz = true) -> Kept zz s' p') /\
          (forall j o', s' j = Some o' -> (exists o, s j = Some o /\ is_sparse o = is_sparse o') \/ exists k, Gone i = New k j /\ kind_of o' = k)
        | _ => False end).
      { intros C. destruct (destruct_ok dbg o p O (W i o E) C) as (p' & D & N & L1 & L2 & L3 & L4). rewrite D. cbn [obind].
        split; [exact (inv_gone s p i o p' HI E N L1 L2)|]. split; [unfold ready, taken; now rewrite E|]. split; [|split].
        - intros a. cbn [places_after]. unfold taken, upd. destruct (Nat.eqb a i); reflexivity.
        - intros Ed zz K _. apply (kept_gone zz s p i o p' K E L3). intros b len Hb El. destruct (L4 (C Ed) b len Hb El) as [Es El0]. split; [exact (proj1 K i o E Es)|exact El0].
        - intros a o1. unfold upd. destruct (Nat.eqb_spec a i) as [->|N']; [discriminate|intros E1; left; exists o1; auto]. }
      destruct (destruct_cases dbg o p O (W i o E)) as [C|[[Ed C]|Ed]].
      * specialize (F (fun _ => C)). destruct (let! p' := destruct_obj dbg o p in Fine (upd s i None, p')) as [[s' p']| | |]; try contradiction. exact F.
      * rewrite C. cbn [obind]. split; [exact Ed|]. exists i. reflexivity.
      * assert (C : dbg = true -> clean o) by (rewrite Ed; discriminate). specialize (F C). destruct (let! p' := destruct_obj dbg o p in Fine (upd s i None, p')) as [[s' p']| | |]; try contradiction. exact F.
    + intros R. cbn in R. unfold taken in R. rewrite E in R. discriminate R.
Qed.
Lemma proper_cons x l here : proper (x :: l) here <-> ready x here /\ proper l (places_after x here).
Proof. destruct x; cbn; tauto. Qed.
Lemma proper_ext l : forall f g, ext f g -> proper l f -> proper l g.
Proof.
  induction l as [|x l IH]; intros f g E H; [exact Logic.I|]. apply proper_cons in H. destruct H as [H1 H2]. apply proper_cons. split.
  - destruct x; cbn in H1 |- *; rewrite <- ?E; exact H1.
  - apply (IH (places_after x f)); [|exact H2]. destruct x; cbn [places_after]; try exact E; intros a; unfold upd; destruct (Nat.eqb a _); [reflexivity|apply E|reflexivity|apply E|reflexivity|apply E].
Qed.
Lemma acts_app dbg l m : forall s p, do_acts dbg (l ++ m) s p = let! (s, p) := do_acts dbg l s p in do_acts dbg m s p.
Proof. induction l as [|x l IH]; intros s p; [reflexivity|]. cbn [app do_acts]. destruct (do_act dbg x s p) as [[s' p']| | |]; try reflexivity. apply IH. Qed.
Definition no_sparse (s : place) : Prop := forall i o, s i = Some o -> is_sparse o = false.
Lemma acts_step dbg l : forall s p, Inv s p -> no_clone l ->
  match do_acts dbg l s p with
  | Fine (s', p') => Inv s' p' /\ (dbg = true -> forall zz, Kept zz s p -> (forall i, In (New StateK i) l -> zz = true) -> Kept zz s' p')
  | DeleteTwice => False
  | BadAccess => proper l (taken s) -> no_sparse s -> exists i, In (New SparseK i) l
  | Assert => dbg = true
  end.
Proof.
  induction l as [|x l IH]; intros s p HI NC; cbn [do_acts].
  - split; [exact HI|]. intros _ zz K _. exact K.
  - assert (NCx : ~ cloning x). { destruct x; try (intros []). exfalso. apply (NC i j). now left. }
    assert (NCl : no_clone l). { intros i j H. apply (NC i j). now right. }
    pose proof (act_step dbg x s p HI NCx) as A. destruct (do_act dbg x s p) as [[s' p']| | |]; cbn [obind].
    + destruct A as (A1 & A2 & A3 & A4 & A5). specialize (IH s' p' A1 NCl). destruct (do_acts dbg l s' p') as [[s2 p2]| | |].
      * destruct IH as [I1 I2]. split; [exact I1|]. intros Ed zz K Hz. apply (I2 Ed zz); [|intros i Hi; apply (Hz i); now right]. apply (A4 Ed zz K). intros i Ei. apply (Hz i). left. exact Ei.
      * exact IH.
      * intros P NS. apply proper_cons in P. destruct P as [_ P]. destruct (match x with New SparseK i => Some i | _ => None end) as [i|] eqn:Ex.
        -- exists i. left. destruct x as [k ?|?|?|?|?]; try discriminate Ex. destruct k; try discriminate Ex. injection Ex as <-. reflexivity.
        -- destruct IH as (i & Hi); [| |exists i; now right].
           ++ apply (proper_ext l (places_after x (taken s))); [|exact P]. intros a. symmetry. apply A3.
           ++ intros i o Hi. destruct (A5 i o Hi) as [(o1 & E1 & E2)|(k & E1 & E2)]; [rewrite <- E2; exact (NS i o1 E1)|]. subst x. destruct o; try reflexivity. cbn in E2. subst k. discriminate Ex.
      * exact IH.
    + exact A.
    + intros P NS. apply proper_cons in P. destruct (A (proj1 P)) as (i & w & h & o & _ & E1 & E2). rewrite (NS i o E1) in E2. discriminate E2.
    + exact (proj1 A).
Qed.
Lemma inv_start : Inv nowhere pool_new.
Proof. split; [intros b H; elim H; reflexivity|]. split; [discriminate|discriminate]. Qed.
Lemma kept_start zz : Kept zz nowhere pool_new.
Proof. split; discriminate. Qed.
(** without assertions the same happens *)
Lemma act_release x s p r : do_act true x s p = Fine r -> do_act false x s p = Fine r.
Proof.
  destruct x as [k i|i w h|i|i|i j]; cbn [do_act]; try exact (fun H => H). destruct (s i) as [o|]; [|discriminate].
  assert (D : forall q, destruct_obj true o p = Fine q -> destruct_obj false o p = Fine q).
  { intros q. destruct o as [a|a|a|l]; cbn [destruct_obj andb]; [destruct (negb _)|destruct (negb _)|destruct (negb _)|]; try discriminate; auto. }
  destruct (destruct_obj true o p) as [q| | |]; try discriminate. rewrite (D q eq_refl). auto.
Qed.
Lemma acts_release l : forall s p r, do_acts true l s p = Fine r -> do_acts false l s p = Fine r.
Proof.
  induction l as [|x l IH]; intros s p r; cbn [do_acts]; [auto|]. destruct (do_act true x s p) as [[s' p']| | |] eqn:E; try discriminate. rewrite (act_release x s p _ E). cbn [obind]. apply IH.
Qed.
Lemma blocks_once l : NoDup (blocks l) -> forall j k b, nth_error l j = Some (Some b) -> nth_error l k = Some (Some b) -> j = k.
Proof.
  induction l as [|a l IH]; intros ND j k b Hj Hk; [destruct j; discriminate Hj|].
  assert (ND' : NoDup (blocks l)) by (destruct a; [now inversion ND|exact ND]).
  assert (N0 : a = Some b -> ~ In (Some b) l). { intros -> Hi. change (blocks (Some b :: l)) with (b :: blocks l) in ND. inversion ND as [|? ? N0 ?]; subst. apply N0. now apply in_blocks. }
  destruct j as [|j], k as [|k]; cbn [nth_error] in Hj, Hk.
  - reflexivity.
  - injection Hj as Ha. elim (N0 Ha). exact (nth_error_In _ _ Hk).
  - injection Hk as Ha. elim (N0 Ha). exact (nth_error_In _ _ Hj).
  - f_equal. exact (IH ND' j k b Hj Hk).
Qed.
Lemma inv_sound s p : Inv s p -> sound s p.
Proof.
  intros (O & W & X). split; [|split].
  - intros i b (o & E & Hb). destruct (p_live p b) as [len|] eqn:El; [exists len; exact El|]. elim (proj1 (proj2 (W i o E)) b); [now apply in_blocks|exact El].
  - intros i j b (o & E & Hb) (o' & E' & Hb'). apply (X i j o o' b E E'); now apply in_blocks.
  - intros i o b j k E Hj Hk. exact (blocks_once _ (proj1 (W i o E)) j k b Hj Hk).
Qed.

Lemma hist_sound dbg l : no_clone l -> do_acts dbg l nowhere pool_new <> DeleteTwice /\ forall s p, do_acts dbg l nowhere pool_new = Fine (s, p) -> sound s p.
Proof.
  intros NC. pose proof (acts_step dbg l nowhere pool_new inv_start NC) as A. split.
  - intros E. rewrite E in A. exact A.
  - intros s p E. rewrite E in A. now apply inv_sound.
Qed.
Lemma hist_fine dbg l : no_clone l -> proper l none_here -> makes [MatrixK; StateK; BuffersK] l ->
  (exists s p, do_acts dbg l nowhere pool_new = Fine (s, p)) \/ (dbg = true /\ do_acts dbg l nowhere pool_new = Assert).
Proof.
  intros NC P M. pose proof (acts_step dbg l nowhere pool_new inv_start NC) as A. destruct (do_acts dbg l nowhere pool_new) as [[s p]| | |].
  - left. exists s, p. reflexivity.
  - contradiction.
  - destruct A as (i & Hi); [exact P|discriminate|]. specialize (M SparseK i Hi). cbn in M. destruct M as [M|[M|[M|[]]]]; discriminate M.
  - right. auto.
Qed.
Lemma hist_kept l s p : no_clone l -> do_acts true l nowhere pool_new = Fine (s, p) -> do_acts false l nowhere pool_new = Fine (s, p) /\
  forall b len, leaked s p b len -> len = 0 /\ exists i, In (New StateK i) l.
Proof.
  intros NC E. split; [now apply acts_release|]. pose proof (acts_step true l nowhere pool_new inv_start NC) as A. rewrite E in A. destruct A as [_ A]. specialize (A eq_refl).
  set (zz := existsb (fun x => match x with New StateK _ => true | _ => false end) l).
  intros b len [Ht Hn]. destruct (A zz (kept_start zz)) as [_ K].
  - intros i Hi. apply existsb_exists. exists (New StateK i). auto.
  - destruct (K b len Ht) as [[i Hi]|[Z0 L]]; [elim (Hn i Hi)|]. split; [exact L|]. apply existsb_exists in Z0. destruct Z0 as (x & Hx & Ex). destruct x as [k i|? ? ?|?|?|? ?]; try discriminate Ex. destruct k; try discriminate Ex. exists i. exact Hx.
Qed.
