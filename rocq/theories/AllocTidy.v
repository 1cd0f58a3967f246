(** * Lemmas: states that are only given sizes above zero lose nothing. *)

From Verif Require Import Base Alloc SpecAlloc AllocFacts AllocHist.

Definition tidy (o : obj) : Prop := match o with OSt a => (as_n a = 0 -> blocks (as_body a) = []) /\ (as_nc a = 0 -> blocks (as_con a) = []) | _ => True end.
Lemma tidy_destroy a p a' p' : tidy (OSt a) -> as_destroy a p = Fine (a', p') -> blocks (pointers (OSt a')) = [].
Proof.
  intros [T1 T2]. unfold as_destroy. destruct (Nat.ltb_spec 0 (as_n a)) as [L|L].
  - destruct (delete_arrays (as_body a) p) as [p1| | |]; cbn [obind]; try discriminate. destruct (Nat.ltb_spec 0 (as_nc a)) as [M|M].
    + destruct (delete_arrays (as_con a) p1); cbn [obind]; try discriminate. intros E. injection E as <- _. reflexivity.
    + cbn [obind]. intros E. injection E as <- _. cbn [pointers as_body as_con]. rewrite blocks_app, T2 by lia. reflexivity.
  - cbn [obind]. destruct (Nat.ltb_spec 0 (as_nc a)) as [M|M].
    + destruct (delete_arrays (as_con a) p); cbn [obind]; try discriminate. intros E. injection E as <- _. cbn [pointers as_body as_con]. rewrite blocks_app, T1 by lia. reflexivity.
    + cbn [obind]. intros E. injection E as <- _. cbn [pointers as_body as_con]. rewrite blocks_app, T1, T2 by lia. reflexivity.
Qed.
Lemma tidy_of_blocks a : blocks (pointers (OSt a)) = [] -> tidy (OSt a).
Proof. cbn [pointers]. rewrite blocks_app. intros E. apply app_eq_nil in E. split; intros _; tauto. Qed.
(** what is not there any more is not an old array of zero length *)
Lemma step_exact o p o' p' o1 p1 z : step o p o1 p1 false -> blocks (pointers o1) = [] -> step [] p1 o' p' z -> step o p o' p' z.
Proof. intros A E B. rewrite <- E in B. exact (step_trans _ _ _ _ _ _ _ _ A B). Qed.
Lemma step_list lens l p p' o' : ordered p -> new_arrays lens p = (l, p') -> pointers o' = l -> wf o' p' -> step [] p o' p' false.
Proof. intros O E <- W. apply (step_new lens p _ p' [] o' false O E); [intros b []|tauto|exact W]. Qed.
Lemma resize_form a n nc p a' p' : as_resize a n nc p = Fine (a', p') -> (a' = a /\ p' = p) \/
  exists a1 p1, as_destroy a p = Fine (a1, p1) /\ new_arrays (repeat n 13 ++ [nc; nc * 2; nc * 2; nc * 2]) p1 = (pointers (OSt a'), p').
Proof.
  unfold as_resize. generalize (repeat n 13) as lens. intros lens. destruct (Nat.leb n (as_n a) && Nat.leb nc (as_nc a)); [intros D; injection D as -> ->; left; auto|].
  destruct (as_destroy a p) as [[a1 p1]| | |]; try discriminate. intros D. right. exists a1, p1. split; [reflexivity|]. rewrite new_split. cbn [obind] in D.
  destruct (new_arrays lens p1) as [lb p2]. destruct (new_arrays [nc; nc * 2; nc * 2; nc * 2] p2) as [lc p3]. injection D as <- <-. reflexivity.
Qed.
Lemma tidy_resize a n nc p : ordered p -> wf (OSt a) p -> tidy (OSt a) -> 0 < n -> 0 < nc ->
  exists a' p', as_resize a n nc p = Fine (a', p') /\ step (blocks (pointers (OSt a))) p (OSt a') p' false /\ tidy (OSt a').
Proof.
  intros O W T Hn Hc. destruct (resize_st a n nc p O W) as (a' & p' & D & St & L1 & L2). exists a', p'. split; [exact D|].
  assert (T' : tidy (OSt a')) by (split; lia). split; [|exact T'].
  destruct (resize_form a n nc p a' p' D) as [[-> ->]|(a1 & p1 & D1 & E)]; [now apply step_refl|]. clear D.
  destruct (destroy_st a p O W) as (a1' & p1' & D1' & St1 & _). rewrite D1 in D1'. injection D1' as <- <-. pose proof (tidy_destroy a p a1 p1 T D1) as B1.
  apply (step_exact _ p (OSt a') p' (OSt a1) p1 false St1 B1). exact (step_list _ _ p1 p' (OSt a') (proj1 (proj2 St1)) E eq_refl (proj1 (proj2 (proj2 St)))).
Qed.
Definition Tight (s : place) (p : pool) : Prop := (forall i o, s i = Some o -> tidy o) /\ forall b len, p_live p b = Some len -> exists i, owns s i b.
Lemma tight_lk s p : Tight s p -> forall b len, p_live p b = Some len -> (exists i, owns s i b) \/ (false = true /\ len = 0).
Proof. intros [_ T] b len E. left. exact (T b len E). Qed.
Lemma tight_set s p i old o' p' : Tight s p -> match s i with Some o => old = blocks (pointers o) | None => old = [] end -> step old p o' p' false -> tidy o' -> Tight (upd s i (Some o')) p'.
Proof.
  intros T Hi St To. split.
  - intros j o. unfold upd. destruct (Nat.eqb j i); [intros E; injection E as <-; exact To|exact (proj1 T j o)].
  - intros b len E. destruct (lk_step false s p i old o' p' false (tight_lk s p T) Hi St (fun H => H) b len E) as [H|[H _]]; [exact H|discriminate H].
Qed.
Lemma tight_act x s p s' p' : Inv s p -> Tight s p -> ~ cloning x -> (forall i w h, x = Resize i w h -> 0 < w /\ 0 < h) -> do_act true x s p = Fine (s', p') -> Tight s' p'.
Proof.
  intros (O & W & X) T NC Hp E. destruct x as [k i|i w h|i|i|i j]; cbn [do_act] in E; [| | | |elim NC; exact Logic.I]; destruct (s i) as [o|] eqn:Ei; try discriminate E.
  - pose proof (construct_step k p O) as St. assert (To : tidy (fst (construct k p))) by (destruct k; cbn; auto). destruct (construct k p) as [o' q]. injection E as <- <-. apply (tight_set s p i [] o' q T); [now rewrite Ei|exact St|exact To].
  - assert (Hold : match s i with Some q => blocks (pointers o) = blocks (pointers q) | None => blocks (pointers o) = [] end) by now rewrite Ei.
    destruct (Hp i w h eq_refl) as [Hw Hh]. destruct o as [a|a|a|l]; cbn [resize_obj] in E.
    + destruct (resize_mat a w h p O (W i _ Ei)) as (a' & q & D & St & _). rewrite D in E. injection E as <- <-. exact (tight_set s p i _ _ _ T Hold St Logic.I).
    + destruct (resize_sp a w h p O (W i _ Ei)) as [(a' & q & D & St & _)|(_ & _ & D)]; rewrite D in E; [|discriminate E]. injection E as <- <-. exact (tight_set s p i _ _ _ T Hold St Logic.I).
    + destruct (tidy_resize a w h p O (W i _ Ei) (proj1 T i _ Ei) Hw Hh) as (a' & q & D & St & To). rewrite D in E. injection E as <- <-. exact (tight_set s p i _ _ _ T Hold St To).
    + injection E as <- <-. exact (tight_set s p i _ _ _ T Hold (step_refl _ _ O (W i _ Ei)) Logic.I).
  - assert (Hold : match s i with Some q => blocks (pointers o) = blocks (pointers q) | None => blocks (pointers o) = [] end) by now rewrite Ei.
    destruct o as [a|a|a|l]; cbn [destroy_obj] in E.
    + destruct (destroy_mat a p O (W i _ Ei)) as (a' & q & D & St & _). rewrite D in E. injection E as <- <-. exact (tight_set s p i _ _ _ T Hold St Logic.I).
    + destruct (destroy_sp a p O (W i _ Ei)) as (a' & q & D & St & _). rewrite D in E. injection E as <- <-. exact (tight_set s p i _ _ _ T Hold St Logic.I).
    + destruct (destroy_st a p O (W i _ Ei)) as (a' & q & D & St & _). rewrite D in E. injection E as <- <-. exact (tight_set s p i _ _ _ T Hold St (tidy_of_blocks _ (tidy_destroy a p a' q (proj1 T i _ Ei) D))).
    + injection E as <- <-. exact (tight_set s p i _ _ _ T Hold (step_refl _ _ O (W i _ Ei)) Logic.I).
  - destruct (destruct_obj true o p) as [q| | |] eqn:D; cbn [obind] in E; try discriminate E. injection E as <- <-.
    assert (C : clean o). { destruct (destruct_cases true o p O (W i o Ei)) as [C|[[_ C]|C]]; [exact C|rewrite C in D; discriminate D|discriminate C]. }
    destruct (destruct_ok true o p O (W i o Ei) (fun _ => C)) as (q' & D' & _ & _ & _ & L3 & L4). rewrite D in D'. injection D' as <-. split.
    + intros j o'. unfold upd. destruct (Nat.eqb j i); [discriminate|exact (proj1 T j o')].
    + intros b len Eb. destruct (proj2 T b len (L3 b len Eb)) as (j & o' & Ej & Hb). destruct (Nat.eq_dec j i) as [->|N].
      * exfalso. rewrite Ei in Ej. injection Ej as <-. apply in_blocks in Hb. destruct (L4 C b len Hb Eb) as [Es _]. destruct o as [a|a|a|l]; try discriminate Es.
        destruct C as [C1 C2]. destruct (proj1 T i _ Ei) as [T1 T2]. cbn [pointers] in Hb. rewrite blocks_app, (T1 C1), (T2 C2) in Hb. destruct Hb.
      * exists j, o'. split; [|exact Hb]. unfold upd. destruct (Nat.eqb_spec j i); [contradiction|exact Ej].
Qed.
Lemma tight_acts l : forall s p s' p', Inv s p -> Tight s p -> no_clone l -> (forall i w h, In (Resize i w h) l -> 0 < w /\ 0 < h) -> do_acts true l s p = Fine (s', p') -> Tight s' p'.
Proof.
  induction l as [|x l IH]; intros s p s' p' HI T NC Hp E; cbn [do_acts] in E; [injection E as <- <-; exact T|].
  assert (NCx : ~ cloning x). { destruct x; try (intros []). exfalso. apply (NC i j). now left. }
  pose proof (act_step true x s p HI NCx) as A. destruct (do_act true x s p) as [[s1 p1]| | |] eqn:D; cbn [obind] in E; try discriminate E.
  apply (IH s1 p1 s' p' (proj1 A)); [| | |exact E].
  - apply (tight_act x s p s1 p1 HI T NCx); [|exact D]. intros i w h ->. apply (Hp i). now left.
  - intros i j H. apply (NC i j). now right.
  - intros i w h H. apply (Hp i). now right.
Qed.
Lemma hist_tight l s p : no_clone l -> (forall i w h, In (Resize i w h) l -> 0 < w /\ 0 < h) -> do_acts true l nowhere pool_new = Fine (s, p) ->
  do_acts false l nowhere pool_new = Fine (s, p) /\ forall b len, ~ leaked s p b len.
Proof.
  intros NC Hp E. split; [now apply acts_release|]. intros b len [H1 H2].
  assert (T0 : Tight nowhere pool_new) by (split; discriminate). destruct (tight_acts l _ _ s p inv_start T0 NC Hp E) as [_ T]. destruct (T b len H1) as [i Hi]. exact (H2 i Hi).
Qed.
