(** * Lemmas on copies of objects and on arrays without elements. *)

From Verif Require Import Base Alloc SpecAlloc AllocFacts AllocHist.

Lemma upd_at {A : Type} (s : nat -> A) i v : upd s i v i = v.
Proof. unfold upd. now rewrite Nat.eqb_refl. Qed.
Lemma upd_off {A : Type} (s : nat -> A) i j v : j <> i -> upd s i v j = s j.
Proof. intros N. unfold upd. destruct (Nat.eqb_spec j i); [contradiction|reflexivity]. Qed.
Lemma delete_gone l : forall p b, In (Some b) l -> NoDup (blocks l) -> p_live p b = None -> (forall c, In c (blocks l) -> c <> b -> p_live p c <> None) ->
  delete_arrays l p = DeleteTwice.
Proof.
  induction l as [|[c|] l IH]; intros p b Hb ND E Hl; [destruct Hb| |].
  - cbn [delete_arrays delete_array]. change (blocks (Some c :: l)) with (c :: blocks l) in ND, Hl. inversion ND as [|? ? N0 ND']; subst. destruct (Nat.eq_dec c b) as [->|N]; [now rewrite E|].
    destruct (p_live p c) eqn:Ec; [|elim (Hl c (or_introl eq_refl) N Ec)]. cbn [obind]. destruct Hb as [Hb|Hb]; [congruence|]. apply (IH _ b Hb ND').
    + cbn [p_live]. rewrite upd_off by auto. exact E.
    + intros d Hd Nd. cbn [p_live]. rewrite upd_off; [apply Hl; [now right|exact Nd]|]. intros ->. contradiction.
  - cbn [delete_arrays delete_array obind]. destruct Hb as [Hb|Hb]; [discriminate Hb|]. exact (IH p b Hb ND E Hl).
Qed.
Lemma delete_all_gone a l p : p_live p a = None -> delete_arrays (Some a :: l) p = DeleteTwice.
Proof. intros E. cbn [delete_arrays delete_array]. now rewrite E. Qed.
Lemma copy_twice dbg l s p i j o : no_clone l -> do_acts dbg l nowhere pool_new = Fine (s, p) -> s i = Some o -> s j = None ->
  match o with OMat a => am_matrix a <> None | OSp a => ap_matrix a <> None | _ => False end ->
  do_acts dbg (l ++ [Clone i j; Destroy i; Destroy j]) nowhere pool_new = DeleteTwice /\ do_acts dbg (l ++ [Clone i j; Destroy j; Destroy i]) nowhere pool_new = DeleteTwice.
Proof.
  intros NC E Ei Ej Ho. pose proof (acts_step dbg l nowhere pool_new inv_start NC) as A. rewrite E in A. destruct A as [HI _]. pose proof HI as (O & W & _). pose proof (W i o Ei) as Wo.
  assert (Nij : i <> j) by congruence. rewrite !acts_app, E. cbn [obind do_acts do_act]. rewrite Ei, Ej. cbn [obind]. rewrite upd_at, (upd_off s j i) by exact Nij. rewrite Ei.
  assert (X : exists o' p', destroy_obj o p = Fine (o', p') /\ destroy_obj o p' = DeleteTwice).
  { destruct o as [a|a|a|k]; try contradiction; cbn [destroy_obj] in *.
    - destruct (am_matrix a) as [b|] eqn:Em; [|congruence]. destruct (delete_spec [am_matrix a; am_data a] p (proj1 Wo) (proj1 (proj2 Wo))) as (p' & D & _ & L).
      exists (OMat am_new), p'. unfold am_destroy. rewrite Em in D, L |- *. rewrite D. cbn [obind]. split; [reflexivity|]. rewrite delete_all_gone; [reflexivity|]. rewrite L.
      change (blocks [Some b; am_data a]) with (b :: blocks [am_data a]). destruct (in_dec Nat.eq_dec b (b :: blocks [am_data a])) as [_|N]; [reflexivity|elim N; now left].
    - destruct (ap_matrix a) as [b|] eqn:Em; [|congruence]. destruct (delete_spec [ap_matrix a; ap_data a; ap_block a] p (proj1 Wo) (proj1 (proj2 Wo))) as (p' & D & _ & L).
      exists (OSp (mkAsp None None None 0 0 (ap_ch a))), p'. unfold ap_destroy. rewrite Em in D, L |- *. rewrite D. cbn [obind]. split; [reflexivity|]. rewrite delete_all_gone; [reflexivity|]. rewrite L.
      change (blocks [Some b; ap_data a; ap_block a]) with (b :: blocks [ap_data a; ap_block a]). destruct (in_dec Nat.eq_dec b (b :: blocks [ap_data a; ap_block a])) as [_|N]; [reflexivity|elim N; now left]. }
  destruct X as (o' & p' & D1 & D2). rewrite D1. cbn [obind]. rewrite !(upd_off _ i j) by auto. rewrite (upd_off _ j i) by exact Nij. rewrite upd_at, (upd_off s j i) by exact Nij. rewrite Ei, D2. split; reflexivity.
Qed.
Lemma copy_state n nc dbg : 0 < n \/ 0 < nc -> do_acts dbg [New StateK 0; Resize 0 n nc; Clone 0 1; Destroy 0; Destroy 1] nowhere pool_new = DeleteTwice.
Proof. intros H. destruct n as [|n], nc as [|nc]; [lia|reflexivity|reflexivity|reflexivity]. Qed.
Lemma copy_buffers dbg : do_acts dbg [New BuffersK 0; Clone 0 1; Gone 0; Gone 1] nowhere pool_new = DeleteTwice.
Proof. vm_compute. reflexivity. Qed.
(** copies of objects that own nothing *)
Lemma copy_empty dbg l s p i j o : no_clone l -> do_acts dbg l nowhere pool_new = Fine (s, p) -> s i = Some o -> s j = None -> (forall b, ~ In (Some b) (pointers o)) ->
  exists s' , do_acts dbg (l ++ [Clone i j]) nowhere pool_new = Fine (s', p) /\ sound s' p /\ s' j = Some o.
Proof.
  intros NC E Ei Ej Ho. rewrite acts_app, E. cbn [obind do_acts do_act]. rewrite Ei, Ej. cbn [obind]. eexists. split; [reflexivity|]. split; [|apply upd_at].
  pose proof (acts_step dbg l nowhere pool_new inv_start NC) as A. rewrite E in A. destruct A as [(O & W & X) _]. apply inv_sound. split; [exact O|]. split.
  - intros k o'. unfold upd. destruct (Nat.eqb_spec k j); [intros Ek; injection Ek as <-; exact (W i o Ei)|apply W].
  - intros k k' o1 o2 b. unfold upd. destruct (Nat.eqb_spec k j), (Nat.eqb_spec k' j); intros E1 E2 H1 H2.
    + congruence.
    + injection E1 as <-. apply in_blocks in H1. elim (Ho b H1).
    + injection E2 as <-. apply in_blocks in H2. elim (Ho b H2).
    + exact (X k k' o1 o2 b E1 E2 H1 H2).
Qed.
(** a state without constraints: every life loses four arrays *)
Definition state_life (n : nat) : list act := [New StateK 0; Resize 0 n 0; Destroy 0; Gone 0].
Lemma life_step dbg n s p : ordered p -> 0 < n -> (forall i, s i = None) ->
  exists s' p', do_acts dbg (state_life n) s p = Fine (s', p') /\ (forall i, s' i = None) /\ ordered p' /\ p_next p' = p_next p + 17 /\
  (forall b, b < p_next p -> p_live p' b = p_live p b) /\ forall k, k < 4 -> p_live p' (p_next p + 13 + k) = Some 0.
Proof.
  intros O Hn Hs. unfold state_life. cbn [do_acts do_act]. rewrite (Hs 0). cbn [construct obind]. rewrite upd_at. cbn [resize_obj]. unfold as_resize at 1. cbn [as_n as_nc as_new].
  destruct (Nat.leb_spec n 0) as [L|_]; [lia|]. cbn [andb]. unfold as_destroy at 1. cbn [as_n as_nc as_new Nat.ltb Nat.leb obind as_body as_con].
  pose proof (new_spec (repeat n 13) p O) as N. destruct (new_arrays (repeat n 13) p) as [lb p2]. destruct N as (O2 & N2 & N3 & N4 & N5). rewrite repeat_length in N2, N3.
  pose proof (new_spec [0; 0 * 2; 0 * 2; 0 * 2] p2 O2) as N. destruct (new_arrays [0; 0 * 2; 0 * 2; 0 * 2] p2) as [lc p3]. destruct N as (O3 & M2 & M3 & M4 & M5). cbn [length] in M2.
  cbn [obind]. rewrite upd_at. cbn [destroy_obj]. unfold as_destroy. cbn [as_n as_nc as_body as_con]. rewrite (proj2 (Nat.ltb_lt 0 n) Hn).
  destruct (delete_spec lb p3) as (p4 & D & E4 & L4).
  { rewrite N3, blocks_some. apply seq_NoDup. }
  { rewrite N3, blocks_some. intros b Hb. apply in_seq in Hb. rewrite M4 by lia. replace b with (p_next p + (b - p_next p)) by lia. rewrite (N5 _ n); [discriminate|]. apply nth_error_repeat. lia. }
  rewrite D. cbn [obind]. replace (Nat.ltb 0 0) with false by reflexivity. cbn [obind]. rewrite upd_at. cbn [destruct_obj as_n as_nc Nat.eqb andb negb]. rewrite andb_false_r. cbn [obind].
  rewrite N3, blocks_some in L4.
  eexists _, p4. split; [reflexivity|]. split; [|split; [|split; [|split]]].
  - intros i. unfold upd. destruct (Nat.eqb i 0); [reflexivity|]. apply Hs.
  - intros b Hb. rewrite L4 in Hb. destruct (in_dec _ _ _); [contradiction|]. rewrite E4. now apply O3.
  - lia.
  - intros b Hb. rewrite L4. destruct (in_dec Nat.eq_dec b (seq (p_next p) 13)) as [H|_]; [apply in_seq in H; lia|]. rewrite M4 by lia. now apply N4.
  - intros k Hk. rewrite L4. destruct (in_dec Nat.eq_dec (p_next p + 13 + k) (seq (p_next p) 13)) as [H|_]; [apply in_seq in H; lia|]. replace (p_next p + 13 + k) with (p_next p2 + k) by lia. apply M5.
    destruct k as [|[|[|[|k]]]]; try reflexivity. lia.
Qed.
Lemma lives_step dbg n r : 0 < n -> exists s p, do_acts dbg (concat (repeat (state_life n) r)) nowhere pool_new = Fine (s, p) /\ (forall i, s i = None) /\ ordered p /\ p_next p = 17 * r /\
  forall j k, j < r -> k < 4 -> p_live p (17 * j + 13 + k) = Some 0.
Proof.
  intros Hn. induction r as [|r (s & p & D & Hs & O & N & L)].
  - exists nowhere, pool_new. split; [reflexivity|]. split; [reflexivity|]. split; [exact (proj1 inv_start)|]. split; [reflexivity|]. lia.
  - replace (repeat (state_life n) (S r)) with (repeat (state_life n) r ++ [state_life n]) by (symmetry; replace (S r) with (r + 1) by lia; apply repeat_app).
    rewrite concat_app, acts_app, D. cbn [obind concat]. rewrite app_nil_r. destruct (life_step dbg n s p O Hn Hs) as (s' & p' & D' & Hs' & O' & N' & K1 & K2). rewrite D'.
    exists s', p'. split; [reflexivity|]. split; [exact Hs'|]. split; [exact O'|]. split; [lia|]. intros j k Hj Hk. destruct (Nat.eq_dec j r) as [->|Nj].
    + rewrite <- N. now apply K2.
    + rewrite K1 by lia. apply L; lia.
Qed.
Lemma lives_leak dbg n r : 0 < n -> exists s p bs, do_acts dbg (concat (repeat (state_life n) r)) nowhere pool_new = Fine (s, p) /\ (forall i, s i = None) /\
  NoDup bs /\ length bs = 4 * r /\ forall b, In b bs -> leaked s p b 0.
Proof.
  intros Hn. destruct (lives_step dbg n r Hn) as (s & p & D & Hs & _ & _ & L). exists s, p, (flat_map (fun j => [17 * j + 13; 17 * j + 14; 17 * j + 15; 17 * j + 16]) (seq 0 r)).
  split; [exact D|]. split; [exact Hs|]. split; [|split].
  - clear. assert (H : forall a m, NoDup (flat_map (fun j => [17 * j + 13; 17 * j + 14; 17 * j + 15; 17 * j + 16]) (seq a m))).
    { intros a m. revert a. induction m as [|m IH]; intros a; [constructor|]. cbn [seq flat_map].
      assert (F : forall x, In x (flat_map (fun j => [17 * j + 13; 17 * j + 14; 17 * j + 15; 17 * j + 16]) (seq (S a) m)) -> 17 * a + 16 < x).
      { intros x Hx. apply in_flat_map in Hx. destruct Hx as (j & Hj & Hx). apply in_seq in Hj. cbn [In] in Hx. lia. }
      cbn [app]. repeat (constructor; [cbn [In]; intros H; decompose [or] H; try lia; match goal with H1 : In _ _ |- _ => apply F in H1; lia end|]). apply IH. }
    apply H.
  - clear. assert (H : forall a m, length (flat_map (fun j => [17 * j + 13; 17 * j + 14; 17 * j + 15; 17 * j + 16]) (seq a m)) = 4 * m).
    { intros a m. revert a. induction m as [|m IH]; intros a; [reflexivity|]. cbn [seq flat_map app length]. rewrite IH. lia. }
    apply H.
  - intros b Hb. apply in_flat_map in Hb. destruct Hb as (j & Hj & Hb). apply in_seq in Hj. split; [|intros i (o & E & _); rewrite Hs in E; discriminate E].
    cbn [In] in Hb. destruct Hb as [<-|[<-|[<-|[<-|[]]]]]; unfold there.
    + rewrite <- (L j 0) by lia. f_equal. lia.
    + rewrite <- (L j 1) by lia. f_equal. lia.
    + rewrite <- (L j 2) by lia. f_equal. lia.
    + rewrite <- (L j 3) by lia. f_equal. lia.
Qed.
