(** * Concrete cases for the properties of sizes and failed allocations. *)

From Coq Require Import Lia.
From Verif Require Import Base Targets Matrix Sparse State Ints IntSys SpecInts IntsFacts IntsMore.
Local Open Scope Z_scope.

(** a history that reuses, grows, reshapes and frees *)
Definition story : list icall :=
  [CResize 3 4; CElem 2 3; CInit0 2 6; CSwap 0 5; CElem 1 5; CInitVal 6 2; CDestroy; CResize 1 7; CElem 0 6].
Definition p_story : list pcall := [PResize 9 4; PInit 9 2; PInit 12 8; PResize 3 1].
Definition all_room (z : Z) : bool := true.
Definition room_100 (z : Z) : bool := z <=? 100.
Lemma all_plenty : plenty all_room. Proof. intros z. reflexivity. Qed.
Lemma story_sane : Forall sane story.
Proof. repeat constructor; vm_compute; congruence. Qed.
Lemma p_story_sane : Forall psane p_story.
Proof. repeat constructor; vm_compute; congruence. Qed.
Lemma story_runs : int_calls all_room true story im_new =
  IOk {| i_w := 1; i_h := 7; i_cw := 1; i_ch := 7; i_data := Some 7; i_rows := Some [Some 0; Some 1; Some 2; Some 3; Some 4; Some 5; Some 6] |}.
Proof. vm_compute. reflexivity. Qed.
Lemma p_story_runs : pint_calls all_room p_story ip_new =
  IOk {| p_w := 3; p_h := 1; p_ch := 8; p_data := Some 48; p_rows := Some [Some 0; Some 6; Some 12; Some 18; Some 24; Some 30; Some 36; Some 42]; p_blocks := Some 16 |}.
Proof. vm_compute. reflexivity. Qed.

Lemma matches_matrix {tg} room (v : cell tg) l : Forall sane l -> matches alike room (int_calls room (asserts_on tg) l im_new) (nat_calls v l mat_new).
Proof.
  intros S0. pose proof (calls_agree room (asserts_on tg) v l eq_refl S0 _ _ like_new) as H. unfold agree, matches in *. destruct (int_calls room (asserts_on tg) l im_new); auto. destruct H as (b & E & [A _]). eauto.
Qed.
Lemma matches_sparse {tg} room l : Forall psane l -> matches palike room (pint_calls room l ip_new) (pnat_calls l (sp_new (tg := tg))).
Proof.
  intros S0. pose proof (pcalls_agree room l S0 _ _ (plike_new (tg := tg))) as H. unfold pagree, matches in *. destruct (pint_calls room l ip_new); auto. destruct H as (b & E & [A _]). eauto.
Qed.
Lemma matches_state {tg} room l : Forall tsane l -> matches talike room (tint_calls room l it_new) (Ok (tnat_calls l (st_new (tg := tg)))).
Proof. intros S0. apply tcalls_agree; [exact S0|apply talike_new]. Qed.
Definition t_story : list tcall := [TResize 2 3; TResize 1 4; TResize 0 0; TDestroy; TResize 5 0].
Lemma t_story_sane : Forall tsane t_story.
Proof. repeat constructor; vm_compute; congruence. Qed.
Lemma t_story_runs : tint_calls all_room t_story it_new = IOk {| t_n := 5; t_nc := 0; t_map := Some 0; t_body := repeat (Some 5) 13; t_re := repeat (Some 0) 3 |}.
Proof. vm_compute. reflexivity. Qed.
Lemma exact_matrix room dbg l m w h : plenty room -> Forall sane l -> int_calls room dbg l im_new = IOk m -> 0 <= w <= int_max -> 0 <= h <= int_max -> (im_resize room w h m = IOver <-> int_max < (h - 1) * w).
Proof. intros P S0 E W H. apply over_iff; auto. eapply calls_whole; eauto using whole_new. Qed.
Lemma exact_sparse room l m w h : plenty room -> Forall psane l -> pint_calls room l ip_new = IOk m -> 0 <= w <= int_max -> 0 <= h <= int_max -> (ip_resize room w h m = IOver <-> int_max < 6 * (h - 1)).
Proof.
  intros P S0 E W H. assert (M : pwhole m) by (eapply pcalls_whole; eauto using pwhole_new). split; [|intros O; now apply presize_over].
  intros X. destruct (Z_lt_ge_dec int_max (6 * (h - 1))) as [L|G]; [exact L|exfalso].
  assert (S1 : Forall psane (l ++ [PResize w h])) by (apply Forall_app; split; [exact S0|constructor; [unfold psane; repeat split; lia|constructor]]).
  pose proof (matches_sparse (tg := QT true) room _ S1) as Q.
  assert (A : pint_calls room (l ++ [PResize w h]) ip_new = IOver).
  { revert E X. generalize ip_new. clear. induction l as [|c l IH]; intros m0 E X; cbn [pint_calls app] in *; [injection E as ->; cbn [p_ints]; rewrite X; reflexivity|]. destruct (p_ints room c m0); cbn in *; try discriminate E. auto. }
  rewrite A in Q. exact Q.
Qed.

(** 46342 * 46342 after any sane story *)
Lemma big_overflows : im_resize all_room 46342 46342 im_new = IOver /\ ip_resize all_room 3 357913943 ip_new = IOver.
Proof.
  split.
  - apply (exact_matrix all_room true [] im_new 46342 46342 all_plenty (Forall_nil _) eq_refl); unfold int_max; lia.
  - apply (exact_sparse all_room [] ip_new 3 357913943 all_plenty (Forall_nil _) eq_refl); unfold int_max; lia.
Qed.
(** ** negative sizes *)
Lemma neg_both room w h : w < 0 -> h < 0 -> im_resize room w h im_new = IOk {| i_w := w; i_h := h; i_cw := 0; i_ch := 0; i_data := None; i_rows := None |}.
Proof.
  intros W H. unfold im_resize. cbn [im_new i_w i_h i_cw i_ch i_data i_rows]. replace (w =? 0) with false by (symmetry; apply Z.eqb_neq; lia). cbn [andb].
  replace (0 <? w) with false by (symmetry; apply Z.ltb_ge; lia). replace (0 <? h) with false by (symmetry; apply Z.ltb_ge; lia). cbn [orb ibind]. cbv zeta. unfold for_int. replace (Z.to_nat h) with 0%nat by lia. reflexivity.
Qed.
Lemma neg_cases : im_resize all_room (-1) 2 im_new = IBad /\ im_init0 all_room 1 (-1) im_new = IBad /\
  (exists m, im_resize all_room 3 (-1) im_new = IOk m /\ i_h m = -1 /\ i_rows m = Some []) /\ (exists m, im_resize all_room 3 (-1) im_new = IOk m /\ im_elem false 0 0 m = IBad).
Proof. repeat split; try (vm_compute; reflexivity); eexists; vm_compute; repeat split. Qed.
(** ** refused allocations *)
Definition left_over : imat := {| i_w := 0; i_h := 0; i_cw := 20; i_ch := 20; i_data := None; i_rows := None |}.
Lemma refused_matrix : im_resize room_100 20 20 im_new = IThrow left_over /\ im_destroy left_over = left_over /\ im_resize room_100 5 5 left_over = IBad /\
  (exists m, im_resize room_100 5 5 im_new = IOk m) /\ (exists m, im_resize all_room 21 2 left_over = IOk m).
Proof. repeat split; try (vm_compute; reflexivity); eexists; vm_compute; reflexivity. Qed.
Definition room_block (z : Z) : bool := negb (z =? 20).
Lemma refused_rows : exists m, im_resize room_block 20 20 im_new = IThrow m /\ i_data m = Some 400 /\ im_destroy m = m.
Proof. eexists. vm_compute. repeat split. Qed.
Lemma refused_sparse : exists m, ip_resize room_100 9 20 ip_new = IThrow m /\ ip_resize room_100 9 5 (ip_destroy m) = IBad /\ (exists m', ip_resize room_100 9 5 ip_new = IOk m').
Proof. eexists. repeat split; try (vm_compute; reflexivity). eexists. vm_compute. reflexivity. Qed.
Lemma refused_state : exists s, it_resize room_100 200 1 it_new = IThrow s /\ it_resize room_100 2 1 s = IOk s /\ it_body 0 0 s = IBad /\ (exists s', it_resize room_100 2 1 it_new = IOk s' /\ it_body 0 0 s' = IOk s').
Proof. eexists. repeat split; try (vm_compute; reflexivity). eexists. vm_compute. split; reflexivity. Qed.
Lemma throw_matrix room room' dbg l w h m m' w2 h2 : Forall sane l -> int_calls room dbg l im_new = IOk m -> size_ok w h -> im_resize room w h m = IThrow m' -> plenty room' -> size_ok w2 h2 ->
  if (w2 <=? w) && (h2 <=? h) then (0 < h2 -> im_resize room' w2 h2 m' = IBad)
  else exists m2, im_resize room' w2 h2 m' = IOk m2 /\ i_w m2 = w2 /\ i_h m2 = h2 /\ i_data m2 = Some (Z.max w w2 * Z.max h h2).
Proof. intros S0 E SO T P S2. eapply after_throw; eauto. eapply calls_whole; eauto using whole_new. Qed.
Lemma story_refused : exists m m', int_calls room_100 true story im_new = IOk m /\ im_resize room_100 20 20 m = IThrow m'.
Proof. eexists {| i_w := 1; i_h := 7; i_cw := 1; i_ch := 7; i_data := Some 7; i_rows := Some [Some 0; Some 1; Some 2; Some 3; Some 4; Some 5; Some 6] |}, _. split; vm_compute; reflexivity. Qed.
Lemma limit_cases : 3 * 1000 <= int_max /\ 46341 <= row_limit KSeidel /\ ~ 46341 <= row_limit KGauss /\ evaluates KGauss 5 46341 (EMul (EC 46340) (EAdd (EC 46341) (EC 1))) /\
  ieval (EMul (EC 46340) (EAdd (EC 46341) (EC 1))) = None /\ ieval (EMul (EC 46340) (EC 46341)) = Some 2147441940.
Proof. split; [vm_compute; congruence|]. split; [vm_compute; congruence|]. split; [intros H; cbn in H; lia|]. split; [apply ev_augmented; [reflexivity|lia]|]. split; vm_compute; reflexivity. Qed.
