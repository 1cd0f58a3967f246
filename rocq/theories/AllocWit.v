(** * Examples for the theorems of PropAlloc.v. *)

From Verif Require Import Base Alloc SpecAlloc.

(** a matrix that grows, shrinks and is destroyed, a state, and a sparse matrix that is still there *)
Definition story : list act :=
  [New MatrixK 0; New StateK 1; New SparseK 2; Resize 0 2 3; Resize 1 2 1; Resize 2 6 2; Resize 0 4 4; Resize 0 1 1; Destroy 0; Gone 0; Destroy 1; Gone 1; New MatrixK 0; Resize 0 2 2].
Definition story_plain : list act := [New MatrixK 0; New StateK 1; New BuffersK 2; Resize 0 2 3; Resize 1 2 0; Resize 0 4 4; Destroy 0; Gone 0; Gone 2; Destroy 1; Resize 1 3 2].
Lemma story_no_clone : no_clone story.
Proof. intros i j H. repeat (destruct H as [H|H]; [discriminate H|]). destruct H. Qed.
Lemma plain_no_clone : no_clone story_plain.
Proof. intros i j H. repeat (destruct H as [H|H]; [discriminate H|]). destruct H. Qed.
Lemma story_case : exists s p, do_acts true story nowhere pool_new = Fine (s, p) /\ owns s 0 25 /\ there p 25 2 /\ owns s 2 20 /\ p_next p = 26 /\ p_live p 0 = None /\ forall i w h, In (Resize i w h) story -> 0 < w /\ 0 < h.
Proof.
  eexists _, _. split; [lazy; reflexivity|]. split; [eexists; split; [reflexivity|cbn; auto]|]. split; [reflexivity|]. split; [eexists; split; [reflexivity|cbn; auto]|]. split; [reflexivity|]. split; [reflexivity|].
  intros i w h H. repeat (destruct H as [H|H]; [try discriminate H; injection H as <- <- <-; lia|]). destruct H.
Qed.
Lemma plain_proper : proper story_plain none_here /\ makes [MatrixK; StateK; BuffersK] story_plain.
Proof.
  split; [cbn; auto 20|]. intros k i H. repeat (destruct H as [H|H]; [try discriminate H; injection H as <- <-; cbn; auto|]). destruct H.
Qed.
(** the state of [story_plain] lost the four arrays of length zero it got for no constraints *)
Lemma plain_case : exists s p, do_acts true story_plain nowhere pool_new = Fine (s, p) /\ p_live p 19 = Some 0 /\ ~ owns s 1 19.
Proof.
  eexists _, _. split; [lazy; reflexivity|]. split; [reflexivity|]. intros (o & E & H). cbn in E. injection E as <-. repeat (destruct H as [H|H]; [discriminate H|]). destruct H.
Qed.
(** what an optimized system with two bodies and one joint does *)
Definition used : list act := [Resize 19 2 1; Resize 0 6 2; Resize 1 6 2; Resize 2 1 2; Resize 3 6 1; Resize 10 1 2; Resize 17 1 2; Resize 19 3 2; Resize 0 9 4].
Lemma used_ok c : c = OptimizedC \/ c = GenericC -> uses c used.
Proof.
  intros Hc x H. repeat (destruct H as [<-|H]; [eexists _, _, _; split; [reflexivity|split; [destruct Hc; subst c; cbn; lia|destruct Hc; subst c; discriminate]]|]). destruct H.
Qed.
Lemma empty_case : exists s p, do_acts false (birth OptimizedC ++ [Resize 19 1 0] ++ death OptimizedC) nowhere pool_new = Fine (s, p) /\ (forall i, s i = None) /\ there p 17 0 /\ uses OptimizedC [Resize 19 1 0].
Proof.
  eexists _, _. split; [lazy; reflexivity|]. split; [|split; [reflexivity|]].
  - intros i. do 20 (destruct i as [|i]; [reflexivity|]). reflexivity.
  - intros x [<-|[]]. exists 19, 1, 0. split; [reflexivity|]. split; [cbn; lia|discriminate].
Qed.
Lemma generic_case : exists s p, do_acts false (birth GenericC ++ used) nowhere pool_new = Fine (s, p) /\ exists i b len, i < 18 /\ owns s i b /\ there p b len /\ 0 < len.
Proof.
  eexists _, _. split; [lazy; reflexivity|]. exists 3, 30, 6. split; [lia|]. split; [|split; [lazy; reflexivity|lia]]. eexists. split; [lazy; reflexivity|]. cbn. auto.
Qed.
Lemma copy_case : exists s p, do_acts true [New MatrixK 0; New SparseK 1; Resize 0 1 1] nowhere pool_new = Fine (s, p) /\
  (exists a, s 0 = Some (OMat a) /\ am_matrix a <> None) /\ s 2 = None /\ exists o, s 1 = Some o /\ forall b, ~ In (Some b) (pointers o).
Proof.
  eexists _, _. split; [lazy; reflexivity|]. split; [eexists; split; [reflexivity|discriminate]|]. split; [reflexivity|]. eexists. split; [reflexivity|].
  intros b H. repeat (destruct H as [H|H]; [discriminate H|]). destruct H.
Qed.
