(** * Property theorems: who owns the heap arrays (C108-C111).
    Vocabulary: SpecAlloc.v.  Every theorem is closed by a lemma of the proof
    files; the examples show that the hypotheses can be met. *)

From Verif Require Import Base Matrix Sparse State Alloc SpecAlloc AllocHist AllocClass AllocSame AllocCopy AllocTidy AllocWit.

(** C108: no program that copies no objects frees an array twice; every array an object has is there and is its alone *)
Theorem C108_sound : forall dbg l, no_clone l -> do_acts dbg l nowhere pool_new <> DeleteTwice /\ forall s p, do_acts dbg l nowhere pool_new = Fine (s, p) -> sound s p.
Proof. exact hist_sound. Qed.
Print Assumptions C108_sound.
(** a proper program without sparse matrices fails only by a failed assertion *)
Theorem C108_fine : forall dbg l, no_clone l -> proper l none_here -> makes [MatrixK; StateK; BuffersK] l ->
  (exists s p, do_acts dbg l nowhere pool_new = Fine (s, p)) \/ (dbg = true /\ do_acts dbg l nowhere pool_new = Assert).
Proof. exact hist_fine. Qed.
Print Assumptions C108_fine.
(** a program whose assertions hold loses no array that has elements, and none at all without states *)
Theorem C108_kept : forall l s p, no_clone l -> do_acts true l nowhere pool_new = Fine (s, p) -> do_acts false l nowhere pool_new = Fine (s, p) /\
  forall b len, leaked s p b len -> len = 0 /\ exists i, In (New StateK i) l.
Proof. exact hist_kept. Qed.
Print Assumptions C108_kept.
(** the model of contents has arrays of the same lengths and fails in the same cases *)
Theorem C108_matrix : forall tg dbg l, exists (m : matrix tg) s p o, calls_matrix l mat_new = Ok m /\ do_acts dbg (New MatrixK 0 :: calls_at 0 l) nowhere pool_new = Fine (s, p) /\ s 0 = Some o /\ same_matrix p m o.
Proof. exact @agree_mat. Qed.
Print Assumptions C108_matrix.
Theorem C108_sparse : forall tg dbg l, match calls_sparse l (@sp_new tg), do_acts dbg (New SparseK 0 :: calls_at 0 l) nowhere pool_new with
  | Ok m, Fine (s, p) => exists o, s 0 = Some o /\ same_sparse p m o
  | UB, BadAccess => True
  | _, _ => False
  end.
Proof. exact @agree_sp. Qed.
Print Assumptions C108_sparse.
Theorem C108_state : forall tg dbg l, exists s p o, do_acts dbg (New StateK 0 :: calls_at 0 l) nowhere pool_new = Fine (s, p) /\ s 0 = Some o /\ same_state p (calls_state l (@st_new tg)) o.
Proof. exact @agree_st. Qed.
Print Assumptions C108_state.
Example C108_example : no_clone story /\ exists s p, do_acts true story nowhere pool_new = Fine (s, p) /\ owns s 0 25 /\ there p 25 2 /\ owns s 2 20 /\ p_next p = 26 /\ p_live p 0 = None /\
  forall i w h, In (Resize i w h) story -> 0 < w /\ 0 < h.
Proof. exact (conj story_no_clone story_case). Qed.
Example C108_fine_example : no_clone story_plain /\ proper story_plain none_here /\ makes [MatrixK; StateK; BuffersK] story_plain.
Proof. exact (conj plain_no_clone plain_proper). Qed.
Example C108_kept_example : exists s p, do_acts true story_plain nowhere pool_new = Fine (s, p) /\ p_live p 19 = Some 0 /\ ~ owns s 1 19.
Proof. exact plain_case. Qed.

(** C109: with sizes above zero a program whose assertions hold loses nothing *)
Theorem C109_partial : forall l s p, no_clone l -> (forall i w h, In (Resize i w h) l -> 0 < w /\ 0 < h) -> do_acts true l nowhere pool_new = Fine (s, p) ->
  do_acts false l nowhere pool_new = Fine (s, p) /\ forall b len, ~ leaked s p b len.
Proof. exact hist_tight. Qed.
Print Assumptions C109_partial.
(** missing: a state made for no constraints and destroyed as it should be loses four arrays, every time *)
Theorem C109_refuted : forall dbg n r, 0 < n -> exists s p bs,
  do_acts dbg (concat (repeat [New StateK 0; Resize 0 n 0; Destroy 0; Gone 0] r)) nowhere pool_new = Fine (s, p) /\ (forall i, s i = None) /\
  NoDup bs /\ length bs = 4 * r /\ forall b, In b bs -> leaked s p b 0.
Proof. exact lives_leak. Qed.
Print Assumptions C109_refuted.
Example C109_example : no_clone story /\ (forall i w h, In (Resize i w h) story -> 0 < w /\ 0 < h) /\ exists s p, do_acts true story nowhere pool_new = Fine (s, p) /\ owns s 2 20.
Proof. split; [exact story_no_clone|]. destruct story_case as (s & p & H & _ & _ & H1 & _ & _ & H2). split; [exact H2|]. exists s, p. exact (conj H H1). Qed.

(** C110: the optimized class, the three solvers and the Runge-Kutta integrator give back every array that has elements, in both builds *)
Theorem C110_partial : forall dbg c l, c <> GenericC -> uses c l -> exists s p, do_acts dbg (birth c ++ l ++ death c) nowhere pool_new = Fine (s, p) /\ (forall i, s i = None) /\
  forall b len, there p b len -> len = 0 /\ In StateK (members c).
Proof. exact class_whole. Qed.
Print Assumptions C110_partial.
(** missing: the generic class loses, without assertions, every array its matrices have *)
Theorem C110_generic_refuted : forall l, uses GenericC l -> exists s p s' p', do_acts false (birth GenericC ++ l) nowhere pool_new = Fine (s, p) /\
  do_acts false (birth GenericC ++ l ++ death GenericC) nowhere pool_new = Fine (s', p') /\ (forall i, s' i = None) /\
  forall i b len, i < 18 -> owns s i b -> there p b len -> leaked s' p' b len.
Proof. exact generic_lost. Qed.
Print Assumptions C110_generic_refuted.
(** and an optimized system with a body and no constraints leaves arrays without elements *)
Theorem C110_empty_refuted : exists s p, do_acts false (birth OptimizedC ++ [Resize 19 1 0] ++ death OptimizedC) nowhere pool_new = Fine (s, p) /\ (forall i, s i = None) /\ there p 17 0 /\ uses OptimizedC [Resize 19 1 0].
Proof. exact empty_case. Qed.
Print Assumptions C110_empty_refuted.
Example C110_example : uses OptimizedC used /\ OptimizedC <> GenericC /\ uses GenericC used.
Proof. split; [exact (used_ok OptimizedC (or_introl eq_refl))|]. split; [discriminate|]. exact (used_ok GenericC (or_intror eq_refl)). Qed.
Example C110_generic_example : exists s p, do_acts false (birth GenericC ++ used) nowhere pool_new = Fine (s, p) /\ exists i b len, i < 18 /\ owns s i b /\ there p b len /\ 0 < len.
Proof. exact generic_case. Qed.

(** C111: copying an object that has arrays makes them be freed twice *)
Theorem C111_refuted : forall dbg l s p i j o, no_clone l -> do_acts dbg l nowhere pool_new = Fine (s, p) -> s i = Some o -> s j = None ->
  match o with OMat a => am_matrix a <> None | OSp a => ap_matrix a <> None | _ => False end ->
  do_acts dbg (l ++ [Clone i j; Destroy i; Destroy j]) nowhere pool_new = DeleteTwice /\ do_acts dbg (l ++ [Clone i j; Destroy j; Destroy i]) nowhere pool_new = DeleteTwice.
Proof. exact copy_twice. Qed.
Print Assumptions C111_refuted.
Theorem C111_state_refuted : forall n nc dbg, 0 < n \/ 0 < nc -> do_acts dbg [New StateK 0; Resize 0 n nc; Clone 0 1; Destroy 0; Destroy 1] nowhere pool_new = DeleteTwice.
Proof. exact copy_state. Qed.
Print Assumptions C111_state_refuted.
Theorem C111_system_refuted : forall dbg, do_acts dbg [New BuffersK 0; Clone 0 1; Gone 0; Gone 1] nowhere pool_new = DeleteTwice.
Proof. exact copy_buffers. Qed.
Print Assumptions C111_system_refuted.
(** copies of objects without arrays are harmless *)
Theorem C111_partial : forall dbg l s p i j o, no_clone l -> do_acts dbg l nowhere pool_new = Fine (s, p) -> s i = Some o -> s j = None -> (forall b, ~ In (Some b) (pointers o)) ->
  exists s', do_acts dbg (l ++ [Clone i j]) nowhere pool_new = Fine (s', p) /\ sound s' p /\ s' j = Some o.
Proof. exact copy_empty. Qed.
Print Assumptions C111_partial.
Example C111_example : exists s p, do_acts true [New MatrixK 0; New SparseK 1; Resize 0 1 1] nowhere pool_new = Fine (s, p) /\
  (exists a, s 0 = Some (OMat a) /\ am_matrix a <> None) /\ s 2 = None /\ exists o, s 1 = Some o /\ forall b, ~ In (Some b) (pointers o).
Proof. exact copy_case. Qed.
