(** * Properties C09 - C16 and C80: sparse matrices. *)

From Coq Require Import Reals QArith.
From Verif Require Import Base Targets Matrix Sparse SpecMatrix SpecSparse MatrixWit RealSum SparseHist SparseWit SpecStab StabFacts.
Local Open Scope nat_scope.

(** C09: every arithmetic, stride, entry count, height and width. *)
Theorem C09_expand :
  forall (tg : target) (st en : nat) (ss : sps tg) (ms : mats tg) id t w h blk v D,
    sreach st en ss -> mreach false ms -> sp_shows st en (ss id) w h blk v ->
    blocks_inside st en w h blk -> blocks_distinct en h blk ->
    describes (cofZ 0) st en w h blk v D ->
    (exists ms', sp_expand st en (ss id) ms t = Ok ms' /\ shows ms' t w h D /\
       forall i, i <> t -> ms' i = ms i) /\
    (exists ms', sp_expand_transposed st en (ss id) ms t = Ok ms' /\ shows ms' t h w (fun r c => D c r) /\
       forall i, i <> t -> ms' i = ms i).
Proof. exact @expand_any. Qed.
Print Assumptions C09_expand.

(** C10: [D] is the table of C09. *)
Theorem C10_sparse_times_dense :
  forall (dbg : bool) (st en : nat) (ss : sps (RT dbg)) ms id b t w h n blk v D B,
    sreach st en ss -> mreach false ms -> b <> t ->
    sp_shows st en (ss id) n h blk (fun r e k => Some (v r e k)) ->
    blocks_inside st en n h blk -> blocks_distinct en h blk ->
    describes 0%R st en n h blk v D -> showsR ms b w n B ->
    exists ms', sp_multiply st en (ss id) ms b t = Ok ms' /\
      showsR ms' t w h (fun r c => Rsum n (fun k => D r k * B k c)%R) /\
      forall i, i <> t -> ms' i = ms i.
Proof.
  exact (fun dbg st en ss ms id b t w h n blk v D B Hs Hm N Hv Hin Hd HD Hb =>
    sparse_multiply_real dbg st en ss ms id b t w h n blk v D B Hs Hm N Hv Hin
      (describes_sums st en n h blk v D Hin Hd HD) Hb).
Qed.
Print Assumptions C10_sparse_times_dense.

(** C11 *)
Theorem C11_sparse_times_transposed :
  forall (dbg : bool) (st en : nat) (ss : sps (RT dbg)) ms id id' t h h' n blk v D blk' v' D',
    sreach st en ss -> mreach false ms ->
    sp_shows st en (ss id) n h blk (fun r e k => Some (v r e k)) ->
    sp_shows st en (ss id') n h' blk' (fun r e k => Some (v' r e k)) ->
    blocks_inside st en n h blk -> blocks_distinct en h blk -> describes 0%R st en n h blk v D ->
    blocks_inside st en n h' blk' -> blocks_distinct en h' blk' -> describes 0%R st en n h' blk' v' D' ->
    exists ms', sp_multiply_transpose st en (ss id) (ss id') ms t = Ok ms' /\
      showsR ms' t h' h (fun r c => Rsum n (fun k => D r k * D' c k)%R) /\
      forall i, i <> t -> ms' i = ms i.
Proof.
  exact (fun dbg st en ss ms id id' t h h' n blk v D blk' v' D' Hs Hm Hv Hv' Hin Hd HD Hin' Hd' HD' =>
    sparse_multiply_transpose_real dbg st en ss ms id id' t h h' n blk v D blk' v' D' Hs Hm Hv Hv'
      Hin (describes_sums st en n h blk v D Hin Hd HD)
      Hin' (describes_sums st en n h' blk' v' D' Hin' Hd' HD')).
Qed.
Print Assumptions C11_sparse_times_transposed.

(** C12 *)
Theorem C12_sparse_transpose_times_vector :
  forall (dbg : bool) (st en : nat) (ss : sps (RT dbg)) ms id b t h n blk v D B,
    sreach st en ss -> mreach false ms -> b <> t ->
    sp_shows st en (ss id) n h blk (fun r e k => Some (v r e k)) ->
    blocks_inside st en n h blk -> blocks_distinct en h blk ->
    describes 0%R st en n h blk v D -> showsR ms b 1 h B ->
    exists ms', sp_transpose_multiply_vector st en (ss id) ms b t = Ok ms' /\
      showsR ms' t 1 n (fun r _ => Rsum h (fun i => D i r * B i 0%nat)%R) /\
      forall i, i <> t -> ms' i = ms i.
Proof.
  exact (fun dbg st en ss ms id b t h n blk v D B Hs Hm N Hv Hin Hd HD Hb =>
    sparse_transpose_vector_real dbg st en ss ms id b t h n blk v D B Hs Hm N Hv Hin
      (describes_sums st en n h blk v D Hin Hd HD) Hb).
Qed.
Print Assumptions C12_sparse_transpose_times_vector.

(** C13: the empty entries of the result are those of the operand ([blk]), and
    the result describes diag(s) * D and D * diag(s). *)
Theorem C13_sparse_scaling :
  forall (dbg : bool) (st en : nat) (ss : sps (RT dbg)) ms this sc t w h blk v y D,
    (0 < st)%nat -> sreach st en ss -> mreach false ms -> this <> t ->
    sp_shows st en (ss this) w h blk (fun r e k => Some (v r e k)) -> blocks_inside st en w h blk ->
    describes 0%R st en w h blk v D ->
    (showsR ms sc 1 h y ->
     exists ss' v', sp_left_scale st en ss ms this sc t = Ok ss' /\
       sp_shows st en (ss' t) w h blk (fun r e k => Some (v' r e k)) /\
       describes 0%R st en w h blk v' (fun r c => y r 0%nat * D r c)%R /\
       forall i, i <> t -> ss' i = ss i) /\
    (showsR ms sc 1 w y ->
     exists ss' v', sp_right_scale st en ss ms this sc t = Ok ss' /\
       sp_shows st en (ss' t) w h blk (fun r e k => Some (v' r e k)) /\
       describes 0%R st en w h blk v' (fun r c => D r c * y c 0%nat)%R /\
       forall i, i <> t -> ss' i = ss i).
Proof. exact sparse_scale_real. Qed.
Print Assumptions C13_sparse_scaling.

(** the hypotheses of C09 - C13 are met by two sparse matrices with stale
    contents, an empty entry and blocks out of order *)
Example C09_to_C13_example :
  sreach 3 2 sstore_R /\ mreach false mstore_R /\
  sp_shows 3 2 (sstore_R 0) 9 2 ex_blk (fun r e k => Some (ex_v r e k) : cell (RT true)) /\
  sp_shows 3 2 (sstore_R 1) 9 1 ex_blk' (fun r e k => Some (ex_v' r e k) : cell (RT true)) /\
  (blocks_inside 3 2 9 2 ex_blk /\ blocks_distinct 2 2 ex_blk) /\
  (blocks_inside 3 2 9 1 ex_blk' /\ blocks_distinct 2 1 ex_blk') /\
  describes 0%R 3 2 9 2 ex_blk ex_v ex_D /\ describes 0%R 3 2 9 1 ex_blk' ex_v' ex_D' /\
  showsR mstore_R 1 2 9 (row_major 2 [1; 2; 3; 4; 5; 6; 7; 8; 9; 1; 2; 3; 4; 5; 6; 7; 8; 9]%Z) /\
  showsR mstore_R 2 1 2 (row_major 1 [7; 8]%Z) /\
  showsR mstore_R 3 1 9 (row_major 1 [1; 2; 3; 4; 5; 6; 7; 8; 9]%Z).
Proof.
  exact (conj (proj1 ex_reach) (conj (proj2 ex_reach) (conj ex_shows (conj ex_shows' (conj ex_inside
    (conj ex_inside' (conj ex_describes (conj ex_describes' ex_dense)))))))).
Qed.

(** C14: for given dimensions, block table and values of the non-empty entries
    there is one result, whatever else the objects and the target hold. *)
Theorem C14_expand_determined :
  forall (tg : target) (st en w h : nat) blk (v : nat -> nat -> nat -> cell tg),
    blocks_inside st en w h blk ->
    exists F, forall ss id ms t,
      sreach st en ss -> sp_shows st en (ss id) w h blk v -> mreach false ms ->
      (exists ms', sp_expand st en (ss id) ms t = Ok ms' /\ shows ms' t w h F) /\
      (exists ms', sp_expand_transposed st en (ss id) ms t = Ok ms' /\ shows ms' t h w (fun r c => F c r)).
Proof. exact @expand_determined. Qed.
Print Assumptions C14_expand_determined.
Theorem C14_multiply_determined :
  forall (tg : target) (st en w h : nat) blk (v : nat -> nat -> nat -> cell tg) n y,
    blocks_inside st en n h blk ->
    exists F, forall ss id ms b t,
      sreach st en ss -> sp_shows st en (ss id) n h blk v -> mreach false ms -> b <> t ->
      shows ms b w n y ->
      exists ms', sp_multiply st en (ss id) ms b t = Ok ms' /\ shows ms' t w h F /\
        forall i, i <> t -> ms' i = ms i.
Proof. exact @multiply_determined. Qed.
Print Assumptions C14_multiply_determined.
Theorem C14_multiply_transpose_determined :
  forall (tg : target) (st en n h h' : nat) blk (v : nat -> nat -> nat -> cell tg) blk' v',
    exists F, forall ss id ss' id' ms t,
      sreach st en ss -> sp_shows st en (ss id) n h blk v ->
      sreach st en ss' -> sp_shows st en (ss' id') n h' blk' v' -> mreach false ms ->
      exists ms', sp_multiply_transpose st en (ss id) (ss' id') ms t = Ok ms' /\ shows ms' t h' h F /\
        forall i, i <> t -> ms' i = ms i.
Proof. exact @multiply_transpose_determined. Qed.
Print Assumptions C14_multiply_transpose_determined.
Theorem C14_transpose_vector_determined :
  forall (tg : target) (st en n h : nat) blk (v : nat -> nat -> nat -> cell tg) y,
    blocks_inside st en n h blk ->
    exists F, forall ss id ms b t,
      sreach st en ss -> sp_shows st en (ss id) n h blk v -> mreach false ms -> b <> t ->
      shows ms b 1 h y ->
      exists ms', sp_transpose_multiply_vector st en (ss id) ms b t = Ok ms' /\ shows ms' t 1 n F /\
        forall i, i <> t -> ms' i = ms i.
Proof. exact @transpose_multiply_vector_determined. Qed.
Print Assumptions C14_transpose_vector_determined.
Theorem C14_scaling_determined :
  forall (tg : target) (st en : nat) (ss : sps tg) ms this sc t w h blk v y,
    0 < st -> sreach st en ss -> mreach false ms -> this <> t ->
    sp_shows st en (ss this) w h blk v -> blocks_inside st en w h blk ->
    (shows ms sc 1 h y ->
     exists ss', sp_left_scale st en ss ms this sc t = Ok ss' /\
       sp_shows st en (ss' t) w h blk (fun r e k => cmul (y r 0) (v r e k)) /\
       forall i, i <> t -> ss' i = ss i) /\
    (shows ms sc 1 w y ->
     exists ss', sp_right_scale st en ss ms this sc t = Ok ss' /\
       sp_shows st en (ss' t) w h blk (fun r e k => cmul (y (Z.to_nat (blk r e) * st + k) 0) (v r e k)) /\
       forall i, i <> t -> ss' i = ss i).
Proof. exact @scale_any. Qed.
Print Assumptions C14_scaling_determined.
(** the object of the example above holds stale values in its empty entry *)
Example C14_example :
  sp_shows 3 2 (sstore_R 0) 9 2 ex_blk (fun r e k => Some (ex_v r e k) : cell (RT true)) /\
  sp_get 3 2 (sstore_R 0) 0 1 0 = Ok (cofZ 9 : cell (RT true)) /\ ex_blk 0 1 = 255%Z.
Proof. split; [exact ex_shows|]. split; reflexivity. Qed.

(** C15: false; true only when the new height exceeds every earlier height
    ([s_ch], the capacity destroy() fails to reset). *)
Theorem C15_reuse_after_destroy_refuted :
  ~ (forall (tg : target) (st en : nat) (ss : sps tg) id w h,
       sreach st en ss -> exists s', sp_init st en (sp_destroy (ss id)) w h = Ok s').
Proof. exact reuse_refuted. Qed.
Print Assumptions C15_reuse_after_destroy_refuted.
Theorem C15_reuse_after_destroy_ub :
  forall (tg : target) (st en : nat) (ss : sps tg) id w h,
    sreach st en ss -> s_ptr (ss id) = true -> 0 < h <= s_ch (ss id) ->
    sp_init st en (sp_destroy (ss id)) w h = UB.
Proof. exact @reuse_ub. Qed.
Print Assumptions C15_reuse_after_destroy_ub.
Theorem C15_reuse_after_destroy_partial :
  forall (tg : target) (st en : nat) (ss : sps tg) id w h,
    sreach st en ss -> s_ch (ss id) < h ->
    exists s' v, sp_init st en (sp_destroy (ss id)) w h = Ok s' /\
      sp_shows st en s' w h (fun _ _ => 255%Z) v.
Proof. exact @reuse_partial. Qed.
Print Assumptions C15_reuse_after_destroy_partial.
Example C15_example :
  sreach 3 2 sstore_R /\ s_ptr (sstore_R 0) = true /\ s_ch (sstore_R 0) = 4 /\ s_h (sstore_R 0) = 2.
Proof. split; [exact (proj1 ex_reach)|]. repeat split. Qed.

(** C16: false for expand; the three products agree with the table in which
    entries naming the same block are added. *)
Theorem C16_repeated_block_refuted :
  ~ (forall (ss : sps (QT true)) ms id blk v w h n y,
       sreach 3 2 ss -> mreach false ms -> sp_shows 3 2 (ss id) n h blk v -> blocks_inside 3 2 n h blk ->
       shows ms 0 w n y ->
       exists ms1 ms2 ms3 F,
         sp_multiply 3 2 (ss id) ms 0 1 = Ok ms1 /\
         sp_expand 3 2 (ss id) ms 2 = Ok ms2 /\ mmultiply ms2 2 0 3 = Ok ms3 /\
         shows ms1 1 w h F /\ shows ms3 3 w h F).
Proof. exact duplicate_refuted. Qed.
Print Assumptions C16_repeated_block_refuted.
Theorem C16_products_add_repeated_blocks_partial :
  forall (dbg : bool) (st en : nat) (ss : sps (RT dbg)) ms id b t w h n blk v D B,
    sreach st en ss -> mreach false ms -> b <> t ->
    sp_shows st en (ss id) n h blk (fun r e k => Some (v r e k)) ->
    blocks_inside st en n h blk -> sums st en n h blk v D -> showsR ms b w n B ->
    exists ms', sp_multiply st en (ss id) ms b t = Ok ms' /\
      showsR ms' t w h (fun r c => Rsum n (fun k => D r k * B k c)%R) /\
      forall i, i <> t -> ms' i = ms i.
Proof. exact sparse_multiply_real. Qed.
Print Assumptions C16_products_add_repeated_blocks_partial.
Theorem C16_product_transposed_adds_repeated_blocks_partial :
  forall (dbg : bool) (st en : nat) (ss : sps (RT dbg)) ms id id' t h h' n blk v D blk' v' D',
    sreach st en ss -> mreach false ms ->
    sp_shows st en (ss id) n h blk (fun r e k => Some (v r e k)) ->
    sp_shows st en (ss id') n h' blk' (fun r e k => Some (v' r e k)) ->
    blocks_inside st en n h blk -> sums st en n h blk v D ->
    blocks_inside st en n h' blk' -> sums st en n h' blk' v' D' ->
    exists ms', sp_multiply_transpose st en (ss id) (ss id') ms t = Ok ms' /\
      showsR ms' t h' h (fun r c => Rsum n (fun k => D r k * D' c k)%R) /\
      forall i, i <> t -> ms' i = ms i.
Proof. exact sparse_multiply_transpose_real. Qed.
Print Assumptions C16_product_transposed_adds_repeated_blocks_partial.
Example C16_example :
  sreach 3 2 dup_s /\ sp_block 2 (dup_s 0) 0 0 = Ok 0%Z /\ sp_block 2 (dup_s 0) 0 1 = Ok 0%Z.
Proof. split; [apply safter_reach|]. split; reflexivity. Qed.

(** C80: every arithmetic, stride and entry count. *)
Theorem C80_entries_are_a_table :
  forall (tg : target) (st en : nat) (os : list (sop tg)) ts, strun st en (fun _ => stab_fresh) os = Some ts ->
    exists ss, srun st en sfresh os = Ok ss /\ sagrees st en ss ts.
Proof. exact @entry_table. Qed.
Print Assumptions C80_entries_are_a_table.
Example C80_example : exists ts, strun 3 2 (fun _ => stab_fresh) emptied = Some ts /\ e_block (ts 0) 0 1 = 255%Z /\ e_val (ts 0) 0 1 2 = Some (cofZ 0) /\
  e_val (ts 0) 1 0 2 = Some (cofZ 5) /\ e_block (ts 1) 3 1 = 3%Z.
Proof. exact emptied_runs. Qed.
