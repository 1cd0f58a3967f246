(** * Properties C01 - C08: dense matrices. *)

From Coq Require Import Reals.
From Coq Require Import Floats.SpecFloat.
From Verif Require Import Base Targets Matrix SpecMatrix MatrixHist MatrixWit.

(** C01: any history of in-range calls reads back as the table of last writes,
    for every arithmetic; no call leaves the matrix's own storage (the run is
    [Ok], out-of-bounds accesses being [UB]). *)
Theorem C01_matrix_is_a_table :
  forall (tg : target) (os : list (mop tg)) (ts : nat -> table tg),
    trun (fun _ => tab_fresh) os = Some ts ->
    exists ms, mrun fresh os = Ok ms /\ agrees ms ts.
Proof. exact @table_refinement. Qed.
Print Assumptions C01_matrix_is_a_table.

(** a history with growth, shrinking, a row swap, a copy and a destroy *)
Definition C01_history : list (mop (QT true)) :=
  [ MInitVal 0 3 2 (cofZ 5); MSet 0 2 1 (cofZ 7); MSwap 0 0 1; MAdd 0 2 0 (cofZ 1);
    MCopy 1 0; MResize 0 2 4; MSet 0 1 3 (cofZ 4); MSwap 0 3 2; MDestroy 2; MInit0 2 1 1 ].
Example C01_example :
  exists ts, trun (fun _ => tab_fresh) C01_history = Some ts /\
    tb_at (ts 1%nat) 0 2 = Some (cadd (cofZ 7) (cofZ 1)) /\ tb_at (ts 0%nat) 2 1 = Some (cofZ 4) /\
    tb_at (ts 0%nat) 3 1 = None.
Proof. eexists. repeat split. Qed.

(** C02 *)
Theorem C02_initialize_value :
  forall (tg : target) (ms : mats tg) t w h v,
    mreach false ms ->
    exists ms', minit_val ms t w h v = Ok ms' /\ shows ms' t w h (fun _ _ => v) /\
      forall id, id <> t -> ms' id = ms id.
Proof. exact @initialize_value. Qed.
Print Assumptions C02_initialize_value.
Theorem C02_initialize_zero :
  forall (tg : target) (ms : mats tg) t w h,
    mreach false ms ->
    exists ms', minit0 ms t w h = Ok ms' /\ shows ms' t w h (fun _ _ => cofZ 0) /\
      forall id, id <> t -> ms' id = ms id.
Proof. exact @initialize_zero. Qed.
Print Assumptions C02_initialize_zero.
Example C02_example :
  mreach false store_R /\ m_w (store_R 0) = 2 /\ m_h (store_R 0) = 3 /\ m_ch (store_R 0) = 4.
Proof. split; [apply after_reach|]. repeat split. Qed.

(** C03: over the reals, and the evaluation order for every arithmetic. *)
Theorem C03_multiply :
  forall (dbg : bool) (ms : mats (RT dbg)) this b t n w h A B,
    mreach false ms -> this <> t -> b <> t ->
    showsR ms this n h A -> showsR ms b w n B ->
    exists ms', mmultiply ms this b t = Ok ms' /\
      showsR ms' t w h (fun r c => Rsum n (fun k => A r k * B k c)%R) /\
      forall id, id <> t -> ms' id = ms id.
Proof. exact @multiply_real. Qed.
Print Assumptions C03_multiply.
Theorem C03_transpose_multiply :
  forall (dbg : bool) (ms : mats (RT dbg)) this b t n w h A B,
    mreach false ms -> this <> t -> b <> t ->
    showsR ms this h n A -> showsR ms b w n B ->
    exists ms', mtranspose_multiply ms this b t = Ok ms' /\
      showsR ms' t w h (fun r c => Rsum n (fun k => A k r * B k c)%R) /\
      forall id, id <> t -> ms' id = ms id.
Proof. exact @transpose_multiply_real. Qed.
Print Assumptions C03_transpose_multiply.
Theorem C03_transpose :
  forall (dbg : bool) (ms : mats (RT dbg)) this t w h A,
    mreach false ms -> this <> t -> showsR ms this w h A ->
    exists ms', mtranspose ms this t = Ok ms' /\ showsR ms' t h w (fun r c => A c r) /\
      forall id, id <> t -> ms' id = ms id.
Proof. exact @transpose_real. Qed.
Print Assumptions C03_transpose.
Theorem C03_multiply_every_arithmetic :
  forall (tg : target) (ms : mats tg) this b t n w h f g,
    mreach false ms -> this <> t -> b <> t ->
    shows ms this n h f -> shows ms b w n g ->
    exists ms', mmultiply ms this b t = Ok ms' /\
      shows ms' t w h (fun r c => fold_sum n (fun k => cmul (f r k) (g k c))) /\
      forall id, id <> t -> ms' id = ms id.
Proof. exact @multiply_any. Qed.
Print Assumptions C03_multiply_every_arithmetic.
(** a 3 by 2 matrix times a 2 by 1 one, after a history with a row swap *)
Example C03_example :
  mreach false store_R /\
  showsR store_R 0 2 3 (row_major 2 [1; 2; 3; 4; 5; 6]%Z) /\
  showsR store_R 1 1 2 (row_major 1 [7; 8]%Z).
Proof. split; [|split]; apply store_R_shows. Qed.

(** C04: every arithmetic, any of this, b and target may coincide. *)
Theorem C04_elementwise :
  forall (tg : target) (ms : mats tg) this b t w h f g,
    mreach false ms -> shows ms this w h f -> shows ms b w h g ->
    let done r F := exists ms', r = Ok ms' /\ shows ms' t w h F /\
                      forall id, id <> t -> ms' id = ms id in
    done (madd2 ms this b t) (fun r c => cadd (f r c) (g r c)) /\
    done (msubtract ms this b t) (fun r c => csub (f r c) (g r c)) /\
    done (mcomponent ms this b t) (fun r c => cmul (f r c) (g r c)) /\
    done (mnegate ms this t) (fun r c => copp (f r c)) /\
    (forall s, done (mscale ms this s t) (fun r c => cmul s (f r c))).
Proof. exact @elementwise_any. Qed.
Print Assumptions C04_elementwise.
Theorem C04_accumulate :
  forall (tg : target) (ms : mats tg) this b w h f g s,
    mreach false ms -> shows ms this w h f -> shows ms b w h g ->
    let done r F := exists ms', r = Ok ms' /\ shows ms' this w h F /\
                      forall id, id <> this -> ms' id = ms id in
    done (mmadd ms this b s) (fun r c => cadd (f r c) (cmul (g r c) s)) /\
    done (mpmadd ms this b s) (fun r c => cadd (cmul s (f r c)) (g r c)).
Proof. exact @accumulate_any. Qed.
Print Assumptions C04_accumulate.
Theorem C04_scaling :
  forall (tg : target) (ms : mats tg) this sc t w h f s,
    mreach false ms -> shows ms this w h f ->
    let done r F := exists ms', r = Ok ms' /\ shows ms' t w h F /\
                      forall id, id <> t -> ms' id = ms id in
    (shows ms sc 1 h s -> (sc = t -> w = 1) ->
     done (mleft_scale ms this sc t) (fun r c => cmul (s r 0) (f r c))) /\
    (shows ms sc 1 w s -> (sc = t -> w = 1 /\ h = 1) ->
     done (mright_scale ms this sc t) (fun r c => cmul (s c 0) (f r c))).
Proof. exact @scaling_any. Qed.
Print Assumptions C04_scaling.
(** operands 0 and 2 of equal size; columns 3 and 1 to scale rows and columns *)
Example C04_example :
  mreach false store_R /\
  showsR store_R 0 2 3 (row_major 2 [1; 2; 3; 4; 5; 6]%Z) /\
  showsR store_R 2 2 3 (row_major 2 [1; 0; 2; 0; 3; 1]%Z) /\
  showsR store_R 3 1 3 (row_major 1 [2; 5; 7]%Z) /\ showsR store_R 1 1 2 (row_major 1 [7; 8]%Z).
Proof. repeat split; apply store_R_shows. Qed.

(** C05: false; the counterexample is [[1 1] [0 1]] * [[1 1] [1 0]] stored into
    the left operand. *)
Theorem C05_multiply_into_operand_refuted :
  ~ (forall (ms : mats (QT true)) this b n f g,
       mreach false ms -> shows ms this n n f -> shows ms b n n g ->
       exists ms', mmultiply ms this b this = Ok ms' /\
         shows ms' this n n (fun r c => fold_sum n (fun k => cmul (f r k) (g k c)))).
Proof. exact multiply_alias_refuted. Qed.
Print Assumptions C05_multiply_into_operand_refuted.

(** C06: over the reals; false with NaN in double precision. *)
Theorem C06_equals_partial :
  forall (dbg : bool) (ms : mats (RT dbg)) a b w h w' h' A B (e : R),
    showsR ms a w h A -> showsR ms b w' h' B ->
    exists v, mequals ms a b (Some e : cell (RT dbg)) = Ok v /\
      (v = true <-> w = w' /\ h = h' /\
         forall r c, r < h -> c < w -> (Rabs (A r c - B r c) <= e)%R).
Proof. exact @equals_real. Qed.
Print Assumptions C06_equals_partial.
Theorem C06_equals_nan_refuted :
  ~ (forall (ms : mats (F64 true)) a b x y e,
       mreach false ms ->
       shows ms a 1 1 (fun _ _ => Some x) -> shows ms b 1 1 (fun _ _ => Some y) ->
       mequals ms a b (Some e : cell (F64 true)) = Ok true ->
       SFleb (SFabs (SFsub 53 1024 x y)) e = true).
Proof. exact equals_nan_refuted. Qed.
Print Assumptions C06_equals_nan_refuted.
Example C06_example :
  showsR store_R 0 2 3 (row_major 2 [1; 2; 3; 4; 5; 6]%Z) /\
  showsR store_R 2 2 3 (row_major 2 [1; 0; 2; 0; 3; 1]%Z).
Proof. split; apply store_R_shows. Qed.

(** C07: for histories without fastRowSwap; false after one. *)
Theorem C07_dot_partial :
  forall (dbg : bool) (ms : mats (RT dbg)) a b h u v,
    mreach true ms -> showsR ms a 1 h u -> showsR ms b 1 h v ->
    mdot ms a b = Ok (Some (Rsum h (fun i => u i 0%nat * v i 0%nat)%R) : cell (RT dbg)).
Proof. exact @dot_real. Qed.
Print Assumptions C07_dot_partial.
Theorem C07_magnitude_partial :
  forall (dbg : bool) (ms : mats (RT dbg)) a h u,
    mreach true ms -> showsR ms a 1 h u ->
    exists q, mvecmag2 ms a = Ok (Some q : cell (RT dbg)) /\
      q = Rsum h (fun i => u i 0%nat * u i 0%nat)%R /\ (0 <= q)%R /\
      (q = 0%R <-> forall i, i < h -> u i 0%nat = 0%R).
Proof. exact @magnitude_real. Qed.
Print Assumptions C07_magnitude_partial.
Theorem C07_dot_after_swap_refuted :
  ~ (forall (ms : mats (QT true)) a b h f g,
       mreach false ms -> shows ms a 1 h f -> shows ms b 1 h g ->
       mdot ms a b = Ok (fold_sum h (fun i => cmul (f i 0%nat) (g i 0%nat)))).
Proof. exact dot_swap_refuted. Qed.
Print Assumptions C07_dot_after_swap_refuted.
Theorem C07_dot_after_swap_out_of_bounds :
  exists ms : mats (QT true), mreach false ms /\
    m_w (ms 0%nat) = 1%nat /\ m_h (ms 0%nat) = 2%nat /\ m_w (ms 1%nat) = 1%nat /\ m_h (ms 1%nat) = 2%nat /\
    mdot ms 0 1 = UB /\ mvecmag2 ms 0 = UB.
Proof. exact dot_swap_out_of_bounds. Qed.
Print Assumptions C07_dot_after_swap_out_of_bounds.
Example C07_example :
  mreach true store_ns /\
  showsR store_ns 0 1 3 (row_major 1 [1; 2; 3]%Z) /\ showsR store_ns 1 1 3 (row_major 1 [4; 5; 6]%Z).
Proof. exact store_ns_shows. Qed.

(** C08: for histories without fastRowSwap; false after one. *)
Theorem C08_load_partial :
  forall (tg : target) (ms : mats tg) t w h data,
    mreach true ms -> m_w (ms t) = w -> m_h (ms t) = h -> w * h <= length data ->
    exists ms', mstep ms (MLoad t data) = Ok ms' /\
      (m_w (ms' t) = w /\ m_h (ms' t) = h) /\
      (forall r c x, r < h -> c < w -> nth_error data (r * w + c) = Some x ->
         mget ms' t c r = Ok x) /\
      forall id, id <> t -> ms' id = ms id.
Proof. exact @load_any. Qed.
Print Assumptions C08_load_partial.
Theorem C08_load_after_swap_refuted :
  ~ (forall (ms : mats (QT true)) t w h data,
       mreach false ms -> m_w (ms t) = w -> m_h (ms t) = h -> (w * h <= length data)%nat ->
       exists ms', mstep ms (MLoad t data) = Ok ms' /\
         forall r c x, (r < h)%nat -> (c < w)%nat ->
           nth_error data (r * w + c) = Some x -> mget ms' t c r = Ok x).
Proof. exact load_swap_refuted. Qed.
Print Assumptions C08_load_after_swap_refuted.
Example C08_example : mreach true store_ns /\ m_w (store_ns 1) = 1 /\ m_h (store_ns 1) = 3.
Proof. split; [apply store_ns_shows|]. split; reflexivity. Qed.
