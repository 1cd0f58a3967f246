(** * Properties of sizes given as ints, and of refused allocations. *)

From Verif Require Import Base Targets Matrix Sparse State Ints IntSys SpecInts IntsWit IntsMore.
Local Open Scope Z_scope.

(** C113: as long as the last row of each size starts at an int, a matrix with
    ints for its sizes behaves as the one with unbounded sizes: it ends with the
    same sizes, arrays and row pointers or with the same error, and nothing
    overflows.  Only a refused allocation can make a difference. *)
Theorem C113_matrix : forall {tg} (room : Z -> bool) (v : cell tg) (l : list icall), Forall sane l ->
  matches alike room (int_calls room (asserts_on tg) l im_new) (nat_calls v l mat_new).
Proof. intros; now apply matches_matrix. Qed.
Theorem C113_sparse : forall {tg} (room : Z -> bool) (l : list pcall), Forall psane l ->
  matches palike room (pint_calls room l ip_new) (pnat_calls l (sp_new (tg := tg))).
Proof. intros; now apply matches_sparse. Qed.
Theorem C113_state : forall {tg} (room : Z -> bool) (l : list tcall), Forall tsane l ->
  matches talike room (tint_calls room l it_new) (Ok (tnat_calls l (st_new (tg := tg)))).
Proof. intros; now apply matches_state. Qed.
(** ... and the next size overflows exactly if its last row does not *)
Theorem C113_exact : forall (room : Z -> bool) dbg (l : list icall) (m : imat) w h, plenty room -> Forall sane l ->
  int_calls room dbg l im_new = IOk m -> 0 <= w <= int_max -> 0 <= h <= int_max ->
  (im_resize room w h m = IOver <-> int_max < (h - 1) * w).
Proof. exact exact_matrix. Qed.
Theorem C113_exact_sparse : forall (room : Z -> bool) (l : list pcall) (m : isp) w h, plenty room -> Forall psane l ->
  pint_calls room l ip_new = IOk m -> 0 <= w <= int_max -> 0 <= h <= int_max ->
  (ip_resize room w h m = IOver <-> int_max < 6 * (h - 1)).
Proof. exact exact_sparse. Qed.
Example C113_example : Forall sane story /\ Forall psane p_story /\ Forall tsane t_story /\ plenty all_room /\
  tint_calls all_room t_story it_new = IOk {| t_n := 5; t_nc := 0; t_map := Some 0; t_body := repeat (Some 5) 13; t_re := repeat (Some 0) 3 |} /\
  int_calls all_room true story im_new =
    IOk {| i_w := 1; i_h := 7; i_cw := 1; i_ch := 7; i_data := Some 7; i_rows := Some [Some 0; Some 1; Some 2; Some 3; Some 4; Some 5; Some 6] |} /\
  pint_calls all_room p_story ip_new =
    IOk {| p_w := 3; p_h := 1; p_ch := 8; p_data := Some 48; p_rows := Some [Some 0; Some 6; Some 12; Some 18; Some 24; Some 30; Some 36; Some 42]; p_blocks := Some 16 |} /\
  im_resize all_room 46342 46342 im_new = IOver /\ ip_resize all_room 3 357913943 ip_new = IOver.
Proof. exact (conj story_sane (conj p_story_sane (conj t_story_sane (conj all_plenty (conj t_story_runs (conj story_runs (conj p_story_runs big_overflows))))))). Qed.
Print Assumptions C113_matrix.
Print Assumptions C113_sparse.
Print Assumptions C113_state.
Print Assumptions C113_exact.
Print Assumptions C113_exact_sparse.
Print Assumptions C113_example.

(** C114 (negative sizes are rejected): false.  A negative width makes the row
    pointers leave the block, a negative height makes the memset as long as the
    address space, and resize alone accepts a negative height. *)
Theorem C114_negative_refuted : im_resize all_room (-1) 2 im_new = IBad /\ im_init0 all_room 1 (-1) im_new = IBad /\
  (exists m, im_resize all_room 3 (-1) im_new = IOk m /\ i_h m = -1 /\ i_rows m = Some []) /\ (exists m, im_resize all_room 3 (-1) im_new = IOk m /\ im_elem false 0 0 m = IBad).
Proof. exact neg_cases. Qed.
(** missing: that they are rejected.  What holds: two negative sizes allocate
    nothing and the call ends normally, keeping them. *)
Theorem C114_partial : forall (room : Z -> bool) w h, w < 0 -> h < 0 ->
  im_resize room w h im_new = IOk {| i_w := w; i_h := h; i_cw := 0; i_ch := 0; i_data := None; i_rows := None |}.
Proof. exact neg_both. Qed.
Example C114_example : -3 < 0 /\ im_resize all_room (-3) (-1) im_new = IOk {| i_w := -3; i_h := -1; i_cw := 0; i_ch := 0; i_data := None; i_rows := None |}.
Proof. split; reflexivity. Qed.
Print Assumptions C114_negative_refuted.
Print Assumptions C114_partial.
Print Assumptions C114_example.

(** C115 (an object whose allocation was refused can still be used): false.  The
    capacities are set before new, so a later size within them is taken to be
    allocated: null pointers are followed, and destroy does not help. *)
Theorem C115_matrix_refuted : im_resize room_100 20 20 im_new = IThrow left_over /\ im_destroy left_over = left_over /\ im_resize room_100 5 5 left_over = IBad /\
  (exists m, im_resize room_100 5 5 im_new = IOk m) /\ (exists m, im_resize all_room 21 2 left_over = IOk m).
Proof. exact refused_matrix. Qed.
Theorem C115_sparse_refuted : exists m, ip_resize room_100 9 20 ip_new = IThrow m /\ ip_resize room_100 9 5 (ip_destroy m) = IBad /\ (exists m', ip_resize room_100 9 5 ip_new = IOk m').
Proof. exact refused_sparse. Qed.
Theorem C115_state_refuted : exists s, it_resize room_100 200 1 it_new = IThrow s /\ it_resize room_100 2 1 s = IOk s /\ it_body 0 0 s = IBad /\ (exists s', it_resize room_100 2 1 it_new = IOk s' /\ it_body 0 0 s' = IOk s').
Proof. exact refused_state. Qed.
(** if the second of the two arrays is refused, the first is lost *)
Theorem C115_leak_refuted : exists m, im_resize room_block 20 20 im_new = IThrow m /\ i_data m = Some 400 /\ im_destroy m = m.
Proof. exact refused_rows. Qed.
(** missing: sizes within the refused ones.  Exactly: they follow a null pointer
    (unless there are no rows), the others work *)
Theorem C115_partial : forall (room room' : Z -> bool) dbg (l : list icall) w h (m m' : imat) w2 h2, Forall sane l ->
  int_calls room dbg l im_new = IOk m -> size_ok w h -> im_resize room w h m = IThrow m' -> plenty room' -> size_ok w2 h2 ->
  if (w2 <=? w) && (h2 <=? h) then (0 < h2 -> im_resize room' w2 h2 m' = IBad)
  else exists m2, im_resize room' w2 h2 m' = IOk m2 /\ i_w m2 = w2 /\ i_h m2 = h2 /\ i_data m2 = Some (Z.max w w2 * Z.max h h2).
Proof. exact throw_matrix. Qed.
(** a state of which an allocation was refused has a null pointer and stays so
    for all smaller systems; a larger one gets all its arrays *)
Theorem C115_state_partial : forall (room : Z -> bool) bc cc (s s' : ist), s = it_new \/ 0 < t_n s /\ 0 < t_nc s -> it_resize room bc cc s = IThrow s' ->
  lacks s' /\ (forall room' b c, b <= bc -> c <= cc -> it_resize room' b c s' = IOk s') /\
  (forall room' b c, plenty room' -> 0 <= b <= int_max -> 0 <= c <= int_max -> bc < b \/ cc < c -> exists s2, it_resize room' b c s' = IOk s2 /\ provided b c s2).
Proof. exact it_after_throw. Qed.
Example C115_example : Forall sane story /\ plenty all_room /\ exists m m', int_calls room_100 true story im_new = IOk m /\ im_resize room_100 20 20 m = IThrow m'.
Proof. exact (conj story_sane (conj all_plenty story_refused)). Qed.
Print Assumptions C115_matrix_refuted.
Print Assumptions C115_sparse_refuted.
Print Assumptions C115_state_refuted.
Print Assumptions C115_leak_refuted.
Print Assumptions C115_partial.
Print Assumptions C115_state_partial.
Print Assumptions C115_example.

(** C116: the int expressions that a call of process evaluates from the numbers
    of bodies and rows all fit exactly if 3n is an int and there are at most
    46340 rows (Gaussian elimination), 46341 (Gauss-Seidel) or 357913942
    (conjugate gradients). *)
Theorem C116_limits : forall k n mf, 0 <= n -> 0 <= mf ->
  ((forall e, evaluates k n mf e -> ieval e <> None) <-> 3 * n <= int_max /\ mf <= row_limit k).
Proof. exact limits_exact. Qed.
Example C116_example : 3 * 1000 <= int_max /\ 46341 <= row_limit KSeidel /\ ~ 46341 <= row_limit KGauss /\ evaluates KGauss 5 46341 (EMul (EC 46340) (EAdd (EC 46341) (EC 1))) /\
  ieval (EMul (EC 46340) (EAdd (EC 46341) (EC 1))) = None /\ ieval (EMul (EC 46340) (EC 46341)) = Some 2147441940.
Proof. exact limit_cases. Qed.
Print Assumptions C116_limits.
Print Assumptions C116_example.
