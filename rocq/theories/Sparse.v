(** * Model of atg_scs::SparseMatrix<T_Stride, T_Entries> (include/sparse_matrix.h).

    Layout as in the class: [s_data] block of doubles, [s_rows] block of row
    pointers (offsets), [s_blocks] block of uint8_t ([None] = never written).
    [st] and [en] are the template parameters T_Stride and T_Entries.
    leftScale/rightScale take a SparseMatrix<T_Stride> (T_Entries = 2) target
    in the C++; the model uses the same [en] for both objects (the library
    only instantiates <3,2>). *)

From Verif Require Import Base Matrix.

Section SparseModel.
Context {tg : target}.
Variables st en : nat.
Local Open Scope cell_scope.

(* include/sparse_matrix.h:271-277 *)
Record sparse := mkSp {
  s_ptr : bool;
  s_rows : list (option nat);
  s_data : list (cell tg);
  s_blocks : list (option Z);
  s_w : nat;
  s_h : nat;
  s_ch : nat
}.

(* include/sparse_matrix.h:17-23 *)
Definition sp_new : sparse :=
  {| s_ptr := false; s_rows := []; s_data := []; s_blocks := [];
     s_w := 0; s_h := 0; s_ch := 0 |}.

(* include/sparse_matrix.h:25-29  ~SparseMatrix(); the three pointers are
   null together *)
Definition sp_dtor (s : sparse) : res unit := massert tg (negb (s_ptr s)).

(* include/sparse_matrix.h:58-72  destroy(): m_capacityHeight is NOT reset *)
Definition sp_destroy (s : sparse) : sparse :=
  if s_ptr s then
    {| s_ptr := false; s_rows := []; s_data := []; s_blocks := [];
       s_w := 0; s_h := 0; s_ch := s_ch s |}
  else s.

Definition sp_with_rows (s : sparse) (r : list (option nat)) : sparse :=
  {| s_ptr := s_ptr s; s_rows := r; s_data := s_data s; s_blocks := s_blocks s;
     s_w := s_w s; s_h := s_h s; s_ch := s_ch s |}.
Definition sp_with_data (s : sparse) (d : list (cell tg)) : sparse :=
  {| s_ptr := s_ptr s; s_rows := s_rows s; s_data := d; s_blocks := s_blocks s;
     s_w := s_w s; s_h := s_h s; s_ch := s_ch s |}.
Definition sp_with_blocks (s : sparse) (b : list (option Z)) : sparse :=
  {| s_ptr := s_ptr s; s_rows := s_rows s; s_data := s_data s; s_blocks := b;
     s_w := s_w s; s_h := s_h s; s_ch := s_ch s |}.

(* include/sparse_matrix.h:53-55  m_matrix[i] = &m_data[i * T_Entries * T_Stride] *)
Definition sp_set_row_ptr (i : nat) (s : sparse) : res sparse :=
  let* r := lift_opt (list_set (s_rows s) i (Some (i * en * st)%nat)) in
  Ok (sp_with_rows s r).

(* include/sparse_matrix.h:36-56  resize(width, height) *)
Definition sp_resize (s : sparse) (w h : nat) : res sparse :=
  if Nat.eqb w (s_w s) && Nat.eqb h (s_h s) then Ok s
  else
    let s1 :=
      if Nat.ltb (s_ch s) h then
        let d := sp_destroy s in
        let ch := if Nat.ltb (s_ch d) h then h else s_ch d in
        {| s_ptr := true; s_rows := repeat None ch;
           s_data := repeat None (st * en * ch)%nat;
           s_blocks := repeat None (ch * en)%nat;
           s_w := s_w d; s_h := s_h d; s_ch := ch |}
      else s in
    let s2 := {| s_ptr := s_ptr s1; s_rows := s_rows s1; s_data := s_data s1;
                 s_blocks := s_blocks s1; s_w := w; s_h := h; s_ch := s_ch s1 |} in
    for_ h sp_set_row_ptr s2.

(* memset(m_blockData, 0xFFFFFF, T_Entries * m_height): stores byte 0xFF *)
Fixpoint fill_blocks (k : nat) (b : list (option Z)) : option (list (option Z)) :=
  match k, b with
  | O, _ => Some b
  | S k', _ :: b' =>
      match fill_blocks k' b' with Some r => Some (Some 255%Z :: r) | None => None end
  | S _, [] => None
  end.

(* include/sparse_matrix.h:31-34  initialize(width, height) *)
Definition sp_init (s : sparse) (w h : nat) : res sparse :=
  let* s := sp_resize s w h in
  let* b := lift_opt (fill_blocks (en * s_h s)%nat (s_blocks s)) in
  Ok (sp_with_blocks s b).

(* the expression m_matrix[row][col] *)
Definition sp_raw_get (s : sparse) (row col : nat) : res (cell tg) :=
  match nth_error (s_rows s) row with
  | Some (Some off) => lift_opt (nth_error (s_data s) (off + col))
  | _ => UB
  end.
Definition sp_raw_set (s : sparse) (row col : nat) (v : cell tg) : res sparse :=
  match nth_error (s_rows s) row with
  | Some (Some off) =>
      let* d := lift_opt (list_set (s_data s) (off + col) v) in Ok (sp_with_data s d)
  | _ => UB
  end.

(* the expression m_blockData[row * T_Entries + entry]; every use branches on
   it, so an unwritten byte is UB *)
Definition sp_block (s : sparse) (row entry : nat) : res Z :=
  match nth_error (s_blocks s) (row * en + entry) with
  | Some (Some b) => Ok b
  | _ => UB
  end.

(* include/sparse_matrix.h:106-112  setBlock(row, entry, index);
   [index] is already a uint8_t (0..255) *)
Definition sp_set_block (s : sparse) (row entry : nat) (index : Z) : res sparse :=
  let* _ := massert tg (Nat.ltb row (s_h s)) in
  let* _ := massert tg (Nat.ltb entry en) in
  let* _ := massert tg (Z.ltb index (Z.of_nat (s_w s))) in
  let* b := lift_opt (list_set (s_blocks s) (row * en + entry) (Some index)) in
  Ok (sp_with_blocks s b).

(* include/sparse_matrix.h:114-120  set(row, entry, slice, v) *)
Definition sp_set (s : sparse) (row entry slice : nat) (v : cell tg) : res sparse :=
  let* _ := massert tg (Nat.ltb row (s_h s)) in
  let* _ := massert tg (Nat.ltb entry en) in
  let* _ := massert tg (Nat.ltb slice st) in
  sp_raw_set s row (entry * st + slice) v.

(* include/sparse_matrix.h:122-128  get(row, entry, slice) *)
Definition sp_get (s : sparse) (row entry slice : nat) : res (cell tg) :=
  let* _ := massert tg (Nat.ltb row (s_h s)) in
  let* _ := massert tg (Nat.ltb entry en) in
  let* _ := massert tg (Nat.ltb slice st) in
  sp_raw_get s row (entry * st + slice).

(* include/sparse_matrix.h:130-138  setEmpty(row, col) *)
Definition sp_set_empty (s : sparse) (row col : nat) : res sparse :=
  let* _ := massert tg (Nat.ltb row (s_h s)) in
  let* _ := massert tg (Nat.ltb col en) in
  let* b := lift_opt (list_set (s_blocks s) (row * en + col) (Some 255%Z)) in
  for_ st (fun i s => sp_raw_set s row (col * st + i) (cofZ 0)) (sp_with_blocks s b).

(* column index block * T_Stride + k *)
Definition bcol (block : Z) (k : nat) : nat := (Z.to_nat block * st + k)%nat.

(** Sparse matrices as named objects *)
Definition sps := nat -> sparse.

(* include/sparse_matrix.h:74-88  expand(matrix) *)
Definition sp_expand (s : sparse) (ms : mats tg) (t : nat) : res (mats tg) :=
  let* ms := minit0 ms t (s_w s) (s_h s) in
  for2 (s_h s) en (fun i j ms =>
    let* block := sp_block s i j in
    if Z.eqb block 255 then Ok ms
    else for_ st (fun k ms =>
      let* x := sp_raw_get s i (j * st + k) in
      mset ms t (bcol block k) i x) ms) ms.

(* include/sparse_matrix.h:90-104  expandTransposed(matrix) *)
Definition sp_expand_transposed (s : sparse) (ms : mats tg) (t : nat) : res (mats tg) :=
  let* ms := minit0 ms t (s_h s) (s_w s) in
  for2 (s_h s) en (fun i j ms =>
    let* block := sp_block s i j in
    if Z.eqb block 255 then Ok ms
    else for_ st (fun k ms =>
      let* x := sp_raw_get s i (j * st + k) in
      mset ms t i (bcol block k) x) ms) ms.

(* include/sparse_matrix.h:147-162  the inner accumulation of multiplyTranspose *)
Definition sp_row_dot (s b : sparse) (i j : nat) : res (cell tg) :=
  for_ en (fun k dot =>
    let* block0 := sp_block s i k in
    if Z.eqb block0 255 then Ok dot
    else for_ en (fun l dot =>
      let* block1 := sp_block b j l in
      if Z.eqb block0 block1 then
        for_ st (fun m dot =>
          let* x := sp_raw_get s i (k * st + m) in
          let* y := sp_raw_get b j (l * st + m) in
          Ok (dot + x * y)) dot
      else Ok dot) dot) (cofZ 0).

(* include/sparse_matrix.h:140-167  multiplyTranspose(b_T, target) *)
Definition sp_multiply_transpose (s b : sparse) (ms : mats tg) (t : nat) : res (mats tg) :=
  let* _ := massert tg (Nat.eqb (s_w s) (s_w b)) in
  let* ms := minit0 ms t (s_h b) (s_h s) in
  for2 (s_h s) (s_h b) (fun i j ms =>
    let* dot := sp_row_dot s b i j in
    mset ms t j i dot) ms.

(* include/sparse_matrix.h:169-191  transposeMultiplyVector(b, target) *)
Definition sp_transpose_multiply_vector (s : sparse) (ms : mats tg) (b t : nat) : res (mats tg) :=
  let b_w := m_w (ms b) in
  let b_h := m_h (ms b) in
  let* _ := massert tg (Nat.eqb b_w 1) in
  let* _ := massert tg (Nat.eqb (s_h s) b_h) in
  let* ms := minit0 ms t 1 (s_w s) in
  for2 (s_h s) en (fun i k ms =>
    let* block := sp_block s i k in
    if Z.eqb block 255 then Ok ms
    else for_ st (fun l ms =>
      let* x := sp_raw_get s i (k * st + l) in
      let* y := mget ms b 0 i in
      maddto ms t 0 (bcol block l) (x * y)) ms) ms.

(* include/sparse_matrix.h:193-217  multiply(b, target) *)
Definition sp_multiply (s : sparse) (ms : mats tg) (b t : nat) : res (mats tg) :=
  let b_w := m_w (ms b) in
  let b_h := m_h (ms b) in
  let* _ := massert tg (Nat.eqb (s_w s) b_h) in
  let* ms := minit0 ms t (m_w (ms b)) (s_h s) in
  for2 (s_h s) b_w (fun i j ms =>
    let* v := for_ en (fun k v =>
      let* block := sp_block s i k in
      if Z.eqb block 255 then Ok v
      else for_ st (fun l v =>
        let* x := sp_raw_get s i (k * st + l) in
        let* y := mget ms b j (bcol block l) in
        Ok (v + x * y)) v) (cofZ 0) in
    mset ms t j i v) ms.

(* include/sparse_matrix.h:219-241  rightScale(scale, target) *)
Definition sp_right_scale (ss : sps) (ms : mats tg) (this scale t : nat) : res sps :=
  let* _ := massert tg (Nat.eqb (m_w (ms scale)) 1) in
  let* _ := massert tg (Nat.eqb (m_h (ms scale)) (s_w (ss this))) in
  let* t0 := sp_init (ss t) (s_w (ss this)) (s_h (ss this)) in
  for2 (s_h (ss this)) en (fun i j ss =>
    let* index := sp_block (ss this) i j in
    if Z.eqb index 255 then Ok ss
    else
      let* t1 := sp_set_block (ss t) i j index in
      for_ st (fun k ss =>
        let* sc := mget ms scale 0 (bcol index k) in
        let* x := sp_raw_get (ss this) i (j * st + k) in
        let* t2 := sp_set (ss t) i j k (sc * x) in
        Ok (upd ss t t2)) (upd ss t t1)) (upd ss t t0).

(* include/sparse_matrix.h:243-265  leftScale(scale, target) *)
Definition sp_left_scale (ss : sps) (ms : mats tg) (this scale t : nat) : res sps :=
  let* _ := massert tg (Nat.eqb (m_w (ms scale)) 1 || Nat.eqb (s_h (ss this)) 0) in
  let* _ := massert tg (Nat.eqb (m_h (ms scale)) (s_h (ss this))) in
  let* t0 := sp_init (ss t) (s_w (ss this)) (s_h (ss this)) in
  for2 (s_h (ss this)) en (fun i j ss =>
    let* index := sp_block (ss this) i j in
    if Z.eqb index 255 then Ok ss
    else
      let* t1 := sp_set_block (ss t) i j index in
      for_ st (fun k ss =>
        let* sc := mget ms scale 0 i in
        let* x := sp_raw_get (ss this) i (j * st + k) in
        let* t2 := sp_set (ss t) i j k (sc * x) in
        Ok (upd ss t t2)) (upd ss t t1)) (upd ss t t0).

End SparseModel.

Arguments sparse : clear implicits.
Arguments sps : clear implicits.
