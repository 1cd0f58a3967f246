(** * Model of atg_scs::Matrix (include/matrix.h, src/matrix.cpp).

    A [matrix] keeps the object's real layout: [m_data] is the one heap block
    of doubles, [m_rows] the heap block of row pointers (as offsets into
    [m_data]; [None] = pointer never written), plus the four ints.
    [m_ptr = false] models m_matrix == nullptr (then both blocks are empty).

    Dimensions are [nat]: negative dimensions are not modelled, and neither is
    int overflow of i * width (dimensions far below 2^31 are assumed).
    [new] is assumed to succeed.  All functions work on a store
    [mats : nat -> matrix] of named matrix objects so that two parameters may
    be the same object. *)

From Verif Require Import Base.

Section MatrixModel.
Context {tg : target}.
Local Open Scope cell_scope.

(* include/matrix.h:71-76 *)
Record matrix := mkMat {
  m_ptr : bool;
  m_rows : list (option nat);
  m_data : list (cell tg);
  m_w : nat;
  m_h : nat;
  m_cw : nat;
  m_ch : nat
}.

(* src/matrix.cpp:6-11  Matrix() *)
Definition mat_new : matrix :=
  {| m_ptr := false; m_rows := []; m_data := []; m_w := 0; m_h := 0; m_cw := 0; m_ch := 0 |}.

(* the expression m_matrix[row][col] used as a value *)
Definition raw_get (m : matrix) (row col : nat) : res (cell tg) :=
  match nth_error (m_rows m) row with
  | Some (Some off) => lift_opt (nth_error (m_data m) (off + col))
  | _ => UB
  end.

Definition with_data (m : matrix) (d : list (cell tg)) : matrix :=
  {| m_ptr := m_ptr m; m_rows := m_rows m; m_data := d;
     m_w := m_w m; m_h := m_h m; m_cw := m_cw m; m_ch := m_ch m |}.
Definition with_rows (m : matrix) (r : list (option nat)) : matrix :=
  {| m_ptr := m_ptr m; m_rows := r; m_data := m_data m;
     m_w := m_w m; m_h := m_h m; m_cw := m_cw m; m_ch := m_ch m |}.

(* the assignment m_matrix[row][col] = v *)
Definition raw_set (m : matrix) (row col : nat) (v : cell tg) : res matrix :=
  match nth_error (m_rows m) row with
  | Some (Some off) =>
      let* d := lift_opt (list_set (m_data m) (off + col) v) in Ok (with_data m d)
  | _ => UB
  end.

(* src/matrix.cpp:66-79  destroy() *)
Definition mat_destroy (m : matrix) : matrix :=
  if m_ptr m then mat_new else m.

(* src/matrix.cpp:61-63  m_matrix[i] = &m_data[i * width] *)
Definition set_row_ptr (width : nat) (i : nat) (m : matrix) : res matrix :=
  let* r := lift_opt (list_set (m_rows m) i (Some (i * width)%nat)) in Ok (with_rows m r).

(* src/matrix.cpp:41-64  resize(width, height) *)
Definition mat_resize (m : matrix) (w h : nat) : res matrix :=
  if Nat.eqb w (m_w m) && Nat.eqb h (m_h m) then Ok m
  else
    let m1 :=
      if Nat.ltb (m_cw m) w || Nat.ltb (m_ch m) h then
        let d := mat_destroy m in
        let cw := if Nat.ltb (m_cw d) w then w else m_cw d in
        let ch := if Nat.ltb (m_ch d) h then h else m_ch d in
        {| m_ptr := true; m_rows := repeat None ch; m_data := repeat None (cw * ch)%nat;
           m_w := m_w d; m_h := m_h d; m_cw := cw; m_ch := ch |}
      else m in
    let m2 := {| m_ptr := m_ptr m1; m_rows := m_rows m1; m_data := m_data m1;
                 m_w := w; m_h := h; m_cw := m_cw m1; m_ch := m_ch m1 |} in
    for_ h (set_row_ptr w) m2.

(* src/matrix.cpp:26-34  initialize(width, height, value) *)
Definition mat_init_val (m : matrix) (w h : nat) (v : cell tg) : res matrix :=
  let* m := mat_resize m w h in
  for2 h w (fun i j m => raw_set m i j v) m.

(* memset(m_data, 0, ...) / memcpy(m_data, ...): overwrite a prefix of the block *)
Fixpoint overwrite (d src : list (cell tg)) : option (list (cell tg)) :=
  match src, d with
  | [], _ => Some d
  | _ :: _, [] => None
  | x :: src', _ :: d' =>
      match overwrite d' src' with Some r => Some (x :: r) | None => None end
  end.

(* src/matrix.cpp:36-39  initialize(width, height); memset with size 0 on a
   null block is taken as a no-op *)
Definition mat_init0 (m : matrix) (w h : nat) : res matrix :=
  let* m := mat_resize m w h in
  let* d := lift_opt (overwrite (m_data m) (repeat (cofZ 0) (w * h)%nat)) in
  Ok (with_data m d).

(* src/matrix.cpp:13-20  Matrix(width, height, value) *)
Definition mat_new_val (w h : nat) (v : cell tg) : res matrix := mat_init_val mat_new w h v.

(* src/matrix.cpp:22-24  ~Matrix() *)
Definition mat_dtor (m : matrix) : res unit := massert tg (negb (m_ptr m)).

(* src/matrix.cpp:81-83  set(const double *data); the source block must hold
   width*height doubles *)
Definition mat_load (m : matrix) (data : list (cell tg)) : res matrix :=
  let k := (m_w m * m_h m)%nat in
  if Nat.ltb (length data) k then UB
  else let* d := lift_opt (overwrite (m_data m) (firstn k data)) in Ok (with_data m d).

(* include/matrix.h:21-26  set(column, row, value) *)
Definition mat_set (m : matrix) (col row : nat) (v : cell tg) : res matrix :=
  let* _ := massert tg (Nat.ltb col (m_w m)) in
  let* _ := massert tg (Nat.ltb row (m_h m)) in
  raw_set m row col v.

(* include/matrix.h:28-33  add(column, row, value) *)
Definition mat_addto (m : matrix) (col row : nat) (v : cell tg) : res matrix :=
  let* _ := massert tg (Nat.ltb col (m_w m)) in
  let* _ := massert tg (Nat.ltb row (m_h m)) in
  let* x := raw_get m row col in
  raw_set m row col (x + v).

(* include/matrix.h:35-40  get(column, row) *)
Definition mat_get (m : matrix) (col row : nat) : res (cell tg) :=
  let* _ := massert tg (Nat.ltb col (m_w m)) in
  let* _ := massert tg (Nat.ltb row (m_h m)) in
  raw_get m row col.

(* include/matrix.h:64-68  fastRowSwap(a, b) *)
Definition mat_row_swap (m : matrix) (a b : nat) : res matrix :=
  match nth_error (m_rows m) a, nth_error (m_rows m) b with
  | Some (Some ra), Some (Some rb) =>
      let* r1 := lift_opt (list_set (m_rows m) a (Some rb)) in
      let* r2 := lift_opt (list_set r1 b (Some ra)) in
      Ok (with_rows m r2)
  | _, _ => UB
  end.

(** ** Operations on stored matrices *)

Definition mats := nat -> matrix.

Definition rget (ms : mats) (id row col : nat) : res (cell tg) := raw_get (ms id) row col.
Definition rset (ms : mats) (id row col : nat) (v : cell tg) : res mats :=
  let* m := raw_set (ms id) row col v in Ok (upd ms id m).
Definition mget (ms : mats) (id col row : nat) : res (cell tg) := mat_get (ms id) col row.
Definition mset (ms : mats) (id col row : nat) (v : cell tg) : res mats :=
  let* m := mat_set (ms id) col row v in Ok (upd ms id m).
Definition maddto (ms : mats) (id col row : nat) (v : cell tg) : res mats :=
  let* m := mat_addto (ms id) col row v in Ok (upd ms id m).
Definition mresize (ms : mats) (id w h : nat) : res mats :=
  let* m := mat_resize (ms id) w h in Ok (upd ms id m).
Definition minit0 (ms : mats) (id w h : nat) : res mats :=
  let* m := mat_init0 (ms id) w h in Ok (upd ms id m).
Definition minit_val (ms : mats) (id w h : nat) (v : cell tg) : res mats :=
  let* m := mat_init_val (ms id) w h v in Ok (upd ms id m).
Definition mdestroy (ms : mats) (id : nat) : mats := upd ms id (mat_destroy (ms id)).

(* src/matrix.cpp:85-93  set(Matrix *reference) *)
Definition mset_ref (ms : mats) (this ref : nat) : res mats :=
  let* ms := mresize ms this (m_w (ms ref)) (m_h (ms ref)) in
  for2 (m_h (ms ref)) (m_w (ms ref)) (fun i j ms =>
    let* x := rget ms ref i j in rset ms this i j x) ms.

(* src/matrix.cpp:95-110  multiply(b, target) *)
Definition mmultiply (ms : mats) (this b t : nat) : res mats :=
  let* _ := massert tg (Nat.eqb (m_w (ms this)) (m_h (ms b))) in
  let* ms := mresize ms t (m_w (ms b)) (m_h (ms this)) in
  for2 (m_h (ms this)) (m_w (ms b)) (fun i j ms =>
    let* v := for_ (m_w (ms this)) (fun ii v =>
      let* x := rget ms this i ii in
      let* y := rget ms b ii j in
      Ok (v + x * y)) (cofZ 0) in
    rset ms t i j v) ms.

(* src/matrix.cpp:112-123  componentMultiply(b, target) *)
Definition mcomponent (ms : mats) (this b t : nat) : res mats :=
  let* _ := massert tg (Nat.eqb (m_h (ms this)) (m_h (ms b))) in
  let* _ := massert tg (Nat.eqb (m_w (ms this)) (m_w (ms b))) in
  let* ms := mresize ms t (m_w (ms this)) (m_h (ms this)) in
  for2 (m_h (ms this)) (m_w (ms this)) (fun i j ms =>
    let* x := mget ms this j i in
    let* y := mget ms b j i in
    mset ms t j i (x * y)) ms.

(* src/matrix.cpp:125-140  transposeMultiply(b, target) *)
Definition mtranspose_multiply (ms : mats) (this b t : nat) : res mats :=
  let* _ := massert tg (Nat.eqb (m_h (ms this)) (m_h (ms b))) in
  let* ms := mresize ms t (m_w (ms b)) (m_w (ms this)) in
  for2 (m_w (ms this)) (m_w (ms b)) (fun i j ms =>
    let* v := for_ (m_h (ms this)) (fun ii v =>
      let* x := rget ms this ii i in
      let* y := rget ms b ii j in
      Ok (v + x * y)) (cofZ 0) in
    rset ms t i j v) ms.

(* src/matrix.cpp:142-153  leftScale(scale, target) *)
Definition mleft_scale (ms : mats) (this scale t : nat) : res mats :=
  let* _ := massert tg (Nat.eqb (m_w (ms scale)) 1) in
  let* _ := massert tg (Nat.eqb (m_h (ms scale)) (m_h (ms this))) in
  let* ms := mresize ms t (m_w (ms this)) (m_h (ms this)) in
  for2 (m_h (ms this)) (m_w (ms this)) (fun i j ms =>
    let* s := rget ms scale i 0 in
    let* x := rget ms this i j in
    rset ms t i j (s * x)) ms.

(* src/matrix.cpp:155-166  rightScale(scale, target) *)
Definition mright_scale (ms : mats) (this scale t : nat) : res mats :=
  let* _ := massert tg (Nat.eqb (m_w (ms scale)) 1) in
  let* _ := massert tg (Nat.eqb (m_h (ms scale)) (m_w (ms this))) in
  let* ms := mresize ms t (m_w (ms this)) (m_h (ms this)) in
  for2 (m_h (ms this)) (m_w (ms this)) (fun i j ms =>
    let* s := rget ms scale j 0 in
    let* x := rget ms this i j in
    rset ms t i j (s * x)) ms.

(* src/matrix.cpp:168-176  scale(s, target) *)
Definition mscale (ms : mats) (this : nat) (s : cell tg) (t : nat) : res mats :=
  let* ms := mresize ms t (m_w (ms this)) (m_h (ms this)) in
  for2 (m_h (ms this)) (m_w (ms this)) (fun i j ms =>
    let* x := rget ms this i j in
    rset ms t i j (s * x)) ms.

(* src/matrix.cpp:178-189  subtract(b, target) *)
Definition msubtract (ms : mats) (this b t : nat) : res mats :=
  let* _ := massert tg (Nat.eqb (m_w (ms b)) (m_w (ms this))) in
  let* _ := massert tg (Nat.eqb (m_h (ms b)) (m_h (ms this))) in
  let* ms := mresize ms t (m_w (ms this)) (m_h (ms this)) in
  for2 (m_h (ms this)) (m_w (ms this)) (fun i j ms =>
    let* x := rget ms this i j in
    let* y := rget ms b i j in
    rset ms t i j (x - y)) ms.

(* src/matrix.cpp:191-202  add(b, target) *)
Definition madd2 (ms : mats) (this b t : nat) : res mats :=
  let* _ := massert tg (Nat.eqb (m_w (ms b)) (m_w (ms this))) in
  let* _ := massert tg (Nat.eqb (m_h (ms b)) (m_h (ms this))) in
  let* ms := mresize ms t (m_w (ms this)) (m_h (ms this)) in
  for2 (m_h (ms this)) (m_w (ms this)) (fun i j ms =>
    let* x := rget ms this i j in
    let* y := rget ms b i j in
    rset ms t i j (x + y)) ms.

(* src/matrix.cpp:204-212  negate(target) *)
Definition mnegate (ms : mats) (this t : nat) : res mats :=
  let* ms := mresize ms t (m_w (ms this)) (m_h (ms this)) in
  for2 (m_h (ms this)) (m_w (ms this)) (fun i j ms =>
    let* x := rget ms this i j in
    rset ms t i j (- x)) ms.

(* src/matrix.cpp:214-227  equals(b, err); the early "return false" becomes
   an accumulator that, once false, skips the remaining reads *)
Definition mequals (ms : mats) (this b : nat) (err : cell tg) : res bool :=
  if negb (Nat.eqb (m_w (ms this)) (m_w (ms b))) then Ok false
  else if negb (Nat.eqb (m_h (ms this)) (m_h (ms b))) then Ok false
  else for2 (m_h (ms this)) (m_w (ms this)) (fun i j ok =>
    if (ok : bool) then
      let* x := mget ms this j i in
      let* y := mget ms b j i in
      let* far := clt err (cabs (x - y)) in
      Ok (negb far)
    else Ok false) true.

(* src/matrix.cpp:229-238  vectorMagnitudeSquared(); note: reads m_matrix[0][i] *)
Definition mvecmag2 (ms : mats) (this : nat) : res (cell tg) :=
  let* _ := massert tg (Nat.eqb (m_w (ms this)) 1) in
  for_ (m_h (ms this)) (fun i mag =>
    let* x := rget ms this 0 i in
    let* y := rget ms this 0 i in
    Ok (mag + x * y)) (cofZ 0).

(* src/matrix.cpp:240-251  dot(b); note: reads m_matrix[0][i] *)
Definition mdot (ms : mats) (this b : nat) : res (cell tg) :=
  let* _ := massert tg (Nat.eqb (m_w (ms this)) 1) in
  let* _ := massert tg (Nat.eqb (m_w (ms b)) 1) in
  let* _ := massert tg (Nat.eqb (m_h (ms b)) (m_h (ms this))) in
  for_ (m_h (ms this)) (fun i r =>
    let* x := rget ms this 0 i in
    let* y := rget ms b 0 i in
    Ok (r + x * y)) (cofZ 0).

(* src/matrix.cpp:253-262  madd(b, s) *)
Definition mmadd (ms : mats) (this b : nat) (s : cell tg) : res mats :=
  let* _ := massert tg (Nat.eqb (m_w (ms this)) (m_w (ms b))) in
  let* _ := massert tg (Nat.eqb (m_h (ms this)) (m_h (ms b))) in
  for2 (m_h (ms this)) (m_w (ms this)) (fun i j ms =>
    let* x := rget ms this i j in
    let* y := rget ms b i j in
    rset ms this i j (x + y * s)) ms.

(* src/matrix.cpp:264-273  pmadd(b, s) *)
Definition mpmadd (ms : mats) (this b : nat) (s : cell tg) : res mats :=
  let* _ := massert tg (Nat.eqb (m_w (ms this)) (m_w (ms b))) in
  let* _ := massert tg (Nat.eqb (m_h (ms this)) (m_h (ms b))) in
  for2 (m_h (ms this)) (m_w (ms this)) (fun i j ms =>
    let* x := rget ms this i j in
    let* y := rget ms b i j in
    rset ms this i j (s * x + y)) ms.

(* src/matrix.cpp:275-283  transpose(target) *)
Definition mtranspose (ms : mats) (this t : nat) : res mats :=
  let* ms := mresize ms t (m_h (ms this)) (m_w (ms this)) in
  for2 (m_w (ms this)) (m_h (ms this)) (fun i j ms =>
    let* x := rget ms this j i in
    rset ms t i j x) ms.

End MatrixModel.

Arguments matrix : clear implicits.
Arguments mats : clear implicits.
