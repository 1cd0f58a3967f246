(** * Model of sizes as C++ ints, and of allocations that fail.

    Matrix.v, Sparse.v and State.v take sizes as [nat] and let [new] succeed.
    Here sizes are [int]s: signed overflow is an outcome of its own, conversions
    to size_t wrap at 2^64, and [new] throws when the length is negative or the
    allocator has no room.  Contents are left out: an array is its length, a
    matrix its ints, the length of its block and its row pointers (as offsets). *)

From Verif Require Import Base.
Local Open Scope Z_scope.

Definition int_max : Z := 2147483647.
Definition fits (z : Z) : bool := (- int_max - 1 <=? z) && (z <=? int_max).
(** int * int and int + int; [None]: overflow *)
Definition imul (x y : Z) : option Z := if fits (x * y) then Some (x * y) else None.
Definition iadd (x y : Z) : option Z := if fits (x + y) then Some (x + y) else None.
(** (size_t)x *)
Definition to_size (x : Z) : Z := x mod 2 ^ 64.

(** what a call ends in: normally, by an exception that leaves the object so,
    by signed overflow, by a bad pointer or access, or by a failed assertion *)
Inductive out (A : Type) := IOk (a : A) | IThrow (a : A) | IOver | IBad | IAssert.
Arguments IOk {A}. Arguments IThrow {A}. Arguments IOver {A}. Arguments IBad {A}. Arguments IAssert {A}.
Definition ibind {A} (x : out A) (f : A -> out A) : out A :=
  match x with IOk a => f a | IThrow a => IThrow a | IOver => IOver | IBad => IBad | IAssert => IAssert end.
Notation "'let!' x := a 'in' b" := (ibind a (fun x => b)) (at level 200, x name, a at level 100, b at level 200).
Fixpoint forz {A} (k : nat) (i : Z) (f : Z -> A -> out A) (s : A) : out A :=
  match k with O => IOk s | S k => let! s := f i s in forz k (i + 1) f s end.
(** for (int i = 0; i < n; ++i) *)
Definition for_int {A} (n : Z) (f : Z -> A -> out A) (s : A) : out A := forz (Z.to_nat n) 0 f s.

(** the allocator: which lengths it grants; a negative length throws *)
Definition grants (room : Z -> bool) (len : Z) : bool := (0 <=? len) && room len.

(** ** Matrix *)
(* include/matrix.h:71-76 *)
Record imat := { i_w : Z; i_h : Z; i_cw : Z; i_ch : Z; i_data : option Z; i_rows : option (list (option Z)) }.
(* src/matrix.cpp:6-11 *)
Definition im_new : imat := {| i_w := 0; i_h := 0; i_cw := 0; i_ch := 0; i_data := None; i_rows := None |}.
(* src/matrix.cpp:66-79 *)
Definition im_destroy (m : imat) : imat := match i_rows m with None => m | Some _ => im_new end.
Definition i_len (m : imat) : Z := match i_data m with Some l => l | None => 0 end.
(* src/matrix.cpp:61-63  m_matrix[i] = &m_data[i * width]: the product is an
   int, the pointer must stay within the block or one past it *)
Definition im_row (w i : Z) (m : imat) : out imat :=
  match imul i w with
  | None => IOver
  | Some o =>
      if (0 <=? o) && (o <=? i_len m) then
        match i_rows m with
        | None => IBad
        | Some r => match list_set r (Z.to_nat i) (Some o) with
            | Some r => IOk {| i_w := i_w m; i_h := i_h m; i_cw := i_cw m; i_ch := i_ch m; i_data := i_data m; i_rows := Some r |}
            | None => IBad end
        end
      else IBad
  end.
(* src/matrix.cpp:41-64; lines 54-55: a throwing new leaves the capacities
   already set *)
Definition im_resize (room : Z -> bool) (w h : Z) (m : imat) : out imat :=
  if (w =? i_w m) && (h =? i_h m) then IOk m
  else
    let! m1 :=
      if (i_cw m <? w) || (i_ch m <? h) then
        let d := im_destroy m in
        let cw := if i_cw d <? w then w else i_cw d in
        let ch := if i_ch d <? h then h else i_ch d in
        let len := (to_size cw * to_size ch) mod 2 ^ 64 in
        if grants room len then
          if grants room ch then IOk {| i_w := i_w d; i_h := i_h d; i_cw := cw; i_ch := ch; i_data := Some len; i_rows := Some (repeat None (Z.to_nat ch)) |}
          else IThrow {| i_w := i_w d; i_h := i_h d; i_cw := cw; i_ch := ch; i_data := Some len; i_rows := i_rows d |}
        else IThrow {| i_w := i_w d; i_h := i_h d; i_cw := cw; i_ch := ch; i_data := i_data d; i_rows := i_rows d |}
      else IOk m in
    let m2 := {| i_w := w; i_h := h; i_cw := i_cw m1; i_ch := i_ch m1; i_data := i_data m1; i_rows := i_rows m1 |} in
    for_int h (im_row w) m2.
(* the lvalue m_matrix[row][col] *)
Definition im_at (row col : Z) (m : imat) : out imat :=
  if row <? 0 then IBad
  else match i_rows m with
    | None => IBad
    | Some r => match nth_error r (Z.to_nat row) with
        | Some (Some o) => if (0 <=? o + col) && (o + col <? i_len m) then IOk m else IBad
        | _ => IBad end
    end.
(* include/matrix.h:21-40  set, add, get *)
Definition im_elem (dbg : bool) (col row : Z) (m : imat) : out imat :=
  if dbg && negb ((0 <=? col) && (col <? i_w m) && (0 <=? row) && (row <? i_h m)) then IAssert else im_at row col m.
(* src/matrix.cpp:26-34 *)
Definition im_init_val (room : Z -> bool) (w h : Z) (m : imat) : out imat :=
  let! m := im_resize room w h m in for_int h (fun i m => for_int w (fun j m => im_at i j m) m) m.
(* src/matrix.cpp:36-39: memset of sizeof(double) * width * height bytes, computed in size_t *)
Definition im_init0 (room : Z -> bool) (w h : Z) (m : imat) : out imat :=
  let! m := im_resize room w h m in
  if (8 * to_size w) mod 2 ^ 64 * to_size h mod 2 ^ 64 <=? 8 * i_len m then IOk m else IBad.
(* include/matrix.h:64-68 *)
Definition im_swap (a b : Z) (m : imat) : out imat :=
  if (a <? 0) || (b <? 0) then IBad
  else match i_rows m with
    | None => IBad
    | Some r => match nth_error r (Z.to_nat a), nth_error r (Z.to_nat b) with
        | Some (Some x), Some (Some y) =>
            match list_set r (Z.to_nat a) (Some y) with
            | Some r => match list_set r (Z.to_nat b) (Some x) with
                | Some r => IOk {| i_w := i_w m; i_h := i_h m; i_cw := i_cw m; i_ch := i_ch m; i_data := i_data m; i_rows := Some r |}
                | None => IBad end
            | None => IBad end
        | _, _ => IBad end
    end.

(** ** SparseMatrix<3, 2> *)
(* include/sparse_matrix.h:271-277 *)
Record isp := { p_w : Z; p_h : Z; p_ch : Z; p_data : option Z; p_rows : option (list (option Z)); p_blocks : option Z }.
(* include/sparse_matrix.h:17-23 *)
Definition ip_new : isp := {| p_w := 0; p_h := 0; p_ch := 0; p_data := None; p_rows := None; p_blocks := None |}.
(* include/sparse_matrix.h:58-72 *)
Definition ip_destroy (m : isp) : isp :=
  match p_rows m with None => m | Some _ => {| p_w := 0; p_h := 0; p_ch := p_ch m; p_data := None; p_rows := None; p_blocks := None |} end.
Definition p_len (m : isp) : Z := match p_data m with Some l => l | None => 0 end.
Definition p_blen (m : isp) : Z := match p_blocks m with Some l => l | None => 0 end.
(* include/sparse_matrix.h:53-55  m_matrix[i] = &m_data[i * T_Entries * T_Stride] *)
Definition ip_row (i : Z) (m : isp) : out isp :=
  match imul i 2 with
  | None => IOver
  | Some o1 =>
  match imul o1 3 with
  | None => IOver
  | Some o =>
      if (0 <=? o) && (o <=? p_len m) then
        match p_rows m with
        | None => IBad
        | Some r => match list_set r (Z.to_nat i) (Some o) with
            | Some r => IOk {| p_w := p_w m; p_h := p_h m; p_ch := p_ch m; p_data := p_data m; p_rows := Some r; p_blocks := p_blocks m |}
            | None => IBad end
        end
      else IBad
  end end.
(* include/sparse_matrix.h:36-56 *)
Definition ip_resize (room : Z -> bool) (w h : Z) (m : isp) : out isp :=
  if (w =? p_w m) && (h =? p_h m) then IOk m
  else
    let! m1 :=
      if p_ch m <? h then
        let d := ip_destroy m in
        let ch := if p_ch d <? h then h else p_ch d in
        let len := (6 * to_size ch) mod 2 ^ 64 in
        let blen := (to_size ch * 2) mod 2 ^ 64 in
        let mk := fun da ro bl => {| p_w := p_w d; p_h := p_h d; p_ch := ch; p_data := da; p_rows := ro; p_blocks := bl |} in
        if grants room len then
          if grants room ch then
            if grants room blen then IOk (mk (Some len) (Some (repeat None (Z.to_nat ch))) (Some blen))
            else IThrow (mk (Some len) (Some (repeat None (Z.to_nat ch))) (p_blocks d))
          else IThrow (mk (Some len) (p_rows d) (p_blocks d))
        else IThrow (mk (p_data d) (p_rows d) (p_blocks d))
      else IOk m in
    for_int h ip_row {| p_w := w; p_h := h; p_ch := p_ch m1; p_data := p_data m1; p_rows := p_rows m1; p_blocks := p_blocks m1 |}.
(* include/sparse_matrix.h:31-34: memset of T_Entries * m_height bytes, computed in size_t *)
Definition ip_init (room : Z -> bool) (w h : Z) (m : isp) : out isp :=
  let! m := ip_resize room w h m in
  if (2 * to_size (p_h m)) mod 2 ^ 64 <=? p_blen m then IOk m else IBad.

(** ** SystemState *)
(* include/system_state.h:18-42: the index map, the thirteen arrays of the
   bodies, the three of the reactions *)
Record ist := { t_n : Z; t_nc : Z; t_map : option Z; t_body : list (option Z); t_re : list (option Z) }.
(* src/system_state.cpp:11-43 *)
Definition it_new : ist := {| t_n := 0; t_nc := 0; t_map := None; t_body := repeat None 13; t_re := repeat None 3 |}.
(* src/system_state.cpp:108-138 *)
Definition it_destroy (s : ist) : ist :=
  {| t_n := 0; t_nc := 0; t_map := if 0 <? t_nc s then None else t_map s;
     t_body := if 0 <? t_n s then repeat None 13 else t_body s; t_re := if 0 <? t_nc s then repeat None 3 else t_re s |}.
(** k arrays of the same length, one after the other; [false]: one threw, the rest is as it was *)
Fixpoint new_all (room : Z -> bool) (len : Z) (l : list (option Z)) : bool * list (option Z) :=
  match l with
  | [] => (true, [])
  | x :: l => if grants room len then let (b, l) := new_all room len l in (b, Some len :: l) else (false, x :: l)
  end.
(* src/system_state.cpp:74-106 *)
Definition it_resize (room : Z -> bool) (bc cc : Z) (s : ist) : out ist :=
  if (bc <=? t_n s) && (cc <=? t_nc s) then IOk s
  else
    let d := it_destroy s in
    let mk := fun ma bo re => {| t_n := bc; t_nc := cc; t_map := ma; t_body := bo; t_re := re |} in
    if grants room cc then
      let (b, bo) := new_all room bc (t_body d) in
      if b then
        let (b, re) := new_all room ((to_size cc * 2) mod 2 ^ 64) (t_re d) in
        if b then IOk (mk (Some cc) bo re) else IThrow (mk (Some cc) bo re)
      else IThrow (mk (Some cc) bo (t_re d))
    else IThrow (mk (t_map d) (t_body d) (t_re d)).
(* state->a_x[i] and the like, for the array with number k *)
Definition it_body (k : nat) (i : Z) (s : ist) : out ist :=
  match nth_error (t_body s) k with Some (Some l) => if (0 <=? i) && (i <? l) then IOk s else IBad | _ => IBad end.
