(** * Model of who owns which heap array.

    The other model files keep the contents of arrays inside the objects.  Here
    only pointers, lengths and sizes are kept, so that [delete[]] of an array
    that is gone and arrays that nobody owns can be seen.  Every array has a
    number of its own; numbers are not used again.  [new] is assumed to succeed.
    Contents, row pointers and element accesses other than the writes of the row
    pointers in [resize] are left to Matrix.v, Sparse.v and State.v. *)

From Verif Require Import Base.

(** [DeleteTwice]: [delete[]] of an array that is not there; [BadAccess]: write
    through a null pointer, past the end of an array, or into one that is gone;
    [Assert]: an assertion fails in a build without NDEBUG *)
Inductive out (A : Type) := Fine (a : A) | DeleteTwice | BadAccess | Assert.
Arguments Fine {A} _.
Arguments DeleteTwice {A}.
Arguments BadAccess {A}.
Arguments Assert {A}.
Definition obind {A B : Type} (x : out A) (f : A -> out B) : out B :=
  match x with Fine a => f a | DeleteTwice => DeleteTwice | BadAccess => BadAccess | Assert => Assert end.
Notation "'let!' x ':=' e 'in' f" := (obind e (fun x => f)) (at level 200, x pattern, e at level 200, f at level 200).

(** the arrays: the next number and the length of every array that is there *)
Record pool := mkPool { p_next : nat; p_live : nat -> option nat }.
Definition pool_new : pool := mkPool 0 (fun _ => None).

(* new T[len] *)
Definition new_array (len : nat) (p : pool) : option nat * pool :=
  (Some (p_next p), mkPool (S (p_next p)) (upd (p_live p) (p_next p) (Some len))).
Fixpoint new_arrays (lens : list nat) (p : pool) : list (option nat) * pool :=
  match lens with
  | [] => ([], p)
  | len :: lens => let (a, p) := new_array len p in let (l, p) := new_arrays lens p in (a :: l, p)
  end.
(* delete[] a; nothing happens when a is null *)
Definition delete_array (a : option nat) (p : pool) : out pool :=
  match a with
  | None => Fine p
  | Some b => match p_live p b with
              | None => DeleteTwice
              | Some _ => Fine (mkPool (p_next p) (upd (p_live p) b None))
              end
  end.
Fixpoint delete_arrays (l : list (option nat)) (p : pool) : out pool :=
  match l with [] => Fine p | a :: l => let! p := delete_array a p in delete_arrays l p end.
(* a[0] = ...; ...; a[k - 1] = ...; *)
Definition write_first (a : option nat) (k : nat) (p : pool) : out unit :=
  match k with
  | O => Fine tt
  | S i => match a with
           | None => BadAccess
           | Some b => match p_live p b with None => BadAccess | Some len => if Nat.ltb i len then Fine tt else BadAccess end
           end
  end.

(** ** Matrix *)

(* include/matrix.h:71-76 *)
Record amat := mkAmat { am_matrix : option nat; am_data : option nat; am_w : nat; am_h : nat; am_cw : nat; am_ch : nat }.
(* src/matrix.cpp:6-11  Matrix() *)
Definition am_new : amat := mkAmat None None 0 0 0 0.
(* src/matrix.cpp:66-79  destroy() *)
Definition am_destroy (a : amat) (p : pool) : out (amat * pool) :=
  match am_matrix a with
  | None => Fine (a, p)
  | Some _ => let! p := delete_arrays [am_matrix a; am_data a] p in Fine (am_new, p)
  end.
(* src/matrix.cpp:41-64  resize(width, height) *)
Definition am_resize (a : amat) (w h : nat) (p : pool) : out (amat * pool) :=
  if Nat.eqb w (am_w a) && Nat.eqb h (am_h a) then Fine (a, p)
  else
    let! (a, p) :=
      (if Nat.ltb (am_cw a) w || Nat.ltb (am_ch a) h then
         let! (a, p) := am_destroy a p in
         let cw := if Nat.ltb (am_cw a) w then w else am_cw a in
         let ch := if Nat.ltb (am_ch a) h then h else am_ch a in
         let (d, p) := new_array (cw * ch) p in
         let (m, p) := new_array ch p in
         Fine (mkAmat m d (am_w a) (am_h a) cw ch, p)
       else Fine (a, p)) in
    let! _ := write_first (am_matrix a) h p in
    Fine (mkAmat (am_matrix a) (am_data a) w h (am_cw a) (am_ch a), p).

(** ** SparseMatrix<3, 2> *)

(* include/sparse_matrix.h:271-277 *)
Record asp := mkAsp { ap_matrix : option nat; ap_data : option nat; ap_block : option nat; ap_w : nat; ap_h : nat; ap_ch : nat }.
(* include/sparse_matrix.h:17-23 *)
Definition ap_new : asp := mkAsp None None None 0 0 0.
(* include/sparse_matrix.h:58-72  destroy() *)
Definition ap_destroy (a : asp) (p : pool) : out (asp * pool) :=
  match ap_matrix a with
  | None => Fine (a, p)
  | Some _ => let! p := delete_arrays [ap_matrix a; ap_data a; ap_block a] p in Fine (mkAsp None None None 0 0 (ap_ch a), p)
  end.
(* include/sparse_matrix.h:36-56  resize(width, height) *)
Definition ap_resize (a : asp) (w h : nat) (p : pool) : out (asp * pool) :=
  if Nat.eqb w (ap_w a) && Nat.eqb h (ap_h a) then Fine (a, p)
  else
    let! (a, p) :=
      (if Nat.ltb (ap_ch a) h then
         let! (a, p) := ap_destroy a p in
         let ch := if Nat.ltb (ap_ch a) h then h else ap_ch a in
         let (d, p) := new_array (3 * 2 * ch) p in
         let (m, p) := new_array ch p in
         let (b, p) := new_array (ch * 2) p in
         Fine (mkAsp m d b (ap_w a) (ap_h a) ch, p)
       else Fine (a, p)) in
    let! _ := write_first (ap_matrix a) h p in
    Fine (mkAsp (ap_matrix a) (ap_data a) (ap_block a) w h (ap_ch a), p).

(** ** SystemState *)

(* include/system_state.h:18-43: [as_body] are a_theta, v_theta, theta, a_x, a_y,
   v_x, v_y, p_x, p_y, f_x, f_y, t and m, [as_con] are indexMap, r_x, r_y and r_t *)
Record ast := mkAst { as_body : list (option nat); as_con : list (option nat); as_n : nat; as_nc : nat }.
(* src/system_state.cpp:9-36  SystemState() *)
Definition as_new : ast := mkAst (repeat None 13) (repeat None 4) 0 0.
(* src/system_state.cpp:108-138  destroy(); freeArray (src/utilities.cpp:3-11)
   also makes the pointer null *)
Definition as_destroy (a : ast) (p : pool) : out (ast * pool) :=
  let! (b, p) := (if Nat.ltb 0 (as_n a) then let! p := delete_arrays (as_body a) p in Fine (repeat None 13, p) else Fine (as_body a, p)) in
  let! (c, p) := (if Nat.ltb 0 (as_nc a) then let! p := delete_arrays (as_con a) p in Fine (repeat None 4, p) else Fine (as_con a, p)) in
  Fine (mkAst b c 0 0, p).
(* src/system_state.cpp:74-106  resize(bodyCount, constraintCount); the arrays for
   constraints are made around those for bodies, which makes no difference *)
Definition as_resize (a : ast) (n nc : nat) (p : pool) : out (ast * pool) :=
  if Nat.leb n (as_n a) && Nat.leb nc (as_nc a) then Fine (a, p)
  else
    let! (a, p) := as_destroy a p in
    let (b, p) := new_arrays (repeat n 13) p in
    let (c, p) := new_arrays [nc; nc * 2; nc * 2; nc * 2] p in
    Fine (mkAst b c n nc, p).

(** ** Objects *)

(** the last kind is the four profiling buffers of a RigidBodySystem *)
Inductive obj := OMat (a : amat) | OSp (a : asp) | OSt (a : ast) | OBuf (l : list (option nat)).
Inductive kind := MatrixK | SparseK | StateK | BuffersK.

(* the constructors; src/rigid_body_system.cpp:8-11 for the buffers *)
Definition construct (k : kind) (p : pool) : obj * pool :=
  match k with
  | MatrixK => (OMat am_new, p)
  | SparseK => (OSp ap_new, p)
  | StateK => (OSt as_new, p)
  | BuffersK => let (l, p) := new_arrays (repeat (60 * 10) 4) p in (OBuf l, p)
  end.
(* the destructors: src/matrix.cpp:22-24, include/sparse_matrix.h:25-29,
   src/system_state.cpp:38-41 only assert; src/rigid_body_system.cpp:23-26 frees
   the buffers *)
Definition null (a : option nat) : bool := match a with None => true | Some _ => false end.
Definition destruct_obj (dbg : bool) (o : obj) (p : pool) : out pool :=
  match o with
  | OMat a => if dbg && negb (null (am_matrix a)) then Assert else Fine p
  | OSp a => if dbg && negb (null (ap_matrix a) && null (ap_data a) && null (ap_block a)) then Assert else Fine p
  | OSt a => if dbg && negb (Nat.eqb (as_n a) 0 && Nat.eqb (as_nc a) 0) then Assert else Fine p
  | OBuf l => delete_arrays l p
  end.
(* resize(x, y); the buffers have no such function *)
Definition resize_obj (o : obj) (x y : nat) (p : pool) : out (obj * pool) :=
  match o with
  | OMat a => let! (a, p) := am_resize a x y p in Fine (OMat a, p)
  | OSp a => let! (a, p) := ap_resize a x y p in Fine (OSp a, p)
  | OSt a => let! (a, p) := as_resize a x y p in Fine (OSt a, p)
  | OBuf l => Fine (OBuf l, p)
  end.
(* destroy() *)
Definition destroy_obj (o : obj) (p : pool) : out (obj * pool) :=
  match o with
  | OMat a => let! (a, p) := am_destroy a p in Fine (OMat a, p)
  | OSp a => let! (a, p) := ap_destroy a p in Fine (OSp a, p)
  | OSt a => let! (a, p) := as_destroy a p in Fine (OSt a, p)
  | OBuf l => Fine (OBuf l, p)
  end.

(** ** Programs: places, some of which hold an object *)
Definition place := nat -> option obj.
Inductive act :=
| New (k : kind) (i : nat)          (* an object of this kind at place i, which holds none *)
| Resize (i x y : nat)
| Destroy (i : nat)
| Gone (i : nat)                    (* the object's life ends: its destructor runs *)
| Clone (i j : nat).                (* the implicit copy constructor: all members are copied, pointers too *)
Definition do_act (dbg : bool) (x : act) (s : place) (p : pool) : out (place * pool) :=
  match x with
  | New k i => match s i with None => let (o, p) := construct k p in Fine (upd s i (Some o), p) | Some _ => BadAccess end
  | Resize i x y => match s i with Some o => let! (o, p) := resize_obj o x y p in Fine (upd s i (Some o), p) | None => BadAccess end
  | Destroy i => match s i with Some o => let! (o, p) := destroy_obj o p in Fine (upd s i (Some o), p) | None => BadAccess end
  | Gone i => match s i with Some o => let! p := destruct_obj dbg o p in Fine (upd s i None, p) | None => BadAccess end
  | Clone i j => match s i, s j with Some o, None => Fine (upd s j (Some o), p) | _, _ => BadAccess end
  end.
Fixpoint do_acts (dbg : bool) (l : list act) (s : place) (p : pool) : out (place * pool) :=
  match l with [] => Fine (s, p) | x :: l => let! (s, p) := do_act dbg x s p in do_acts dbg l s p end.

(** ** The classes of the library that have such members
    [members] are the kinds of the members, which are at places 0, 1, ...;
    [birth] and [death] are what the constructor and the destructor do with
    them.  The destructors of the members run after the body of the class's own
    destructor, those of the base class's members after those. *)
Inductive class := OptimizedC | GenericC | EliminationC | SeidelC | GradientC | Rk4C.
(* include/optimized_nsv_rigid_body_system.h:36-52: J_sparse, sreg0; C, M, M_inv, b_err,
   v_bias, limits, q_dot, q_dot_prime, reg0, reg1, reg2, right, F_ext, F_C, R, lambda;
   include/rigid_body_system.h:60-65: the buffers, m_state.
   include/generic_rigid_body_system.h:28-43: J_sparse, J_dot_sparse, sreg0; J_T, M, M_inv, C,
   ks, kd, q_dot, reg0, reg1, reg2, right, F_ext, F_C, R, lambda; the buffers, m_state.
   include/gaussian_elimination_sle_solver.h:28-30: m_a, m_M, m_reg.
   include/gauss_seidel_sle_solver.h:42-43: m_M, m_reg.
   include/conjugate_gradient_sle_solver.h:32-39: m_mreg0, m_mreg1, m_Ap, m_x, m_r, m_p, m_A.
   include/rk4_ode_solver.h:34-35: m_initialState, m_accumulator *)
Definition members (c : class) : list kind :=
  match c with
  | OptimizedC => repeat SparseK 2 ++ repeat MatrixK 16 ++ [BuffersK; StateK]
  | GenericC => repeat SparseK 3 ++ repeat MatrixK 15 ++ [BuffersK; StateK]
  | EliminationC => [MatrixK; MatrixK; SparseK]
  | SeidelC => [MatrixK; SparseK]
  | GradientC => repeat MatrixK 7
  | Rk4C => [StateK; StateK]
  end.
Definition news (l : list kind) : list act := map (fun x => New (snd x) (fst x)) (combine (seq 0 (length l)) l).
(* src/gaussian_elimination_sle_solver.cpp:7-12, src/gauss_seidel_sle_solver.cpp:6-13:
   initialize(1, 1); the other constructors touch no member *)
Definition birth (c : class) : list act :=
  news (members c) ++
  match c with EliminationC => [Resize 0 1 1; Resize 1 1 1] | SeidelC => [Resize 0 1 1] | _ => [] end.
(* src/rigid_body_system.cpp:22-29: the buffers are freed, the state is destroyed *)
Definition death_base (buffers state : nat) : list act := [Gone buffers; Destroy state; Gone state].
(* src/optimized_nsv_rigid_body_system.cpp:12-31; src/generic_rigid_body_system.cpp:10-12 (empty);
   src/gaussian_elimination_sle_solver.cpp:14-18; src/gauss_seidel_sle_solver.cpp:15-18;
   src/conjugate_gradient_sle_solver.cpp:14-21 (not m_A); src/rk4_ode_solver.cpp:7-10 *)
Definition death (c : class) : list act :=
  match c with
  | OptimizedC => map Destroy (seq 0 18) ++ map Gone (seq 0 18) ++ death_base 18 19
  | GenericC => map Gone (seq 0 18) ++ death_base 18 19
  | EliminationC => map Destroy [0; 1; 2] ++ map Gone [0; 1; 2]
  | SeidelC => map Destroy [0; 1] ++ map Gone [0; 1]
  | GradientC => map Destroy (seq 0 6) ++ map Gone (seq 0 7)
  | Rk4C => map Destroy [0; 1] ++ map Gone [0; 1]
  end.
