(** * Specification vocabulary for the ownership of heap arrays. *)

From Verif Require Import Base Matrix Sparse State Alloc.

(** the pointers an object has *)
Definition pointers (o : obj) : list (option nat) :=
  match o with
  | OMat a => [am_matrix a; am_data a]
  | OSp a => [ap_matrix a; ap_data a; ap_block a]
  | OSt a => as_body a ++ as_con a
  | OBuf l => l
  end.
Definition owns (s : place) (i b : nat) : Prop := exists o, s i = Some o /\ In (Some b) (pointers o).
Definition there (p : pool) (b len : nat) : Prop := p_live p b = Some len.
(** an array that is there and that no object owns *)
Definition leaked (s : place) (p : pool) (b len : nat) : Prop := there p b len /\ forall i, ~ owns s i b.
(** every array an object owns is there, and it owns it alone and by one pointer *)
Definition sound (s : place) (p : pool) : Prop :=
  (forall i b, owns s i b -> exists len, there p b len) /\
  (forall i j b, owns s i b -> owns s j b -> i = j) /\
  forall i o b j k, s i = Some o -> nth_error (pointers o) j = Some (Some b) -> nth_error (pointers o) k = Some (Some b) -> j = k.
(** nobody copies objects *)
Definition no_clone (l : list act) : Prop := forall i j, ~ In (Clone i j) l.
(** only objects of these kinds are made *)
Definition makes (ks : list kind) (l : list act) : Prop := forall k i, In (New k i) l -> In k ks.
Definition nowhere : place := fun _ => None.
(** objects are made at free places, used while they live, and end once; [here] says which places are taken *)
Fixpoint proper (l : list act) (here : nat -> bool) : Prop :=
  match l with
  | [] => True
  | New _ i :: l => here i = false /\ proper l (upd here i true)
  | Resize i _ _ :: l | Destroy i :: l => here i = true /\ proper l here
  | Gone i :: l => here i = true /\ proper l (upd here i false)
  | Clone i j :: l => here i = true /\ here j = false /\ proper l (upd here j true)
  end.
Definition none_here : nat -> bool := fun _ => false.
(** what a class does with its members between birth and death: it resizes
    them; the conjugate gradient solver never touches m_A *)
Definition uses (c : class) (l : list act) : Prop :=
  forall x, In x l -> exists i w h, x = Resize i w h /\ i < length (members c) /\ (c = GradientC -> i <> 6).

(** ** the two views of one object: its contents, as in Matrix.v, Sparse.v and
    State.v, and its arrays *)
Definition len_at (p : pool) (a : option nat) : nat :=
  match a with Some b => match p_live p b with Some n => n | None => 0 end | None => 0 end.
Definition same_matrix {tg : target} (p : pool) (m : matrix tg) (o : obj) : Prop :=
  match o with
  | OMat a => m_ptr m = negb (null (am_matrix a)) /\ m_w m = am_w a /\ m_h m = am_h a /\ m_cw m = am_cw a /\ m_ch m = am_ch a /\
      length (m_rows m) = len_at p (am_matrix a) /\ length (m_data m) = len_at p (am_data a)
  | _ => False
  end.
Definition same_sparse {tg : target} (p : pool) (m : sparse tg) (o : obj) : Prop :=
  match o with
  | OSp a => s_ptr m = negb (null (ap_matrix a)) /\ s_w m = ap_w a /\ s_h m = ap_h a /\ s_ch m = ap_ch a /\
      length (s_rows m) = len_at p (ap_matrix a) /\ length (s_data m) = len_at p (ap_data a) /\ length (s_blocks m) = len_at p (ap_block a)
  | _ => False
  end.
Definition same_state {tg : target} (p : pool) (m : sstate tg) (o : obj) : Prop :=
  match o with
  | OSt a => s_n m = as_n a /\ s_nc m = as_nc a /\
      map (len_at p) (as_body a) = map (fun f => length (s_arr m f)) [Fatheta; Fvtheta; Ftheta; Fax; Fay; Fvx; Fvy; Fpx; Fpy; Ffx; Ffy; Ft; Fm] /\
      map (len_at p) (as_con a) = length (s_imap m) :: map (fun f => length (s_arr m f)) [Frx; Fry; Frt]
  | _ => False
  end.
(** calls on one object: [Some (w, h)] is resize(w, h), [None] is destroy() *)
Definition calls_at (i : nat) (l : list (option (nat * nat))) : list act :=
  map (fun x => match x with Some (w, h) => Resize i w h | None => Destroy i end) l.
Fixpoint calls_matrix {tg : target} (l : list (option (nat * nat))) (m : matrix tg) : res (matrix tg) :=
  match l with
  | [] => Ok m
  | Some (w, h) :: l => let* m := mat_resize m w h in calls_matrix l m
  | None :: l => calls_matrix l (mat_destroy m)
  end.
Fixpoint calls_sparse {tg : target} (l : list (option (nat * nat))) (m : sparse tg) : res (sparse tg) :=
  match l with
  | [] => Ok m
  | Some (w, h) :: l => let* m := sp_resize 3 2 m w h in calls_sparse l m
  | None :: l => calls_sparse l (sp_destroy m)
  end.
Fixpoint calls_state {tg : target} (l : list (option (nat * nat))) (m : sstate tg) : sstate tg :=
  match l with
  | [] => m
  | Some (n, nc) :: l => calls_state l (st_resize m n nc)
  | None :: l => calls_state l (st_destroy m)
  end.
