(** * Specification vocabulary: sizes that fit in an int, and what is left of an
    object whose allocation failed. *)

From Verif Require Import Base Matrix Sparse State Ints IntSys.
Local Open Scope Z_scope.

(** calls on one matrix *)
Inductive icall := CResize (w h : Z) | CInit0 (w h : Z) | CInitVal (w h : Z) | CElem (col row : Z) | CSwap (a b : Z) | CDestroy.
(** the call on ints *)
Definition on_ints (room : Z -> bool) (dbg : bool) (c : icall) (m : imat) : out imat :=
  match c with
  | CResize w h => im_resize room w h m
  | CInit0 w h => im_init0 room w h m
  | CInitVal w h => im_init_val room w h m
  | CElem c r => im_elem dbg c r m
  | CSwap a b => im_swap a b m
  | CDestroy => IOk (im_destroy m)
  end.
(** the same call of the model with contents; [v] is what is written *)
Definition on_nats {tg} (v : cell tg) (c : icall) (m : matrix tg) : res (matrix tg) :=
  let n := Z.to_nat in
  match c with
  | CResize w h => mat_resize m (n w) (n h)
  | CInit0 w h => mat_init0 m (n w) (n h)
  | CInitVal w h => mat_init_val m (n w) (n h) v
  | CElem c r => mat_set m (n c) (n r) v
  | CSwap a b => mat_row_swap m (n a) (n b)
  | CDestroy => Ok (mat_destroy m)
  end.
Fixpoint int_calls (room : Z -> bool) (dbg : bool) (l : list icall) (m : imat) : out imat :=
  match l with [] => IOk m | c :: l => let! m := on_ints room dbg c m in int_calls room dbg l m end.
Fixpoint nat_calls {tg} (v : cell tg) (l : list icall) (m : matrix tg) : res (matrix tg) :=
  match l with [] => Ok m | c :: l => let* m := on_nats v c m in nat_calls v l m end.
(** sizes: ints that are not negative, and the last row starts at an int *)
Definition size_ok (w h : Z) : Prop := 0 <= w <= int_max /\ 0 <= h <= int_max /\ (h - 1) * w <= int_max.
Definition sane (c : icall) : Prop :=
  match c with
  | CResize w h | CInit0 w h | CInitVal w h => size_ok w h
  | CElem a b | CSwap a b => 0 <= a <= int_max /\ 0 <= b <= int_max
  | CDestroy => True
  end.
(** the same sizes, arrays and row pointers *)
Definition alike {tg} (m : imat) (n : matrix tg) : Prop :=
  i_w m = Z.of_nat (m_w n) /\ i_h m = Z.of_nat (m_h n) /\ i_cw m = Z.of_nat (m_cw n) /\ i_ch m = Z.of_nat (m_ch n) /\
  i_data m = (if m_ptr n then Some (Z.of_nat (length (m_data n))) else None) /\
  i_rows m = (if m_ptr n then Some (map (option_map Z.of_nat) (m_rows n)) else None).

(** calls on one sparse matrix *)
Inductive pcall := PResize (w h : Z) | PInit (w h : Z) | PDestroy.
Definition p_ints (room : Z -> bool) (c : pcall) (m : isp) : out isp :=
  match c with PResize w h => ip_resize room w h m | PInit w h => ip_init room w h m | PDestroy => IOk (ip_destroy m) end.
Definition p_nats {tg} (c : pcall) (m : sparse tg) : res (sparse tg) :=
  match c with PResize w h => sp_resize 3 2 m (Z.to_nat w) (Z.to_nat h) | PInit w h => sp_init 3 2 m (Z.to_nat w) (Z.to_nat h) | PDestroy => Ok (sp_destroy m) end.
Fixpoint pint_calls (room : Z -> bool) (l : list pcall) (m : isp) : out isp :=
  match l with [] => IOk m | c :: l => let! m := p_ints room c m in pint_calls room l m end.
Fixpoint pnat_calls {tg} (l : list pcall) (m : sparse tg) : res (sparse tg) :=
  match l with [] => Ok m | c :: l => let* m := p_nats c m in pnat_calls l m end.
(** the last row starts at an int: six doubles per row *)
Definition psane (c : pcall) : Prop :=
  match c with PResize w h | PInit w h => 0 <= w <= int_max /\ 0 <= h /\ 6 * (h - 1) <= int_max | PDestroy => True end.
Definition palike {tg} (m : isp) (n : sparse tg) : Prop :=
  p_w m = Z.of_nat (s_w n) /\ p_h m = Z.of_nat (s_h n) /\ p_ch m = Z.of_nat (s_ch n) /\
  p_data m = (if s_ptr n then Some (Z.of_nat (length (s_data n))) else None) /\
  p_rows m = (if s_ptr n then Some (map (option_map Z.of_nat) (s_rows n)) else None) /\
  p_blocks m = (if s_ptr n then Some (Z.of_nat (length (s_blocks n))) else None).
(** the allocator grants everything *)
Definition plenty (room : Z -> bool) : Prop := forall z, room z = true.

(** the two models end alike: normally with like objects, with the same error,
    or the allocator refused something; never by overflow *)
Definition matches {A B} (like : A -> B -> Prop) (room : Z -> bool) (x : out A) (y : res B) : Prop :=
  match x with
  | IOk a => exists b, y = Ok b /\ like a b
  | IThrow _ => exists z, 0 <= z /\ room z = false
  | IOver => False
  | IBad => y = UB
  | IAssert => y = AssertFail
  end.
(** calls on one state *)
Inductive tcall := TResize (b c : Z) | TDestroy.
Definition t_ints (room : Z -> bool) (c : tcall) (s : ist) : out ist := match c with TResize b c => it_resize room b c s | TDestroy => IOk (it_destroy s) end.
Definition t_nats {tg} (c : tcall) (s : sstate tg) : sstate tg := match c with TResize b c => st_resize s (Z.to_nat b) (Z.to_nat c) | TDestroy => st_destroy s end.
Fixpoint tint_calls (room : Z -> bool) (l : list tcall) (s : ist) : out ist := match l with [] => IOk s | c :: l => let! s := t_ints room c s in tint_calls room l s end.
Definition tnat_calls {tg} (l : list tcall) (s : sstate tg) : sstate tg := fold_left (fun s c => t_nats c s) l s.
Definition tsane (c : tcall) : Prop := match c with TResize b c => 0 <= b <= int_max /\ 0 <= c <= int_max | TDestroy => True end.
Definition olen (x : option Z) : Z := match x with Some l => l | None => 0 end.
Definition talike {tg} (s : ist) (n : sstate tg) : Prop :=
  t_n s = Z.of_nat (s_n n) /\ t_nc s = Z.of_nat (s_nc n) /\ olen (t_map s) = Z.of_nat (length (s_imap n)) /\ length (t_body s) = 13%nat /\ length (t_re s) = 3%nat /\
  (forall f, if is_reaction f then forall x, In x (t_re s) -> olen x = Z.of_nat (length (s_arr n f)) else forall x, In x (t_body s) -> olen x = Z.of_nat (length (s_arr n f))).
(** some array is a null pointer *)
Definition lacks (s : ist) : Prop := In None (t_map s :: t_body s ++ t_re s).
(** all arrays are there, for b bodies and c rows *)
Definition provided (b c : Z) (s : ist) : Prop :=
  t_n s = b /\ t_nc s = c /\ t_map s = Some c /\ t_body s = repeat (Some b) 13 /\ t_re s = repeat (Some (2 * c)) 3.
(** the largest number of rows, by linear solver *)
Definition row_limit (k : kind) : Z := match k with KGauss => 46340 | KSeidel => 46341 | KGradient => 357913942 end.
