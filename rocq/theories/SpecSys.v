(** * Specification vocabulary for the rigid body systems: histories. *)

From Coq Require Import Reals.
From Verif Require Import Base Targets Matrix Sparse Sle State Ode Forces Constraints System SpecSle.
Local Open Scope nat_scope.

(** the two system classes *)
Inductive flavour := Optimized | Generic.

Section S.
Context {tg : target}.

Definition process (k : flavour) : cell tg -> nat -> timing -> world tg -> sys tg -> res (world tg * sys tg) :=
  match k with Optimized => opt_process | Generic => gen_process end.
Definition created (k : flavour) : sys tg :=
  match k with Optimized => sys_new (Some (OdeNsv (cofZ 0))) | Generic => sys_new None end.
(** the generic class also takes an integrator *)
Definition initialize (k : flavour) (y : sys tg) (l : sle tg) (o : ode tg) : res (sys tg) :=
  match k with Optimized => Ok (opt_initialize y l) | Generic => gen_initialize y l o end.

(** the matrices a linear solver owns are none of the system's own; see
    [hallowed] for [priv] *)
Definition solver_apart (priv : nat -> bool) (l : sle tg) : Prop :=
  match l with
  | SleBase _ => True
  | SleGe g => ifree <= ge_a g /\ ifree <= ge_M g /\ ge_a g <> ge_M g /\ sfree <= ge_reg g /\ priv (ge_a g) = false
  | SleGs g => ifree <= gs_M g /\ sfree <= gs_reg g
  | SleCg g => NoDup [cg_mreg0 g; cg_mreg1 g; cg_Ap g; cg_x g; cg_r g; cg_p g] /\
      (forall i, In i [cg_mreg0 g; cg_mreg1 g; cg_Ap g; cg_x g; cg_r g; cg_p g] -> ifree <= i) /\ cg_private g priv
  end.

(** what a user who keeps books knows: which bodies, constraints and
    generators are in the system, and the completed process calls (step size
    and measured times), latest first *)
Record books := mkBooks {
  in_body : nat -> bool; in_con : nat -> bool; in_gen : nat -> bool;
  calls : list (cell tg * timing) }.
Definition no_books : books := mkBooks (fun _ => false) (fun _ => false) (fun _ => false) [].
Definition put_body (m : books) (b : nat) (v : bool) : books := mkBooks (upd (in_body m) b v) (in_con m) (in_gen m) (calls m).
Definition put_con (m : books) (c : nat) (v : bool) : books := mkBooks (in_body m) (upd (in_con m) c v) (in_gen m) (calls m).
Definition put_gen (m : books) (g : nat) (v : bool) : books := mkBooks (in_body m) (in_con m) (upd (in_gen m) g v) (calls m).

(** a user-written generator leaves the sizes of the state's arrays alone *)
Definition orderly (g : gkind tg) : Prop :=
  match g with
  | GCustom f => forall bs s s', f bs s = Ok s' -> s_n s' = s_n s /\ s_nc s' = s_nc s /\
      (forall x, length (s_arr s' x) = length (s_arr s x)) /\ length (s_imap s') = length (s_imap s)
  | _ => True
  end.

(** hp with everything but the system's own matrices taken from hp' *)
Definition lent (hp hp' : heap tg) : heap tg :=
  {| hm := fun i => if Nat.ltb i ifree then hm hp i else hm hp' i;
     hs := fun i => if Nat.ltb i sfree then hs hp i else hs hp' i |}.

(** Histories of one system.  Only absent objects are added and only present
    ones removed.  Between the calls the user may assign anything to any
    object, except the index of an object that is in the system.  The matrices
    outside the system, those of its linear solver among them, may meanwhile
    be used directly, or be those left behind by another system of either
    class that uses the same solver. *)
Inductive yreach_of (priv : nat -> bool) : flavour -> books -> world tg -> sys tg -> Prop :=
| y_created k w : yreach_of priv k no_books w (created k)
| y_initialize k m w y l o y' : yreach_of priv k m w y -> solver_apart priv l -> initialize k y l o = Ok y' -> yreach_of priv k m w y'
| y_add_body k m w y b w' y' : yreach_of priv k m w y -> in_body m b = false -> add_body w y b = (w', y') ->
    yreach_of priv k (put_body m b true) w' y'
| y_remove_body k m w y b w' y' : yreach_of priv k m w y -> in_body m b = true -> remove_body w y b = Ok (w', y') ->
    yreach_of priv k (put_body m b false) w' y'
| y_add_con k m w y c w' y' : yreach_of priv k m w y -> in_con m c = false -> add_con w y c = (w', y') ->
    yreach_of priv k (put_con m c true) w' y'
| y_remove_con k m w y c w' y' : yreach_of priv k m w y -> in_con m c = true -> remove_con w y c = Ok (w', y') ->
    yreach_of priv k (put_con m c false) w' y'
| y_add_gen k m w y g w' y' : yreach_of priv k m w y -> in_gen m g = false -> add_gen w y g = (w', y') ->
    yreach_of priv k (put_gen m g true) w' y'
| y_remove_gen k m w y g w' y' : yreach_of priv k m w y -> in_gen m g = true -> remove_gen w y g = Ok (w', y') ->
    yreach_of priv k (put_gen m g false) w' y'
| y_reset k m w y : yreach_of priv k m w y ->
    yreach_of priv k (mkBooks (fun _ => false) (fun _ => false) (fun _ => false) (calls m)) w (sys_reset y)
| y_process k m w y dt steps t w' y' : yreach_of priv k m w y -> (forall g, In g (y_gens y) -> orderly (g_kind (w_gen w g))) ->
    process k dt steps t w y = Ok (w', y') ->
    yreach_of priv k (mkBooks (in_body m) (in_con m) (in_gen m) ((dt, t) :: calls m)) w' y'
| y_edit_body k m w y b x : yreach_of priv k m w y -> (in_body m b = true -> b_index x = b_index (w_body w b)) ->
    yreach_of priv k m (set_body w b x) y
| y_edit_con k m w y c x : yreach_of priv k m w y -> (in_con m c = true -> c_index x = c_index (w_con w c)) ->
    yreach_of priv k m (set_con w c x) y
| y_edit_gen k m w y g x : yreach_of priv k m w y -> (in_gen m g = true -> g_index x = g_index (w_gen w g)) ->
    yreach_of priv k m (set_gen w g x) y
| y_edit_bias k m w y v : yreach_of priv k m w y ->
    yreach_of priv k m w {| y_bodies := y_bodies y; y_cons := y_cons y; y_gens := y_gens y; y_state := y_state y;
        y_heap := y_heap y; y_sle := y_sle y; y_ode := y_ode y; y_bias := v;
        y_t := y_t y; y_prof := y_prof y; y_frame := y_frame y |}
| y_direct k m w y o hp' : yreach_of priv k m w y -> hallowed priv (y_heap y) o -> hstep (y_heap y) o = Ok hp' ->
    yreach_of priv k m w (with_heap y (lent (y_heap y) hp'))
| y_shared k m w y k2 m2 w2 y2 : yreach_of priv k m w y -> yreach_of priv k2 m2 w2 y2 ->
    yreach_of priv k m w (with_heap y (lent (y_heap y) (y_heap y2))).

(** l lists, once each, the objects of which p holds, and the i-th has index i *)
Definition registered (p : nat -> bool) (index : nat -> option Z) (l : list nat) : Prop :=
  NoDup l /\ (forall b, In b l <-> p b = true) /\ forall i b, nth_error l i = Some b -> index b = Some (Z.of_nat i).

(** what process leaves alone: registries, solver and settings; body masses,
    inertias and indices; everything of the objects outside the system; all of
    a constraint but its reported forces; all generators *)
Definition left_alone (w : world tg) (y : sys tg) (w' : world tg) (y' : sys tg) : Prop :=
  (y_bodies y' = y_bodies y /\ y_cons y' = y_cons y /\ y_gens y' = y_gens y /\ y_sle y' = y_sle y /\ y_bias y' = y_bias y) /\
  (forall b, b_index (w_body w' b) = b_index (w_body w b) /\ b_f (w_body w' b) Bm = b_f (w_body w b) Bm /\
     b_f (w_body w' b) BI = b_f (w_body w b) BI /\ (~ In b (y_bodies y) -> w_body w' b = w_body w b)) /\
  (forall c, c_kind (w_con w' c) = c_kind (w_con w c) /\ c_index (w_con w' c) = c_index (w_con w c) /\
     c_bodycount (w_con w' c) = c_bodycount (w_con w c) /\ c_bodies (w_con w' c) = c_bodies (w_con w c) /\
     c_count (w_con w' c) = c_count (w_con w c) /\ (~ In c (y_cons y) -> w_con w' c = w_con w c)) /\
  (forall g, w_gen w' g = w_gen w g).

(** sum and number of the given measurements *)
Definition totals (l : list Z) : Z * nat := (fold_right Z.add 0%Z l, length l).
End S.
Arguments books : clear implicits.
(** priv is a parameter of the histories, the class is not *)
Notation yreach k priv := (yreach_of priv k).
