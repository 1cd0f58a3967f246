(** * Specification vocabulary for the SparseMatrix properties. *)

From Coq Require Import Reals.
From Verif Require Import Base Targets Matrix Sparse SpecMatrix.

(** ** API calls on named sparse matrices *)

Inductive sop (tg : target) : Type :=
| SInit (t w h : nat)
| SResize (t w h : nat)
| SSetBlock (t r e : nat) (b : Z)
| SSet (t r e k : nat) (x : cell tg)
| SSetEmpty (t r e : nat)
| SLScale (ms : mats tg) (this sc t : nat)
| SRScale (ms : mats tg) (this sc t : nat)
| SDestroy (t : nat).
Arguments SInit {tg}. Arguments SResize {tg}. Arguments SSetBlock {tg}. Arguments SSet {tg}.
Arguments SSetEmpty {tg}. Arguments SLScale {tg}. Arguments SRScale {tg}. Arguments SDestroy {tg}.

Definition sstep {tg} (st en : nat) (ss : sps tg) (o : sop tg) : res (sps tg) :=
  match o with
  | SInit t w h => let* s := sp_init st en (ss t) w h in Ok (upd ss t s)
  | SResize t w h => let* s := sp_resize st en (ss t) w h in Ok (upd ss t s)
  | SSetBlock t r e b => let* s := sp_set_block en (ss t) r e b in Ok (upd ss t s)
  | SSet t r e k x => let* s := sp_set st en (ss t) r e k x in Ok (upd ss t s)
  | SSetEmpty t r e => let* s := sp_set_empty st en (ss t) r e in Ok (upd ss t s)
  | SLScale ms this sc t => sp_left_scale st en ss ms this sc t
  | SRScale ms this sc t => sp_right_scale st en ss ms this sc t
  | SDestroy t => Ok (upd ss t (sp_destroy (ss t)))
  end.
Definition is_destroy {tg} (o : sop tg) : bool := match o with SDestroy _ => true | _ => false end.

Definition sfresh {tg} : sps tg := fun _ => sp_new.

(** sparse matrices reachable by API calls other than destroy *)
Inductive sreach {tg} (st en : nat) : sps tg -> Prop :=
| sreach_fresh : sreach st en sfresh
| sreach_step ss o ss' :
    sreach st en ss -> is_destroy o = false -> sstep st en ss o = Ok ss' -> sreach st en ss'.

Fixpoint srun {tg} (st en : nat) (ss : sps tg) (os : list (sop tg)) : res (sps tg) :=
  match os with [] => Ok ss | o :: r => let* ss := sstep st en ss o in srun st en ss r end.

(** ** Observations

    [blk r e] is the block index stored for entry e of row r (255 = empty),
    [v r e k] what get(r, e, k) returns, for the non-empty entries. *)
Definition sp_shows {tg} (st en : nat) (s : sparse tg) (w h : nat)
    (blk : nat -> nat -> Z) (v : nat -> nat -> nat -> cell tg) : Prop :=
  s_w s = w /\ s_h s = h /\
  (forall r e, r < h -> e < en -> sp_block en s r e = Ok (blk r e)) /\
  (forall r e k, r < h -> e < en -> k < st -> blk r e <> 255%Z -> sp_get st en s r e k = Ok (v r e k)).

(** the blocks in use lie inside the width; no row uses a block twice *)
Definition blocks_inside (st en w h : nat) (blk : nat -> nat -> Z) : Prop :=
  forall r e, r < h -> e < en -> blk r e = 255%Z \/ (0 <= blk r e /\ (blk r e + 1) * Z.of_nat st <= Z.of_nat w)%Z.
Definition blocks_distinct (en h : nat) (blk : nat -> nat -> Z) : Prop :=
  forall r e e', r < h -> e < en -> e' < en -> blk r e = blk r e' -> blk r e = 255%Z \/ e = e'.

(** D is the table the entries describe: entry e of row r, if not empty, puts
    its value k into column block*stride + k; everything else is zero *)
Definition covers (st en : nat) (blk : nat -> nat -> Z) (r c e k : nat) : Prop :=
  e < en /\ k < st /\ blk r e <> 255%Z /\ c = Z.to_nat (blk r e) * st + k.
Definition describes {X} (zero : X) (st en w h : nat) (blk : nat -> nat -> Z)
    (v : nat -> nat -> nat -> X) (D : nat -> nat -> X) : Prop :=
  forall r c, r < h -> c < w ->
    (forall e k, covers st en blk r c e k -> D r c = v r e k) /\
    ((forall e k, ~ covers st en blk r c e k) -> D r c = zero).

(** D is the table of sums: every non-empty entry adds its value k to column
    block*stride + k (differs from [describes] only when a row names a block
    twice) *)
Definition sums (st en w h : nat) (blk : nat -> nat -> Z) (v : nat -> nat -> nat -> R) (D : nat -> nat -> R) : Prop :=
  forall r c, r < h -> c < w ->
    D r c = Rsum en (fun e => Rsum st (fun k =>
      if negb (Z.eqb (blk r e) 255) && Nat.eqb c (Z.to_nat (blk r e) * st + k) then v r e k else 0%R)).
