(** * Specification vocabulary for C80: a sparse matrix as a table of entries. *)

From Verif Require Import Base Matrix Sparse SpecSparse.
Local Open Scope nat_scope.

(** dimensions; per row and entry a block (255 = empty) and [st] values, each
    known or unspecified ([None]: not written since initialize) *)
Record stable (tg : target) := mkStab {
  e_w : nat; e_h : nat; e_block : nat -> nat -> Z; e_val : nat -> nat -> nat -> option (cell tg) }.
Arguments mkStab {tg}. Arguments e_w {tg}. Arguments e_h {tg}. Arguments e_block {tg}. Arguments e_val {tg}.

Section S.
Context {tg : target}.
Variables st en : nat.
Definition stab_fresh : stable tg := mkStab 0 0 (fun _ _ => 255%Z) (fun _ _ _ => None).
(** [None] when the arguments are out of range; the calls that write *)
Definition ststep (ts : nat -> stable tg) (o : sop tg) : option (nat -> stable tg) :=
  match o with
  | SInit t w h => Some (upd ts t (mkStab w h (fun _ _ => 255%Z) (fun _ _ _ => None)))
  | SSetBlock t r e b =>
      if Nat.ltb r (e_h (ts t)) && Nat.ltb e en && Z.ltb b (Z.of_nat (e_w (ts t))) then
        Some (upd ts t (mkStab (e_w (ts t)) (e_h (ts t))
          (fun r' e' => if Nat.eqb r' r && Nat.eqb e' e then b else e_block (ts t) r' e') (e_val (ts t))))
      else None
  | SSet t r e k x =>
      if Nat.ltb r (e_h (ts t)) && Nat.ltb e en && Nat.ltb k st then
        Some (upd ts t (mkStab (e_w (ts t)) (e_h (ts t)) (e_block (ts t))
          (fun r' e' k' => if Nat.eqb r' r && Nat.eqb e' e && Nat.eqb k' k then Some x else e_val (ts t) r' e' k')))
      else None
  | SSetEmpty t r e =>
      if Nat.ltb r (e_h (ts t)) && Nat.ltb e en then
        Some (upd ts t (mkStab (e_w (ts t)) (e_h (ts t))
          (fun r' e' => if Nat.eqb r' r && Nat.eqb e' e then 255%Z else e_block (ts t) r' e')
          (fun r' e' k' => if Nat.eqb r' r && Nat.eqb e' e then Some (cofZ 0) else e_val (ts t) r' e' k')))
      else None
  | _ => None
  end.
Fixpoint strun (ts : nat -> stable tg) (os : list (sop tg)) : option (nat -> stable tg) :=
  match os with [] => Some ts | o :: r => match ststep ts o with Some ts' => strun ts' r | None => None end end.
(** the store reads as the tables say *)
Definition sagrees (ss : sps tg) (ts : nat -> stable tg) : Prop :=
  forall id, s_w (ss id) = e_w (ts id) /\ s_h (ss id) = e_h (ts id) /\
    forall r e, r < e_h (ts id) -> e < en -> sp_block en (ss id) r e = Ok (e_block (ts id) r e) /\
      forall k, k < st -> exists x, sp_get st en (ss id) r e k = Ok x /\ forall v, e_val (ts id) r e k = Some v -> x = v.
End S.
