(** * Targets: the three arithmetics the model is run on.

    - [RT b] : exact real arithmetic (theorems about algebra and calculus);
    - [QT b] : exact rational arithmetic, computable (examples, witnesses);
    - [F64 b] : IEEE-754 binary64, round to nearest even, built on the
      standard library's [SpecFloat] (no axioms, no primitive floats).

    In each, [b] says whether asserts are compiled in. *)

From Coq Require Import Reals QArith Qabs.
From Coq Require Import Floats.SpecFloat.
From Verif Require Import Base.

Local Open Scope Z_scope.

(** ** Exact reals *)

Definition R_ltb (x y : R) : bool := if Rlt_dec x y then true else false.
Definition R_leb (x y : R) : bool := if Rle_dec x y then true else false.
Definition R_eqb (x y : R) : bool := if Req_EM_T x y then true else false.
(** division by zero has no value in exact arithmetic *)
Definition R_div (x y : R) : option R := if Req_EM_T y 0%R then None else Some (x / y)%R.
Definition R_sqrt (x : R) : option R := if Rlt_dec x 0%R then None else Some (sqrt x).
(** DBL_MAX = (2^53 - 1) * 2^971 *)
Definition R_dblmax : R := ((powerRZ 2 53 - 1) * powerRZ 2 971)%R.

Definition RT (dbg : bool) : target := {|
  num := R; n_ofZ := IZR;
  n_add := Rplus; n_sub := Rminus; n_mul := Rmult; n_opp := Ropp; n_abs := Rabs;
  n_div := R_div; n_sqrt := R_sqrt;
  n_sin := (fun x => Some (sin x)); n_cos := (fun x => Some (cos x));
  n_ltb := R_ltb; n_leb := R_leb; n_eqb := R_eqb;
  n_fmin := Rmin; n_fmax := Rmax; n_finite := (fun _ => true);
  n_dblmax := R_dblmax; asserts_on := dbg |}.

(** ** Exact rationals (computable) *)

Definition Q_ltb (x y : Q) : bool := (Qnum x * QDen y <? Qnum y * QDen x)%Z.
Definition Q_div (x y : Q) : option Q := if Qeq_bool y 0 then None else Some (Qred (x / y)).
(** defined at perfect squares only *)
Definition Q_sqrt (x : Q) : option Q :=
  let r := Qred x in
  let a := Z.sqrt (Qnum r) in let b := Z.sqrt (QDen r) in
  if (a * a =? Qnum r) && (b * b =? QDen r) then Some (Qred (a # Z.to_pos b)) else None.
Definition Q_sin (x : Q) : option Q := if Qeq_bool x 0 then Some 0%Q else None.
Definition Q_cos (x : Q) : option Q := if Qeq_bool x 0 then Some 1%Q else None.
Definition Q_dblmax : Q := inject_Z ((2 ^ 53 - 1) * 2 ^ 971).

Definition QT (dbg : bool) : target := {|
  num := Q; n_ofZ := inject_Z;
  n_add := (fun x y => Qred (x + y)); n_sub := (fun x y => Qred (x - y));
  n_mul := (fun x y => Qred (x * y)); n_opp := Qopp; n_abs := Qabs;
  n_div := Q_div; n_sqrt := Q_sqrt; n_sin := Q_sin; n_cos := Q_cos;
  n_ltb := Q_ltb; n_leb := Qle_bool; n_eqb := Qeq_bool;
  n_fmin := (fun x y => if Q_ltb y x then y else x);
  n_fmax := (fun x y => if Q_ltb x y then y else x);
  n_finite := (fun _ => true); n_dblmax := Q_dblmax; asserts_on := dbg |}.

(** ** IEEE-754 binary64 *)

Definition f64 := spec_float.
Definition f_ofZ (z : Z) : f64 := binary_normalize 53 1024 z 0 false.
Definition f_isnan (x : f64) : bool := match x with S754_nan => true | _ => false end.
Definition f_finite (x : f64) : bool :=
  match x with S754_nan | S754_infinity _ => false | _ => true end.
(** C's fmin/fmax: a NaN argument is ignored *)
Definition f_fmin (x y : f64) : f64 :=
  if f_isnan x then y else if f_isnan y then x else if SFltb y x then y else x.
Definition f_fmax (x y : f64) : f64 :=
  if f_isnan x then y else if f_isnan y then x else if SFltb x y then y else x.
(** sin and cos: only their values at zero, which C fixes, are given;
    elsewhere no floating-point statement is made. *)
Definition f_sin (x : f64) : option f64 :=
  match x with S754_zero s => Some (S754_zero s) | _ => None end.
Definition f_cos (x : f64) : option f64 :=
  match x with S754_zero _ => Some (f_ofZ 1) | _ => None end.
Definition f_dblmax : f64 := S754_finite false (Z.to_pos (2 ^ 53 - 1)) 971.

Definition F64 (dbg : bool) : target := {|
  num := f64; n_ofZ := f_ofZ;
  n_add := SFadd 53 1024; n_sub := SFsub 53 1024; n_mul := SFmul 53 1024;
  n_opp := SFopp; n_abs := SFabs;
  n_div := (fun x y => Some (SFdiv 53 1024 x y));
  n_sqrt := (fun x => Some (SFsqrt 53 1024 x));
  n_sin := f_sin; n_cos := f_cos;
  n_ltb := SFltb; n_leb := SFleb; n_eqb := SFeqb;
  n_fmin := f_fmin; n_fmax := f_fmax; n_finite := f_finite;
  n_dblmax := f_dblmax; asserts_on := dbg |}.
