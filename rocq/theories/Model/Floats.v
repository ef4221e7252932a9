(** The floating-point types of C++ as used in /repo: [float] is IEEE
    binary32 and [double] is IEEE binary64, both rounding to nearest even.
    The arithmetic is that of the Flocq library (NaN payloads are not
    distinguished). *)
From Coq Require Import ZArith Bool QArith Reals.
From Flocq Require Import Core BinarySingleNaN.
From Verif.Model Require Import Cpp.
Local Open Scope Z_scope.

#[global] Instance prec32 : Prec_gt_0 24 := eq_refl.
#[global] Instance emax32 : Prec_lt_emax 24 128 := eq_refl.
#[global] Instance prec64 : Prec_gt_0 53 := eq_refl.
#[global] Instance emax64 : Prec_lt_emax 53 1024 := eq_refl.

(** [float], e.g. /repo/core/MatchError.h and /repo/core/ScoredEvent.h:57. *)
Definition f32 := binary_float 24 128.
(** [double], e.g. the default [Real] of /repo/core/Assessment.h. *)
Definition f64 := binary_float 53 1024.

(** [float] addition. *)
Definition f32_add : f32 -> f32 -> f32 := Bplus mode_NE.
(** [float] subtraction. *)
Definition f32_sub : f32 -> f32 -> f32 := Bminus mode_NE.
(** [float] multiplication. *)
Definition f32_mul : f32 -> f32 -> f32 := Bmult mode_NE.
(** [float] division. *)
Definition f32_div : f32 -> f32 -> f32 := Bdiv mode_NE.
(** [float] [==]. *)
Definition f32_eq (a b : f32) : bool := Beqb a b.
(** [float] [!=]. *)
Definition f32_ne (a b : f32) : bool := negb (Beqb a b).
(** [float] [<]. *)
Definition f32_lt (a b : f32) : bool := Bltb a b.
(** [float] [>=]. *)
Definition f32_ge (a b : f32) : bool := Bleb b a.
(** Conversion of an integer to [float]. *)
Definition f32_of_Z (z : Z) : f32 := binary_normalize 24 128 prec32 emax32 mode_NE z 0 false.
(** The literal [0.0f]. *)
Definition f32_0 : f32 := B754_zero false.
(** The literal [1.0f]. *)
Definition f32_1 : f32 := f32_of_Z 1.
(** The value [0.5f]. *)
Definition f32_half : f32 := binary_normalize 24 128 prec32 emax32 mode_NE 1 (-1) false.
(** [-std::numeric_limits<float>::infinity()]. *)
Definition f32_ninf : f32 := B754_infinity true.

(** [double] addition. *)
Definition f64_add : f64 -> f64 -> f64 := Bplus mode_NE.
(** [double] subtraction. *)
Definition f64_sub : f64 -> f64 -> f64 := Bminus mode_NE.
(** [double] multiplication. *)
Definition f64_mul : f64 -> f64 -> f64 := Bmult mode_NE.
(** [double] division. *)
Definition f64_div : f64 -> f64 -> f64 := Bdiv mode_NE.
(** [double] [<]. *)
Definition f64_lt (a b : f64) : bool := Bltb a b.
(** Conversion of an integer to [double]. *)
Definition f64_of_Z (z : Z) : f64 := binary_normalize 53 1024 prec64 emax64 mode_NE z 0 false.
(** The literal [0.5]. *)
Definition f64_half : f64 := binary_normalize 53 1024 prec64 emax64 mode_NE 1 (-1) false.

(** Conversion of [float] to [double] (exact). *)
Definition f64_of_f32 (x : f32) : f64 :=
  match x with
  | B754_zero s => B754_zero s
  | B754_infinity s => B754_infinity s
  | B754_nan => B754_nan
  | B754_finite s m e _ =>
      binary_normalize 53 1024 prec64 emax64 mode_NE (cond_Zopp s (Zpos m)) e s
  end.

(** Conversion of [double] to [size_t]: truncation, undefined when the
    truncated value does not fit (C++ [conv.fpint]). *)
Definition size_of_f64 (x : f64) : outcome Z :=
  match x with
  | B754_nan | B754_infinity _ => UB
  | _ =>
      let z := Btrunc x in
      if (0 <=? z) && (z <? two64) then Ok z else UB
  end.

(** The exact value of a finite [float] as a rational number. *)
Definition Q_of_f32 (x : f32) : Q :=
  match x with
  | B754_finite s m e _ =>
      if 0 <=? e then inject_Z (cond_Zopp s (Zpos m) * 2 ^ e)
      else Qred (Qmake (cond_Zopp s (Zpos m)) (Z.to_pos (2 ^ (- e))))
  | _ => 0%Q
  end.

(** ** The [Real] template parameter of /repo/core/Assessment.h *)

(** The arithmetic the metric functions use.  Every operation of the C++
    code on values of type [Real] goes through this record, so that the same
    model can be read over the real numbers, over binary64 and over the
    rationals.  The record stands for [Real = double]; the choice
    [Real = float], which mixes the two formats, is in Single.v. *)
Record Arith : Type := mkArith {
  num : Type;
  a_nat : nat -> num;          (* conversion of a size_t *)
  a_f32 : f32 -> num;          (* conversion of a float *)
  a_half : num;                (* the literal 0.5 *)
  a_add : num -> num -> num;
  a_sub : num -> num -> num;
  a_mul : num -> num -> num;
  a_div : num -> num -> num;
  a_lt : num -> num -> bool
}.

(** Real numbers: the metric without rounding.  Division by zero is never
    reached where the C++ code guards it; elsewhere theorems say so. *)
Definition RArith : Arith :=
  mkArith R INR (fun x => B2R x) (/ 2)%R Rplus Rminus Rmult Rdiv
    (fun a b => if Rlt_dec a b then true else false).

(** binary64, the type the tools use (typedef in /repo/tools/GenericKwsEvalTool.h). *)
Definition DArith : Arith :=
  mkArith f64 (fun n => f64_of_Z (Z.of_nat n)) f64_of_f32 f64_half
    f64_add f64_sub f64_mul f64_div f64_lt.

(** Rationals, for running examples. *)
Definition QArith_ : Arith :=
  mkArith Q (fun n => inject_Z (Z.of_nat n)) Q_of_f32 (1 # 2)%Q
    (fun a b => Qred (a + b)) (fun a b => Qred (a - b))
    (fun a b => Qred (a * b)) (fun a b => Qred (a / b))
    (fun a b => match Qcompare a b with Lt => true | _ => false end).

(** [std::exp2] and [std::log2], used by ComputeNDCG in
    /repo/core/Assessment.h.  [t_log2] is only applied to sizes. *)
Record Trans (A : Arith) : Type := mkTrans {
  t_exp2 : num A -> num A;
  t_log2 : nat -> num A
}.
Arguments t_exp2 {A}.
Arguments t_log2 {A}.

(** The exact functions over the reals. *)
Definition RTrans : Trans RArith :=
  mkTrans RArith (fun x : R => Rpower 2 x) (fun n : nat => (ln (INR n) / ln 2)%R).
