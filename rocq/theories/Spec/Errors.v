(** When two floats are the same number, and the text of error counts. *)
From Coq Require Import Ascii String List ZArith.
From Flocq Require Import Core BinarySingleNaN.
From Verif.Model Require Import Cpp Floats Matches Stream.
From Verif.Spec Require Import Text.
Import ListNotations.
Local Open Scope string_scope.
Local Open Scope list_scope.

(** The same float or two zeros, and not NaN. *)
Definition same_float (x y : f32) : Prop :=
  is_nan x = false /\ is_nan y = false /\
  (x = y \/ exists s s', x = B754_zero s /\ y = B754_zero s').

(** The text of error counts. *)
Definition counts_form (b : bytes) (c : counts) : Prop := exists fp fn nh nr,
  b = lit "MatchErrorCounts[fp=" ++ fp ++ lit ", fn=" ++ fn ++ lit ", nh=" ++ nh ++ lit ", nr=" ++ nr ++ lit "]" /\
  float_form fp (ec_fp c) /\ float_form fn (ec_fn c) /\
  integer_form nh (Z.of_nat (ec_nh c)) /\ integer_form nr (Z.of_nat (ec_nr c)).
