(** What is assumed of [exp2] and [log2] in double arithmetic. *)
From Coq Require Import ZArith Reals.
From Flocq Require Import Core BinarySingleNaN.
From Verif.Model Require Import Cpp Floats.
From Verif.Spec Require Import Double.
Local Open Scope R_scope.

(** The relative error is at most 2^-52, that is one unit in the last place at
    most, for exponents in [0,1] and sizes up to 2^54; and no result is below
    1, as the exact ones are not. *)
Record accurate (T : Trans DArith) : Prop := Accurate {
  ac_exp2 : forall x : f64, unit_f64 x ->
    within (2 * u64 * Rpower 2 (B2R x)) (t_exp2 T x) (Rpower 2 (B2R x)) /\ 1 <= B2R (t_exp2 T x : f64);
  ac_log2 : forall n, (2 <= Z.of_nat n <= 2 ^ 54)%Z ->
    within (2 * u64 * (ln (INR n) / ln 2)) (t_log2 T n) (ln (INR n) / ln 2) /\ 1 <= B2R (t_log2 T n : f64)
}.
