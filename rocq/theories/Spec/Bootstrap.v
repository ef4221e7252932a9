(** What bootstrap samples and intervals should be. *)
From Coq Require Import List ZArith Reals Permutation.
From Flocq Require Import Core BinarySingleNaN.
From Verif.Model Require Import Cpp Floats.
From Verif.Spec Require Import Double.
Import ListNotations.

(** A sample of groups: as many groups as there are, each of them drawn with
    replacement from one of the groups and of its size. *)
Definition resample {M} (original sample : list (list M)) : Prop :=
  length sample = length original /\
  forall s, In s sample -> exists g, In g original /\ length s = length g /\ incl s g.

(** Samples drawn one after the other, from state [k] on. *)
Inductive drawn {C S} (sampler : S -> C -> C * S) (original : C) : S -> list C -> Prop :=
| dr_nil k : drawn sampler original k []
| dr_cons k s k' l : sampler k original = (s, k') -> drawn sampler original k' l ->
    drawn sampler original k (s :: l).

(** The index of a percentile: [x] times the number of repetitions as a
    double, without its fraction. *)
Definition percentile_index (x : R) (reps i : nat) : Prop :=
  Z.of_nat i = Ztrunc (nearest64 (x * IZR (Z.of_nat reps))).

(** Half of the level alpha, and what is left of 1, as doubles. *)
Definition half_level (alpha : f64) : R := nearest64 (B2R alpha / 2).
Definition rest_level (alpha : f64) : R := nearest64 (1 - half_level alpha).

(** The levels for which the interval can be computed. *)
Definition usable_level (alpha : f64) : Prop :=
  is_finite alpha = true /\ (u64 < B2R alpha < 2)%R.

(** A double of moderate size. *)
Definition moderate (v : f64) : Prop := is_finite v = true /\ (Rabs (B2R v) <= bpow radix2 1000)%R.
