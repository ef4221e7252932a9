(** What the confidence intervals of runs should be. *)
From Coq Require Import String List ZArith Reals.
From Flocq Require Import Core BinarySingleNaN.
From Verif.Model Require Import Cpp Floats Stream Assessment Tool.
From Verif.Spec Require Import Metrics Tool Samples.
Import ListNotations.
Local Open Scope string_scope.
Local Open Scope list_scope.

(** All settings but the names of the files that are read and the level are the
    same. *)
Definition same_but_level (c c' : config) : Prop :=
  (cf_dump c = cf_dump c' /\ cf_sort c = cf_sort c' /\ cf_grp c = cf_grp c' /\ cf_mrp c = cf_mrp c') /\
  (cf_collapse c = cf_collapse c' /\ cf_interp c = cf_interp c' /\ cf_trapezoid c = cf_trapezoid c') /\
  (cf_ci_gap c = cf_ci_gap c' /\ cf_ci_map c = cf_ci_map c' /\ cf_ci_gndcg c = cf_ci_gndcg c' /\ cf_ci_mndcg c = cf_ci_mndcg c') /\
  cf_samples c = cf_samples c' /\ cf_seed c = cf_seed c' /\ cf_curve c = cf_curve c'.

(** If intervals are asked for, both are printed and the first one encloses
    the second. *)
Definition encloses (ci : bool) (i j : option (f64 * f64)) : Prop :=
  match i, j with
  | Some (lo, up), Some (lo', up') => ci = true /\
      is_finite lo = true /\ is_finite up = true /\ is_finite lo' = true /\ is_finite up' = true /\
      (B2R lo <= B2R lo')%R /\ (B2R up' <= B2R up)%R
  | None, None => ci = false
  | _, _ => False
  end.

(** Runs that end in the same way, print the same statistics and write the same
    files, the first one with wider intervals. *)
Definition wider {RE HE} (c : config) (p p' : list (effect DArith (RE := RE) (HE := HE)) * (unit + fin)) : Prop :=
  snd p = snd p' /\ exists v1 v2 v3 v4 i1 i2 i3 i4 j1 j2 j3 j4 before after,
    outputs (fst p) = before ++ four_lines v1 v2 v3 v4 i1 i2 i3 i4 ++ after /\
    outputs (fst p') = before ++ four_lines v1 v2 v3 v4 j1 j2 j3 j4 ++ after /\
    encloses (cf_ci_gap c) i1 j1 /\ encloses (cf_ci_map c) i2 j2 /\
    encloses (cf_ci_gndcg c) i3 j3 /\ encloses (cf_ci_mndcg c) i4 j4.

(** In exact arithmetic: the four statistics with their intervals. *)
Definition prints_intervals {RE HE} (l : list (effect RArith (RE := RE) (HE := HE))) (v1 v2 v3 v4 : R) (i1 i2 i3 i4 : option (R * R)) : Prop :=
  stats (A := RArith) l = [(lit "gAP", v1, i1); (lit "mAP", v2, i2); (lit "gNDCG", v3, i3); (lit "mNDCG", v4, i4)].

(** A statistic from 0 to 1 whose bounds are at most as far from it as 0 and 1
    are, and in order for levels up to 1. *)
Definition reflected (c : config) (ci : bool) (v : R) (iv : option (R * R)) : Prop :=
  in01 v /\
  match iv with
  | Some (lo, up) => ci = true /\ (2 * v - 1 <= lo <= 2 * v)%R /\ (2 * v - 1 <= up <= 2 * v)%R /\
      ((B2R (cf_alpha c) <= 1)%R -> (lo <= up)%R)
  | None => ci = false
  end.

(** The interval of a statistic that is the same in all samples. *)
Definition point (ci : bool) (v : R) : option (R * R) := if ci then Some (v, v) else None.
