(** What a bootstrapped statistic should be. *)
From Coq Require Import String List ZArith Reals Permutation Sorted.
From Flocq Require Import Core BinarySingleNaN.
From Verif.Model Require Import Cpp Floats Events Matches Assessment Bootstrap Stream Tool.
From Verif.Spec Require Import Double Bootstrap.
Import ListNotations.
Local Open Scope string_scope.
Local Open Scope list_scope.

(** The interval [lo, up] of a statistic around its value [obs]: the statistic
    of the samples, less [obs], in increasing order; two of these
    differences at the indices of the percentiles, subtracted from [obs]. *)
Record interval {M} (stat : list (list M) -> outcome f64) (groups : list (list M)) (samples : list (list (list M)))
  (alpha : f64) (obs lo up : f64) : Prop := {
  iv_value : stat groups = Ok obs;
  iv_bounds : exists values diffs li ui dl du,
    Forall2 (fun s v => stat s = Ok v) samples values /\
    Permutation (map (fun v => f64_sub v obs) values) diffs /\
    StronglySorted (fun a b : f64 => (B2R a <= B2R b)%R) diffs /\
    percentile_index (rest_level alpha) (List.length samples) li /\ percentile_index (half_level alpha) (List.length samples) ui /\
    nth_error diffs li = Some dl /\ nth_error diffs ui = Some du /\
    lo = f64_sub obs dl /\ up = f64_sub obs du;
  iv_finite : is_finite obs = true /\ is_finite lo = true /\ is_finite up = true;
  iv_order : (B2R alpha <= 1)%R -> (B2R lo <= B2R up)%R
}.

(** A statistic on a line: with its interval if one is asked for, else the
    value computed without groups. *)
Definition measured {M} (c : config) (ci : bool) (groups : list (list M)) (samples : list (list (list M))) (plain : outcome f64)
  (stat : list (list M) -> outcome f64) (v : f64) (iv : option (f64 * f64)) : Prop :=
  if ci then exists lo up, iv = Some (lo, up) /\
    interval stat groups samples (cf_alpha c) v lo up
  else iv = None /\ plain = Ok v.

(** Some interval is asked for. *)
Definition bootstraps (c : config) : Prop :=
  cf_ci_gap c = true \/ cf_ci_map c = true \/ cf_ci_gndcg c = true \/ cf_ci_mndcg c = true.

(** The options for which the intervals can be computed. *)
Definition usable_options (c : config) : Prop := usable_level (cf_alpha c) /\ (1 <= cf_samples c)%Z.

(** The four lines of a run. *)
Definition four_lines {RE HE} (v1 v2 v3 v4 : f64) (i1 i2 i3 i4 : option (f64 * f64)) : list (effect DArith (RE := RE) (HE := HE)) :=
  [EStat (A := DArith) (lit "gAP") v1 i1; EStat (A := DArith) (lit "mAP") v2 i2;
   EStat (A := DArith) (lit "gNDCG") v3 i3; EStat (A := DArith) (lit "mNDCG") v4 i4].

(** The statistics on them.  All intervals come from the same samples, those
    the random engine [g] yields first.  The statistics of samples sort the
    matches of the sample by decreasing score. *)
Definition all_measured {RE E} (T : Trans DArith) (srt : sort_fn) (g : rng) (c : config) (ms : list (match_t RE (scored E)))
  (groups : list (list (match_t RE (scored E)))) (v1 v2 v3 v4 : f64) (i1 i2 i3 i4 : option (f64 * f64)) : Prop :=
  let k := cf_collapse c in let i := cf_interp c in let t := cf_trapezoid c in
  exists samples, List.length samples = Z.to_nat (cf_samples c) /\ Forall (resample groups) samples /\
  drawn (by_query_sampler match_default g) groups (rng_start g) samples /\
  measured c (cf_ci_gap c) groups samples (global_ap DArith sc_score ms k i t)
    (fun g => global_ap_groups DArith sc_score srt g k i t true) v1 i1 /\
  measured c (cf_ci_map c) groups samples (mean_ap DArith sc_score srt groups k i t false)
    (fun g => mean_ap DArith sc_score srt g k i t true) v2 i2 /\
  measured c (cf_ci_gndcg c) groups samples (Ok (global_ndcg DArith T sc_score ms k))
    (fun g => global_ndcg_groups DArith T sc_score srt g k true) v3 i3 /\
  measured c (cf_ci_mndcg c) groups samples (mean_ndcg DArith T sc_score srt groups k false)
    (fun g => mean_ndcg DArith T sc_score srt g k true) v4 i4.
