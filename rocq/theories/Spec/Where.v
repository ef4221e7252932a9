(** Runs that read the same inputs from other places. *)
From Coq Require Import ZArith List.
From Verif.Model Require Import Cpp Floats Tool.

(** All settings but the names of the files that are read are the same. *)
Definition same_settings (c c' : config) : Prop :=
  (cf_dump c = cf_dump c' /\ cf_sort c = cf_sort c' /\ cf_grp c = cf_grp c' /\ cf_mrp c = cf_mrp c') /\
  (cf_collapse c = cf_collapse c' /\ cf_interp c = cf_interp c' /\ cf_trapezoid c = cf_trapezoid c') /\
  (cf_ci_gap c = cf_ci_gap c' /\ cf_ci_map c = cf_ci_map c' /\ cf_ci_gndcg c = cf_ci_gndcg c' /\ cf_ci_mndcg c = cf_ci_mndcg c') /\
  cf_samples c = cf_samples c' /\ cf_seed c = cf_seed c' /\ cf_alpha c = cf_alpha c' /\ cf_curve c = cf_curve c'.
