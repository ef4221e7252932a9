(** Runs with other settings. *)
From Coq Require Import List.
From Verif.Model Require Import Cpp Floats Matches Tool.
From Verif.Spec Require Import Collapse Metrics.
Import ListNotations.

(** Among equal scores, no hit comes before a false positive. *)
Definition hits_late {RE HE} (score : HE -> f32) (l : list (match_t RE HE)) : Prop :=
  forall u a v b w, l = u ++ a :: v ++ b :: w -> tie score a b -> is_hit a -> ~ is_fp b.

(** Among equal scores, no false positive comes before a hit. *)
Definition hits_early {RE HE} (score : HE -> f32) (l : list (match_t RE HE)) : Prop :=
  forall u a v b w, l = u ++ a :: v ++ b :: w -> tie score a b -> is_fp a -> ~ is_hit b.

(** Of two command lines, the second asks for interpolation, for trapezoids
    besides the interpolation, or for no collapsing of equal scores besides the
    interpolation, and otherwise both ask for the same. *)
Definition looser (c c' : config) : Prop :=
  (cf_collapse c = cf_collapse c' /\ cf_trapezoid c = cf_trapezoid c' /\ cf_interp c = false /\ cf_interp c' = true) \/
  (cf_collapse c = cf_collapse c' /\ cf_interp c = true /\ cf_interp c' = true /\ cf_trapezoid c = false /\ cf_trapezoid c' = true) \/
  (cf_interp c = true /\ cf_interp c' = true /\ cf_trapezoid c = false /\ cf_trapezoid c' = false /\ cf_collapse c = true /\ cf_collapse c' = false).
