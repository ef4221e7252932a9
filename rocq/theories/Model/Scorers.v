(** Model of /repo/scorer/*.h. *)
From Coq Require Import List Bool ZArith.
From Verif.Model Require Import Cpp Floats Box Events Matches.
Local Open Scope Z_scope.

(** The errors the threshold scorers return, e.g.
    /repo/scorer/IntersectionOverHypothesisAreaScorer.h:32 and 34. *)
Definition err_hit : match_error := MatchError f32_0 f32_0.
(** See [err_hit]. *)
Definition err_miss : match_error := MatchError f32_1 f32_1.

Section ShapedScorers.
  Context {Q : Type} (cq : Cmp Q).

  (** /repo/scorer/IntersectionOverHypothesisAreaScorer.h:23-35,
      [operator()], for DocumentBoundingBox<uint32_t> locations.  The hypothesis
      enters through its base event (its score is not used). *)
  Definition ioh_scorer (threshold : f32) (ref hyp : event Q docbox) : match_error :=
    if c_eq cq (ev_query ref) (ev_query hyp) && (0 <? shaped_area hyp) then
      let val := f32_div (f32_of_Z (shaped_inter ref hyp))
                   (f32_mul f32_1 (f32_of_Z (shaped_area hyp))) in
      if f32_ge val threshold then err_hit else err_miss
    else err_miss.

  (** /repo/scorer/IntersectionOverUnionAreaScorer.h:23-35, [operator()]. *)
  Definition iou_scorer (threshold : f32) (ref hyp : event Q docbox) : match_error :=
    if c_eq cq (ev_query ref) (ev_query hyp) && (0 <? shaped_area hyp) then
      let val := f32_div (f32_of_Z (shaped_inter ref hyp))
                   (f32_mul f32_1 (f32_of_Z (shaped_union ref hyp))) in
      if f32_ge val threshold then err_hit else err_miss
    else err_miss.

  (** /repo/scorer/SoftBoundingBoxScorer.h:18-26, [operator()].  The
      comparisons [Area() > 0.0f] convert the area to [float]. *)
  Definition soft_scorer (ref hyp : event Q docbox) : match_error :=
    if c_ne cq (ev_query ref) (ev_query hyp) then err_miss
    else
      let i := f32_of_Z (shaped_inter ref hyp) in
      let frac (a : Z) :=
        if f32_lt f32_0 (f32_of_Z a) then f32_div i (f32_of_Z a) else f32_0 in
      MatchError (f32_sub f32_1 (frac (shaped_area hyp)))
                 (f32_sub f32_1 (frac (shaped_area ref))).
End ShapedScorers.

(** /repo/scorer/TrivialScorer.h:18-24, [operator()]. *)
Definition trivial_scorer {Q L} (cq : Cmp Q) (cl : Cmp L) (ref hyp : event Q L)
  : match_error :=
  if c_eq cl (ev_loc ref) (ev_loc hyp) && c_eq cq (ev_query ref) (ev_query hyp)
  then MatchError (f32_of_Z 0) (f32_of_Z 0)
  else MatchError (f32_of_Z 1) (f32_of_Z 1).
