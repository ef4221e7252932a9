(** C16-C19: the scorers. *)
From Coq Require Import List Bool ZArith Reals.
From Flocq Require Import Core BinarySingleNaN.
From Verif.Model Require Import Cpp Floats Box Events Matches Scorers.
From Verif.Spec Require Import Geometry Order Objects Scorers.
From Verif.Proofs Require Scorers Order.
Local Open Scope Z_scope.

(** C16.  Half of the hypothesis or more is accepted, for every pair of
    locations without wrap-around. *)
Theorem c16_half_is_accepted : forall Q (cq : Cmp Q), total_order cq ->
  forall (r h : event Q docbox) i a,
  fits (ev_loc r) -> fits (ev_loc h) -> shares (ev_loc r) (ev_loc h) i -> covers (ev_loc h) a ->
  ev_query r = ev_query h -> 0 < a -> a <= 2 * i ->
  accepted (ioh_scorer cq f32_half r h).
Proof. exact @Scorers.ioh_accepts. Qed.
Print Assumptions c16_half_is_accepted.

(** C16.  Different queries and empty hypotheses are rejected, with any
    threshold. *)
Theorem c16_other_query_rejected : forall Q (cq : Cmp Q), total_order cq ->
  forall (r h : event Q docbox) t, ev_query r <> ev_query h -> rejected (ioh_scorer cq t r h).
Proof. exact @Scorers.ioh_rejects_query. Qed.
Print Assumptions c16_other_query_rejected.

Theorem c16_empty_rejected : forall Q (cq : Cmp Q) (r h : event Q docbox) i a,
  fits (ev_loc r) -> fits (ev_loc h) -> shares (ev_loc r) (ev_loc h) i -> covers (ev_loc h) a ->
  forall t, a = 0 -> rejected (ioh_scorer cq t r h).
Proof. exact @Scorers.ioh_rejects_empty. Qed.
Print Assumptions c16_empty_rejected.

(** C16.  Up to 2^24 cells the rule is exact, and there is no third outcome. *)
Theorem c16_exact_rule : forall Q (cq : Cmp Q), total_order cq ->
  forall (r h : event Q docbox) i a,
  fits (ev_loc r) -> fits (ev_loc h) -> shares (ev_loc r) (ev_loc h) i -> covers (ev_loc h) a ->
  a <= 2 ^ 24 ->
  let pass := ev_query r = ev_query h /\ 0 < a /\ a <= 2 * i in
  (pass /\ accepted (ioh_scorer cq f32_half r h)) \/
  (~ pass /\ rejected (ioh_scorer cq f32_half r h)).
Proof. exact @Scorers.ioh_exact_rule. Qed.
Print Assumptions c16_exact_rule.

(** C16.  Any threshold: the rounded ratio decides. *)
Theorem c16_any_threshold : forall Q (cq : Cmp Q), total_order cq ->
  forall (r h : event Q docbox) i a,
  fits (ev_loc r) -> fits (ev_loc h) -> shares (ev_loc r) (ev_loc h) i -> covers (ev_loc h) a ->
  forall t, a <= 2 ^ 24 -> is_finite t = true ->
  let pass := ev_query r = ev_query h /\ 0 < a /\ (B2R t <= nearest_f32 (IZR i / IZR a))%R in
  (pass /\ accepted (ioh_scorer cq t r h)) \/ (~ pass /\ rejected (ioh_scorer cq t r h)).
Proof. exact @Scorers.ioh_threshold. Qed.
Print Assumptions c16_any_threshold.

(** C16.  Larger hypotheses: rounding never accepts a share below
    4194303/8388608 (one half minus 2^-23). *)
Theorem c16_rounding_bound : forall Q (cq : Cmp Q) (r h : event Q docbox) i a,
  fits (ev_loc r) -> fits (ev_loc h) -> shares (ev_loc r) (ev_loc h) i -> covers (ev_loc h) a ->
  accepted (ioh_scorer cq f32_half r h) -> 4194303 * a <= 8388608 * i.
Proof. exact @Scorers.ioh_bound. Qed.
Print Assumptions c16_rounding_bound.

(** C16.  The exact rule fails above 2^24 cells. *)
Theorem c16_large_areas_refuted :
  exists (r h : event Z docbox) i a,
    fits (ev_loc r) /\ fits (ev_loc h) /\ shares (ev_loc r) (ev_loc h) i /\ covers (ev_loc h) a /\
    2 * i < a /\ accepted (ioh_scorer cmp_Z f32_half r h).
Proof. exact Scorers.ioh_above_refuted. Qed.
Print Assumptions c16_large_areas_refuted.

(** Two overlapping boxes of a page: 4 of the 10 cells of the hypothesis are shared. *)
Example box_r : event Z docbox := Event 7 (DocBox nil (Box 3 0 9 2)).
Example box_h : event Z docbox := Event 7 (DocBox nil (Box 0 0 5 2)).
Example c16_case :
  fits (ev_loc box_r) /\ fits (ev_loc box_h) /\ shares (ev_loc box_r) (ev_loc box_h) 4 /\
  covers (ev_loc box_h) 10 /\ total_order cmp_Z /\ rejected (ioh_scorer cmp_Z f32_half box_r box_h).
Proof.
  assert (F1 : fits (ev_loc box_r)) by (apply Scorers.fits_intro; easy).
  assert (F2 : fits (ev_loc box_h)) by (apply Scorers.fits_intro; easy).
  assert (S : shares (ev_loc box_r) (ev_loc box_h) 4) by (apply Scorers.shares_intro; auto).
  assert (C : covers (ev_loc box_h) 10) by (apply Scorers.covers_intro; auto).
  split; auto. split; auto. split; auto. split; auto. split; [apply Order.total_order_Z|].
  destruct (c16_exact_rule Z cmp_Z Order.total_order_Z box_r box_h 4 10) as [[[_ [_ K]] _]|[_ K]]; auto; easy.
Qed.

(** C17.  Intersection over union, any threshold. *)
Theorem c17_any_threshold : forall Q (cq : Cmp Q), total_order cq ->
  forall (r h : event Q docbox) i a,
  fits (ev_loc r) -> fits (ev_loc h) -> shares (ev_loc r) (ev_loc h) i -> covers (ev_loc h) a ->
  forall u ar, covers (ev_loc r) ar -> unites (ev_loc r) (ev_loc h) u ->
  union_fits (ev_loc r) (ev_loc h) ->
  forall t, u <= 2 ^ 24 -> is_finite t = true ->
  let pass := ev_query r = ev_query h /\ 0 < a /\ (B2R t <= nearest_f32 (IZR i / IZR u))%R in
  (pass /\ accepted (iou_scorer cq t r h)) \/ (~ pass /\ rejected (iou_scorer cq t r h)).
Proof. exact @Scorers.iou_threshold. Qed.
Print Assumptions c17_any_threshold.

(** C17.  Threshold one half: exactly half of the union. *)
Theorem c17_half : forall Q (cq : Cmp Q), total_order cq ->
  forall (r h : event Q docbox) i a,
  fits (ev_loc r) -> fits (ev_loc h) -> shares (ev_loc r) (ev_loc h) i -> covers (ev_loc h) a ->
  forall u ar, covers (ev_loc r) ar -> unites (ev_loc r) (ev_loc h) u ->
  union_fits (ev_loc r) (ev_loc h) ->
  u <= 2 ^ 24 ->
  let pass := ev_query r = ev_query h /\ 0 < a /\ u <= 2 * i in
  (pass /\ accepted (iou_scorer cq f32_half r h)) \/
  (~ pass /\ rejected (iou_scorer cq f32_half r h)).
Proof. exact @Scorers.iou_half. Qed.
Print Assumptions c17_half.

(** C17.  Exchanging reference and hypothesis changes nothing when both boxes
    have area; no bound on the boxes. *)
Theorem c17_symmetric : forall Q (cq : Cmp Q), total_order cq ->
  forall t (x y : event Q docbox),
  0 < docbox_area (ev_loc x) -> 0 < docbox_area (ev_loc y) ->
  iou_scorer cq t x y = iou_scorer cq t y x.
Proof. exact @Scorers.iou_symmetric. Qed.
Print Assumptions c17_symmetric.

Example c17_case :
  union_fits (ev_loc box_r) (ev_loc box_h) /\ covers (ev_loc box_r) 18 /\
  unites (ev_loc box_r) (ev_loc box_h) 24 /\
  0 < docbox_area (ev_loc box_r) /\ 0 < docbox_area (ev_loc box_h).
Proof.
  assert (F1 : fits (ev_loc box_r)) by (apply Scorers.fits_intro; easy).
  split; [easy|]. split; [apply Scorers.covers_intro; auto|]. split; [|easy].
  apply Scorers.unites_intro; try (apply Scorers.fits_intro; easy); reflexivity.
Qed.

(** C18.  Both errors of the soft scorer are fractions. *)
Theorem c18_fractions : forall Q (cq : Cmp Q) (r h : event Q docbox) i ar ah,
  fits (ev_loc r) -> fits (ev_loc h) -> shares (ev_loc r) (ev_loc h) i ->
  covers (ev_loc r) ar -> covers (ev_loc h) ah ->
  unit_f32 (me_fp (soft_scorer cq r h)) /\ unit_f32 (me_fn (soft_scorer cq r h)).
Proof. exact @Scorers.soft_unit. Qed.
Print Assumptions c18_fractions.

(** C18.  Different queries, or nothing shared: both errors are 1. *)
Theorem c18_other_query : forall Q (cq : Cmp Q), total_order cq ->
  forall (r h : event Q docbox), ev_query r <> ev_query h -> errors_are (soft_scorer cq r h) 1 1.
Proof. exact @Scorers.soft_differ. Qed.
Print Assumptions c18_other_query.

Theorem c18_nothing_shared : forall Q (cq : Cmp Q) (r h : event Q docbox) i ar ah,
  fits (ev_loc r) -> fits (ev_loc h) -> shares (ev_loc r) (ev_loc h) i ->
  covers (ev_loc r) ar -> covers (ev_loc h) ah ->
  i = 0 -> errors_are (soft_scorer cq r h) 1 1.
Proof. exact @Scorers.soft_disjoint. Qed.
Print Assumptions c18_nothing_shared.

(** C18.  The same event on both sides: no error. *)
Theorem c18_identical : forall Q (cq : Cmp Q), total_order cq ->
  forall (r h : event Q docbox) i ar ah,
  fits (ev_loc r) -> fits (ev_loc h) -> shares (ev_loc r) (ev_loc h) i ->
  covers (ev_loc r) ar -> covers (ev_loc h) ah ->
  ev_query r = ev_query h -> ev_loc r = ev_loc h -> 0 < ah ->
  errors_are (soft_scorer cq r h) 0 0.
Proof. exact @Scorers.soft_identical. Qed.
Print Assumptions c18_identical.

(** C18.  Up to 2^24 cells an error is 0 exactly when the box is covered and 1
    exactly when nothing is shared. *)
Theorem c18_exact_extremes : forall Q (cq : Cmp Q), total_order cq ->
  forall (r h : event Q docbox) i ar ah,
  fits (ev_loc r) -> fits (ev_loc h) -> shares (ev_loc r) (ev_loc h) i ->
  covers (ev_loc r) ar -> covers (ev_loc h) ah ->
  ev_query r = ev_query h -> 0 < ah <= 2 ^ 24 -> 0 < ar <= 2 ^ 24 ->
  let e := soft_scorer cq r h in
  (B2R (me_fp e) = 0%R <-> i = ah) /\ (B2R (me_fp e) = 1%R <-> i = 0) /\
  (B2R (me_fn e) = 0%R <-> i = ar) /\ (B2R (me_fn e) = 1%R <-> i = 0).
Proof. exact @Scorers.soft_exact. Qed.
Print Assumptions c18_exact_extremes.

(** C18.  So up to 2^24 cells a pair that shares a cell counts as one
    hypothesis and one reference. *)
Theorem c18_counts : forall Q (cq : Cmp Q), total_order cq ->
  forall (r h : event Q docbox) i ar ah,
  fits (ev_loc r) -> fits (ev_loc h) -> shares (ev_loc r) (ev_loc h) i ->
  covers (ev_loc r) ar -> covers (ev_loc h) ah ->
  ev_query r = ev_query h -> 0 < ah <= 2 ^ 24 -> 0 < ar <= 2 ^ 24 -> 0 < i ->
  me_nh (soft_scorer cq r h) = 1%nat /\ me_nr (soft_scorer cq r h) = 1%nat.
Proof. exact @Scorers.soft_counts. Qed.
Print Assumptions c18_counts.

(** C18.  Without that bound the scorer can return (0, 1) for a pair that
    shares a cell: the match then counts no hypothesis. *)
Theorem c18_counts_refuted :
  exists (r h : event Z docbox),
    fits (ev_loc r) /\ fits (ev_loc h) /\ shares (ev_loc r) (ev_loc h) 1 /\
    errors_are (soft_scorer cmp_Z r h) 0 1 /\ me_nh (soft_scorer cmp_Z r h) = 0%nat.
Proof. exact Scorers.soft_lost_hyp. Qed.
Print Assumptions c18_counts_refuted.

Example c18_case : me_nh (soft_scorer cmp_Z box_r box_h) = 1%nat /\
  me_nr (soft_scorer cmp_Z box_r box_h) = 1%nat.
Proof.
  destruct c16_case as [F1 [F2 [S [C [T _]]]]]. destruct c17_case as [_ [C' _]].
  apply (c18_counts Z cmp_Z T box_r box_h 4 18 10); auto; easy.
Qed.

(** C19.  The trivial scorer is equality. *)
Theorem c19_equality : forall Q L (cq : Cmp Q) (cl : Cmp L), total_order cq -> total_order cl ->
  forall r h : event Q L,
  (r = h /\ errors_are (trivial_scorer cq cl r h) 0 0) \/
  (r <> h /\ errors_are (trivial_scorer cq cl r h) 1 1).
Proof. exact @Scorers.trivial_spec. Qed.
Print Assumptions c19_equality.

Example c19_case : total_order cmp_Z /\ total_order cmp_str /\ Event 1 2 <> Event 1 3.
Proof. split; [apply Order.total_order_Z|]. split; [apply Order.total_order_str|discriminate]. Qed.
