(** C32 to C38: precision, recall and average precision over the reals. *)
From Coq Require Import List Bool ZArith QArith Reals Sorted.
From Flocq Require Import BinarySingleNaN.
From Verif.Model Require Import Cpp Floats Matches Assessment.
From Verif.Spec Require Import Order Objects Matching Collapse Metrics.
From Verif.Proofs Require Metrics AveragePrecision.
From Verif.Proofs Require Collapse FloatFacts.
Import ListNotations.
Local Open Scope R_scope.

(** C32.  Point [i] has the precision and recall of the first [i + 1] points. *)
Theorem c32_values : forall pts, exists pr rc : list R,
  precision_recall RArith pts false = (pr, rc) /\
  length pr = length pts /\ length rc = length pts /\
  (forall i p, nth_error pr i = Some p -> is_precision (firstn (S i) pts) p) /\
  (forall i r, nth_error rc i = Some r -> is_recall (references pts) (firstn (S i) pts) r).
Proof. exact Metrics.curve_spec. Qed.
Print Assumptions c32_values.

(** C32.  For fractional errors they are in [0,1] and recall never
    decreases. *)
Theorem c32_bounds : forall RE HE (score : HE -> f32) (l : list (match_t RE HE)) collapse pr rc,
  (forall m, In m l -> fractions (m_err m)) -> (collapse = true -> ranked score l) ->
  precision_recall_matches RArith score l collapse false = (pr, rc) ->
  (forall p, In p pr -> in01 p) /\ (forall r, In r rc -> in01 r) /\ nondecreasing rc.
Proof. exact Metrics.matches_bounds. Qed.
Print Assumptions c32_bounds.

(** C33.  Interpolation replaces each precision by the largest one from there
    on, which does not increase along the curve and is at least the raw
    precision; recall is not changed. *)
Theorem c33_interpolation : forall pts, exists pr rc pri : list R,
  precision_recall RArith pts false = (pr, rc) /\
  precision_recall RArith pts true = (pri, rc) /\
  length pri = length pr /\
  (forall i m, nth_error pri i = Some m -> is_max (skipn i pr) m) /\
  nonincreasing pri /\ Forall2 Rle pr pri.
Proof. exact Metrics.interpolated'. Qed.
Print Assumptions c33_interpolation.

(** C34.  AP is the area under the steps. *)
Theorem c34_area : forall trapezoid (pr rc : list R), length pr = length rc ->
  ap_curves RArith pr rc trapezoid = Ok (area trapezoid pr rc).
Proof. exact Metrics.ap_area. Qed.
Print Assumptions c34_area.

(** C34.  It is in [0,1] for all matches with fractional errors. *)
Theorem c34_bounds : forall RE HE (score : HE -> f32) (l : list (match_t RE HE)) collapse interpolate trapezoid,
  (forall m, In m l -> fractions (m_err m)) -> (collapse = true -> ranked score l) ->
  exists ap, global_ap RArith score l collapse interpolate trapezoid = Ok ap /\ in01 ap.
Proof. exact Metrics.global_ap_01. Qed.
Print Assumptions c34_bounds.

(** C34.  Different lengths violate the precondition, in every arithmetic. *)
Theorem c34_lengths : forall A trapezoid pr rc, length pr <> length rc -> ap_curves A pr rc trapezoid = UB.
Proof. exact Metrics.ap_curves_ub. Qed.
Print Assumptions c34_lengths.

(** C35.  Plain AP is the sum, over the hits, of the part of hits among the
    hypotheses so far, divided by the number of references. *)
Theorem c35_textbook : forall RE HE (score : HE -> f32) (l : list (match_t RE HE)),
  (forall m, In m l -> zero_one (m_err m)) -> (refs l > 0)%nat ->
  global_ap RArith score l false false false = Ok (hit_precisions [] l / INR (refs l)).
Proof. exact @AveragePrecision.textbook. Qed.
Print Assumptions c35_textbook.

(** C36.  The two definitions agree for 0/1 errors and all options. *)
Theorem c36_agree : forall RE HE (score : HE -> f32) (l : list (match_t RE HE)) collapse interpolate trapezoid,
  (forall m, In m l -> zero_one (m_err m)) ->
  (collapse = true -> ranked score l /\ (Z.of_nat (length l) <= 2 ^ 24)%Z) ->
  let pts := points score collapse l in
  let (pr, rc) := precision_recall RArith pts interpolate in
  ap_errors RArith pts pr trapezoid = ap_curves RArith pr rc trapezoid.
Proof. exact AveragePrecision.two_aps. Qed.
Print Assumptions c36_agree.

(** C36.  For a hypothesis that misses half of its reference they do not. *)
Theorem c36_soft_refuted :
  exists pts : list counts, (forall c, In c pts -> bounded c) /\
    pts = [counts_of (MatchError f32_0 f32_half)] /\
    let (pr, rc) := precision_recall RArith pts false in
    ap_errors RArith pts pr false = Ok 1 /\ ap_curves RArith pr rc false = Ok (/ 2).
Proof. exact AveragePrecision.two_aps_refuted. Qed.
Print Assumptions c36_soft_refuted.

(** C37.  AP is 1 exactly for the perfect rankings. *)
Theorem c37_perfect : forall RE HE (score : HE -> f32) (l : list (match_t RE HE)) interpolate trapezoid,
  (forall m, In m l -> zero_one (m_err m)) -> (refs l > 0)%nat ->
  (global_ap RArith score l false interpolate trapezoid = Ok 1 <-> perfect l).
Proof. exact @AveragePrecision.perfect_ap. Qed.
Print Assumptions c37_perfect.

(** C38.  Without references AP is 0. *)
Theorem c38_no_refs : forall RE HE (score : HE -> f32) (l : list (match_t RE HE)) collapse interpolate trapezoid,
  (forall m, In m l -> zero_one (m_err m)) -> refs l = 0%nat ->
  (collapse = true -> ranked score l /\ (Z.of_nat (length l) <= 2 ^ 24)%Z) ->
  global_ap RArith score l collapse interpolate trapezoid = Ok 0.
Proof. exact @AveragePrecision.no_refs. Qed.
Print Assumptions c38_no_refs.

(** C38.  Without hits, in particular without hypotheses or without matches,
    AP is 0. *)
Theorem c38_no_hits : forall RE HE (score : HE -> f32) (l : list (match_t RE HE)) collapse interpolate trapezoid,
  (forall m, In m l -> zero_one (m_err m)) -> (forall m, In m l -> ~ is_hit m) ->
  (collapse = true -> ranked score l /\ (Z.of_nat (length l) <= 2 ^ 24)%Z) ->
  global_ap RArith score l collapse interpolate trapezoid = Ok 0.
Proof. exact @AveragePrecision.no_hits. Qed.
Print Assumptions c38_no_hits.

(** C38.  The bound on the length cannot be dropped: in a longer run of equal
    scores float32 stops counting, and AP is positive with no reference at
    all. *)
Theorem c38_long_run_refuted :
  exists (score : unit -> f32) (l : list (match_t unit unit)),
    ranked score l /\ descending score l /\ (forall m, In m l -> zero_one (m_err m)) /\ refs l = 0%nat /\
    exists ap, global_ap RArith score l true false false = Ok ap /\ 0 < ap.
Proof. exact (ex_intro _ Collapse.tied AveragePrecision.long_run_refuted). Qed.
Print Assumptions c38_long_run_refuted.

(** Two hits, a false positive between them and a miss. *)
Example sc (h : nat) : f32 := B754_zero false.
Example rk : list (match_t nat nat) :=
  [match_pair 1%nat 1%nat me_default; make_fp 2%nat; match_pair 2%nat 3%nat me_default; make_fn 3%nat].
Example c35_case : (forall m, In m rk -> zero_one (m_err m)) /\ (refs rk > 0)%nat /\
  global_ap QArith_ sc rk false false false = Ok (5 # 9)%Q /\
  global_ap QArith_ sc rk false true false = Ok (5 # 9)%Q /\
  global_ap QArith_ sc rk true false false = Ok (4 # 9)%Q /\
  precision_recall_matches QArith_ sc rk false true =
    ([1%Q; (2 # 3)%Q; (2 # 3)%Q; (2 # 3)%Q], [(1 # 3)%Q; (1 # 3)%Q; (2 # 3)%Q; (2 # 3)%Q]).
Proof.
  split; [|split; [vm_compute; Lia.lia|vm_compute; auto]].
  intros m K. simpl in K.
  repeat (destruct K as [<-|K]; [unfold zero_one; simpl; auto|]). destruct K.
Qed.

Example c37_case :
  (forall m, In m [match_pair 1%nat 1%nat me_default; make_fp 2%nat] -> zero_one (m_err m)) /\
  (refs [match_pair 1%nat 1%nat me_default; make_fp 2%nat] > 0)%nat /\
  perfect [match_pair 1%nat 1%nat me_default; make_fp 2%nat] /\
  ~ perfect rk.
Proof.
  assert (N : f32_0 <> f32_1) by (intros K; assert (E : f32_eq f32_1 f32_0 = false) by reflexivity; rewrite <- K in E; discriminate).
  split; [|split; [vm_compute; Lia.lia|split]].
  - intros m K. repeat (destruct K as [<-|K]; [unfold zero_one; simpl; auto|]). destruct K.
  - split.
    + intros m [<-|[<-|[]]] F; apply N; exact F.
    + intros u a v b w E Fa [Hb _].
      destruct u as [|x [|y u]]; simpl in E; injection E as E1 E2.
      * subst a. apply N. exact Fa.
      * destruct v; discriminate.
      * destruct u; discriminate.
  - intros [P _]. apply (P (make_fn 3%nat)); [simpl; auto 6|]. reflexivity.
Qed.
