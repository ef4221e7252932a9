(** C30 and C31: collapsing matches of equal score. *)
From Coq Require Import List Bool ZArith Reals Permutation Sorted.
From Flocq Require Import BinarySingleNaN.
From Verif.Model Require Import Cpp Floats Matches Assessment.
From Verif.Spec Require Import Order Objects Matching Collapse.
From Verif.Proofs Require Collapse.
Import ListNotations.

(** C30.  There is one point for each run of equal scores, with the numbers
    of hypotheses and references of the run.  Its errors are within these
    numbers for all fractional errors, whatever the rounding; they are the
    exact sums for 0/1 errors and runs of at most 2^24 matches. *)
Theorem c30_points : forall RE HE (score : HE -> f32) (l : list (match_t RE HE)), ranked score l ->
  exists rs, are_runs score l rs /\
    Forall2 (fun r c => counted_as r c /\
      ((forall m, In m r -> fractions (m_err m)) -> bounded c) /\
      ((forall m, In m r -> zero_one (m_err m)) -> (Z.of_nat (length r) <= 2 ^ 24)%Z -> summed_as r c))
      rs (collapse_matches score l).
Proof. exact @Collapse.collapse_spec. Qed.
Print Assumptions c30_points.

(** C30.  The totals are preserved, for all scores. *)
Theorem c30_totals : forall RE HE (score : HE -> f32) (l : list (match_t RE HE)),
  list_sum (map ec_nh (collapse_matches score l)) = total (fun m => me_nh (m_err m)) l /\
  list_sum (map ec_nr (collapse_matches score l)) = total (fun m => me_nr (m_err m)) l.
Proof. exact @Collapse.collapse_totals. Qed.
Print Assumptions c30_totals.

(** C30.  On a descending list the runs have different, decreasing scores:
    there is one point for each distinct score. *)
Theorem c30_distinct : forall RE HE (score : HE -> f32) (l : list (match_t RE HE)) rs,
  ranked score l -> descending score l -> are_runs score l rs ->
  forall u r v r' w a b, rs = u ++ r :: v ++ r' :: w -> In a r -> In b r' ->
  f32_lt (rank score b) (rank score a) = true.
Proof. exact @Collapse.runs_decrease. Qed.
Print Assumptions c30_distinct.

(** C31.  For 0/1 errors, all orderings of the same matches by decreasing
    score have the same points. *)
Theorem c31_points : forall RE HE (score : HE -> f32) (l l' : list (match_t RE HE)),
  ranked score l -> descending score l -> descending score l' ->
  (forall m, In m l -> zero_one (m_err m)) -> Permutation l l' ->
  collapse_matches score l = collapse_matches score l'.
Proof. exact @Collapse.collapse_ties. Qed.
Print Assumptions c31_points.

(** C31.  Hence the same AP and NDCG, in every arithmetic. *)
Theorem c31_metrics : forall RE HE (score : HE -> f32) (A : Arith) (T : Trans A) (l l' : list (match_t RE HE)),
  ranked score l -> descending score l -> descending score l' ->
  (forall m, In m l -> zero_one (m_err m)) -> Permutation l l' ->
  (forall interpolate trapezoid,
     global_ap A score l true interpolate trapezoid = global_ap A score l' true interpolate trapezoid) /\
  global_ndcg A T score l true = global_ndcg A T score l' true.
Proof. exact @Collapse.metrics_ties. Qed.
Print Assumptions c31_metrics.

(** C31.  Without collapsing the order of two matches of equal score matters. *)
Theorem c31_no_collapse_refuted :
  exists (score : unit -> f32) (l l' : list (match_t unit unit)),
    ranked score l /\ descending score l /\ descending score l' /\
    (forall m, In m l -> zero_one (m_err m)) /\ Permutation l l' /\
    global_ap RArith score l false false false = Ok 1%R /\
    global_ap RArith score l' false false false = Ok (/ 2)%R /\
    global_ndcg RArith RTrans score l false = 1%R /\
    (global_ndcg RArith RTrans score l' false < 1)%R.
Proof. exact (ex_intro _ Collapse.tied Collapse.no_collapse_refuted). Qed.
Print Assumptions c31_no_collapse_refuted.

(** Matches of scores infinity, 0, -0, and two misses: three points. *)
Example sc (b : bool) : f32 := if b then B754_infinity false else B754_zero false.
Example sc' (z : option bool) : f32 :=
  match z with Some b => sc b | None => B754_zero true end.
Example run : list (match_t nat (option bool)) :=
  [match_pair 1 (Some true) me_default; make_fp (Some false); match_pair 2 None me_default;
   make_fn 3; make_fn 4].
Example run' : list (match_t nat (option bool)) :=
  [match_pair 1 (Some true) me_default; match_pair 2 None me_default; make_fp (Some false);
   make_fn 4; make_fn 3].
Example c30_case : ranked sc' run /\ descending sc' run /\ descending sc' run' /\
  Permutation run run' /\ (forall m, In m run -> zero_one (m_err m) /\ fractions (m_err m)) /\
  map (fun c => (ec_nh c, ec_nr c, f32_eq (ec_fp c) f32_1)) (collapse_matches sc' run) =
    [(1, 1, false); (2, 1, true); (0, 2, false)] /\
  collapse_matches sc' run = collapse_matches sc' run'.
Proof.
  assert (D : descending sc' run /\ descending sc' run') by (split; repeat constructor).
  assert (R : ranked sc' run).
  { intros m K. simpl in K. repeat (destruct K as [<-|K]; [reflexivity|]). destruct K. }
  assert (P : Permutation run run').
  { unfold run, run'. apply perm_skip. eapply perm_trans; [apply perm_swap|].
    apply perm_skip, perm_skip, perm_swap. }
  assert (Z : forall m, In m run -> zero_one (m_err m) /\ fractions (m_err m)).
  { assert (O := FloatFacts.f32_1_R). assert (B2R f32_0 = 0%R) by reflexivity. destruct O as [O O'].
    intros m K. simpl in K.
    repeat (destruct K as [<-|K]; [unfold zero_one, fractions, unit_f32; cbn [m_err me_fp me_fn match_pair make_fp make_fn me_default];
      rewrite ?O, ?O', ?H; change (is_finite f32_0) with true; intuition (auto; Lra.lra)|]).
    destruct K. }
  split; [exact R|]. split; [apply D|]. split; [apply D|]. split; [exact P|]. split; [exact Z|].
  split; [vm_compute; reflexivity|].
  apply c31_points; try apply D; auto. intros m K. apply Z, K.
Qed.
