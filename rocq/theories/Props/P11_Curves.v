(** C40-C45: means over groups, rankings by score, sampled curves. *)
From Coq Require Import String List Bool ZArith QArith Reals Permutation Sorted.
From Flocq Require Import BinarySingleNaN.
From Verif.Model Require Import Cpp Floats Box Events EventSets Matches Scorers Matcher Assessment Tool.
From Verif.Spec Require Import Order Objects Matching Collapse Metrics Curves.
From Verif.Proofs Require Order Metrics Ndcg Matching Curves Rescore MeanCurve.
From Verif.Props Require Import P09_Metrics.
Import ListNotations.
Local Open Scope string_scope.
Local Open Scope list_scope.
Local Open Scope R_scope.

(** ** C40 *)

(** C40.  mAP is the mean of the APs of the groups (each sorted before, if
    asked for). *)
Theorem c40_mean_ap : forall RE HE (score : HE -> f32) srt (groups : list (list (match_t RE HE))) c i t sort vs,
  Forall2 (fun g v => exists g', maybe_sort score srt sort g = Ok g' /\
                                 global_ap RArith score g' c i t = Ok v) groups vs ->
  exists m, mean_ap RArith score srt groups c i t sort = Ok m /\ is_mean vs m.
Proof. exact @Curves.mean_ap_spec. Qed.
Print Assumptions c40_mean_ap.

(** C40.  mNDCG is the mean of the NDCGs of the groups. *)
Theorem c40_mean_ndcg : forall RE HE (score : HE -> f32) srt (groups : list (list (match_t RE HE))) c sort vs,
  Forall2 (fun g v => exists g', maybe_sort score srt sort g = Ok g' /\
                                 global_ndcg RArith RTrans score g' c = v) groups vs ->
  exists m, mean_ndcg RArith RTrans score srt groups c sort = Ok m /\ is_mean vs m.
Proof. exact @Curves.mean_ndcg_spec. Qed.
Print Assumptions c40_mean_ndcg.

(** C40.  A mean is between the smallest and the largest value; it is unique. *)
Theorem c40_between : forall vs m lo hi, is_mean vs m -> vs <> [] ->
  (forall v, In v vs -> lo <= v <= hi) -> lo <= m <= hi.
Proof. exact Curves.is_mean_between. Qed.
Print Assumptions c40_between.
Theorem c40_unique : forall vs m m', is_mean vs m -> is_mean vs m' -> m = m'.
Proof. exact Curves.is_mean_unique. Qed.
Print Assumptions c40_unique.

(** C40.  Without groups they are 0, in any arithmetic. *)
Theorem c40_no_groups : forall RE HE (score : HE -> f32) srt A (T : Trans A) c i t sort,
  mean_ap (RE := RE) A score srt [] c i t sort = Ok (a0 A) /\
  mean_ndcg (RE := RE) A T score srt [] c sort = Ok (a0 A).
Proof. intros. split; reflexivity. Qed.
Print Assumptions c40_no_groups.

(** C40.  The order of the groups does not matter. *)
Theorem c40_ap_order : forall RE HE (score : HE -> f32) srt (groups groups' : list (list (match_t RE HE))) c i t sort,
  Permutation groups groups' ->
  mean_ap RArith score srt groups c i t sort = mean_ap RArith score srt groups' c i t sort.
Proof. exact @Curves.mean_ap_order. Qed.
Print Assumptions c40_ap_order.
Theorem c40_ndcg_order : forall RE HE (score : HE -> f32) srt (groups groups' : list (list (match_t RE HE))) c sort,
  Permutation groups groups' ->
  mean_ndcg RArith RTrans score srt groups c sort = mean_ndcg RArith RTrans score srt groups' c sort.
Proof. exact @Curves.mean_ndcg_order. Qed.
Print Assumptions c40_ndcg_order.

(** C40.  For fractional errors mAP exists and is in [0,1]. *)
Theorem c40_map_01 : forall RE HE (score : HE -> f32) srt (groups : list (list (match_t RE HE))) c i t,
  (forall g m, In g groups -> In m g -> fractions (m_err m)) ->
  (c = true -> forall g, In g groups -> ranked score g) ->
  exists m, mean_ap RArith score srt groups c i t false = Ok m /\ in01 m.
Proof. exact @Curves.mean_ap_01. Qed.
Print Assumptions c40_map_01.

(** The ranking of C35 and one with a missed reference only: 5/9 and 0. *)
Example c40_case :
  mean_ap QArith_ sc (@isort) [rk; [make_fn 3%nat]] false false false false = Ok (5 # 18)%Q /\
  (5 # 18 == (5 # 9) / 2)%Q /\
  (forall g m, In g [rk; [make_fn 3%nat]] -> In m g -> fractions (m_err m)).
Proof.
  split; [vm_compute; reflexivity|]. split; [reflexivity|].
  assert (Z0 : forall e, zero_one e -> fractions e).
  { assert (B0 : is_finite f32_0 = true /\ 0 <= B2R f32_0 <= 1) by (split; [reflexivity|simpl; Lra.lra]).
    assert (B1 : is_finite f32_1 = true /\ 0 <= B2R f32_1 <= 1)
      by (split; [reflexivity|vm_compute; Lra.lra]).
    intros e [A B]. split; [destruct A as [->| ->]|destruct B as [->| ->]]; assumption. }
  intros g m [<-|[<-|[]]] K; apply Z0.
  - apply (proj1 c35_case), K.
  - destruct K as [<-|[]]. split; simpl; auto.
Qed.

(** ** C41 *)

(** C41.  On given matches an increasing function on the scores changes no
    metric, in any arithmetic. *)
Theorem c41_metrics : forall RE HE (score : HE -> f32) (l : list (match_t RE HE)) P f A (T : Trans A) c i t,
  increasing P f -> (forall h, In h (hyps_of l) -> P (score h)) ->
  precision_recall_matches A (fun h => f (score h)) l c i = precision_recall_matches A score l c i /\
  global_ap A (fun h => f (score h)) l c i t = global_ap A score l c i t /\
  global_ndcg A T (fun h => f (score h)) l c = global_ndcg A T score l c.
Proof. exact Rescore.rescored_metrics. Qed.
Print Assumptions c41_metrics.

(** C41.  Sorting by decreasing score, matching and assessing: the matches
    are the same up to the scores, in the same order, and no metric changes.
    [P] holds the scores of the input. *)
Theorem c41_pipeline : forall RE E Q (ce : Cmp E) (cr : Cmp RE) (cq : Cmp Q) (S : EvSet RE (scored E)) R srt P f
  scorer mt refs hyps,
  total_order ce -> total_order cr -> sort_contract srt -> finds S R -> increasing P f ->
  (forall h h' s, sc_base h = sc_base h' -> es_find S h s = es_find S h' s) ->
  (forall r h h', sc_base h = sc_base h' -> scorer r h = scorer r h') ->
  (forall h, In h hyps -> P (sc_score h)) ->
  exists s s' ms ms' t t',
    std_sort srt (flip_lt (scored_lt ce)) hyps = Ok s /\
    std_sort srt (flip_lt (scored_lt ce)) (map (rescore f) hyps) = Ok s' /\
    match_run (c_lt cr) S scorer mt refs s = Ok (ms, t) /\
    match_run (c_lt cr) S scorer mt refs s' = Ok (ms', t') /\
    Forall2 same_match ms ms' /\ Forall2 same_match (mt_repeated t) (mt_repeated t') /\
    forall A (T : Trans A) collapse interpolate trapezoid,
      precision_recall_matches A sc_score ms' collapse interpolate =
        precision_recall_matches A sc_score ms collapse interpolate /\
      global_ap A sc_score ms' collapse interpolate trapezoid =
        global_ap A sc_score ms collapse interpolate trapezoid /\
      global_ndcg A T sc_score ms' collapse = global_ndcg A T sc_score ms collapse /\
      forall (rq : RE -> Q) (bq : E -> Q) q2g,
      let groups l := group_matches cq rq (fun h => bq (sc_base h)) l q2g in
      obind (groups ms') (fun g => mean_ap A sc_score srt g collapse interpolate trapezoid false) =
        obind (groups ms) (fun g => mean_ap A sc_score srt g collapse interpolate trapezoid false) /\
      obind (groups ms') (fun g => mean_ndcg A T sc_score srt g collapse false) =
        obind (groups ms) (fun g => mean_ndcg A T sc_score srt g collapse false).
Proof. exact Rescore.rescored_run. Qed.
Print Assumptions c41_pipeline.

(** Scores 0 and 1/2 are raised to 1/2 and 1; both sets of events and the
    scorer of the tool ignore scores. *)
Example two_scores (x : f32) : Prop := x = f32_0 \/ x = f32_half.
Example raised (x : f32) : f32 := if f32_eq x f32_0 then f32_half else f32_1.
Example c41_case : increasing two_scores raised /\
  (forall E (ce : Cmp E) (h h' : scored E) s, sc_base h = sc_base h' ->
     es_find (evset_generic ce) h s = es_find (evset_generic ce) h' s) /\
  (forall srt Q (cq : Cmp Q) (h h' : scored (devent Q)) s, sc_base h = sc_base h' ->
     es_find (evset_docbox srt cq) h s = es_find (evset_docbox srt cq) h' s).
Proof.
  split; [split|split].
  - intros x [->| ->]; reflexivity.
  - intros x [->| ->]; reflexivity.
  - intros x y [->| ->] [->| ->] H; vm_compute in H; try discriminate; reflexivity.
  - intros x y [->| ->] [->| ->] H; vm_compute in H; try discriminate; reflexivity.
  - intros E ce h h' s K. simpl. rewrite K. reflexivity.
  - intros srt Q cq h h' s K. simpl. rewrite K. reflexivity.
Qed.

(** ** C42 *)

(** C42.  Sampling at non-decreasing points gives the value of the curve at
    each of them; there is no access out of range. *)
Theorem c42_sample : forall linear xs ys dst, (length xs <= length ys)%nat -> nondecreasing dst ->
  exists out, sample_curve RArith xs ys dst linear = Ok out /\ Forall2 (curve_value linear xs ys) dst out.
Proof. exact Curves.sample_curve_spec. Qed.
Print Assumptions c42_sample.

(** C42.  The value of either curve is between the neighbouring values. *)
Theorem c42_line : forall a u b v x y lo hi, a < x <= b -> on_line a u b v x y ->
  lo <= u <= hi -> lo <= v <= hi -> lo <= y <= hi.
Proof. exact Curves.on_line_between. Qed.
Print Assumptions c42_line.
Theorem c42_range : forall linear xs ys x y lo hi, curve_value linear xs ys x y ->
  lo <= 0 <= hi -> (forall v, In v ys -> lo <= v <= hi) -> lo <= y <= hi.
Proof. exact Curves.curve_value_range. Qed.
Print Assumptions c42_range.

(** C42.  The linear curve goes through the points (the first of those with
    one abscissa). *)
Theorem c42_hits : forall xs ys x j b v y, first_from xs x j -> nth_error xs j = Some b -> b = x ->
  nth_error ys j = Some v -> linear_value xs ys x y -> y = v.
Proof. exact Curves.linear_hits. Qed.
Print Assumptions c42_hits.

(** C42.  Sampling the interpolated precision over the recall gives the best
    precision with at least that recall. *)
Theorem c42_best : forall RE HE (score : HE -> f32) (l : list (match_t RE HE)) collapse pr rc pri rci dst,
  (forall m, In m l -> fractions (m_err m)) -> (collapse = true -> ranked score l) ->
  precision_recall_matches RArith score l collapse false = (pr, rc) ->
  precision_recall_matches RArith score l collapse true = (pri, rci) ->
  nondecreasing dst ->
  exists out, sample_curve RArith rci pri dst false = Ok out /\ Forall2 (best_from pr rc) dst out.
Proof.
  intros RE HE score l collapse pr rc pri rci dst F Rk E1 E2 N.
  destruct (Metrics.matches_bounds _ _ score l collapse pr rc F Rk E1) as [_ [_ NR]].
  unfold precision_recall_matches in E1, E2.
  destruct (Metrics.interpolated' (points score collapse l)) as [p [r [q [H1 [H2 [H3 [H4 _]]]]]]].
  destruct (Metrics.curve_spec (points score collapse l)) as [p' [r' [K1 [K2 [K3 _]]]]].
  rewrite E1 in H1, K1. rewrite E2 in H2.
  injection H1; intros; subst p r. injection H2; intros; subst q. subst rci.
  injection K1; intros; subst p' r'. 
  destruct (Curves.sample_curve_spec false rc pri dst) as [out [O1 O2]]; [|exact N|].
  - change (num RArith) with R in *. rewrite H3, K2, K3. auto.
  - exists out. split; [exact O1|]. clear - O2 NR H4 K2 K3.
    change (num RArith) with R in *.
    induction O2; constructor; auto. eapply Curves.step_best; eauto. congruence.
Qed.
Print Assumptions c42_best.

(** C42.  The points must not decrease: the cursor never goes back. *)
Theorem c42_order_refuted : exists xs ys dst out, length xs = length ys /\
  sample_curve RArith xs ys dst false = Ok out /\ ~ Forall2 (step_value xs ys) dst out.
Proof.
  exists [0; 1], [5; 7], [1; 0], [7; 7]. split; [reflexivity|].
  split.
  - unfold sample_curve, sample_loop, count_lt, skipn. simpl.
    repeat match goal with |- context [Rlt_dec ?a ?b] => destruct (Rlt_dec a b) as [?|?]; simpl; try Lra.lra end.
    all: reflexivity.
  - intros K. inversion K as [|? ? ? ? _ K']; subst. inversion K' as [|? ? ? ? V _]; subst.
    destruct V as [[j [[_ H2] H3]]|[H _]].
    + destruct j as [|j].
      * simpl in H3. injection H3. Lra.lra.
      * assert (0 < 0); [|Lra.lra]. apply (H2 0%nat); [Lia.lia|reflexivity].
    + assert (0 < 0); [|Lra.lra]. apply H. simpl. auto.
Qed.
Print Assumptions c42_order_refuted.

Example c42_case :
  sample_curve QArith_ [(1#3)%Q; (1#3)%Q; (2#3)%Q] [1%Q; (2#3)%Q; (2#3)%Q] [0%Q; (1#3)%Q; (1#2)%Q; 1%Q] false =
    Ok [1%Q; 1%Q; (2#3)%Q; 0%Q] /\
  sample_curve QArith_ [0%Q; 1%Q] [0%Q; 1%Q] [(1#4)%Q; 1%Q] true = Ok [(1 # 4)%Q; 1%Q] /\
  nondecreasing [0; 1].
Proof. split; [vm_compute; reflexivity|]. split; [vm_compute; reflexivity|]. repeat constructor; Lra.lra. Qed.

(** ** C43 *)

Theorem c43_even : forall n, evenly_spaced n (even_points RArith n).
Proof. exact MeanCurve.even_points_even. Qed.
Print Assumptions c43_even.
Theorem c43_increasing : forall n, StronglySorted Rlt (even_points RArith n).
Proof. exact Curves.even_points_sorted. Qed.
Print Assumptions c43_increasing.
(** C43.  The first is 0 and the last is 1. *)
Theorem c43_ends : forall n, (1 < n)%nat ->
  nth_error (even_points RArith n) 0 = Some 0 /\ nth_error (even_points RArith n) (n - 1) = Some 1.
Proof.
  intros n H. rewrite !Curves.even_points_nth by Lia.lia. simpl (INR 0). split; f_equal; [apply Rmult_0_l|].
  apply Rinv_r. apply not_0_INR. Lia.lia.
Qed.
Print Assumptions c43_ends.
Example c43_case : even_points QArith_ 5 = [0%Q; (1#4)%Q; (1#2)%Q; (3#4)%Q; 1%Q] /\ even_points QArith_ 1 = [].
Proof. split; vm_compute; reflexivity. Qed.

(** ** C44 *)

(** C44.  The file gets evenly spaced points with, at each of them, the mean
    of the curves of the groups. *)
Theorem c44_mean_curve : forall RE HE (score : HE -> f32) w c (groups : list (list (match_t RE HE))),
  groups <> [] -> cf_mrp c <> [] -> w_writable w (cf_mrp c) = true ->
  exists pts, write_mean_curve RArith score w c groups = ([EWrite (cf_mrp c) (FCurve pts)], inl tt) /\
    evenly_spaced (Z.to_nat (cf_curve c)) (map fst pts) /\
    forall x y, In (x, y) pts -> exists vs,
      Forall2 (fun g v =>
        let (pr, rc) := precision_recall_matches RArith score g (cf_collapse c) (cf_interp c) in
        curve_value (cf_trapezoid c) rc pr x v) groups vs /\ is_mean vs y.
Proof. exact @MeanCurve.mean_curve_spec. Qed.
Print Assumptions c44_mean_curve.

Theorem c44_bounds : forall RE HE (score : HE -> f32) w c (groups : list (list (match_t RE HE))),
  groups <> [] -> cf_mrp c <> [] -> w_writable w (cf_mrp c) = true ->
  (forall g m, In g groups -> In m g -> fractions (m_err m)) ->
  (cf_collapse c = true -> forall g, In g groups -> ranked score g) ->
  exists pts, write_mean_curve RArith score w c groups = ([EWrite (cf_mrp c) (FCurve pts)], inl tt) /\
    forall x y, In (x, y) pts -> in01 y.
Proof. exact @MeanCurve.mean_curve_01. Qed.
Print Assumptions c44_bounds.

(** C44.  Without groups every value written is NaN (in binary64). *)
Theorem c44_no_groups_refuted : forall RE HE (score : HE -> f32) w c,
  cf_mrp c <> [] -> w_writable w (cf_mrp c) = true ->
  exists pts, write_mean_curve (RE := RE) DArith score w c [] = ([EWrite (cf_mrp c) (FCurve pts)], inl tt) /\
    ((1 < cf_curve c)%Z -> Z.of_nat (length pts) = cf_curve c) /\
    forall x y, In (x, y) pts -> is_nan (y : f64) = true.
Proof. exact @MeanCurve.mean_curve_no_groups. Qed.
Print Assumptions c44_no_groups_refuted.

Example c44_config : config :=
  Config [] [] [] [] [] [] [] (lit "out") false true false false false false false 0 0 (B754_zero false) 4.
Example c44_case :
  write_mean_curve QArith_ sc (World (fun _ => None) (fun _ => true) []) c44_config [rk; [make_fn 3%nat]] =
  ([EWrite (lit "out") (@FCurve QArith_ _ _ [(0%Q, 1%Q); ((1#3)%Q, (1#2)%Q); ((2#3)%Q, (1#3)%Q); (1%Q, 0%Q)])], inl tt).
Proof. vm_compute. reflexivity. Qed.

(** ** C45 *)

(** C45.  Without NaN the comparator is a strict weak order and the sort gives
    a permutation in decreasing order with the matches without hypothesis at
    the end. *)
Theorem c45_comparator : forall RE HE (score : HE -> f32) (l : list (match_t RE HE)),
  ranked score l -> swo_on (match_before score) l.
Proof. exact @Curves.match_before_swo. Qed.
Print Assumptions c45_comparator.
Theorem c45_sort : forall RE HE (score : HE -> f32) srt (l : list (match_t RE HE)),
  sort_contract srt -> ranked score l ->
  exists s, sort_matches score srt l = Ok s /\ Permutation l s /\ descending score s /\
    exists a b, s = a ++ b /\ (forall m, In m a -> has_hyp m = true) /\ (forall m, In m b -> has_hyp m = false).
Proof. exact @Curves.sort_matches_spec. Qed.
Print Assumptions c45_sort.

(** C45.  The matches of a list of decreasing hypotheses already have this
    order. *)
Theorem c45_matcher : forall RE HE (cr : Cmp RE) (score : HE -> f32), total_order cr ->
  forall (S : EvSet RE HE) R, finds S R -> forall scorer mt refs hyps ms mt',
  StronglySorted (fun x y => f32_lt (score x) (score y) = false) hyps ->
  match_run (c_lt cr) S scorer mt refs hyps = Ok (ms, mt') ->
  sorted_by (match_before score) ms.
Proof. exact @Curves.matcher_sorted. Qed.
Print Assumptions c45_matcher.

(** C45.  With a NaN between two different scores the sort is undefined. *)
Theorem c45_nan_refuted : forall RE HE (score : HE -> f32) srt (h n h' : HE),
  is_nan (score n) = true -> f32_lt (score h) (score h') = true ->
  sort_matches score srt [make_fp h; make_fp n; make_fp h' : match_t RE HE] = UB.
Proof. exact @Curves.sort_matches_nan. Qed.
Print Assumptions c45_nan_refuted.

Example by_index (h : nat) : f32 := match h with 1%nat => f32_1 | 2%nat => f32_half | _ => f32_0 end.
Example c45_case :
  let l := [make_fn 9%nat; make_fp 3%nat; match_pair 1%nat 1%nat me_default; make_fn 8%nat; make_fp 2%nat] in
  ranked by_index l /\
  obind (sort_matches by_index (@isort) l) (fun s => Ok (map m_ref s, map m_hyp s)) =
    Ok ([Some 1; None; None; Some 9; Some 8]%nat, [Some 1; Some 2; Some 3; None; None]%nat) /\
  exists (score : bool -> f32), is_nan (score true) = true.
Proof.
  split; [|split].
  - intros m K. simpl in K. repeat (destruct K as [<-|K]; [reflexivity|]). destruct K.
  - vm_compute. reflexivity.
  - exists (fun b => B754_nan). reflexivity.
Qed.
