(** C48-C51: bootstrap samples and confidence intervals. *)
From Coq Require Import List Bool ZArith Reals Permutation Sorted.
From Flocq Require Import Core BinarySingleNaN.
From Verif.Model Require Import Cpp Floats Matches Assessment Bootstrap.
From Verif.Spec Require Import Order Objects Matching Grouping Collapse Metrics Double Bootstrap.
From Verif.Proofs Require FloatFacts Order Double Bootstrap.
Import ListNotations.
Local Open Scope R_scope.

(** ** C48 *)

(** C48.  A sample of groups has as many groups as the original, each drawn
    from one of them and of its size, whatever the random numbers. *)
Theorem c48_sound : forall M (default : M) g k original,
  resample original (fst (by_query_sampler default g k original)).
Proof. exact @Bootstrap.by_query_sound. Qed.
Print Assumptions c48_sound.

(** C48.  Every such sample is drawn for some random numbers. *)
Theorem c48_complete : forall M (default : M) original sample k, resample original sample ->
  exists g, fst (by_query_sampler default (stream g) k original) = sample.
Proof. exact @Bootstrap.by_query_complete. Qed.
Print Assumptions c48_complete.

(** C48.  It takes one random number for each group and each match. *)
Theorem c48_draws : forall M (default : M) g k original,
  snd (by_query_sampler default (stream g) k original) =
    (k + length original + total (@length M) (fst (by_query_sampler default (stream g) k original)))%nat.
Proof. exact @Bootstrap.by_query_draws. Qed.
Print Assumptions c48_draws.

(** The second group twice, then the empty one. *)
Example c48_case : resample [[1%nat; 2%nat]; [3%nat]; []] [[3%nat]; []; [2%nat; 2%nat]] /\
  by_query_sampler 0%nat (stream (fun k => nth k [4%nat; 7%nat; 5%nat; 0%nat; 1%nat; 9%nat] 0%nat)) 0%nat [[1%nat; 2%nat]; [3%nat]; []] =
    ([[3%nat]; []; [2%nat; 2%nat]], 6%nat).
Proof.
  split; [|vm_compute; reflexivity]. split; [reflexivity|].
  intros s [<-|[<-|[<-|[]]]].
  - exists [3%nat]. repeat split; simpl; auto. intros x K; exact K.
  - exists []. repeat split; simpl; auto. intros x [].
  - exists [1%nat; 2%nat]. repeat split; simpl; auto. intros x [<-|[<-|[]]]; simpl; auto.
Qed.

(** ** C49 *)

(** C49.  MatchesSampler puts as many matches as there are in front of the
    drawn ones: those that were in the vector, or default matches. *)
Theorem c49_shape : forall M (default : M) g k original sampled,
  exists kept drawn, fst (matches_sampler default g k original sampled) = kept ++ drawn /\
    length kept = length original /\ length drawn = length original /\ incl drawn original /\
    (sampled = [] -> kept = repeat default (length original)).
Proof. exact @Bootstrap.matches_sampler_spec. Qed.
Print Assumptions c49_shape.

(** C49.  Its samples never have the size of the original. *)
Theorem c49_size_refuted : forall M (default : M) g k original sampled, original <> [] ->
  length (fst (matches_sampler default g k original sampled)) <> length original.
Proof. exact @Bootstrap.matches_sampler_size. Qed.
Print Assumptions c49_size_refuted.

(** C49.  The default matches count as hits: the AP of one false positive is
    0, that of each of its samples is 1. *)
Theorem c49_hits_refuted :
  let original : list (match_t unit unit) := [make_fp tt] in
  forall score interpolate trapezoid g k,
    global_ap RArith score original false interpolate trapezoid = Ok 0 /\
    global_ap RArith score (fst (matches_sampler match_default g k original [])) false interpolate trapezoid = Ok 1.
Proof. exact Bootstrap.sampler_hits_refuted. Qed.
Print Assumptions c49_hits_refuted.

Example c49_case : [5%nat; 6%nat] <> [] /\
  matches_sampler 0%nat (stream (fun k => k)) 3%nat [5%nat; 6%nat] [8%nat] = ([8%nat; 0%nat; 6%nat; 5%nat], 5%nat).
Proof. split; [discriminate|vm_compute; reflexivity]. Qed.

(** ** C50 *)

(** C50.  The interval: the statistic of samples drawn one after the other
    minus the observed one, sorted; the bounds are the observed one minus
    two of these differences. *)
Theorem c50_definition : forall A C St srt (statistic : C -> outcome (num A)) (sampler : St -> C -> C * St) start original
  reps alpha obs lo up, sort_contract srt ->
  bootstrap_ci A srt statistic sampler start original reps alpha = Ok (obs, lo, up) ->
  statistic original = Ok obs /\
  exists samples diffs sorted li ui dl du,
    length samples = reps /\ drawn sampler original start samples /\
    Forall2 (fun s d => exists v, statistic s = Ok v /\ d = a_sub A v obs) samples diffs /\
    Permutation diffs sorted /\ sorted_by (a_lt A) sorted /\
    ci_li alpha (Z.of_nat reps) = Ok li /\ ci_ui alpha (Z.of_nat reps) = Ok ui /\
    nth_error sorted (Z.to_nat li) = Some dl /\ nth_error sorted (Z.to_nat ui) = Some du /\
    lo = a_sub A obs dl /\ up = a_sub A obs du.
Proof. exact @Bootstrap.ci_definition. Qed.
Print Assumptions c50_definition.

(** C50.  The indices are those of the percentiles 1 - alpha/2 and alpha/2,
    and in range, for alpha above 2^-53 and below 2. *)
Theorem c50_indices : forall alpha reps, usable_level alpha -> (1 <= Z.of_nat reps <= 2 ^ 53)%Z ->
  exists li ui, ci_li alpha (Z.of_nat reps) = Ok (Z.of_nat li) /\ ci_ui alpha (Z.of_nat reps) = Ok (Z.of_nat ui) /\
    percentile_index (rest_level alpha) reps li /\ percentile_index (half_level alpha) reps ui /\
    (li < reps)%nat /\ (ui < reps)%nat.
Proof. exact Bootstrap.half_indices. Qed.
Print Assumptions c50_indices.

(** C50.  Hence the interval exists for these alpha and at least one
    repetition. *)
Theorem c50_safe : forall C St srt (statistic : C -> outcome f64) (sampler : St -> C -> C * St) start original,
  sort_contract srt -> (forall c, exists v, statistic c = Ok v /\ moderate v) ->
  forall reps alpha, usable_level alpha -> (1 <= Z.of_nat reps <= 2 ^ 53)%Z ->
  exists r, bootstrap_ci DArith srt statistic sampler start original reps alpha = Ok r.
Proof. exact @Bootstrap.ci_safe. Qed.
Print Assumptions c50_safe.

(** C50.  For all other alpha, or no repetition, the behaviour is undefined. *)
Theorem c50_unsafe : forall C St srt (statistic : C -> outcome f64) (sampler : St -> C -> C * St) start original,
  sort_contract srt -> (forall c, exists v, statistic c = Ok v /\ moderate v) ->
  forall reps alpha, (Z.of_nat reps <= 2 ^ 53)%Z -> (reps = 0%nat \/ ~ usable_level alpha) ->
  bootstrap_ci DArith srt statistic sampler start original reps alpha = UB.
Proof. exact @Bootstrap.ci_unsafe. Qed.
Print Assumptions c50_unsafe.

(** C50.  The bounds are finite and in order if alpha is at most 1. *)
Theorem c50_order : forall C St srt (statistic : C -> outcome f64) (sampler : St -> C -> C * St) start original,
  sort_contract srt -> (forall c, exists v, statistic c = Ok v /\ moderate v) ->
  forall reps alpha obs lo up, (Z.of_nat reps <= 2 ^ 53)%Z -> B2R alpha <= 1 ->
  bootstrap_ci DArith srt statistic sampler start original reps alpha = Ok (obs, lo, up) ->
  is_finite lo = true /\ is_finite up = true /\ B2R lo <= B2R up.
Proof. exact @Bootstrap.ci_order. Qed.
Print Assumptions c50_order.

(** A sample is a size, the statistic its conversion to double. *)
Example size_stat (n : nat) : outcome f64 := Ok (f64_of_Z (Z.of_nat (n mod 100))).
Example next_size (k n : nat) : nat * nat := ((n + 7 * k) mod 10, S k).
Example c50_case : sort_contract (@isort) /\ (forall c, exists v, size_stat c = Ok v /\ moderate v) /\
  usable_level f64_half /\ B2R f64_half <= 1 /\
  match bootstrap_ci DArith (@isort) size_stat next_size 0%nat 5%nat 10%nat f64_half with
  | Ok (obs, lo, up) => (size_of_f64 obs, size_of_f64 lo, size_of_f64 up) = (Ok 5%Z, Ok 3%Z, Ok 8%Z)
  | _ => False
  end.
Proof.
  split; [apply Order.isort_contract|].
  destruct Double.half64 as [Fh Vh].
  split; [|split; [|split; [change (num DArith) with f64 in *; rewrite Vh; Lra.lra|]]].
  - intros c. exists (f64_of_Z (Z.of_nat (c mod 100))). split; [reflexivity|].
    assert (L : (c mod 100 < 100)%nat) by (apply Nat.mod_upper_bound; discriminate).
    assert (B : IZR (Z.of_nat (c mod 100)) <= bpow radix2 1000).
    { apply Rle_trans with (IZR 100); [apply IZR_le; Lia.lia|].
      apply Rle_trans with (bpow radix2 7); [simpl; Lra.lra|apply bpow_le; Lia.lia]. }
    destruct (FloatFacts.f64_of_Z_exact (Z.of_nat (c mod 100))) as [V F]; [Lia.lia|].
    split; [exact F|]. rewrite V, Rabs_pos_eq; [exact B|apply IZR_le; Lia.lia].
  - split; [exact Fh|]. rewrite Vh. rewrite Bootstrap.u64_R. split; [|Lra.lra].
    apply Rmult_lt_reg_r with (9007199254740992); [Lra.lra|]. rewrite Rinv_l by Lra.lra. Lra.lra.
  - vm_compute. reflexivity.
Qed.

(** ** C51 *)

(** C51.  Sorted by decreasing score, with collapsing and 0/1 errors, the
    statistics of the bootstrap have the plain values on the original. *)
Theorem c51_same : forall RE HE (score : HE -> f32) srt A (T : Trans A), sort_contract srt ->
  forall Q (cq : Cmp Q) (rq : RE -> Q) (hq : HE -> Q) q2g (ms : list (match_t RE HE)) groups,
  total_order cq -> NoDup (map fst q2g) ->
  ranked score ms -> descending score ms -> (forall m, In m ms -> zero_one (m_err m)) ->
  group_matches cq rq hq ms q2g = Ok groups ->
  (forall i t, global_ap_groups A score srt groups true i t true = global_ap A score ms true i t) /\
  global_ndcg_groups A T score srt groups true true = Ok (global_ndcg A T score ms true) /\
  (forall i t, mean_ap A score srt groups true i t true = mean_ap A score srt groups true i t false) /\
  mean_ndcg A T score srt groups true true = mean_ndcg A T score srt groups true false.
Proof. exact @Bootstrap.point_same. Qed.
Print Assumptions c51_same.

(** C51.  Sorted by increasing score the values change. *)
Theorem c51_ascending_refuted : exists (score : Z * bool -> f32) (ms : list (match_t Z (Z * bool))) groups,
  ranked score ms /\ descending score (rev ms) /\ (forall m, In m ms -> zero_one (m_err m)) /\
  group_matches cmp_Z (fun r => r) fst ms [] = Ok groups /\
  global_ap RArith score ms true true true = Ok (/ 2) /\
  forall srt, sort_contract srt ->
    global_ap_groups RArith score srt groups true true true true = Ok 1 /\
    mean_ap RArith score srt groups true true true false = Ok (/ 2) /\
    mean_ap RArith score srt groups true true true true = Ok 1.
Proof. exact Bootstrap.point_ascending_refuted. Qed.
Print Assumptions c51_ascending_refuted.

(** C51.  Without collapsing the values change: gAP already with a stable
    sort, mAP with some sort. *)
Theorem c51_no_collapse_refuted :
  (exists (score : Z * bool -> f32) (ms : list (match_t Z (Z * bool))) groups,
    ranked score ms /\ descending score ms /\ (forall m, In m ms -> zero_one (m_err m)) /\
    group_matches cmp_Z (fun r => r) fst ms [] = Ok groups /\
    global_ap RArith score ms false true true = Ok 1 /\
    global_ap_groups RArith score (@isort) groups false true true true = Ok (5 / 6)) /\
  (exists (score : Z * bool -> f32) (ms : list (match_t Z (Z * bool))) srt groups,
    sort_contract srt /\ ranked score ms /\ descending score ms /\ (forall m, In m ms -> zero_one (m_err m)) /\
    group_matches cmp_Z (fun r => r) fst ms [] = Ok groups /\
    mean_ap RArith score srt groups false true true false = Ok 1 /\
    mean_ap RArith score srt groups false true true true = Ok (/ 2)).
Proof. exact Bootstrap.point_no_collapse_refuted. Qed.
Print Assumptions c51_no_collapse_refuted.

(** Two queries in two groups, in decreasing order with a tie. *)
Example two_groups : list (match_t Z (Z * bool)) :=
  [Bootstrap.hit_of 1 true; Bootstrap.fp_of 2 true; Bootstrap.fp_of 1 false; Bootstrap.hit_of 2 false].
Example c51_case : total_order cmp_Z /\ NoDup (map fst (@nil (Z * Z))) /\
  ranked Bootstrap.bit_score two_groups /\ descending Bootstrap.bit_score two_groups /\
  (forall m, In m two_groups -> zero_one (m_err m)) /\
  obind (group_matches cmp_Z (fun r => r) fst two_groups []) (fun g => Ok (map (map m_hyp) g)) =
    Ok [[Some (1%Z, true); Some (1%Z, false)]; [Some (2%Z, true); Some (2%Z, false)]].
Proof.
  split; [apply Order.total_order_Z|]. split; [constructor|]. split; [apply Bootstrap.bits_ranked|].
  split; [repeat constructor|]. split; [|vm_compute; reflexivity].
  intros m [<-|[<-|[<-|[<-|[]]]]]; auto using Bootstrap.hit_zero_one, Bootstrap.fp_zero_one.
Qed.
