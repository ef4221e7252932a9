(** C46 and C47: the metrics in double arithmetic. *)
From Coq Require Import List Bool ZArith Reals Sorted.
From Flocq Require Import BinarySingleNaN.
From Verif.Model Require Import Cpp Floats Matches Assessment.
From Verif.Spec Require Import Order Objects Matching Collapse Metrics Double.
From Verif.Proofs Require Curves Double.
From Verif.Props Require Import P09_Metrics.
Import ListNotations.
Local Open Scope R_scope.

(** C46.  All precisions and recalls are finite doubles in [0,1], recall never
    decreases and interpolated precision never increases. *)
Theorem c46_bounds : forall RE HE (score : HE -> f32) (l : list (match_t RE HE)) collapse interpolate pr rc,
  (forall m, In m l -> zero_one (m_err m)) -> (Z.of_nat (length l) <= 2 ^ 53)%Z ->
  precision_recall_matches DArith score l collapse interpolate = (pr, rc) ->
  Forall unit_f64 pr /\ Forall unit_f64 rc /\ nondecreasing (map (fun d : f64 => B2R d) rc) /\
  (interpolate = true -> nonincreasing (map (fun d : f64 => B2R d) pr)).
Proof. exact Double.matches_D_bounds. Qed.
Print Assumptions c46_bounds.

(** C46.  Every recall is the double nearest to the exact recall and every
    precision is at most 2^-53 away from the exact one. *)
Theorem c46_error : forall RE HE (score : HE -> f32) (l : list (match_t RE HE)) collapse interpolate pr rc pr' rc',
  (forall m, In m l -> zero_one (m_err m)) -> (Z.of_nat (length l) <= 2 ^ 53)%Z ->
  precision_recall_matches DArith score l collapse interpolate = (pr, rc) ->
  precision_recall_matches RArith score l collapse interpolate = (pr', rc') ->
  Forall2 (within u64) pr pr' /\ Forall2 (fun d r => is_double d (nearest64 r)) rc rc'.
Proof. exact Double.matches_D_error. Qed.
Print Assumptions c46_error.

(** C47.  AP in double is at most n (n + 12) 2^-53 away from the exact AP for
    n matches. *)
Theorem c47_error : forall RE HE (score : HE -> f32) (l : list (match_t RE HE)) collapse interpolate trapezoid,
  (forall m, In m l -> zero_one (m_err m)) -> (Z.of_nat (length l) <= 2 ^ 53)%Z ->
  exists a x, global_ap DArith score l collapse interpolate trapezoid = Ok a /\
    global_ap RArith score l collapse interpolate trapezoid = Ok x /\
    within (INR (length l) * (INR (length l) + 12) * u64) a x.
Proof. exact Double.global_ap_D. Qed.
Print Assumptions c47_error.

(** C47.  Mean AP in double is at most (n (n + 12) + m + 3) 2^-53 away from
    the exact one for m groups of at most n matches. *)
Theorem c47_mean_error : forall RE HE (score : HE -> f32) (srt : sort_fn) n
  (groups : list (list (match_t RE HE))) collapse interpolate trapezoid sort,
  sort_contract srt -> (Z.of_nat n <= 2 ^ 26)%Z -> (Z.of_nat (length groups) <= 2 ^ 52)%Z ->
  (forall g, In g groups -> (length g <= n)%nat /\ (sort = true -> ranked score g) /\
     forall m, In m g -> zero_one (m_err m)) ->
  exists a x, mean_ap DArith score srt groups collapse interpolate trapezoid sort = Ok a /\
    mean_ap RArith score srt groups collapse interpolate trapezoid sort = Ok x /\
    within ((INR n * (INR n + 12) + INR (length groups) + 3) * u64) a x.
Proof. exact Double.mean_ap_error. Qed.
Print Assumptions c47_mean_error.

(** C47.  AP in double can be above 1: with the default options for two hits
    and six false positives below them, and in its plain form for two hits
    and one false positive. *)
Theorem c47_at_most_one_refuted :
  exists (score : nat -> f32) (l l' : list (match_t nat nat)),
    (forall m, In m (l ++ l') -> zero_one (m_err m)) /\
    length l = 8%nat /\ length l' = 3%nat /\
    (exists a x, global_ap DArith score l true true true = Ok a /\
       global_ap RArith score l true true true = Ok x /\ x <= 1 < B2R a) /\
    (exists a x, global_ap DArith score l' false false false = Ok a /\
       global_ap RArith score l' false false false = Ok x /\ x <= 1 < B2R a).
Proof. exact Double.above_one_refuted. Qed.
Print Assumptions c47_at_most_one_refuted.

(** C47.  And below 1 for a perfect ranking of 63 hits. *)
Theorem c47_perfect_is_one_refuted :
  exists (score : nat -> f32) (l : list (match_t nat nat)),
    (forall m, In m l -> zero_one (m_err m)) /\ perfect l /\
    global_ap RArith score l false true true = Ok 1 /\
    exists a, global_ap DArith score l false true true = Ok a /\ B2R a < 1.
Proof. exact Double.below_one_refuted. Qed.
Print Assumptions c47_perfect_is_one_refuted.

(** The ranking of C35 meets the hypotheses: its recalls 1/3 and 2/3 and its
    precisions 1/2 and 2/3 are not all doubles. *)
Example c46_case : (forall m, In m rk -> zero_one (m_err m)) /\ (Z.of_nat (length rk) <= 2 ^ 53)%Z /\
  (let (pr, rc) := precision_recall_matches DArith sc rk false false in
   f64_lt (nth 0 rc f64_half) (nth 2 rc f64_half) && f64_lt (nth 1 pr f64_half) (nth 2 pr f64_half) &&
   f64_lt (nth 2 pr f64_half) (nth 0 pr f64_half)) = true /\
  (forall g, In g [rk; []] -> (length g <= 4)%nat /\ ranked sc g /\ forall m, In m g -> zero_one (m_err m)).
Proof.
  split; [apply c35_case|]. split; [vm_compute; discriminate|]. split; [vm_compute; reflexivity|].
  intros g [<-|[<-|[]]].
  - split; [vm_compute; auto|]. split; [|apply c35_case].
    intros m K. simpl in K. repeat (destruct K as [<-|K]; [reflexivity|]). destruct K.
  - split; [simpl; Lia.lia|]. split; intros m [].
Qed.
