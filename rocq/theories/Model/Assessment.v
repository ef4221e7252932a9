(** Model of /repo/core/Assessment.h and /repo/core/Statistic.h. *)
From Coq Require Import List Bool ZArith.
From Verif.Model Require Import Cpp Floats Events Matches.
Import ListNotations.
Local Open Scope cpp_scope.

(** /repo/core/Assessment.h:42-48, [NumTotalReferences]. *)
Definition num_total_refs (errors : list counts) : nat :=
  fold_left (fun a e => a + ec_nr e) errors 0.

Section Grouping.
  Context {Q RE HE : Type} (cq : Cmp Q) (rq : RE -> Q) (hq : HE -> Q).

  (** /repo/core/Assessment.h:29, the query of a match. *)
  Definition match_query (m : match_t RE HE) : outcome Q :=
    if has_ref m then let* r := get_ref m in Ok (rq r)
    else let* h := get_hyp m in Ok (hq h).

  (** /repo/core/Assessment.h:30-31, the group of a query. *)
  Definition group_of (q2g : list (Q * Q)) (q : Q) : Q :=
    match map_find (c_eq cq) q q2g with Some g => g | None => q end.

  (** /repo/core/Assessment.h:33-38: append [m] to group [pos], or to a new
      last group. *)
  Definition push_at {M} (pos : nat) (m : M) (groups : list (list M)) : list (list M) :=
    if Nat.ltb pos (length groups) then
      firstn pos groups
      ++ match skipn pos groups with
         | [] => []
         | g :: rest => (g ++ [m]) :: rest
         end
    else groups ++ [[m]].

  (** /repo/core/Assessment.h:28-39, one iteration of the loop. *)
  Definition group_step (q2g : list (Q * Q))
    (st : list (Q * nat) * list (list (match_t RE HE))) (m : match_t RE HE)
    : outcome (list (Q * nat) * list (list (match_t RE HE))) :=
    let (g2p, groups) := st in
    let* q := match_query m in
    let g := group_of q2g q in
    let g2p' := map_emplace (c_eq cq) g (length g2p) g2p in
    let pos := match map_find (c_eq cq) g g2p' with Some p => p | None => 0 end in
    Ok (g2p', push_at pos m groups).

  (** /repo/core/Assessment.h:20-40, [GroupMatchesByQueryGroup]. *)
  Definition group_matches (matches : list (match_t RE HE)) (q2g : list (Q * Q))
    : outcome (list (list (match_t RE HE))) :=
    let* r := ofold (group_step q2g) matches ([], []) in
    Ok (snd r).
End Grouping.

Section Collapse.
  Context {RE HE : Type} (score : HE -> f32).

  (** /repo/core/Assessment.h:64-66, the score of a match. *)
  Definition match_score (m : match_t RE HE) : f32 :=
    match m_hyp m with Some h => score h | None => f32_ninf end.

  (** /repo/core/Assessment.h:63-77, the loop, with the last pair of
      [collapsed_matches] kept apart. *)
  Fixpoint collapse_loop (cur : counts) (sc : f32) (l : list (match_t RE HE))
    : list counts :=
    match l with
    | [] => [cur]
    | m :: t =>
        if f32_ne (match_score m) sc
        then cur :: collapse_loop (counts_of (m_err m)) (match_score m) t
        else collapse_loop (counts_add cur (counts_of (m_err m))) sc t
    end.

  (** /repo/core/Assessment.h:60-83, [CollapseMatches]. *)
  Definition collapse_matches (l : list (match_t RE HE)) : list counts :=
    match l with
    | [] => []
    | m :: t => collapse_loop (counts_of (m_err m)) (match_score m) t
    end.

  (** /repo/core/Assessment.h:85-92, [GetMatchErrors]. *)
  Definition get_match_errors (l : list (match_t RE HE)) : list counts :=
    map (fun m => counts_of (m_err m)) l.

  (** /repo/core/Assessment.h:152-159 and 275-279, the choice between the
      two. *)
  Definition points (collapse : bool) (l : list (match_t RE HE)) : list counts :=
    if collapse then collapse_matches l else get_match_errors l.

  (** /repo/core/Assessment.h:98-104, the comparator of
      [SortMatchesDecreasingScore]. *)
  Definition match_before (a b : match_t RE HE) : bool :=
    match m_hyp a, m_hyp b with
    | Some ha, Some hb => f32_lt (score hb) (score ha)
    | Some _, None => true
    | None, _ => false
    end.

  (** /repo/core/Assessment.h:94-105, [SortMatchesDecreasingScore]. *)
  Definition sort_matches (srt : sort_fn) (l : list (match_t RE HE))
    : outcome (list (match_t RE HE)) :=
    std_sort srt match_before l.
End Collapse.

Section Metrics.
  Context (A : Arith).
  Notation Num := (num A).

  (** The literals [0.0] and [1.0]. *)
  Definition a0 : Num := a_nat A 0.
  (** See [a0]. *)
  Definition a1 : Num := a_nat A 1.

  (** [std::max]. *)
  Definition a_max (a b : Num) : Num := if a_lt A a b then b else a.

  (** /repo/core/Assessment.h:129, the precision. *)
  Definition precision_of (sumNH : nat) (sumFP : Num) : Num :=
    if Nat.ltb 0 sumNH then a_sub A a1 (a_div A sumFP (a_nat A sumNH)) else a1.

  (** /repo/core/Assessment.h:133, the recall. *)
  Definition recall_of (TR sumNR : nat) (sumFN : Num) : Num :=
    if Nat.ltb 0 TR then a_div A (a_sub A (a_nat A sumNR) sumFN) (a_nat A TR) else a1.

  (** /repo/core/Assessment.h:121-136, the loop. *)
  Fixpoint pr_loop (TR sumNR sumNH : nat) (sumFP sumFN : Num) (errors : list counts)
    : list (Num * Num) :=
    match errors with
    | [] => []
    | e :: t =>
        let sumNR := sumNR + ec_nr e in
        let sumNH := sumNH + ec_nh e in
        let sumFP := a_add A sumFP (a_f32 A (ec_fp e)) in
        let sumFN := a_add A sumFN (a_f32 A (ec_fn e)) in
        (precision_of sumNH sumFP, recall_of TR sumNR sumFN)
          :: pr_loop TR sumNR sumNH sumFP sumFN t
    end.

  (** /repo/core/Assessment.h:137-141, the backward maximum. *)
  Fixpoint interp (pr : list Num) : list Num :=
    match pr with
    | [] => []
    | p :: t =>
        match interp t with
        | [] => [p]
        | q :: t' => a_max p q :: q :: t'
        end
    end.

  (** /repo/core/Assessment.h:108-142, [ComputePrecisionAndRecall] on errors:
      the vectors [pr] and [rc]. *)
  Definition precision_recall (errors : list counts) (interpolate : bool)
    : list Num * list Num :=
    let l := pr_loop (num_total_refs errors) 0 0 a0 a0 errors in
    let pr := map fst l in
    (if interpolate then interp pr else pr, map snd l).

  (** /repo/core/Assessment.h:174 and 189, [trapezoid && i > 0 ? 0.5 *
      (pr[i] + pr[i - 1]) : pr[i]]; [prev] is [pr[i - 1]] if [i > 0]. *)
  Definition height (trapezoid : bool) (prev : option Num) (p : Num) : Num :=
    match prev with
    | Some q => if trapezoid then a_mul A (a_half A) (a_add A p q) else p
    | None => p
    end.

  (** /repo/core/Assessment.h:172-175, the loop. *)
  Fixpoint ap_errors_loop (trapezoid : bool) (prev : option Num) (sum : Num)
    (errors : list counts) (pr : list Num) : Num :=
    match errors, pr with
    | e :: et, p :: pt =>
        let tp := a_f32 A (f32_sub (f32_of_Z (Z.of_nat (ec_nh e))) (ec_fp e)) in
        ap_errors_loop trapezoid (Some p)
          (a_add A sum (a_mul A tp (height trapezoid prev p))) et pt
    | _, _ => sum
    end.

  (** /repo/core/Assessment.h:162-178, [ComputeAP] on errors.  Vectors of
      different lengths violate the assertion of line 168: [UB]. *)
  Definition ap_errors (errors : list counts) (pr : list Num) (trapezoid : bool)
    : outcome Num :=
    if Nat.eqb (length pr) (length errors) then
      let TR := num_total_refs errors in
      let sum := ap_errors_loop trapezoid None a0 errors pr in
      Ok (if Nat.ltb 0 TR then a_div A sum (a_nat A TR) else a0)
    else UB.

  (** /repo/core/Assessment.h:187-190, the first loop. *)
  Fixpoint ap1_loop (trapezoid : bool) (prev : option Num) (sum : Num)
    (pr rc : list Num) : Num :=
    match pr, rc with
    | p :: pt, r :: rt =>
        ap1_loop trapezoid (Some p)
          (a_add A sum (a_mul A r (height trapezoid prev p))) pt rt
    | _, _ => sum
    end.

  (** /repo/core/Assessment.h:191-194, the second loop, over [i >= 1]; the
      arguments [q] and [s] are [pr[i - 1]] and [rc[i - 1]]. *)
  Fixpoint ap2_loop (trapezoid : bool) (q s : Num) (sum : Num) (pr rc : list Num) : Num :=
    match pr, rc with
    | p :: pt, r :: rt =>
        ap2_loop trapezoid p r
          (a_add A sum (a_mul A s (height trapezoid (Some q) p))) pt rt
    | _, _ => sum
    end.

  (** /repo/core/Assessment.h:183-196, [ComputeAP] on curves.  Vectors of
      different lengths violate the assertion of line 186: [UB]. *)
  Definition ap_curves (pr rc : list Num) (trapezoid : bool) : outcome Num :=
    if Nat.eqb (length pr) (length rc) then
      let AP1 := ap1_loop trapezoid None a0 pr rc in
      let AP2 := match pr, rc with
                 | p :: pt, r :: rt => ap2_loop trapezoid p r a0 pt rt
                 | _, _ => a0
                 end in
      Ok (a_sub A AP1 AP2)
    else UB.

  Context (T : Trans A).

  (** /repo/core/Assessment.h:208-210, the inner loop: [n] more terms. *)
  Fixpoint dcg_inner (r : Num) (n i : nat) (dcg : Num) : Num :=
    match n with
    | O => dcg
    | S n' =>
        dcg_inner r n' (S i)
          (a_add A dcg (a_div A (a_sub A (t_exp2 T r) a1) (t_log2 T (i + 1))))
    end.

  (** /repo/core/Assessment.h:205-212, the outer loop.  [1 - FP / NH] is
      computed in [float]. *)
  Fixpoint dcg_loop (i : nat) (dcg : Num) (errors : list counts) : Num :=
    match errors with
    | [] => dcg
    | e :: t =>
        if Nat.ltb 0 (ec_nh e) then
          let r := a_f32 A (f32_sub f32_1
                     (f32_div (ec_fp e) (f32_of_Z (Z.of_nat (ec_nh e))))) in
          dcg_loop (i + ec_nh e) (dcg_inner r (ec_nh e) i dcg) t
        else dcg_loop i dcg t
    end.

  (** /repo/core/Assessment.h:214-217, the normalisation: terms [j], [j+1],
      ... , [n] of them. *)
  Fixpoint z_loop (n j : nat) (z : Num) : Num :=
    match n with
    | O => z
    | S n' => z_loop n' (S j) (a_add A z (a_div A a1 (t_log2 T (j + 1))))
    end.

  (** /repo/core/Assessment.h:198-222, [ComputeNDCG]. *)
  Definition ndcg (errors : list counts) : Num :=
    let TR := num_total_refs errors in
    if Nat.ltb 0 TR then
      a_div A (dcg_loop 1 a0 errors) (z_loop TR 1 a0)
    else a0.

  Context {RE HE : Type} (score : HE -> f32).
  Notation M := (match_t RE HE).

  (** /repo/core/Assessment.h:145-160, [ComputePrecisionAndRecall] on
      matches. *)
  Definition precision_recall_matches (matches : list M) (collapse interpolate : bool)
    : list Num * list Num :=
    precision_recall (points score collapse matches) interpolate.

  (** /repo/core/Assessment.h:224-232, [ComputeGlobalAP] on a list. *)
  Definition global_ap (matches : list M) (collapse interpolate trapezoid : bool)
    : outcome Num :=
    let (pr, rc) := precision_recall_matches matches collapse interpolate in
    ap_curves pr rc trapezoid.

  (** Optional sorting, e.g. /repo/core/Assessment.h:246. *)
  Definition maybe_sort (srt : sort_fn) (sort : bool) (l : list M) : outcome (list M) :=
    if sort then sort_matches score srt l else Ok l.

  (** /repo/core/Assessment.h:234-252, [ComputeGlobalAP] on groups. *)
  Definition global_ap_groups (srt : sort_fn) (groups : list (list M))
    (collapse interpolate trapezoid sort : bool) : outcome Num :=
    let* all := maybe_sort srt sort (concat groups) in
    global_ap all collapse interpolate trapezoid.

  (** /repo/core/Assessment.h:269 and 315, the final division. *)
  Definition mean_of (sum : Num) (n : nat) : Num :=
    if Nat.ltb 0 n then a_div A sum (a_nat A n) else a0.

  (** /repo/core/Assessment.h:254-270, [ComputeMeanAP]. *)
  Definition mean_ap (srt : sort_fn) (groups : list (list M))
    (collapse interpolate trapezoid sort : bool) : outcome Num :=
    let* sum := ofold (fun s g =>
        let* g' := maybe_sort srt sort g in
        let* ap := global_ap g' collapse interpolate trapezoid in
        Ok (a_add A s ap)) groups a0 in
    Ok (mean_of sum (length groups)).

  (** /repo/core/Assessment.h:272-280, [ComputeGlobalNDCG] on a list. *)
  Definition global_ndcg (matches : list M) (collapse : bool) : Num :=
    ndcg (points score collapse matches).

  (** /repo/core/Assessment.h:282-299, [ComputeGlobalNDCG] on groups. *)
  Definition global_ndcg_groups (srt : sort_fn) (groups : list (list M))
    (collapse sort : bool) : outcome Num :=
    let* all := maybe_sort srt sort (concat groups) in
    Ok (global_ndcg all collapse).

  (** /repo/core/Assessment.h:301-316, [ComputeMeanNDCG]. *)
  Definition mean_ndcg (srt : sort_fn) (groups : list (list M)) (collapse sort : bool)
    : outcome Num :=
    let* sum := ofold (fun s g =>
        let* g' := maybe_sort srt sort g in
        Ok (a_add A s (global_ndcg g' collapse))) groups a0 in
    Ok (mean_of sum (length groups)).

  (** /repo/core/Assessment.h:325, [for (; j < src_x.size() && src_x[j] <
      dst_x[i]; ++j) {}]: the number of steps from a given suffix. *)
  Fixpoint count_lt (x : Num) (l : list Num) : nat :=
    match l with
    | [] => 0
    | a :: t => if a_lt A a x then S (count_lt x t) else 0
    end.

  (** Element access [v[i]]: out of range is undefined behaviour. *)
  Definition at_ {X} (l : list X) (i : nat) : outcome X :=
    match nth_error l i with Some x => Ok x | None => UB end.

  (** /repo/core/Assessment.h:324-336, the loop. *)
  Fixpoint sample_loop (src_x src_y : list Num) (linear : bool) (j : nat) (dst_x : list Num)
    : outcome (list Num) :=
    match dst_x with
    | [] => Ok []
    | x :: rest =>
        let j := j + count_lt x (skipn j src_x) in
        let* y :=
          (if Nat.eqb j (length src_x) then Ok a0
           else if negb linear || Nat.eqb j 0 then at_ src_y j
           else
             let* xj := at_ src_x j in
             let* xp := at_ src_x (j - 1) in
             let w0 := a_sub A xj x in
             let w1 := a_sub A x xp in
             let t := a_div A w0 (a_add A w0 w1) in
             let* yp := at_ src_y (j - 1) in
             let* yj := at_ src_y j in
             Ok (a_add A (a_mul A t yp) (a_mul A (a_sub A a1 t) yj))) in
        let* ys := sample_loop src_x src_y linear j rest in
        Ok (y :: ys)
    end.

  (** /repo/core/Assessment.h:318-337, [SampleCurveAtGivenPoints]. *)
  Definition sample_curve (src_x src_y dst_x : list Num) (linear : bool)
    : outcome (list Num) :=
    sample_loop src_x src_y linear 0 dst_x.

  (** /repo/core/Assessment.h:339-348, [GetEvenlyDistributedPoints01Interval]. *)
  Definition even_points (n : nat) : list Num :=
    if Nat.ltb 1 n then
      map (fun k => a_div A (a_nat A k) (a_nat A (n - 1))) (seq 0 n)
    else [].

  (** /repo/core/Assessment.h:350-369, [WriteCurveToFile]: the lines written
      (the text formatting of numbers is not modelled).  [can_open] tells
      whether the file can be opened for writing. *)
  Definition write_curve (can_open : bytes -> bool) (filename : bytes) (x y : list Num)
    : outcome (list (Num * Num)) :=
    match filename with
    | [] => Throw InvalidArgument
    | _ =>
        if Nat.eqb (length x) (length y) then
          if can_open filename then Ok (combine x y) else Throw IosFailure
        else Throw InvalidArgument
    end.
End Metrics.
