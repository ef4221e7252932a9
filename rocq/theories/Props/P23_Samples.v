(** C83-C84: NDCG in double arithmetic, and runs with confidence intervals. *)
From Coq Require Import Ascii String List Bool ZArith QArith Reals Lra Lia.
From Flocq Require Import Core BinarySingleNaN.
From Verif.Model Require Import Cpp Floats Events EventSets Matches Matcher Scorers Assessment Bootstrap Mapper Stream
  Reader Options Tool Text.
From Verif.Spec Require Import Order Matching Grouping Collapse Metrics Curves Double Bootstrap Reader Options Gain Tool
  Results Libm Samples.
From Verif.Proofs Require Order FloatFacts Finish Evaluation Instances Compute Results Gain Printed Bootstrap GainD Samples AveragePrecision Double.
From Verif.Props Require Import P17_Tool P18_Results.
Import ListNotations.
Local Open Scope string_scope.
Local Open Scope list_scope.

(** ** C83 *)

(** C83.  With 0/1 errors, the NDCG computed in double arithmetic from n
    matches is at most 3 n (n + 12) 2^-53 away from the specified one, which
    lies in [0,1]. *)
Theorem c83_global : forall RE HE (score : HE -> f32) T c (l : list (match_t RE HE)) n, accurate T ->
  n = List.length l -> (Z.of_nat n <= 2 ^ 25)%Z -> (forall m, In m l -> zero_one (m_err m)) ->
  (c = true -> ranked score l /\ (Z.of_nat n <= 2 ^ 19)%Z) ->
  exists v, ndcg_is score c l v /\ in01 v /\
    within (3 * INR n * (INR n + 12) * u64) (global_ndcg DArith T score l c) v.
Proof.
  intros RE HE score T c l n HT -> Ln Z H. exists (global_ndcg RArith RTrans score l c). split; [|split].
  - apply Gain.ndcg_spec; [exact Z|]. intros C. destruct (H C). split; [assumption|]. lia.
  - exact (GainD.global_exact_01 score c l Z H).
  - exact (GainD.global_ndcg_D score T HT c l Z H Ln).
Qed.
Print Assumptions c83_global.

(** C83.  It is a finite number and not negative, for up to 2^51 matches. *)
Theorem c83_finite : forall RE HE (score : HE -> f32) T c (l : list (match_t RE HE)), accurate T ->
  (Z.of_nat (List.length l) <= 2 ^ 51)%Z -> (forall m, In m l -> zero_one (m_err m)) ->
  is_finite (global_ndcg DArith T score l c : f64) = true /\ (0 <= B2R (global_ndcg DArith T score l c : f64))%R.
Proof.
  intros RE HE score T c l HT L Z. destruct (GainD.global_moderate score T HT c l Z L) as [A [B _]]. auto.
Qed.
Print Assumptions c83_finite.

(** C83.  The mean over groups of at most n matches, sorted or not, is at most
    (3 n (n + 12) + k + 3) 2^-53 away from the exact one, for k groups. *)
Theorem c83_mean : forall RE HE (score : HE -> f32) srt T c sort (groups : list (list (match_t RE HE))) n,
  sort_contract srt -> accurate T -> (Z.of_nat n <= 2 ^ 25)%Z -> (Z.of_nat (List.length groups) <= 2 ^ 52)%Z ->
  (forall g, In g groups -> (List.length g <= n)%nat /\ (forall m, In m g -> zero_one (m_err m)) /\
     (sort = true -> ranked score g) /\ (c = true -> ranked score g /\ (Z.of_nat (List.length g) <= 2 ^ 19)%Z)) ->
  exists a x, mean_ndcg DArith T score srt groups c sort = Ok a /\
    mean_ndcg RArith RTrans score srt groups c sort = Ok x /\
    within ((3 * INR n * (INR n + 12) + INR (List.length groups) + 3) * u64) a x.
Proof.
  intros RE HE score srt T c sort groups n Hs HT Ln Lg H.
  apply (GainD.mean_ndcg_D score srt Hs T HT n c sort groups Ln Lg).
  intros g I. destruct (H g I) as (A & B & C & D). split; [|exact D]. split; [exact A|split; [exact C|exact B]].
Qed.
Print Assumptions c83_mean.

Lemma printed_gain {RE E} (T : Trans DArith) (HT : accurate T) srt (Hs : sort_contract srt) c
  (ms : list (match_t RE (scored E))) groups n (d3 d4 : f64) :
  (forall m, In m ms -> zero_one (m_err m)) -> (cf_collapse c = true -> ranked sc_score ms /\ (Z.of_nat n <= 2 ^ 19)%Z) ->
  (forall g, In g groups -> (forall m, In m g -> In m ms) /\ (List.length g <= n)%nat) ->
  (List.length ms <= n)%nat -> (List.length groups <= n)%nat -> (Z.of_nat n <= 2 ^ 25)%Z ->
  d3 = global_ndcg DArith T sc_score ms (cf_collapse c) ->
  mean_ndcg DArith T sc_score srt groups (cf_collapse c) false = Ok d4 ->
  exists v3 v4, ndcg_is sc_score (cf_collapse c) ms v3 /\
    (exists vs, Forall2 (ndcg_is sc_score (cf_collapse c)) groups vs /\ is_mean vs v4) /\
    within (3 * INR n * (INR n + 12) * u64) d3 v3 /\ within ((3 * INR n * (INR n + 13) + 3) * u64) d4 v4.
Proof.
  intros Z Rk Gi Lm Ls Ln -> D4.
  destruct (c83_global RE (scored E) sc_score T (cf_collapse c) ms _ HT eq_refl) as (v3 & S3 & _ & W3); [lia|exact Z| |].
  { intros C. destruct (Rk C). split; [assumption|lia]. }
  assert (Gz : forall g, In g groups -> (forall m, In m g -> zero_one (m_err m)) /\
     (cf_collapse c = true -> ranked sc_score g /\ (Z.of_nat (List.length g) <= 2 ^ 19)%Z)).
  { intros g I. destruct (Gi g I) as [J Lg]. split; [auto|]. intros C. destruct (Rk C) as [R1 R2].
    split; [intros m K; apply R1, J, K|lia]. }
  destruct (c83_mean RE (scored E) sc_score srt T (cf_collapse c) false groups n Hs HT Ln) as (a & x & A & X & W4); [lia| |].
  { intros g I. destruct (Gz g I) as [G1 G2]. split; [apply Gi, I|]. split; [exact G1|]. split; [discriminate|exact G2]. }
  rewrite D4 in A. injection A as <-.
  exists v3, x. split; [exact S3|]. split.
  { apply (Gain.mean_ndcg_means sc_score srt groups (cf_collapse c) x); [|exact X].
    intros g I. destruct (Gz g I) as [G1 G2]. split; [exact G1|]. intros C. destruct (G2 C). split; [assumption|lia]. }
  assert (P := pos_INR (List.length ms)). assert (Q1 := le_INR _ _ Lm). assert (Q2 := le_INR _ _ Ls).
  assert (P2 := pos_INR (List.length groups)).
  assert (U : (0 < u64)%R) by apply bpow_gt_0.
  split.
  - destruct W3 as [F1 B1]. split; [exact F1|]. eapply Rle_trans; [exact B1|]. apply Rmult_le_compat_r; [lra|]. nra.
  - destruct W4 as [F1 B1]. split; [exact F1|]. eapply Rle_trans; [exact B1|]. apply Rmult_le_compat_r; [lra|]. nra.
Qed.

(** C83.  The NDCG and mean NDCG Icdar17KwsEval prints, without intervals, for
    n references and hypotheses. *)
Theorem c83_icdar17 : forall T srt rngs show_int show_f64 w pn args c refs hyps f l r n, sort_contract srt -> accurate T ->
  command args c -> no_bootstrap c -> inputs shaped_text scored_shaped_text w c refs hyps f ->
  n = (List.length refs + List.length hyps)%nat -> (Z.of_nat n <= 2 ^ 25)%Z -> (cf_collapse c = true -> (Z.of_nat n <= 2 ^ 19)%Z) ->
  icdar17 DArith T srt rngs show_int show_f64 w pn args = (l, r) ->
  exists ms log groups d1 d2 d3 d4 v3 v4, icdar17_evaluation (cf_sort c) f refs hyps ms log groups /\
    printed l = [(lit "gAP", d1); (lit "mAP", d2); (lit "gNDCG", d3); (lit "mNDCG", d4)] /\
    ndcg_is sc_score (cf_collapse c) ms v3 /\
    (exists vs, Forall2 (ndcg_is sc_score (cf_collapse c)) groups vs /\ is_mean vs v4) /\
    within (3 * INR n * (INR n + 12) * u64) d3 v3 /\ within ((3 * INR n * (INR n + 13) + 3) * u64) d4 v4.
Proof.
  intros T srt rngs si sf w pn args c refs hyps f l r n Hs HT Cm NB I En Ln Lc E.
  destruct (Instances.icdar_run T srt Hs rngs si sf w pn args c refs hyps f l r Cm NB I E) as (ms & log & gs & Fi & Ev & Rp).
  destruct (Printed.icdar_fine srt c _ _ _ _ _ _ _ Hs Fi Ev) as (Fm & Fg & Lm & _).
  { intros C. specialize (Lc C). lia. }
  destruct (Printed.reported_printed T srt w c ms log gs l r Rp) as (d1 & d2 & d4 & D1 & D2 & D4 & P).
  assert (Gl : (List.length gs <= List.length ms)%nat)
    by exact (Printed.groups_length _ _ _ _ _ (Printed.icdar_grouping _ _ _ _ _ _ _ Ev)).
  destruct (printed_gain T HT srt Hs c ms gs n (global_ndcg DArith T sc_score ms (cf_collapse c)) d4)
    as (v3 & v4 & S3 & S4 & W3 & W4); try lia; try reflexivity; try exact D4.
  - apply Fm.
  - intros C. split; [apply Fm, C|auto].
  - intros g K. destruct (Evaluation.eval_group_in _ _ _ _ _ _ _ _ _ _ _ _ _ Ev g K) as [_ Sg].
    assert (L := Printed.sublist_length _ _ Sg). split; [exact (Evaluation.sublist_in g ms Sg)|lia].
  - exists ms, log, gs, d1, d2. eexists. exists d4, v3, v4. split; [exact Ev|]. split; [exact P|]. auto.
Qed.
Print Assumptions c83_icdar17.

(** C83.  The same for SimpleKwsEval, in terms of strings. *)
Theorem c83_simple : forall T srt rngs show_int show_f64 qf w pn args c refs hyps f l r n, sort_contract srt -> accurate T ->
  command args c -> no_bootstrap c -> inputs str_event_text scored_str_event_text w c refs hyps f ->
  (Z.of_nat (strings refs hyps f) <= 2147483648)%Z ->
  n = (List.length refs + List.length hyps)%nat -> (Z.of_nat n <= 2 ^ 25)%Z -> (cf_collapse c = true -> (Z.of_nat n <= 2 ^ 19)%Z) ->
  simple_kws DArith T srt rngs show_int show_f64 qf w pn args = (l, r) ->
  exists id ms log groups d1 d2 d3 d4 v3 v4, (forall s s', id s = id s' -> s = s') /\
    simple_evaluation id (cf_sort c) f refs hyps ms log groups /\
    printed l = [(lit "gAP", d1); (lit "mAP", d2); (lit "gNDCG", d3); (lit "mNDCG", d4)] /\
    ndcg_is sc_score (cf_collapse c) ms v3 /\
    (exists vs, Forall2 (ndcg_is sc_score (cf_collapse c)) groups vs /\ is_mean vs v4) /\
    within (3 * INR n * (INR n + 12) * u64) d3 v3 /\ within ((3 * INR n * (INR n + 13) + 3) * u64) d4 v4.
Proof.
  intros T srt rngs si sf qf w pn args c refs hyps f l r n Hs HT Cm NB I Lk En Ln Lc E.
  destruct (Instances.simple_run T srt Hs rngs si sf w qf pn args c refs hyps f l r Cm NB I E Lk) as (id & ms & log & gs & Inj & Fi & Ev & Rp).
  destruct (Printed.simple_fine id c _ _ _ _ _ _ _ Inj Fi Ev) as (Fm & Fg & Lm & _).
  { intros C. specialize (Lc C). lia. }
  destruct (Printed.simple_printed id T srt w c ms log gs l r Rp) as (d1 & d2 & d4 & D1 & D2 & D4 & P).
  assert (Gl : (List.length gs <= List.length ms)%nat)
    by exact (Printed.groups_length _ _ _ _ _ (Printed.simple_grouping _ _ _ _ _ _ _ _ Ev)).
  destruct (printed_gain T HT srt Hs c ms gs n (global_ndcg DArith T sc_score ms (cf_collapse c)) d4)
    as (v3 & v4 & S3 & S4 & W3 & W4); try lia; try reflexivity; try exact D4.
  - apply Fm.
  - intros C. split; [apply Fm, C|auto].
  - intros g K. destruct (Evaluation.eval_group_in _ (Results.by_id id) _ _ _ _ _ _ _ _ _ _ _ Ev g K) as [_ Sg].
    assert (L := Printed.sublist_length _ _ Sg). split; [exact (Evaluation.sublist_in g ms Sg)|lia].
  - exists id, ms, log, gs, d1, d2. eexists. exists d4, v3, v4. split; [exact Inj|]. split; [exact Ev|]. split; [exact P|]. auto.
Qed.
Print Assumptions c83_simple.

(** A library that rounds correctly is accurate, and the files of the examples
    can be evaluated with it. *)
Example c83_case : accurate GainD.ideal_libm /\ exists c refs hyps,
  command (map lit ["r"; "h"]) c /\ no_bootstrap c /\ inputs shaped_text scored_shaped_text here c refs hyps NoQueries /\
  List.length refs = 6%nat /\ List.length hyps = 7%nat /\ cf_collapse c = true.
Proof.
  split; [exact GainD.ideal_accurate|].
  destruct (Compute.config_for (map lit ["r"; "h"])) as [c|] eqn:Ec; [|vm_compute in Ec; discriminate].
  exists c. assert (C := Compute.config_for_ok _ _ Ec).
  assert (X : match Compute.config_for (map lit ["r"; "h"]) with
    | Some c => match Compute.icdar_inputs here c with
                | Some (rs, hs, NoQueries) => (cf_ci_gap c || cf_ci_map c || cf_ci_gndcg c || cf_ci_mndcg c, List.length rs, List.length hs, cf_collapse c)
                | _ => (true, O, O, false) end
    | None => (true, O, O, false) end = (false, 6%nat, 7%nat, true)) by (vm_compute; reflexivity).
  rewrite Ec in X. destruct (Compute.icdar_inputs here c) as [[[rs hs] [| |]]|] eqn:I; try discriminate.
  injection X as X1 X2 X3 X4. exists rs, hs. split; [exact C|].
  apply orb_false_iff in X1 as [X1 Y4]. apply orb_false_iff in X1 as [X1 Y3]. apply orb_false_iff in X1 as [Y1 Y2].
  split; [repeat split; assumption|]. split; [exact (Compute.icdar_inputs_ok _ _ _ _ _ I)|]. auto.
Qed.

(** ** C84 *)

(** C84.  With usable options Icdar17KwsEval prints the four statistics, each
    with its interval if asked for, and ends with status 0 or the exception
    about a curve that cannot be written. *)
Theorem c84_icdar17 : forall T srt rngs show_int show_f64 w pn args c refs hyps f l r, sort_contract srt -> accurate T ->
  command args c -> inputs shaped_text scored_shaped_text w c refs hyps f ->
  (Z.of_nat (List.length refs + List.length hyps) <= 2 ^ 25)%Z -> (cf_samples c <= 2 ^ 53)%Z ->
  (bootstraps c -> usable_options c) ->
  icdar17 DArith T srt rngs show_int show_f64 w pn args = (l, r) ->
  exists ms log groups v1 v2 v3 v4 i1 i2 i3 i4 curves e, r = inr e /\
    icdar17_evaluation (cf_sort c) f refs hyps ms log groups /\
    all_measured T srt (rngs (cf_seed c)) c ms groups v1 v2 v3 v4 i1 i2 i3 i4 /\
    outputs l = dumped c ms log ++ four_lines v1 v2 v3 v4 i1 i2 i3 i4 ++ curves /\
    curve_files w c (sampled (cf_curve c)) (sampled (cf_curve c)) curves e.
Proof.
  intros T srt rngs si sf w pn args c refs hyps f l r Hs HT Cm I Ln Sm U E.
  destruct (Instances.icdar_reach T srt Hs rngs si sf w pn args c refs hyps f l r Cm I E) as (ms & log & gs & Fi & Ev & Rc).
  destruct (Samples.icdar_groups srt _ _ _ _ _ _ _ Hs Fi Ev) as [G1 G2].
  destruct (Samples.reached_measured T HT srt Hs rngs cmp_str ev_query ev_query w c ms log gs _ (fun g K => proj1 (G1 g K))
    (fun g K => proj2 (G1 g K)) G2 Ln Sm (in_dump _ _ _ _ _ _ _ I) l r Rc U)
    as (v1 & v2 & v3 & v4 & i1 & i2 & i3 & i4 & cs & e & Er & A & O & C).
  exists ms, log, gs, v1, v2, v3, v4, i1, i2, i3, i4, cs, e. split; [exact Er|]. split; [exact Ev|]. split; [exact A|].
  split; [exact O|]. revert C. apply Printed.curve_files_weaken.
  - intros _ _ pts H. apply (Printed.global_sampled c ms pts H).
  - intros _ _ pts H. apply (Printed.mean_sampled w c gs pts H).
Qed.
Print Assumptions c84_icdar17.

(** C84.  The same for SimpleKwsEval; its groups are groups of matches of
    ids. *)
Theorem c84_simple : forall T srt rngs show_int show_f64 qf w pn args c refs hyps f l r, sort_contract srt -> accurate T ->
  command args c -> inputs str_event_text scored_str_event_text w c refs hyps f ->
  (Z.of_nat (strings refs hyps f) <= 2147483648)%Z ->
  (Z.of_nat (List.length refs + List.length hyps) <= 2 ^ 25)%Z -> (cf_samples c <= 2 ^ 53)%Z ->
  (bootstraps c -> usable_options c) ->
  simple_kws DArith T srt rngs show_int show_f64 qf w pn args = (l, r) ->
  exists id ms log groups v1 v2 v3 v4 i1 i2 i3 i4 curves e, r = inr e /\ (forall s s', id s = id s' -> s = s') /\
    simple_evaluation id (cf_sort c) f refs hyps ms log groups /\
    all_measured T srt (rngs (cf_seed c)) c (map (renamed_match id) ms) (map (map (renamed_match id)) groups) v1 v2 v3 v4 i1 i2 i3 i4 /\
    outputs l = dumped c (map (renamed_match id) ms) (map (renamed_match id) log) ++ four_lines v1 v2 v3 v4 i1 i2 i3 i4 ++ curves /\
    curve_files w c (sampled (cf_curve c)) (sampled (cf_curve c)) curves e.
Proof.
  intros T srt rngs si sf qf w pn args c refs hyps f l r Hs HT Cm I Lk Ln Sm U E.
  destruct (Instances.simple_reach T srt Hs rngs si sf w qf pn args c refs hyps f l r Cm I E Lk) as (id & ms & log & gs & Inj & Fi & Ev & Rc).
  destruct (Samples.simple_groups id _ _ _ _ _ _ _ Inj Fi Ev) as [G1 G2].
  destruct (Samples.reached_measured T HT srt Hs rngs cmp_Z ev_query ev_query w c _ _ _ _ (fun g K => proj1 (G1 g K))
    (fun g K => proj2 (G1 g K)) G2 Ln Sm (in_dump _ _ _ _ _ _ _ I) l r Rc U)
    as (v1 & v2 & v3 & v4 & i1 & i2 & i3 & i4 & cs & e & Er & A & O & C).
  exists id, ms, log, gs, v1, v2, v3, v4, i1, i2, i3, i4, cs, e. split; [exact Er|]. split; [exact Inj|]. split; [exact Ev|].
  split; [exact A|]. split; [exact O|]. revert C. apply Printed.curve_files_weaken.
  - intros _ _ pts H. apply (Printed.global_sampled c _ pts H).
  - intros _ _ pts H. apply (Printed.mean_sampled w c _ pts H).
Qed.
Print Assumptions c84_simple.

Lemma options_decided c : (bootstraps c /\ ~ usable_options c) \/ (bootstraps c -> usable_options c).
Proof.
  unfold bootstraps, usable_options, usable_level.
  destruct (cf_ci_gap c), (cf_ci_map c), (cf_ci_gndcg c), (cf_ci_mndcg c);
  try (right; intros [?|[?|[?|?]]]; discriminate);
  (destruct (is_finite (cf_alpha c)); [|left; split; [auto|intros [[? _] _]; discriminate]];
   destruct (Rlt_dec u64 (B2R (cf_alpha c))); [|left; split; [auto|tauto]];
   destruct (Rlt_dec (B2R (cf_alpha c)) 2); [|left; split; [auto|tauto]];
   destruct (Z_le_dec 1 (cf_samples c)); [right; tauto|left; split; [auto|tauto]]).
Qed.

(** C84.  On good inputs Icdar17KwsEval reaches undefined behaviour exactly if
    an interval is asked for and the options cannot be used. *)
Theorem c84_undefined : forall T srt rngs show_int show_f64 w pn args c refs hyps f l r, sort_contract srt -> accurate T ->
  command args c -> inputs shaped_text scored_shaped_text w c refs hyps f ->
  (Z.of_nat (List.length refs + List.length hyps) <= 2 ^ 25)%Z -> (cf_samples c <= 2 ^ 53)%Z ->
  icdar17 DArith T srt rngs show_int show_f64 w pn args = (l, r) ->
  (r = inr FUB <-> bootstraps c /\ ~ usable_options c) /\
  (r = inr (FExit 0) \/ r = inr FUB \/
   r = inr (FThrow IosFailure) /\
     ((cf_grp c <> [] /\ w_writable w (cf_grp c) = false) \/ (cf_mrp c <> [] /\ w_writable w (cf_mrp c) = false))).
Proof.
  intros T srt rngs si sf w pn args c refs hyps f l r Hs HT Cm I Ln Sm E.
  destruct (options_decided c) as [[B U]|U].
  - assert (r = inr FUB) as ->; [|tauto].
    destruct (Instances.icdar_reach T srt Hs rngs si sf w pn args c refs hyps f l r Cm I E) as (ms & log & gs & Fi & Ev & Rc).
    destruct (Samples.icdar_groups srt _ _ _ _ _ _ _ Hs Fi Ev) as [G1 G2].
    exact (Samples.reached_undefined T HT srt Hs rngs cmp_str ev_query ev_query w c ms log gs _ (fun g K => proj1 (G1 g K))
      (fun g K => proj2 (G1 g K)) G2 Ln Sm (in_dump _ _ _ _ _ _ _ I) l r Rc B U).
  - destruct (c84_icdar17 T srt rngs si sf w pn args c refs hyps f l r Hs HT Cm I Ln Sm U E)
      as (ms & log & gs & v1 & v2 & v3 & v4 & i1 & i2 & i3 & i4 & cs & e & -> & _ & _ & _ & C).
    destruct (Samples.curve_end _ _ _ _ _ _ C) as [[->| ->] K].
    + split; [|auto]. split; [discriminate|]. intros [B N]. tauto.
    + split; [|tauto]. split; [discriminate|]. intros [B N]. tauto.
Qed.
Print Assumptions c84_undefined.

(** C84.  The same for SimpleKwsEval. *)
Theorem c84_simple_undefined : forall T srt rngs show_int show_f64 qf w pn args c refs hyps f l r, sort_contract srt -> accurate T ->
  command args c -> inputs str_event_text scored_str_event_text w c refs hyps f ->
  (Z.of_nat (strings refs hyps f) <= 2147483648)%Z ->
  (Z.of_nat (List.length refs + List.length hyps) <= 2 ^ 25)%Z -> (cf_samples c <= 2 ^ 53)%Z ->
  simple_kws DArith T srt rngs show_int show_f64 qf w pn args = (l, r) ->
  (r = inr FUB <-> bootstraps c /\ ~ usable_options c) /\
  (r = inr (FExit 0) \/ r = inr FUB \/
   r = inr (FThrow IosFailure) /\
     ((cf_grp c <> [] /\ w_writable w (cf_grp c) = false) \/ (cf_mrp c <> [] /\ w_writable w (cf_mrp c) = false))).
Proof.
  intros T srt rngs si sf qf w pn args c refs hyps f l r Hs HT Cm I Lk Ln Sm E.
  destruct (options_decided c) as [[B U]|U].
  - assert (r = inr FUB) as ->; [|tauto].
    destruct (Instances.simple_reach T srt Hs rngs si sf w qf pn args c refs hyps f l r Cm I E Lk) as (id & ms & log & gs & Inj & Fi & Ev & Rc).
    destruct (Samples.simple_groups id _ _ _ _ _ _ _ Inj Fi Ev) as [G1 G2].
    exact (Samples.reached_undefined T HT srt Hs rngs cmp_Z ev_query ev_query w c _ _ _ _ (fun g K => proj1 (G1 g K))
      (fun g K => proj2 (G1 g K)) G2 Ln Sm (in_dump _ _ _ _ _ _ _ I) l r Rc B U).
  - destruct (c84_simple T srt rngs si sf qf w pn args c refs hyps f l r Hs HT Cm I Lk Ln Sm U E)
      as (id & ms & log & gs & v1 & v2 & v3 & v4 & i1 & i2 & i3 & i4 & cs & e & -> & _ & _ & _ & _ & C).
    destruct (Samples.curve_end _ _ _ _ _ _ C) as [[->| ->] K].
    + split; [|auto]. split; [discriminate|]. intros [B N]. tauto.
    + split; [|tauto]. split; [discriminate|]. intros [B N]. tauto.
Qed.
Print Assumptions c84_simple_undefined.

(** A run with all intervals at the level 1/2 and twelve samples: the
    values and intervals of gAP and mAP, in thousandths. *)
Definition boot_args : list string :=
  ["--bootstrap_ci_gap"; "--bootstrap_ci_map"; "--bootstrap_ci_gndcg"; "--bootstrap_ci_mndcg";
   "--bootstrap_samples"; "12"; "--bootstrap_alpha"; "0.5"; "r"; "h"].
(** See [boot_args]. *)
Definition thousandths (v : f64) : outcome Z := size_of_f64 (f64_mul v (f64_of_Z 1000)).
(** See [boot_args]. *)
Definition noise (seed : Z) (k : nat) : nat :=
  let x := Z.of_nat k in Z.to_nat (((x + 7) * (x * x + 3) * (x + 1) + seed) mod 101).
(** See [boot_args]. *)
Definition boot_run := icdar17 DArith TD (@isort) (fun seed => stream (noise seed)) (fun _ => []) (fun _ => []) here (lit "prog") (map lit boot_args).
(** See [boot_args]. *)
Definition lines_of {RE HE} (l : list (effect DArith (RE := RE) (HE := HE))) : list (bytes * list (outcome Z)) :=
  flat_map (fun e : effect DArith (RE := RE) (HE := HE) => match e with
    | EStat name v (Some (lo, up)) => [(name, [thousandths v; thousandths lo; thousandths up])]
    | EStat name v None => [(name, [thousandths v])]
    | _ => [] end) l.
Example c84_case : (exists c refs hyps, command (map lit boot_args) c /\ bootstraps c /\ usable_options c /\ (cf_samples c <= 2 ^ 53)%Z /\
    inputs shaped_text scored_shaped_text here c refs hyps NoQueries) /\
  firstn 2 (lines_of (outputs (fst boot_run))) =
    [(lit "gAP", [Ok 250%Z; Ok 142%Z; Ok 458%Z]); (lit "mAP", [Ok 166%Z; Ok 55%Z; Ok 291%Z])] /\ snd boot_run = inr (FExit 0).
Proof.
  split; [|vm_compute; auto].
  destruct (Compute.config_for (map lit boot_args)) as [c|] eqn:Ec; [|vm_compute in Ec; discriminate].
  assert (C := Compute.config_for_ok _ _ Ec).
  assert (X : match Compute.config_for (map lit boot_args) with
    | Some c => match Compute.icdar_inputs here c with
                | Some (rs, hs, NoQueries) => (cf_ci_gap c, cf_samples c, negb (f64_lt (cf_alpha c) f64_half) && negb (f64_lt f64_half (cf_alpha c)) && is_finite (cf_alpha c))
                | _ => (false, 0%Z, false) end
    | None => (false, 0%Z, false) end = (true, 12%Z, true)) by (vm_compute; reflexivity).
  rewrite Ec in X. destruct (Compute.icdar_inputs here c) as [[[rs hs] [| |]]|] eqn:I; try discriminate.
  injection X as X1 X2 X3. exists c, rs, hs. split; [exact C|]. split; [left; exact X1|].
  split; [|split; [rewrite X2; lia|exact (Compute.icdar_inputs_ok _ _ _ _ _ I)]].
  split; [|rewrite X2; lia]. apply andb_true_iff in X3 as [X3 X4]. apply andb_true_iff in X3 as [X3 X5].
  destruct Double.half64 as [Fh Vh]. split; [exact X4|].
  assert (V : B2R (cf_alpha c) = (/ 2)%R).
  { apply Rle_antisym; apply Rnot_lt_le; intros K.
    - change (f64_lt f64_half (cf_alpha c)) with (a_lt DArith f64_half (cf_alpha c)) in X5. rewrite (proj2 (Double.D_lt_v f64_half (cf_alpha c) Fh X4)) in X5; [discriminate|]. rewrite Vh. lra.
    - change (f64_lt (cf_alpha c) f64_half) with (a_lt DArith (cf_alpha c) f64_half) in X3. rewrite (proj2 (Double.D_lt_v (cf_alpha c) f64_half X4 Fh)) in X3; [discriminate|]. rewrite Vh. lra. }
  rewrite V,  Bootstrap.u64_R. split; [|lra].
  apply Rmult_lt_reg_r with (9007199254740992)%R; [lra|]. rewrite Rinv_l by lra. lra.
Qed.
