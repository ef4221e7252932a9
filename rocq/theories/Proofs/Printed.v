(** The statistics and curves of a run in terms of their specification. *)
From Coq Require Import Ascii String List Bool ZArith Reals Qreals Lra Lia Permutation.
From Flocq Require Import Core BinarySingleNaN.
From Verif.Model Require Import Cpp Floats Events EventSets Matches Matcher Scorers Assessment Tool.
From Verif.Spec Require Import Order Matching Grouping Collapse Metrics Curves Double Reader Gain Tool Results.
From Verif.Proofs Require Import Runs.
From Verif.Proofs Require Order Matching Rescore Rational Double Evaluation Ids Instances Finish Gain Results Metrics AveragePrecision Curves.
Import ListNotations.
Local Open Scope list_scope.

(** ** Matches of a run *)

Lemma sublist_length {X} (a b : list X) : sublist a b -> (List.length a <= List.length b)%nat.
Proof. apply Matching.sub_length. Qed.

Lemma group_fine {RE E} c (ms g : list (match_t RE (scored E))) : fine c ms -> sublist g ms -> fine c g.
Proof.
  intros [F1 F2] Sg. assert (I := Evaluation.sublist_in g ms Sg). split; [auto|].
  intros C. destruct (F2 C) as [Rk L]. split; [intros m J; apply Rk; auto|].
  assert (K := Matching.sub_length _ _ Sg). lia.
Qed.

Section Fine.
  Context {Q RE E : Type}.
  Variables (lte : E -> E -> bool) (cr : Cmp RE) (Hr : total_order cr) (rq : RE -> Q) (hq : E -> Q).
  Variables (S : EvSet RE (scored E)) (R : list RE -> scored E -> list RE -> Prop) (HS : finds S R).
  Variable scorer : RE -> scored E -> match_error.
  Hypothesis Z01 : forall r h, zero_one (scorer r h).

  Lemma eval_fine c crit f refs hyps ms log groups : (forall h, In h hyps -> is_finite (sc_score h) = true) ->
    evaluation lte (c_lt cr) rq hq R scorer crit f refs hyps ms log groups -> countable c refs hyps ->
    fine c ms /\ (forall g, In g groups -> g <> [] /\ fine c g) /\
    (List.length ms <= List.length refs + List.length hyps)%nat /\
    (groups = [] <-> ms = []).
  Proof.
    intros Fi Ev C.
    assert (L := Evaluation.eval_length lte cr Hr rq hq S R HS scorer crit f refs hyps ms log groups Ev).
    assert (F : fine c ms).
    { split; [exact (Evaluation.eval_zero_one lte cr rq hq R scorer crit f refs hyps ms log groups Ev Z01)|].
      intros K. split; [exact (Evaluation.eval_ranked lte cr rq hq R scorer crit f refs hyps ms log groups Ev Fi)|].
      specialize (C K). lia. }
    assert (Gi : forall g, In g groups -> g <> [] /\ sublist g ms) by
      exact (Evaluation.eval_group_in lte cr rq hq R scorer crit f refs hyps ms log groups Ev).
    split; [exact F|]. split.
    - intros g I. destruct (Gi g I) as [N Sg]. split; [exact N|]. exact (group_fine c ms g F Sg).
    - split; [exact L|]. split.
      + intros ->. destruct ms as [|m ms]; [reflexivity|].
        destruct (Evaluation.eval_cover lte cr rq hq R scorer crit f refs hyps _ log _ Ev m (or_introl eq_refl)) as (g & [] & _).
      + intros ->. destruct groups as [|g gs]; [reflexivity|]. destruct (Gi g (or_introl eq_refl)) as [N Sg].
        inversion Sg; subst. congruence.
  Qed.
End Fine.

Lemma groups_length {Q RE E} (rq : RE -> Q) (hq : E -> Q) f ms (groups : list (list (match_t RE (scored E)))) :
  grouping rq hq f ms groups -> (List.length groups <= List.length ms)%nat.
Proof.
  intros (ks & keys & F1 & FS & F2).
  rewrite <- (Grouping.Forall2_len _ _ _ F2), (Grouping.Forall2_len _ _ _ F1). clear - FS.
  induction FS; simpl; rewrite ?app_length; simpl; lia.
Qed.

(** The two programs. *)
Lemma icdar_fine srt c crit f refs hyps ms log groups : sort_contract srt ->
  (forall h, In h hyps -> is_finite (sc_score h) = true) ->
  icdar17_evaluation crit f refs hyps ms log groups -> countable c refs hyps ->
  fine c ms /\ (forall g, In g groups -> g <> [] /\ fine c g) /\
  (List.length ms <= List.length refs + List.length hyps)%nat /\ (groups = [] <-> ms = []).
Proof.
  intros Hs. apply (eval_fine (c_lt cmp_shaped) cmp_shaped Order.total_order_shaped ev_query ev_query (evset_docbox srt cmp_str) (box_search cmp_str)
      (Matching.finds_docbox srt cmp_str Hs Order.total_order_str) (fun r h => ioh_scorer cmp_str f32_half r (sc_base h))).
  intros r h. apply Instances.zero_one_ioh.
Qed.

Lemma simple_fine id c crit f refs hyps ms log groups : (forall s s', id s = id s' -> s = s') ->
  (forall h, In h hyps -> is_finite (sc_score h) = true) ->
  simple_evaluation id crit f refs hyps ms log groups -> countable c refs hyps ->
  fine c ms /\ (forall g, In g groups -> g <> [] /\ fine c g) /\
  (List.length ms <= List.length refs + List.length hyps)%nat /\ (groups = [] <-> ms = []).
Proof.
  intros Inj. apply (eval_fine (c_lt (Results.by_id id)) (Results.by_id id) (Results.by_id_total id Inj) ev_query ev_query
      (evset_generic (Results.by_id id)) exact_search
      (Matching.finds_generic (Results.by_id id) (Results.by_id_total id Inj)) (fun r h => trivial_scorer cmp_str cmp_str r (sc_base h))).
  intros r h. apply Instances.zero_one_trivial.
Qed.

Lemma icdar_grouping crit f refs hyps ms log groups : icdar17_evaluation crit f refs hyps ms log groups ->
  grouping ev_query ev_query f ms groups.
Proof. intros (? & ? & ? & ? & ? & ? & _ & _ & _ & _ & _ & _ & _ & G). exact G. Qed.

Lemma simple_grouping id crit f refs hyps ms log groups : simple_evaluation id crit f refs hyps ms log groups ->
  grouping ev_query ev_query f ms groups.
Proof. intros (? & ? & ? & ? & ? & ? & _ & _ & _ & _ & _ & _ & _ & G). exact G. Qed.

(** ** Statistics *)

Section Statistics.
  Context {RE E : Type}.
  Notation M := (match_t RE (scored E)).
  Variables (srt : sort_fn) (c : config) (ms : list M) (groups : list (list M)).
  Hypothesis Fm : fine c ms.
  Hypothesis Fg : forall g, In g groups -> fine c g.

  Lemma stats_spec v1 v2 v4 :
    global_ap RArith sc_score ms (cf_collapse c) (cf_interp c) (cf_trapezoid c) = Ok v1 ->
    mean_ap RArith sc_score srt groups (cf_collapse c) (cf_interp c) (cf_trapezoid c) false = Ok v2 ->
    mean_ndcg RArith RTrans sc_score srt groups (cf_collapse c) false = Ok v4 ->
    statistics c ms groups v1 v2 (global_ndcg RArith RTrans sc_score ms (cf_collapse c)) v4.
  Proof.
    destruct Fm as [F1 F2]. intros V1 V2 V4. constructor.
    - exact (Evaluation.ap_spec sc_score _ _ _ ms v1 F1 F2 V1).
    - exact (Evaluation.mean_ap_means sc_score srt groups _ _ _ v2 Fg V2).
    - exact (Gain.ndcg_spec sc_score _ ms F1 F2).
    - exact (Gain.mean_ndcg_means sc_score srt groups _ v4 Fg V4).
  Qed.

  (** In double arithmetic. *)
  Variable n : nat.
  Hypothesis Hs : sort_contract srt.
  Hypothesis Ln : (Z.of_nat n <= 2 ^ 26)%Z.
  Hypothesis Lm : (List.length ms <= n)%nat.
  Hypothesis Lg : forall g, In g groups -> (List.length g <= n)%nat.
  Hypothesis Lgs : (List.length groups <= n)%nat.

  Lemma stats_double (d1 d2 : f64) :
    global_ap DArith sc_score ms (cf_collapse c) (cf_interp c) (cf_trapezoid c) = Ok d1 ->
    mean_ap DArith sc_score srt groups (cf_collapse c) (cf_interp c) (cf_trapezoid c) false = Ok d2 ->
    exists v1 v2 v3 v4, statistics c ms groups v1 v2 v3 v4 /\ in01 v1 /\ in01 v2 /\
      global_ap RArith sc_score ms (cf_collapse c) (cf_interp c) (cf_trapezoid c) = Ok v1 /\
      mean_ap RArith sc_score srt groups (cf_collapse c) (cf_interp c) (cf_trapezoid c) false = Ok v2 /\
      within (INR n * (INR n + 12) * u64) d1 v1 /\ within ((INR n * (INR n + 13) + 3) * u64) d2 v2.
  Proof.
    intros D1 D2. destruct (Finish.mean_ndcg_ok RTrans sc_score srt groups (cf_collapse c)) as (v4 & V4).
    destruct (Double.global_ap_D RE (scored E) sc_score ms (cf_collapse c) (cf_interp c) (cf_trapezoid c)) as (a & x & A1 & A2 & A3).
    { apply Fm. }
    { lia. }
    destruct (Double.mean_ap_error RE (scored E) sc_score srt n groups (cf_collapse c) (cf_interp c) (cf_trapezoid c) false Hs) as (b & y & B1 & B2 & B3).
    { exact Ln. }
    { lia. }
    { intros g I. split; [auto|]. split; [discriminate|]. apply (Fg g I). }
    exists x, y, (global_ndcg RArith RTrans sc_score ms (cf_collapse c)), v4.
    split; [exact (stats_spec x y v4 A2 B2 V4)|].
    split.
    { destruct (Metrics.global_ap_01 _ _ sc_score ms (cf_collapse c) (cf_interp c) (cf_trapezoid c)) as (x' & X1 & X2);
        [intros m K; apply AveragePrecision.zero_one_fractions, Fm, K|intros C; now apply Fm|].
      rewrite A2 in X1. now injection X1 as <-. }
    split.
    { destruct (Curves.mean_ap_01 _ _ sc_score srt groups (cf_collapse c) (cf_interp c) (cf_trapezoid c)) as (y' & Y1 & Y2);
        [intros g m I K; apply AveragePrecision.zero_one_fractions, (Fg g I), K|intros C g I; now apply (Fg g I)|].
      rewrite B2 in Y1. now injection Y1 as <-. }
    split; [exact A2|]. split; [exact B2|].
    rewrite D1 in A1. injection A1 as <-. rewrite D2 in B1. injection B1 as <-.
    assert (P := pos_INR (List.length ms)). assert (Q := le_INR _ _ Lm). assert (Q' := le_INR _ _ Lgs).
    assert (U : (0 < u64)%R) by apply bpow_gt_0.
    split.
    - destruct A3 as [A3 A4]. split; [exact A3|]. eapply Rle_trans; [exact A4|]. apply Rmult_le_compat_r; [lra|]. nra.
    - destruct B3 as [B3 B4]. split; [exact B3|]. eapply Rle_trans; [exact B4|]. apply Rmult_le_compat_r; [lra|]. nra.
  Qed.
End Statistics.

(** ** The lines printed *)

Lemma reported_printed {A : Arith} (T : Trans A) {RE E} srt w c (ms log : list (match_t RE (scored E))) groups l r :
  Instances.reported T srt w c ms log groups l r ->
  exists v1 v2 v4, global_ap A sc_score ms (cf_collapse c) (cf_interp c) (cf_trapezoid c) = Ok v1 /\
    mean_ap A sc_score srt groups (cf_collapse c) (cf_interp c) (cf_trapezoid c) false = Ok v2 /\
    mean_ndcg A T sc_score srt groups (cf_collapse c) false = Ok v4 /\
    printed l = [(lit "gAP", v1); (lit "mAP", v2); (lit "gNDCG", global_ndcg A T sc_score ms (cf_collapse c)); (lit "mNDCG", v4)].
Proof.
  intros (v1 & v2 & v4 & cs & e & _ & V1 & V2 & V4 & O & C). exists v1, v2, v4.
  split; [exact V1|]. split; [exact V2|]. split; [exact V4|].
  rewrite <- printed_outputs, O, !printed_app, printed_dumped, (printed_curves _ _ _ _ _ _ C). reflexivity.
Qed.

(** ** Renamed matches *)

Section Names.
  Variable id : bytes -> Z.
  Notation mm := (renamed_match id).

  Lemma renamed_score h : sc_score (map_scored (renamed id) h) = sc_score h.
  Proof. reflexivity. Qed.

  Lemma simple_printed {A : Arith} (T : Trans A) srt w c ms log groups l r :
    Instances.reported T srt w c (map mm ms) (map mm log) (map (map mm) groups) l r ->
    exists v1 v2 v4, global_ap A sc_score ms (cf_collapse c) (cf_interp c) (cf_trapezoid c) = Ok v1 /\
      mean_ap A sc_score srt groups (cf_collapse c) (cf_interp c) (cf_trapezoid c) false = Ok v2 /\
      mean_ndcg A T sc_score srt groups (cf_collapse c) false = Ok v4 /\
      printed l = [(lit "gAP", v1); (lit "mAP", v2); (lit "gNDCG", global_ndcg A T sc_score ms (cf_collapse c)); (lit "mNDCG", v4)].
  Proof.
    intros R. destruct (reported_printed T srt w c _ _ _ l r R) as (v1 & v2 & v4 & V1 & V2 & V4 & P).
    unfold renamed_match in V1, V2, V4, P.
    rewrite (global_ap_renamed _ _ sc_score sc_score renamed_score) in V1.
    rewrite (mean_ap_renamed _ _ sc_score sc_score renamed_score) in V2.
    rewrite (mean_ndcg_renamed _ _ sc_score sc_score renamed_score) in V4.
    rewrite (global_ndcg_renamed _ _ sc_score sc_score renamed_score) in P.
    exists v1, v2, v4. auto.
  Qed.
End Names.

(** ** Values found by rational arithmetic *)

Lemma mean_ap_unsorted A {RE HE} (score : HE -> f32) (srt srt' : sort_fn) (gs : list (list (match_t RE HE))) c i t :
  mean_ap A score srt gs c i t false = mean_ap A score srt' gs c i t false.
Proof. reflexivity. Qed.

(** Two runs with the same inputs and options that matter, one of them in
    rational arithmetic. *)
Lemma icdar_values (TQ : Trans QArith_) (TR : Trans RArith) srt srt' rngs rngs' si sf si' sf' w w' pn pn' args args' c c' refs hyps f l r l' r' v1 v2 v3 v4 :
  sort_contract srt -> sort_contract srt' ->
  command args c -> command args' c' -> no_bootstrap c -> no_bootstrap c' ->
  cf_sort c = cf_sort c' -> cf_collapse c = cf_collapse c' -> cf_interp c = cf_interp c' -> cf_trapezoid c = cf_trapezoid c' ->
  cf_sort c = lit "desc" \/ cf_sort c = lit "asc" ->
  inputs shaped_text scored_shaped_text w c refs hyps f -> inputs shaped_text scored_shaped_text w' c' refs hyps f ->
  icdar17 RArith TR srt rngs si sf w pn args = (l, r) -> icdar17 QArith_ TQ srt' rngs' si' sf' w' pn' args' = (l', r') ->
  printed l' = [(lit "gAP", v1); (lit "mAP", v2); (lit "gNDCG", v3); (lit "mNDCG", v4)] ->
  exists n3 n4, printed l = [(lit "gAP", Q2R v1); (lit "mAP", Q2R v2); (lit "gNDCG", n3); (lit "mNDCG", n4)].
Proof.
  intros Hs Hs' Cm Cm' NB NB' E1 E2 E3 E4 Sc I I' Et Et' Pq.
  destruct (Instances.icdar_run TR srt Hs rngs si sf w pn args c refs hyps f l r Cm NB I Et) as (ms & log & gs & Fi & Ev & Rp).
  destruct (Instances.icdar_run TQ srt' Hs' rngs' si' sf' w' pn' args' c' refs hyps f l' r' Cm' NB' I' Et') as (ms' & log' & gs' & Fi' & Ev' & Rp').
  rewrite <- E1 in Ev'.
  destruct (evaluations_equal cmp_shaped Order.total_order_shaped cmp_shaped Order.total_order_shaped ev_query ev_query
    (evset_docbox srt cmp_str) (box_search cmp_str) (Matching.finds_docbox srt cmp_str Hs Order.total_order_str)
    (fun r h => ioh_scorer cmp_str f32_half r (sc_base h)) box_search_base
    (fun r h h' B => f_equal (fun x => ioh_scorer cmp_str f32_half r x) B)
    (cf_sort c) f refs refs hyps hyps ms log gs ms' log' gs' Sc (fun x => iff_refl _) (Permutation_refl _)) as (F1 & F2 & F3); auto.
  { intros h Ih. apply Rescore.finite_not_nan. now apply Fi. }
  destruct (reported_printed TR srt w c ms log gs l r Rp) as (x1 & x2 & x4 & V1 & V2 & V4 & P).
  destruct (reported_printed TQ srt' w' c' ms' log' gs' l' r' Rp') as (y1 & y2 & y4 & W1 & W2 & W4 & P').
  rewrite P' in Pq. injection Pq as -> -> _ _.
  rewrite <- E2, <- E3, <- E4 in W1, W2.
  rewrite (equal_global_ap RArith ms ms' _ _ _ F1), Rational.global_ap_Q, W1 in V1. injection V1 as <-.
  rewrite (equal_mean_ap RArith srt gs gs' _ _ _ F3), (mean_ap_unsorted RArith sc_score srt srt'), Rational.mean_ap_Q, W2 in V2. injection V2 as <-.
  eauto.
Qed.

(** ** Curves *)

Section CurveRuns.
  Context {A : Arith} {RE E : Type}.
  Notation M := (match_t RE (scored E)).
  Notation eff := (effect A (RE := RE) (HE := scored E)).

  Lemma curve_file_weaken w name (P P' : list (num A * num A) -> Prop) (l : list eff) b :
    (name <> [] -> w_writable w name = true -> forall p, P p -> P' p) -> curve_file w name P l b -> curve_file w name P' l b.
  Proof. intros H [K|pts K W Pp|K W]; [now constructor| |now constructor]. constructor; auto. Qed.

  Lemma curve_files_weaken w c (P P' Q Q' : list (num A * num A) -> Prop) (l : list eff) e :
    (cf_grp c <> [] -> w_writable w (cf_grp c) = true -> forall p, P p -> P' p) ->
    (cf_mrp c <> [] -> w_writable w (cf_mrp c) = true -> forall p, Q p -> Q' p) ->
    curve_files w c P Q l e -> curve_files w c P' Q' l e.
  Proof.
    intros H K [g m b G F|g G]; constructor; eauto using curve_file_weaken.
  Qed.

  Lemma sampled_points c (ys : list (num A)) : length ys = length (even_points A (Z.to_nat (cf_curve c))) ->
    sampled (cf_curve c) (combine (even_points A (Z.to_nat (cf_curve c))) ys).
  Proof.
    intros L. unfold sampled. rewrite combine_length, L, Nat.min_id, Curves.even_points_length.
    destruct (Nat.ltb_spec 1 (Z.to_nat (cf_curve c))), (Z.leb_spec (cf_curve c) 1); lia.
  Qed.

  Lemma global_sampled c (ms : list M) pts : Finish.global_points (A := A) c ms pts -> sampled (cf_curve c) pts /\
    exists ys, pts = combine (even_points A (Z.to_nat (cf_curve c))) ys.
  Proof. intros (ys & -> & L & _). split; [now apply sampled_points|eauto]. Qed.

  Lemma mean_sampled w c (gs : list (list M)) pts : Finish.mean_points (A := A) w c gs pts -> sampled (cf_curve c) pts /\
    exists ys, pts = combine (even_points A (Z.to_nat (cf_curve c))) ys.
  Proof. intros (ys & -> & L & _). split; [now apply sampled_points|eauto]. Qed.
End CurveRuns.

Section CurveNames.
  Context {A : Arith} {RE E RE' E' : Type} (f : RE -> RE') (g : E -> E').
  Notation mm := (map_match f (map_scored g)).

  Lemma global_points_renamed c (ms : list (match_t RE (scored E))) pts :
    Finish.global_points (A := A) c (map mm ms) pts -> Finish.global_points c ms pts.
  Proof.
    intros (ys & -> & L & H). exists ys. split; [reflexivity|]. split; [exact L|].
    rewrite (pr_renamed f (map_scored g) sc_score sc_score (fun _ => eq_refl)) in H. exact H.
  Qed.

  Lemma write_mean_renamed w c (gs : list (list (match_t RE (scored E)))) pts :
    write_mean_curve A sc_score w c (map (map mm) gs) = ([EWrite (cf_mrp c) (FCurve pts)], inl tt) ->
    write_mean_curve A sc_score w c gs = ([EWrite (cf_mrp c) (FCurve pts)], inl tt).
  Proof.
    unfold write_mean_curve. rewrite map_length.
    assert (K : omap (fun g0 => let (pr, rc) := precision_recall_matches A sc_score g0 (cf_collapse c) (cf_interp c) in
        sample_curve A rc pr (even_points A (Z.to_nat (cf_curve c))) (cf_trapezoid c)) (map (map mm) gs) =
      omap (fun g0 => let (pr, rc) := precision_recall_matches A sc_score g0 (cf_collapse c) (cf_interp c) in
        sample_curve A rc pr (even_points A (Z.to_nat (cf_curve c))) (cf_trapezoid c)) gs).
    { induction gs as [|x gs IH]; [reflexivity|]. cbn [map omap].
      rewrite (pr_renamed f (map_scored g) sc_score sc_score (fun _ => eq_refl)), IH. reflexivity. }
    rewrite K. clear K. set (o := omap _ gs). destruct o as [cs| |]; cbn; try discriminate.
    set (o := omap _ (seq 0 _)). destruct o as [ys| |]; cbn; try discriminate.
    set (o := write_curve _ _ _ _ _). destruct o as [ps| |]; cbn; try discriminate.
    intros H. now injection H as ->.
  Qed.

  Lemma mean_points_renamed w c (gs : list (list (match_t RE (scored E)))) pts :
    Finish.mean_points (A := A) w c (map (map mm) gs) pts -> Finish.mean_points w c gs pts.
  Proof.
    intros (ys & E1 & L & H). exists ys. split; [exact E1|]. split; [exact L|]. intros N. now apply write_mean_renamed, H.
  Qed.
End CurveNames.
