(** With one group, the mean curve is the global curve. *)
From Coq Require Import List Bool ZArith Arith Reals Lra Lia.
From Flocq Require Import Core BinarySingleNaN.
From Verif.Model Require Import Cpp Floats Events EventSets Matches Matcher Scorers Assessment Bootstrap Mapper Stream Reader Options Tool.
From Verif.Spec Require Import Order Objects Matching Grouping Collapse Metrics Curves Double Reader Options Results Tool Parts Rounded.
From Verif.Proofs Require Matching Order Curves Tool Finish Evaluation Instances Results Parts CurvesD CurvesE.
Import ListNotations.

Section Points.
  Context {A : Arith} {RE E : Type}.
  Notation M := (match_t RE (scored E)).

  Lemma sums_from (ys : list (num A)) : forall rest pre, ys = pre ++ rest ->
    omap (fun i => obind (sum_at A i [ys]) (fun s => Ok (a_div A s (a_nat A 1)))) (seq (length pre) (length rest)) =
      Ok (map (fun y => average [y]) rest).
  Proof.
    induction rest as [|y rest IH]; intros pre Ey; [reflexivity|]. cbn [length seq omap].
    assert (N : nth_error ys (length pre) = Some y) by (rewrite Ey, nth_error_app2, Nat.sub_diag by lia; reflexivity).
    assert (S1 : sum_at A (length pre) [ys] = Ok (a_add A (a0 A) y)) by (unfold sum_at; cbn [ofold]; unfold at_; rewrite N; reflexivity).
    rewrite S1. cbn [obind].
    assert (X := IH (pre ++ [y]) ltac:(rewrite <- app_assoc; exact Ey)). rewrite app_length, Nat.add_1_r in X. rewrite X.
    reflexivity.
  Qed.

  Lemma mean_one w c (ms : list M) pts pts' : cf_mrp c <> [] -> w_writable w (cf_mrp c) = true ->
    Finish.global_points (A := A) c ms pts -> Finish.mean_points (A := A) w c [ms] pts' ->
    pts' = map (fun p => (fst p, average [snd p])) pts.
  Proof.
    intros N W (ys & -> & Ly & Hg) (zs & _ & _ & Hm). specialize (Hm N). unfold write_mean_curve in Hm. cbn [omap] in Hm.
    destruct (precision_recall_matches A sc_score ms (cf_collapse c) (cf_interp c)) as [pr rc]. rewrite Hg in Hm.
    cbn [obind run] in Hm. rewrite Tool.pbind_nil in Hm. cbn [length] in Hm. rewrite <- Ly in Hm.
    assert (Sm := sums_from ys ys [] eq_refl). cbn [length] in Sm. rewrite Sm in Hm. cbn [run] in Hm. rewrite Tool.pbind_nil in Hm.
    revert Hm. unfold write_curve. destruct (cf_mrp c) as [|b nm]; [easy|]. rewrite map_length, <- Ly, Nat.eqb_refl, W. cbn [run].
    rewrite Tool.pbind_nil. unfold emit. intros Hm. injection Hm as <-. clear.
    generalize (even_points A (Z.to_nat (cf_curve c))). intros xs. revert xs.
    induction ys as [|y ys IH]; intros [|x xs]; try reflexivity. cbn [combine map fst snd]. f_equal. apply IH.
  Qed.

  Lemma curve_written w c PG PM (curves : list (effect A (RE := RE) (HE := scored E))) e n p : curve_files w c PG PM curves e ->
    In (EWrite n (FCurve p)) curves -> PG p \/ (cf_mrp c <> [] /\ w_writable w (cf_mrp c) = true /\ PM p).
  Proof.
    assert (G : forall nm P l b, curve_file (A := A) (RE := RE) (HE := scored E) w nm P l b -> In (EWrite n (FCurve p)) l ->
      nm <> [] /\ w_writable w nm = true /\ P p).
    { intros nm P l b [Hn|q Hn Hw Hp|Hn Hw] K; [destruct K| |destruct K]. destruct K as [K|[]]. injection K as _ <-. auto. }
    intros [g m b Hg Hm|g Hg] K.
    - apply in_app_iff in K as [K|K]; [left; eapply G; eauto|right; eapply G; eauto].
    - left. eapply G; eauto.
  Qed.

  Lemma reported_written (T : Trans A) srt w c (ms log : list M) gs l r n p : Instances.reported T srt w c ms log gs l r ->
    In (EWrite n (FCurve p)) l ->
    Finish.global_points (A := A) c ms p \/ (cf_mrp c <> [] /\ w_writable w (cf_mrp c) = true /\ Finish.mean_points (A := A) w c gs p).
  Proof.
    intros (v1 & v2 & v4 & curves & e & _ & _ & _ & _ & O & Cv) K.
    assert (K' : In (EWrite n (FCurve p)) (outputs l)) by (unfold outputs; apply filter_In; auto).
    rewrite O in K'. apply in_app_iff in K' as [K'|K'].
    - exfalso. revert K'. unfold dumped. destruct (cf_dump c); [intros []|intros [K'|[]]; discriminate K'].
    - repeat (destruct K' as [K'|K']; [discriminate K'|]). eapply curve_written; eauto.
  Qed.
End Points.

Lemma same_real {RE E} (T : Trans RArith) srt w c (ms log : list (match_t RE (scored E))) l r n n' p p' :
  Instances.reported T srt w c ms log [ms] l r -> In (EWrite n (FCurve p)) l -> In (EWrite n' (FCurve p')) l -> p = p'.
Proof.
  intros Rp K K'. assert (F : forall pts : list (R * R), map (fun q => (fst q, average (A := RArith) [snd q])) pts = pts).
  { intros pts. rewrite <- (map_id pts) at 2. apply map_ext. intros [x y]. cbn [fst snd]. now rewrite Parts.average_one_real. }
  assert (U : forall q q', Finish.global_points (A := RArith) c ms q -> Finish.global_points (A := RArith) c ms q' -> q = q').
  { intros q q' (ys & -> & _ & H) (ys' & -> & _ & H'). destruct (precision_recall_matches RArith sc_score ms (cf_collapse c) (cf_interp c)).
    rewrite H in H'. now injection H' as <-. }
  assert (U' : forall q q', cf_mrp c <> [] -> Finish.mean_points (A := RArith) w c [ms] q -> Finish.mean_points (A := RArith) w c [ms] q' -> q = q').
  { intros q q' N (ys & _ & _ & H) (ys' & _ & _ & H'). specialize (H N). specialize (H' N). rewrite H in H'. now injection H' as <-. }
  destruct (reported_written T srt w c ms log [ms] l r n p Rp K) as [G|(N & W & G)];
    destruct (reported_written T srt w c ms log [ms] l r n' p' Rp K') as [G'|(N' & W' & G')].
  - exact (U _ _ G G').
  - rewrite (mean_one (A := RArith) w c ms p p' N' W' G G'). symmetry. apply F.
  - rewrite (mean_one (A := RArith) w c ms p' p N W G' G). apply F.
  - exact (U' _ _ N G G').
Qed.

Definition finite_points (pts : list (f64 * f64)) := Forall (fun p => is_finite (snd p) = true) pts.

Lemma rounded_finite c pts : rounded_curve c pts -> finite_points pts.
Proof.
  intros (_ & H & _). apply Forall_forall. intros [x y] K. apply In_nth_error in K as [i E]. apply (H i x y E).
Qed.

Lemma same_refl pts : finite_points pts -> same_points pts pts.
Proof. induction 1; constructor; auto. Qed.

Lemma same_sym pts pts' : same_points pts pts' -> same_points pts' pts.
Proof. induction 1 as [|? ? ? ? (? & ? & ? & ?)]; constructor; auto. Qed.

Lemma same_average pts : finite_points pts -> same_points pts (map (fun p => (fst p, average (A := DArith) [snd p])) pts).
Proof.
  induction 1 as [|[x y] pts F H IH]; constructor; [|exact IH]. cbn [fst snd] in *. destruct (Parts.average_one_double y F). auto.
Qed.

Lemma same_double {RE E} (T : Trans DArith) srt w c (ms log : list (match_t RE (scored E))) l r n n' p p' :
  (forall m, In m ms -> zero_one (m_err m)) -> (Z.of_nat (length ms) <= 2 ^ 53)%Z -> (cf_curve c <= 2 ^ 53)%Z ->
  Instances.reported T srt w c ms log [ms] l r -> In (EWrite n (FCurve p)) l -> In (EWrite n' (FCurve p')) l -> same_points p p'.
Proof.
  intros Z L Lc Rp K K'.
  assert (Fg : forall q, Finish.global_points (A := DArith) c ms q -> finite_points q).
  { intros q G. apply (rounded_finite c), (CurvesD.global_D c ms q Lc Z L G). }
  assert (U : forall q q', Finish.global_points (A := DArith) c ms q -> Finish.global_points (A := DArith) c ms q' -> q = q').
  { intros q q' (ys & -> & _ & H) (ys' & -> & _ & H'). destruct (precision_recall_matches DArith sc_score ms (cf_collapse c) (cf_interp c)).
    rewrite H in H'. now injection H' as <-. }
  assert (U' : forall q q', cf_mrp c <> [] -> Finish.mean_points (A := DArith) w c [ms] q -> Finish.mean_points (A := DArith) w c [ms] q' -> q = q').
  { intros q q' N (ys & _ & _ & H) (ys' & _ & _ & H'). specialize (H N). specialize (H' N). rewrite H in H'. now injection H' as <-. }
  destruct (reported_written T srt w c ms log [ms] l r n p Rp K) as [G|(N & W & G)];
    destruct (reported_written T srt w c ms log [ms] l r n' p' Rp K') as [G'|(N' & W' & G')].
  - rewrite (U _ _ G' G). apply same_refl, Fg, G.
  - rewrite (mean_one (A := DArith) w c ms p p' N' W' G G'). apply same_average, Fg, G.
  - apply same_sym. rewrite (mean_one (A := DArith) w c ms p' p N W G' G). apply same_average, Fg, G'.
  - rewrite (U' _ _ N G' G). apply same_refl, (rounded_finite c). apply (CurvesD.mean_D w c [ms] p Lc N); [easy| |simpl; lia|exact G].
    intros g [<-|[]]. auto.
Qed.

Section Runs.
  Context {A : Arith} (T : Trans A) (srt : sort_fn) (Hs : sort_contract srt).
  Variables (rngs : Z -> rng) (show_int : Z -> bytes) (show_f64 : f64 -> bytes).

  Lemma icdar_one_reported w pn args c refs hyps f l r : command args c -> no_bootstrap c -> inputs shaped_text scored_shaped_text w c refs hyps f ->
    one_group_only f refs hyps -> icdar17 A T srt rngs show_int show_f64 w pn args = (l, r) ->
    exists ms log, Instances.reported T srt w c ms log [ms] l r /\ (forall m, In m ms -> zero_one (m_err m)) /\
      (List.length ms <= List.length refs + List.length hyps)%nat.
  Proof.
    intros Cm NB I (k & Pk & One) Et.
    destruct (Instances.icdar_run T srt Hs rngs show_int show_f64 w pn args c refs hyps f l r Cm NB I Et) as (ms & log & gs & Fi & Ev & Rp).
    destruct (Parts.evaluation_keys (c_lt cmp_shaped) cmp_shaped Order.total_order_shaped ev_query ev_query (evset_docbox srt cmp_str) (box_search cmp_str)
      (Matching.finds_docbox srt cmp_str Hs Order.total_order_str) _ (Parts.box_local cmp_str) _ _ _ _ _ _ _ Ev) as (keys & Nk & Fk & Hm & Ik).
    assert (gs = [ms]) as ->.
    { apply (Parts.one_group ev_query ev_query f ms keys gs k Nk); auto.
      - intros x K. now apply One, Ik.
      - intros ->. apply Ik in Pk. rewrite (Parts.no_keys _ _ _ _ _ Fk (Parts.evaluation_grouping _ _ _ _ _ _ _ _ _ _ _ _ _ Ev)) in Pk. destruct Pk. }
    exists ms, log. split; [exact Rp|]. split.
    - apply (Evaluation.eval_zero_one _ cmp_shaped _ _ _ _ _ _ _ _ _ _ _ Ev). intros x h. apply Instances.zero_one_ioh.
    - apply (Evaluation.eval_length _ cmp_shaped Order.total_order_shaped _ _ (evset_docbox srt cmp_str) _
        (Matching.finds_docbox srt cmp_str Hs Order.total_order_str) _ _ _ _ _ _ _ _ Ev).
  Qed.

  Lemma simple_one_reported qf w pn args c refs hyps f l r : command args c -> no_bootstrap c -> inputs str_event_text scored_str_event_text w c refs hyps f ->
    (Z.of_nat (strings refs hyps f) <= 2147483648)%Z -> one_group_only f refs hyps ->
    simple_kws A T srt rngs show_int show_f64 qf w pn args = (l, r) ->
    exists ms log, Instances.reported T srt w c ms log [ms] l r /\ (forall m, In m ms -> zero_one (m_err m)) /\
      (List.length ms <= List.length refs + List.length hyps)%nat.
  Proof.
    intros Cm NB I Ls (k & Pk & One) Et. rewrite Instances.simple_tool in Et.
    destruct (Instances.simple_run T srt Hs rngs show_int show_f64 w qf pn args c refs hyps f l r Cm NB I Et Ls) as (id & ms & log & gs & Inj & Fi & Ev & Rp).
    destruct (Parts.evaluation_keys (c_lt (Results.by_id id)) (Results.by_id id) (Results.by_id_total id Inj) ev_query ev_query (evset_generic (Results.by_id id)) exact_search
      (Matching.finds_generic (Results.by_id id) (Results.by_id_total id Inj)) (fun r h => trivial_scorer cmp_str cmp_str r (sc_base h)) Parts.exact_local
      _ _ _ _ _ _ _ Ev) as (keys & Nk & Fk & Hm & Ik).
    assert (gs = [ms]) as ->.
    { apply (Parts.one_group ev_query ev_query f ms keys gs k Nk); auto.
      - intros x K. now apply One, Ik.
      - intros ->. apply Ik in Pk. rewrite (Parts.no_keys _ _ _ _ _ Fk (Parts.evaluation_grouping _ _ _ _ _ _ _ _ _ _ _ _ _ Ev)) in Pk. destruct Pk. }
    exists (map (renamed_match id) ms), (map (renamed_match id) log). split; [exact Rp|]. rewrite map_length. split.
    - intros m K. apply in_map_iff in K as (m' & <- & K). change (m_err (renamed_match id m')) with (m_err m'). revert m' K.
      apply (Evaluation.eval_zero_one _ (Results.by_id id) _ _ _ _ _ _ _ _ _ _ _ Ev). intros x h. apply Instances.zero_one_trivial.
    - apply (Evaluation.eval_length _ (Results.by_id id) (Results.by_id_total id Inj) _ _ (evset_generic (Results.by_id id)) _
        (Matching.finds_generic (Results.by_id id) (Results.by_id_total id Inj)) _ _ _ _ _ _ _ _ Ev).
  Qed.
End Runs.
