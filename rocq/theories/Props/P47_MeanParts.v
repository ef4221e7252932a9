(** C111: the mean curve is the mean of the curves of runs on one group. *)
From Coq Require Import Ascii String List Bool ZArith QArith Reals Lia Lra.
From Flocq Require Import Core BinarySingleNaN.
From Verif.Model Require Import Cpp Floats Events EventSets Matches Matcher Scorers Assessment Bootstrap Mapper Stream Reader Options Tool.
From Verif.Spec Require Import Order Matching Grouping Collapse Metrics Curves Reader Options Tool Results Parts MeanParts.
From Verif.Proofs Require Compute MeanParts.
From Verif.Props Require Import P17_Tool P18_Results P25_Ties P26_Parts P46_OneCurve.
Import ListNotations.
Local Open Scope string_scope.
Local Open Scope list_scope.

(** C111.  The mean curve that Icdar17KwsEval writes is the mean of the global
    curves of runs on the queries of one group at a time, one run for each group
    that has events: the events of other groups change nothing.  This holds in
    any arithmetic; the groups are added in the order in which the ranking
    reaches them. *)
Theorem c111_icdar17 : forall A (T : Trans A) srt rngs show_int show_f64 ws pns argss cs fs w pn args c refs hyps f, sort_contract srt ->
  command args c -> no_bootstrap c -> inputs shaped_text scored_shaped_text w c refs hyps f ->
  cf_grp c = [] \/ w_writable w (cf_grp c) = true -> cf_mrp c <> [] -> w_writable w (cf_mrp c) = true ->
  (exists k, present f refs hyps k) ->
  (forall k, present f refs hyps k -> only f k (fs k) /\ command (argss k) (cs k) /\ no_bootstrap (cs k) /\ same_settings c (cs k) /\
    cf_curve (cs k) = cf_curve c /\ cf_grp (cs k) <> [] /\ w_writable (ws k) (cf_grp (cs k)) = true /\
    inputs shaped_text scored_shaped_text (ws k) (cs k) refs hyps (fs k)) ->
  exists ks curves pts, NoDup ks /\ (forall k, In k ks <-> present f refs hyps k) /\
    In (EWrite (cf_mrp c) (FCurve pts)) (fst (icdar17 A T srt rngs show_int show_f64 w pn args)) /\
    Forall2 (fun k curve => In (EWrite (cf_grp (cs k)) (FCurve curve))
      (fst (icdar17 A T srt rngs show_int show_f64 (ws k) (pns k) (argss k)))) ks curves /\
    mean_of_curves curves pts.
Proof.
  intros A T srt rngs si sf ws pns argss cs fs w pn args c refs hyps f Hs.
  exact (MeanParts.icdar_curves T srt Hs rngs si sf pns argss ws cs fs w pn args c refs hyps f).
Qed.
Print Assumptions c111_icdar17.

(** C111.  The same for SimpleKwsEval. *)
Theorem c111_simple : forall A (T : Trans A) srt rngs show_int show_f64 ws pns argss cs fs qf w pn args c refs hyps f, sort_contract srt ->
  command args c -> no_bootstrap c -> inputs str_event_text scored_str_event_text w c refs hyps f ->
  (Z.of_nat (strings refs hyps f) <= 2147483648)%Z ->
  cf_grp c = [] \/ w_writable w (cf_grp c) = true -> cf_mrp c <> [] -> w_writable w (cf_mrp c) = true ->
  (exists k, present f refs hyps k) ->
  (forall k, present f refs hyps k -> only f k (fs k) /\ command (argss k) (cs k) /\ no_bootstrap (cs k) /\ same_settings c (cs k) /\
    cf_curve (cs k) = cf_curve c /\ cf_grp (cs k) <> [] /\ w_writable (ws k) (cf_grp (cs k)) = true /\
    inputs str_event_text scored_str_event_text (ws k) (cs k) refs hyps (fs k) /\ (Z.of_nat (strings refs hyps (fs k)) <= 2147483648)%Z) ->
  exists ks curves pts, NoDup ks /\ (forall k, In k ks <-> present f refs hyps k) /\
    In (EWrite (cf_mrp c) (FCurve pts)) (fst (simple_kws A T srt rngs show_int show_f64 qf w pn args)) /\
    Forall2 (fun k curve => In (EWrite (cf_grp (cs k)) (FCurve curve))
      (fst (simple_kws A T srt rngs show_int show_f64 qf (ws k) (pns k) (argss k)))) ks curves /\
    mean_of_curves curves pts.
Proof.
  intros A T srt rngs si sf ws pns argss cs fs qf w pn args c refs hyps f Hs.
  exact (MeanParts.simple_curves T srt Hs rngs si sf pns argss ws cs fs qf w pn args c refs hyps f).
Qed.
Print Assumptions c111_simple.

Definition mean_args : list string := ["--output_mrp"; "m"; "--rp_curve_samples"; "3"; "r"; "h"].
Definition part_args : list string := ["--output_grp"; "g"; "--rp_curve_samples"; "3"; "--query_set"; "only"; "r"; "h"].

(** The run on one query of the example. *)
Definition part_run (q : string) :=
  icdar17 QArith_ TQ (@isort) (fun _ => stream (fun _ => O)) (fun _ => []) (fun _ => []) (with_only here (lit q)) (lit "prog") (map lit part_args).

(** The present groups, when no queries are listed, are the queries of the
    events. *)
Lemma present_queries {L} (refs : list (event bytes L)) (hyps : list (scored (event bytes L))) ks :
  (forall q, In q (map ev_query refs ++ map (fun h => ev_query (sc_base h)) hyps) <-> In q ks) ->
  forall k, present NoQueries refs hyps k <-> In k ks.
Proof.
  intros H k. rewrite <- H, in_app_iff, !in_map_iff. split.
  - intros (q & _ & [[]|[_ ->]] & [(r & I & <-)|(h & I & <-)]); eauto.
  - intros I. exists k. split; [right; intros ? ? []|]. split; [right; split; [intros ? []|reflexivity]|].
    destruct I as [(r & <- & I)|(h & <- & I)]; eauto.
Qed.

(** Four queries; the first point of the mean curve is the mean of 1, 1/2, 0
    and 1. *)
Example c111_case :
  (exists c c' refs hyps, command (map lit mean_args) c /\ no_bootstrap c /\
    inputs shaped_text scored_shaped_text here c refs hyps NoQueries /\
    cf_grp c = [] /\ cf_mrp c = lit "m" /\ w_writable here (cf_mrp c) = true /\ (exists k, present NoQueries refs hyps k) /\
    forall k, present NoQueries refs hyps k -> only NoQueries k (QuerySet [k]) /\
      command (map lit part_args) c' /\ no_bootstrap c' /\ same_settings c c' /\ cf_curve c' = cf_curve c /\ cf_grp c' = lit "g" /\
      w_writable (with_only here k) (cf_grp c') = true /\
      inputs shaped_text scored_shaped_text (with_only here k) c' refs hyps (QuerySet [k])) /\
  precisions (fst (try_icdar17 mean_args)) = [[5 # 8; 1 # 4; 0]]%Q /\
  map (fun q => precisions (fst (part_run q))) ["q1"; "q2"; "q3"; "q99"] =
    [[[1; 1; 0]]; [[1 # 2; 0; 0]]; [[0; 0; 0]]; [[1; 0; 0]]]%Q.
Proof.
  split.
  - eexists _, _, _, _. split; [apply Compute.config_for_ok; vm_compute; reflexivity|].
    split; [repeat split|]. split; [apply Compute.icdar_inputs_ok; vm_compute; reflexivity|].
    split; [reflexivity|]. split; [reflexivity|]. split; [reflexivity|].
    match goal with |- (exists k, present _ ?r ?h k) /\ _ => assert (Pk := present_queries r h (map lit ["q1"; "q2"; "q3"; "q99"])) end.
    assert (Pk' := Pk ltac:(vm_compute; tauto)). clear Pk.
    split; [exists (lit "q1"); apply Pk'; simpl; auto|].
    intros k K. split; [apply c89_single|]. split; [apply Compute.config_for_ok; vm_compute; reflexivity|].
    split; [repeat split|]. split; [repeat split|]. split; [reflexivity|]. split; [reflexivity|]. split; [reflexivity|].
    apply Pk' in K. vm_compute in K.
    repeat (destruct K as [<-|K]; [apply Compute.icdar_inputs_ok; vm_compute; reflexivity|]). destruct K.
  - split; vm_compute; reflexivity.
Qed.

(** The files of C88, with SimpleKwsEval. *)
Example c111_simple_case :
  (exists c c' refs hyps, command (map lit mean_args) c /\ no_bootstrap c /\
    inputs str_event_text scored_str_event_text ties c refs hyps NoQueries /\ (Z.of_nat (strings refs hyps NoQueries) <= 2147483648)%Z /\
    cf_grp c = [] /\ cf_mrp c = lit "m" /\ w_writable ties (cf_mrp c) = true /\ (exists k, present NoQueries refs hyps k) /\
    forall k, present NoQueries refs hyps k -> only NoQueries k (QuerySet [k]) /\
      command (map lit part_args) c' /\ no_bootstrap c' /\ same_settings c c' /\ cf_curve c' = cf_curve c /\ cf_grp c' = lit "g" /\
      w_writable (with_only ties k) (cf_grp c') = true /\
      inputs str_event_text scored_str_event_text (with_only ties k) c' refs hyps (QuerySet [k]) /\
      (Z.of_nat (strings refs hyps (QuerySet [k])) <= 2147483648)%Z) /\
  precisions (fst (tie_run TQ ties mean_args)) = [[5 # 9; 5 # 9; 5 # 9]]%Q /\
  map (fun q => precisions (fst (tie_run TQ (with_only ties (lit q)) part_args))) ["a"; "b"; "c"] =
    [[[1; 1; 1]]; [[1 # 3; 1 # 3; 1 # 3]]; [[1 # 3; 1 # 3; 1 # 3]]]%Q.
Proof.
  split; [|split; vm_compute; reflexivity].
  eexists _, _, _, _. split; [apply Compute.config_for_ok; vm_compute; reflexivity|].
  split; [repeat split|]. split; [apply Compute.simple_inputs_ok; vm_compute; reflexivity|]. split; [vm_compute; discriminate|].
  split; [reflexivity|]. split; [reflexivity|]. split; [reflexivity|].
  match goal with |- (exists k, present _ ?r ?h k) /\ _ => assert (Pk := present_queries r h (map lit ["a"; "b"; "c"])) end.
  assert (Pk' := Pk ltac:(vm_compute; tauto)). clear Pk.
  split; [exists (lit "a"); apply Pk'; simpl; auto|].
  intros k K. split; [apply c89_single|]. split; [apply Compute.config_for_ok; vm_compute; reflexivity|].
  split; [repeat split|]. split; [repeat split|]. split; [reflexivity|]. split; [reflexivity|]. split; [reflexivity|].
  split; [|vm_compute; discriminate].
  apply Pk' in K. vm_compute in K.
  repeat (destruct K as [<-|K]; [apply Compute.simple_inputs_ok; vm_compute; reflexivity|]). destruct K.
Qed.
