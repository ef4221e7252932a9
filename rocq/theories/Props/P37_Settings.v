(** C101: the settings compared with each other. *)
From Coq Require Import Ascii String List Bool ZArith QArith Reals Lia Lra Permutation.
From Flocq Require Import Core BinarySingleNaN.
From Verif.Model Require Import Cpp Floats Box Events EventSets Matches Matcher Scorers Assessment Bootstrap Mapper Stream
  Reader Options Tool.
From Verif.Spec Require Import Order Objects Sets Matching Scorers Grouping Collapse Metrics Curves Reader Options Tool Parts Settings.
From Verif.Proofs Require Order Matching Instances Compute Settings.
From Verif.Props Require P08_Collapse.
From Verif.Props Require Import P17_Tool P18_Results P25_Ties.
Import ListNotations.
Local Open Scope string_scope.
Local Open Scope list_scope.

(** ** C101 *)

(** C101.  Collapsing equal scores is the worst case: the interpolated average
    precision of the collapsed list, without trapezoids, is the least one that
    the matches have in any order of equal scores. *)
Theorem c101_worst_order : forall RE HE (score : HE -> f32) (l : list (match_t RE HE)), (forall m, In m l -> zero_one (m_err m)) -> ranked score l -> descending score l ->
  (Z.of_nat (List.length l) <= 2 ^ 24)%Z -> exists v, global_ap RArith score l true true false = Ok v /\
    (forall l', Permutation l l' -> descending score l' -> exists v', global_ap RArith score l' false true false = Ok v' /\ (v <= v')%R) /\
    (exists l', Permutation l l' /\ descending score l' /\ global_ap RArith score l' false true false = Ok v).
Proof. intros RE HE score l. exact (Settings.collapse_worst score l). Qed.
Print Assumptions c101_worst_order.

(** C101.  The gain of the collapsed list is at most the gain of the list that
    has the hits before the false positives of equal score. *)
Theorem c101_gain_order : forall RE HE (score : HE -> f32) (l l' : list (match_t RE HE)), (forall m, In m l -> zero_one (m_err m)) -> ranked score l -> descending score l ->
  (Z.of_nat (List.length l) <= 2 ^ 19)%Z -> Permutation l l' -> descending score l' -> hits_early score l' ->
  (global_ndcg RArith RTrans score l true <= global_ndcg RArith RTrans score l' false)%R.
Proof. intros RE HE score l l'. exact (Settings.collapse_gain score l l'). Qed.
Print Assumptions c101_gain_order.

(** The list of five matches of C30: a hit, then a false positive and a hit of
    equal score, and two misses. *)
Example c101_order_case :
  (forall m, In m P08_Collapse.run -> zero_one (m_err m)) /\ ranked P08_Collapse.sc' P08_Collapse.run /\ descending P08_Collapse.sc' P08_Collapse.run /\
  descending P08_Collapse.sc' P08_Collapse.run' /\ Permutation P08_Collapse.run P08_Collapse.run' /\ hits_early P08_Collapse.sc' P08_Collapse.run' /\
  map (fun p : _ * bool => global_ap QArith_ P08_Collapse.sc' (fst p) (snd p) true false)
    [(P08_Collapse.run, true); (P08_Collapse.run', true); (P08_Collapse.run, false); (P08_Collapse.run', false)] =
    [Ok (5 # 12); Ok (5 # 12); Ok (5 # 12); Ok (1 # 2)]%Q.
Proof.
  destruct P08_Collapse.c30_case as (R & D & D' & P & Z & _).
  split; [intros m I; apply (Z m I)|]. split; [exact R|]. split; [exact D|]. split; [exact D'|]. split; [exact P|]. split; [|vm_compute; reflexivity].
  intros u a v b w E _ A [_ B].
  assert (K : a = make_fp (Some false) -> b = make_fn 4%nat \/ b = make_fn 3%nat).
  { intros ->. destruct u as [|? [|? [|? [|? [|? [|? u]]]]]]; try discriminate. destruct v as [|? [|? [|? v]]]; try discriminate; injection E as; subst; auto. }
  assert (I : In a P08_Collapse.run') by (rewrite E; apply in_elt).
  destruct I as [<-|[<-|[<-|[<-|[<-|[]]]]]]; try discriminate. destruct (K eq_refl) as [->| ->]; discriminate.
Qed.

(** C101.  Two runs of Icdar17KwsEval on the same events: interpolation never
    lowers the average precisions, nor do trapezoids or the listing of equal
    scores one by one besides the interpolation (the latter without
    trapezoids); the gains change with the collapsing only. *)
Theorem c101_icdar17 : forall srt rngs show_int show_f64 w w' pn pn' args args' c c' refs hyps f, sort_contract srt ->
  command args c -> command args' c' -> no_bootstrap c -> no_bootstrap c' ->
  inputs shaped_text scored_shaped_text w c refs hyps f -> inputs shaped_text scored_shaped_text w' c' refs hyps f ->
  cf_sort c = cf_sort c' -> looser c c' -> (cf_collapse c = true -> Z.of_nat (List.length refs + List.length hyps) <= 2 ^ 24)%Z ->
  exists gap vap gndcg vndcg gap' vap' gndcg' vndcg' : R,
    prints (A := RArith) (fst (icdar17 RArith RTrans srt rngs show_int show_f64 w pn args)) gap vap gndcg vndcg /\
    prints (A := RArith) (fst (icdar17 RArith RTrans srt rngs show_int show_f64 w' pn' args')) gap' vap' gndcg' vndcg' /\
    (gap <= gap')%R /\ (vap <= vap')%R /\ (cf_collapse c = cf_collapse c' -> gndcg = gndcg' /\ vndcg = vndcg').
Proof.
  intros srt rngs si sf w w' pn pn' args args' c c' refs hyps f Hs Cm Cm' NB NB' I I' Es L B.
  exact (Settings.compared _ _ _ _ _ (Settings.icdar_settings srt Hs rngs si sf w w' pn pn' args args' c c' refs hyps f Cm Cm' NB NB' I I' Es) L B).
Qed.
Print Assumptions c101_icdar17.

(** C101.  Two runs of SimpleKwsEval on the same events. *)
Theorem c101_simple : forall srt rngs show_int show_f64 qf w w' pn pn' args args' c c' refs hyps f, sort_contract srt ->
  command args c -> command args' c' -> no_bootstrap c -> no_bootstrap c' ->
  inputs str_event_text scored_str_event_text w c refs hyps f -> inputs str_event_text scored_str_event_text w' c' refs hyps f ->
  (Z.of_nat (strings refs hyps f) <= 2147483648)%Z ->
  cf_sort c = cf_sort c' -> looser c c' -> (cf_collapse c = true -> Z.of_nat (List.length refs + List.length hyps) <= 2 ^ 24)%Z ->
  exists gap vap gndcg vndcg gap' vap' gndcg' vndcg' : R,
    prints (A := RArith) (fst (simple_kws RArith RTrans srt rngs show_int show_f64 qf w pn args)) gap vap gndcg vndcg /\
    prints (A := RArith) (fst (simple_kws RArith RTrans srt rngs show_int show_f64 qf w' pn' args')) gap' vap' gndcg' vndcg' /\
    (gap <= gap')%R /\ (vap <= vap')%R /\ (cf_collapse c = cf_collapse c' -> gndcg = gndcg' /\ vndcg = vndcg').
Proof.
  intros srt rngs si sf qf w w' pn pn' args args' c c' refs hyps f Hs Cm Cm' NB NB' I I' Ls Es L B.
  exact (Settings.compared _ _ _ _ _ (Settings.simple_settings srt Hs rngs si sf qf w w' pn pn' args args' c c' refs hyps f Cm Cm' NB NB' I I' Ls Es) L B).
Qed.
Print Assumptions c101_simple.

(** For one query a false positive, a hit, then two hits and a false positive
    of equal score; for another one a hit and a false positive of equal score. *)
Definition graded : world :=
  tie_world (map lit ["a x"; "b x"; "b z"; "b w"]) (map lit ["b y 4"; "b x 3"; "b a 2"; "b z 2"; "b w 2"; "a x 1"; "a y 1"]).
Definition with_settings (collapse interp trapezoid : string) : list string :=
  ["--collapse_matches"; collapse; "--interpolated_precision"; interp; "--trapezoid_integral"; trapezoid; "r"; "h"].

Example c101_simple_case :
  (exists c c' c'' c''' refs hyps, command (map lit (with_settings "true" "false" "false")) c /\ command (map lit (with_settings "true" "true" "false")) c' /\
    command (map lit (with_settings "true" "true" "true")) c'' /\ command (map lit (with_settings "false" "true" "false")) c''' /\
    no_bootstrap c /\ no_bootstrap c' /\ no_bootstrap c'' /\ no_bootstrap c''' /\
    inputs str_event_text scored_str_event_text graded c refs hyps NoQueries /\ inputs str_event_text scored_str_event_text graded c' refs hyps NoQueries /\
    inputs str_event_text scored_str_event_text graded c'' refs hyps NoQueries /\ inputs str_event_text scored_str_event_text graded c''' refs hyps NoQueries /\
    (Z.of_nat (strings refs hyps NoQueries) <= 2147483648)%Z /\ cf_sort c = cf_sort c' /\ cf_sort c = cf_sort c'' /\ cf_sort c = cf_sort c''' /\
    looser c c' /\ looser c' c'' /\ looser c' c''' /\ (Z.of_nat (List.length refs + List.length hyps) <= 2 ^ 24)%Z) /\
  map (fun a => map snd (firstn 2 (printed (fst (tie_run TQ graded a)))))
    [with_settings "true" "false" "false"; with_settings "true" "true" "false"; with_settings "true" "true" "true"; with_settings "false" "true" "false"] =
    [[159 # 280; 8 # 15]; [83 # 140; 11 # 20]; [167 # 280; 11 # 20]; [79 # 112; 5 # 8]]%Q.
Proof.
  split.
  - eexists _, _, _, _, _, _. do 4 (split; [apply Compute.config_for_ok; vm_compute; reflexivity|]).
    do 4 (split; [repeat split|]). do 4 (split; [apply Compute.simple_inputs_ok; vm_compute; reflexivity|]).
    split; [vm_compute; discriminate|]. do 3 (split; [reflexivity|]).
    split; [left; repeat split|]. split; [right; left; repeat split|]. split; [right; right; repeat split|]. vm_compute; discriminate.
  - vm_compute. reflexivity.
Qed.

(** A false positive, a hit, then three hypotheses of equal score of which two
    are hits. *)
Definition graded_boxes : world :=
  tie_world (map lit ["q d 0 0 10 10"; "q e 0 0 10 10"; "p e 0 0 4 4"]) (map lit ["q f 0 0 1 1 4"; "q d 0 0 10 9 3"; "q d 50 0 10 10 2"; "q e 1 0 9 10 2"; "p e 0 0 4 4 2"]).

Example c101_icdar17_case :
  (exists c c' c'' c''' refs hyps, command (map lit (with_settings "true" "false" "false")) c /\ command (map lit (with_settings "true" "true" "false")) c' /\
    command (map lit (with_settings "true" "true" "true")) c'' /\ command (map lit (with_settings "false" "true" "false")) c''' /\
    no_bootstrap c /\ no_bootstrap c' /\ no_bootstrap c'' /\ no_bootstrap c''' /\
    inputs shaped_text scored_shaped_text graded_boxes c refs hyps NoQueries /\ inputs shaped_text scored_shaped_text graded_boxes c' refs hyps NoQueries /\
    inputs shaped_text scored_shaped_text graded_boxes c'' refs hyps NoQueries /\ inputs shaped_text scored_shaped_text graded_boxes c''' refs hyps NoQueries /\
    cf_sort c = cf_sort c' /\ cf_sort c = cf_sort c'' /\ cf_sort c = cf_sort c''' /\
    looser c c' /\ looser c' c'' /\ looser c' c''' /\ (Z.of_nat (List.length refs + List.length hyps) <= 2 ^ 24)%Z) /\
  map (fun a => map snd (firstn 2 (printed (fst (icdar17 QArith_ TQ (@isort) (fun _ => stream (fun _ => O)) (fun _ => []) (fun _ => [])
    graded_boxes (lit "prog") (map lit a))))))
    [with_settings "true" "false" "false"; with_settings "true" "true" "false"; with_settings "true" "true" "true"; with_settings "false" "true" "false"] =
    [[17 # 30; 3 # 4]; [3 # 5; 3 # 4]; [3 # 5; 3 # 4]; [29 # 45; 5 # 6]]%Q.
Proof.
  split.
  - eexists _, _, _, _, _, _. do 4 (split; [apply Compute.config_for_ok; vm_compute; reflexivity|]).
    do 4 (split; [repeat split|]). do 4 (split; [apply Compute.icdar_inputs_ok; vm_compute; reflexivity|]).
    do 3 (split; [reflexivity|]).
    split; [left; repeat split|]. split; [right; left; repeat split|]. split; [right; right; repeat split|]. vm_compute; discriminate.
  - vm_compute. reflexivity.
Qed.

(** C101.  With trapezoids, collapsing equal scores may raise as well as lower
    the average precision, with the interpolation. *)
Theorem c101_trapezoids_refuted :
  map (fun p : _ * string => map snd (firstn 1 (printed (fst (tie_run TQ (tie_world (map lit ["a x"; "b x"]) (map lit ["a x 2"; fst p; "b x 1"])) (with_settings (snd p) "true" "true"))))))
    [("a z 1", "true"); ("a z 1", "false"); ("c x 1", "true"); ("c x 1", "false")] = [[11 # 12]; [1]; [11 # 12]; [5 # 6]]%Q.
Proof. vm_compute. reflexivity. Qed.
Print Assumptions c101_trapezoids_refuted.

(** C101.  Without interpolation, trapezoids may lower as well as raise the
    average precision. *)
Theorem c101_plain_refuted :
  map (fun p : list string * string => map snd (firstn 1 (printed (fst (tie_run TQ (tie_world (map lit ["a x"; "b x"]) (map lit (fst p))) (with_settings "true" "false" (snd p)))))))
    [(["a y 2"; "a x 1"], "false"); (["a y 2"; "a x 1"], "true"); (["a x 3"; "a y 2"; "b x 2"], "false"); (["a x 3"; "a y 2"; "b x 2"], "true")] = [[1 # 4]; [1 # 8]; [5 # 6]; [11 # 12]]%Q.
Proof. vm_compute. reflexivity. Qed.
Print Assumptions c101_plain_refuted.
