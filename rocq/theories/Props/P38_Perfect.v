(** C102: the references as hypotheses. *)
From Coq Require Import Ascii String List Bool ZArith QArith Reals Lia Lra Permutation.
From Flocq Require Import Core BinarySingleNaN.
From Verif.Model Require Import Cpp Floats Box Events EventSets Matches Matcher Scorers Assessment Bootstrap Mapper Stream
  Reader Options Tool.
From Verif.Spec Require Import Order Objects Sets Matching Scorers Grouping Reader Options Tool Parts Found Again Perfect.
From Verif.Proofs Require Order Geometry Scorers Instances Compute Perfect.
From Verif.Props Require Import P17_Tool P18_Results P25_Ties.
Import ListNotations.
Local Open Scope string_scope.
Local Open Scope list_scope.

(** ** C102 *)

(** C102.  SimpleKwsEval prints 1 four times if the hypotheses of the queries
    that are evaluated are the references of these queries. *)
Theorem c102_simple : forall srt rngs show_int show_f64 qf w pn args c refs hyps f, sort_contract srt ->
  command args c -> no_bootstrap c ->
  inputs str_event_text scored_str_event_text w c refs hyps f -> (Z.of_nat (strings refs hyps f) <= 2147483648)%Z ->
  submits_references f refs hyps -> (cf_collapse c = true -> Z.of_nat (List.length refs + List.length hyps) <= 2 ^ 24)%Z ->
  prints (A := RArith) (fst (simple_kws RArith RTrans srt rngs show_int show_f64 qf w pn args)) 1%R 1%R 1%R 1%R.
Proof. intros srt rngs si sf qf w pn args c refs hyps f Hs. exact (Perfect.simple_perfect srt Hs rngs si sf qf w pn args c refs hyps f). Qed.
Print Assumptions c102_simple.

(** C102.  So does Icdar17KwsEval if every hypothesis has half of its cells in
    a reference and every reference has more cells of some such hypothesis than
    any other reference. *)
Theorem c102_icdar17_found : forall srt rngs show_int show_f64 w pn args c refs hyps f, sort_contract srt ->
  command args c -> no_bootstrap c ->
  inputs shaped_text scored_shaped_text w c refs hyps f -> all_found f refs hyps ->
  (forall r, In r refs -> fits (ev_loc r)) -> (forall h, In h hyps -> fits (ev_loc (sc_base h))) ->
  (cf_collapse c = true -> Z.of_nat (List.length refs + List.length hyps) <= 2 ^ 24)%Z ->
  prints (A := RArith) (fst (icdar17 RArith RTrans srt rngs show_int show_f64 w pn args)) 1%R 1%R 1%R 1%R.
Proof. intros srt rngs si sf w pn args c refs hyps f Hs. exact (Perfect.icdar_perfect srt Hs rngs si sf w pn args c refs hyps f). Qed.
Print Assumptions c102_icdar17_found.

(** C102.  This holds for the references themselves if they have cells and none
    lies within another one of its query. *)
Theorem c102_icdar17 : forall srt rngs show_int show_f64 w pn args c refs hyps f, sort_contract srt ->
  command args c -> no_bootstrap c ->
  inputs shaped_text scored_shaped_text w c refs hyps f -> submits_references f refs hyps ->
  (forall r, In r refs -> fits (ev_loc r)) -> (forall h, In h hyps -> fits (ev_loc (sc_base h))) ->
  (forall r, wanted f refs r -> exists a, covers (ev_loc r) a /\ (0 < a)%Z) ->
  (forall r r', wanted f refs r -> wanted f refs r' -> r' <> r -> ev_query r' = ev_query r -> not_within (ev_loc r) (ev_loc r')) ->
  (cf_collapse c = true -> Z.of_nat (List.length refs + List.length hyps) <= 2 ^ 24)%Z ->
  prints (A := RArith) (fst (icdar17 RArith RTrans srt rngs show_int show_f64 w pn args)) 1%R 1%R 1%R 1%R.
Proof.
  intros srt rngs si sf w pn args c refs hyps f Hs Cm NB I Sub Fr Fh Ca Nw.
  apply (c102_icdar17_found srt rngs si sf w pn args c refs hyps f Hs Cm NB I); [|exact Fr|exact Fh].
  exact (Perfect.references_found f refs hyps Sub Fr Ca Nw).
Qed.
Print Assumptions c102_icdar17.

(** Three references of two queries, in another order and one of them twice. *)
Definition same_lines : world :=
  tie_world (map lit ["a x"; "b x"; "b y"]) (map lit ["b y 1"; "b x 2"; "a x 1"; "b y 7"]).

Example c102_simple_case :
  (exists c refs hyps, command (map lit ["r"; "h"]) c /\ no_bootstrap c /\ cf_collapse c = true /\
    inputs str_event_text scored_str_event_text same_lines c refs hyps NoQueries /\ (Z.of_nat (strings refs hyps NoQueries) <= 2147483648)%Z /\
    submits_references NoQueries refs hyps /\ (Z.of_nat (List.length refs + List.length hyps) <= 2 ^ 24)%Z) /\
  firstn 2 (printed (fst (tie_run TQ same_lines ["r"; "h"]))) = [(lit "gAP", 1%Q); (lit "mAP", 1%Q)].
Proof.
  split; [|vm_compute; reflexivity].
  eexists _, _, _. split; [apply Compute.config_for_ok; vm_compute; reflexivity|]. split; [repeat split|]. split; [reflexivity|].
  split; [apply Compute.simple_inputs_ok; vm_compute; reflexivity|]. split; [vm_compute; discriminate|]. split; [|vm_compute; discriminate].
  split; [eexists; split; [now left|right; intros q g A; inversion A]|]. intros r _. cbn [map sc_base In]. tauto.
Qed.

(** Two references that share more than half of their cells and one of another
    query as hypotheses, one of them twice. *)
Definition same_boxes : world :=
  tie_world (map lit ["q d 0 0 10 10"; "q d 4 0 10 10"; "p e 0 0 4 4"]) (map lit ["q d 4 0 10 10 3"; "q d 0 0 10 10 2"; "q d 4 0 10 10 2"; "p e 0 0 4 4 1"]).

Example c102_icdar17_case :
  (exists c refs hyps, command (map lit ["r"; "h"]) c /\ no_bootstrap c /\
    inputs shaped_text scored_shaped_text same_boxes c refs hyps NoQueries /\ submits_references NoQueries refs hyps /\
    (forall r, In r refs -> fits (ev_loc r)) /\ (forall h, In h hyps -> fits (ev_loc (sc_base h))) /\
    (forall r, wanted NoQueries refs r -> exists a, covers (ev_loc r) a /\ (0 < a)%Z) /\
    (forall r r', wanted NoQueries refs r -> wanted NoQueries refs r' -> r' <> r -> ev_query r' = ev_query r -> not_within (ev_loc r) (ev_loc r')) /\
    all_found NoQueries refs hyps /\ (Z.of_nat (List.length refs + List.length hyps) <= 2 ^ 24)%Z) /\
  firstn 2 (printed (fst (icdar17 QArith_ TQ (@isort) (fun _ => stream (fun _ => O)) (fun _ => []) (fun _ => [])
    same_boxes (lit "prog") (map lit ["r"; "h"])))) = [(lit "gAP", 1%Q); (lit "mAP", 1%Q)].
Proof.
  split; [|vm_compute; reflexivity].
  eexists _, _, _. split; [apply Compute.config_for_ok; vm_compute; reflexivity|]. split; [repeat split|].
  split; [apply Compute.icdar_inputs_ok; vm_compute; reflexivity|].
  match goal with |- submits_references _ ?r ?h /\ _ => set (refs := r); set (hyps := h) end.
  assert (Sub : submits_references NoQueries refs hyps).
  { split; [eexists; split; [now left|right; intros q g A; inversion A]|]. intros r _. cbn [refs hyps map sc_base In]. tauto. }
  assert (Fr : forall r, In r refs -> fits (ev_loc r)).
  { intros r I. repeat (destruct I as [<-|I]; [apply Scorers.fits_intro; easy|]). destruct I. }
  assert (Fh : forall h, In h hyps -> fits (ev_loc (sc_base h))).
  { intros h I. repeat (destruct I as [<-|I]; [apply Scorers.fits_intro; easy|]). destruct I. }
  assert (Ca : forall r, wanted NoQueries refs r -> exists a, covers (ev_loc r) a /\ (0 < a)%Z).
  { intros r [I _]. exists (docbox_area (ev_loc r)). split; [apply Scorers.covers_intro; [now apply Fr|reflexivity]|].
    repeat (destruct I as [<-|I]; [easy|]). destruct I. }
  assert (Nw : forall r r', wanted NoQueries refs r -> wanted NoQueries refs r' -> r' <> r -> ev_query r' = ev_query r -> not_within (ev_loc r) (ev_loc r')).
  { intros r r' [I _] [I' _] Ne Eq n i Cn Si.
    rewrite (Geometry.cell_count_unique _ _ _ Cn (Scorers.covers_intro _ _ (Fr r I) eq_refl)).
    rewrite (Geometry.cell_count_unique _ _ _ Si (Scorers.shares_intro _ _ _ (Fr r' I') (Fr r I) eq_refl)).
    repeat (destruct I as [<-|I]; [repeat (destruct I' as [<-|I']; [first [congruence|easy|discriminate Eq]|]); destruct I'|]). destruct I. }
  split; [exact Sub|]. split; [exact Fr|]. split; [exact Fh|]. split; [exact Ca|]. split; [exact Nw|].
  split; [exact (Perfect.references_found _ _ _ Sub Fr Ca Nw)|vm_compute; discriminate].
Qed.

(** C102.  A reference within another one can make the difference: the
    hypothesis of the inner one takes the outer one, and the inner one is missed,
    even though the hypotheses are the references. *)
Theorem c102_nested_refuted :
  (exists c refs hyps, command (map lit ["r"; "h"]) c /\ no_bootstrap c /\
    inputs shaped_text scored_shaped_text (tie_world (map lit ["q d 0 0 10 10"; "q d 0 0 4 4"]) (map lit ["q d 0 0 4 4 2"; "q d 0 0 10 10 1"])) c refs hyps NoQueries /\
    submits_references NoQueries refs hyps) /\
  map (fun hyps => map snd (firstn 2 (printed (fst (icdar17 QArith_ TQ (@isort) (fun _ => stream (fun _ => O)) (fun _ => []) (fun _ => [])
    (tie_world (map lit ["q d 0 0 10 10"; "q d 0 0 4 4"]) (map lit hyps)) (lit "prog") (map lit ["r"; "h"]))))))
    [["q d 0 0 4 4 2"; "q d 0 0 10 10 1"]; ["q d 0 0 4 4 1"; "q d 0 0 10 10 2"]] = [[1 # 2; 1 # 2]; [1; 1]]%Q.
Proof.
  split; [|vm_compute; reflexivity].
  eexists _, _, _. split; [apply Compute.config_for_ok; vm_compute; reflexivity|]. split; [repeat split|].
  split; [apply Compute.icdar_inputs_ok; vm_compute; reflexivity|].
  split; [eexists; split; [now left|right; intros q g A; inversion A]|]. intros r _. cbn [map sc_base In]. tauto.
Qed.
Print Assumptions c102_nested_refuted.
