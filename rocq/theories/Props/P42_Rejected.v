(** C106: a higher score for one hypothesis of Icdar17KwsEval. *)
From Coq Require Import Ascii String List Bool ZArith QArith Reals Lia Lra.
From Flocq Require Import Core BinarySingleNaN.
From Verif.Model Require Import Cpp Floats Box Events EventSets Matches Matcher Scorers Assessment Bootstrap Mapper Stream
  Reader Options Tool.
From Verif.Spec Require Import Order Objects Sets Matching Scorers Grouping Collapse Metrics Curves Reader Options Tool Parts Better.
From Verif.Proofs Require Order Scorers Compute Rejected.
From Verif.Props Require Import P17_Tool P18_Results P25_Ties P27_Better.
Import ListNotations.
Local Open Scope string_scope.
Local Open Scope list_scope.

(** C106.  Icdar17KwsEval with a higher score for a hypothesis that no reference
    accepts: without collapsing, it raises none of the four statistics with
    decreasing scores and lowers none with increasing ones; with collapsing and
    decreasing scores, it raises neither gAP nor mAP. *)
Theorem c106_icdar17_rejected : forall srt rngs show_int show_f64 w w' pn args c refs hyps hyps' f e, sort_contract srt ->
  command args c -> no_bootstrap c ->
  inputs shaped_text scored_shaped_text w c refs hyps f -> inputs shaped_text scored_shaped_text w' c refs hyps' f ->
  raised e hyps hyps' -> (forall r, In r refs -> Spec.Scorers.rejected (ioh_scorer cmp_str f32_half r e)) ->
  exists gap vap gndcg vndcg gap' vap' gndcg' vndcg' : R,
    prints (A := RArith) (fst (icdar17 RArith RTrans srt rngs show_int show_f64 w pn args)) gap vap gndcg vndcg /\
    prints (A := RArith) (fst (icdar17 RArith RTrans srt rngs show_int show_f64 w' pn args)) gap' vap' gndcg' vndcg' /\
    (cf_collapse c = false -> cf_sort c = lit "desc" -> gap' <= gap /\ vap' <= vap /\ gndcg' <= gndcg /\ vndcg' <= vndcg)%R /\
    (cf_collapse c = false -> cf_sort c = lit "asc" -> gap <= gap' /\ vap <= vap' /\ gndcg <= gndcg' /\ vndcg <= vndcg')%R /\
    (cf_collapse c = true -> cf_sort c = lit "desc" -> (Z.of_nat (List.length refs + List.length hyps) <= 2 ^ 24)%Z -> gap' <= gap /\ vap' <= vap)%R.
Proof.
  intros srt rngs si sf w w' pn args c refs hyps hyps' f e Hs. exact (Rejected.icdar_raised srt Hs rngs si sf w w' pn args c refs hyps hyps' f e).
Qed.
Print Assumptions c106_icdar17_rejected.

(** C106.  The same for one that no reference of the same query covers by half,
    where it has at most 2^24 cells. *)
Theorem c106_icdar17_wrong : forall srt rngs show_int show_f64 w w' pn args c refs hyps hyps' f e a, sort_contract srt ->
  command args c -> no_bootstrap c ->
  inputs shaped_text scored_shaped_text w c refs hyps f -> inputs shaped_text scored_shaped_text w' c refs hyps' f ->
  raised e hyps hyps' -> fits (ev_loc e) -> covers (ev_loc e) a -> (a <= 2 ^ 24)%Z ->
  (forall r, In r refs -> fits (ev_loc r) /\
    exists i, shares (ev_loc r) (ev_loc e) i /\ (ev_query r <> ev_query e \/ a = 0 \/ 2 * i < a)%Z) ->
  exists gap vap gndcg vndcg gap' vap' gndcg' vndcg' : R,
    prints (A := RArith) (fst (icdar17 RArith RTrans srt rngs show_int show_f64 w pn args)) gap vap gndcg vndcg /\
    prints (A := RArith) (fst (icdar17 RArith RTrans srt rngs show_int show_f64 w' pn args)) gap' vap' gndcg' vndcg' /\
    (cf_collapse c = false -> cf_sort c = lit "desc" -> gap' <= gap /\ vap' <= vap /\ gndcg' <= gndcg /\ vndcg' <= vndcg)%R /\
    (cf_collapse c = false -> cf_sort c = lit "asc" -> gap <= gap' /\ vap <= vap' /\ gndcg <= gndcg' /\ vndcg <= vndcg')%R /\
    (cf_collapse c = true -> cf_sort c = lit "desc" -> (Z.of_nat (List.length refs + List.length hyps) <= 2 ^ 24)%Z -> gap' <= gap /\ vap' <= vap)%R.
Proof.
  intros srt rngs si sf w w' pn args c refs hyps hyps' f e a Hs Cm NB I I' Ra Fe Ca La Rj.
  apply (c106_icdar17_rejected srt rngs si sf w w' pn args c refs hyps hyps' f e Hs Cm NB I I' Ra). intros r J.
  destruct (Rj r J) as (Fr & i & Sh & N).
  destruct (Scorers.ioh_exact_rule cmp_str Order.total_order_str r e i a Fr Fe Sh Ca La) as [[(A & B & C) _]|[_ K]]; [|exact K].
  exfalso. destruct N as [N|[N|N]]; [contradiction|lia|lia].
Qed.
Print Assumptions c106_icdar17_wrong.

(** C106.  SimpleKwsEval without collapsing and with increasing scores: a higher
    score for a hypothesis that is not a reference lowers none of the four
    statistics. *)
Theorem c106_simple_ascending : forall srt rngs show_int show_f64 qf w w' pn args c refs hyps hyps' f e, sort_contract srt ->
  command args c -> no_bootstrap c -> cf_sort c = lit "asc" -> cf_collapse c = false ->
  inputs str_event_text scored_str_event_text w c refs hyps f -> inputs str_event_text scored_str_event_text w' c refs hyps' f ->
  (Z.of_nat (strings refs hyps f) <= 2147483648)%Z -> raised e hyps hyps' -> ~ In e refs ->
  exists gap vap gndcg vndcg gap' vap' gndcg' vndcg' : R,
    prints (A := RArith) (fst (simple_kws RArith RTrans srt rngs show_int show_f64 qf w pn args)) gap vap gndcg vndcg /\
    prints (A := RArith) (fst (simple_kws RArith RTrans srt rngs show_int show_f64 qf w' pn args)) gap' vap' gndcg' vndcg' /\
    (gap <= gap' /\ vap <= vap' /\ gndcg <= gndcg' /\ vndcg <= vndcg')%R.
Proof.
  intros srt rngs si sf qf w w' pn args c refs hyps hyps' f e Hs. exact (Rejected.simple_ascending srt Hs rngs si sf qf w w' pn args c refs hyps hyps' f e).
Qed.
Print Assumptions c106_simple_ascending.

(** Two references, two hits and a hypothesis between them that covers too much,
    with the score given. *)
Definition wrong_box (s : string) : world :=
  tie_world (map lit ["q d 0 0 10 10"; "q d 20 0 10 10"]) [lit "q d 0 0 10 9 3"; lit "q d 26 0 10 10 " ++ lit s; lit "q d 20 0 10 10 2"].

Example c106_case :
  (forall args, In args [["--collapse_matches"; "false"; "r"; "h"]; ["r"; "h"]; ["--collapse_matches"; "false"; "--sort"; "asc"; "r"; "h"]] ->
   exists c refs hyps hyps' e, command (map lit args) c /\ no_bootstrap c /\
    inputs shaped_text scored_shaped_text (wrong_box "1") c refs hyps NoQueries /\
    inputs shaped_text scored_shaped_text (wrong_box "2.5") c refs hyps' NoQueries /\
    raised e hyps hyps' /\ fits (ev_loc e) /\ covers (ev_loc e) 100 /\
    (forall r, In r refs -> fits (ev_loc r) /\
      exists i, shares (ev_loc r) (ev_loc e) i /\ (ev_query r <> ev_query e \/ 100 = 0 \/ 2 * i < 100)%Z) /\
    (Z.of_nat (List.length refs + List.length hyps) <= 2 ^ 24)%Z) /\
  map (fun args => map (fun s => map snd (firstn 2 (printed (fst (icdar17 QArith_ TQ (@isort) (fun _ => stream (fun _ => O)) (fun _ => []) (fun _ => [])
    (wrong_box s) (lit "prog") (map lit args)))))) ["1"; "2.5"; "4"])
    [["--collapse_matches"; "false"; "r"; "h"]; ["r"; "h"]; ["--collapse_matches"; "false"; "--sort"; "asc"; "r"; "h"]] =
  [[[1; 1]; [5 # 6; 5 # 6]; [2 # 3; 2 # 3]]; [[1; 1]; [5 # 6; 5 # 6]; [2 # 3; 2 # 3]]; [[2 # 3; 2 # 3]; [5 # 6; 5 # 6]; [1; 1]]]%Q.
Proof.
  split.
  - intros args [<-|[<-|[<-|[]]]]; (eexists _, _, _, _, _; split; [apply Compute.config_for_ok; vm_compute; reflexivity|];
      split; [repeat split|];
      split; [apply Compute.icdar_inputs_ok; vm_compute; reflexivity|]; split; [apply Compute.icdar_inputs_ok; vm_compute; reflexivity|];
      split; [eexists [_], _, _, [_]; split; [reflexivity|]; split; [reflexivity|vm_compute; reflexivity]|];
      split; [apply Scorers.fits_intro; easy|]; split; [apply Scorers.covers_intro; [apply Scorers.fits_intro; easy|reflexivity]|];
      split; [|vm_compute; discriminate];
      intros r [<-|[<-|[]]]; (split; [apply Scorers.fits_intro; easy|]); [exists 0%Z|exists 40%Z];
      (split; [apply Scorers.shares_intro; [apply Scorers.fits_intro; easy|apply Scorers.fits_intro; easy|reflexivity]|right; right; reflexivity])).
  - vm_compute. reflexivity.
Qed.

(** The same with strings and increasing scores. *)
Definition wrong_word (s : string) : world :=
  tie_world (map lit ["a x"; "a y"]) [lit "a x 3"; lit "a z " ++ lit s; lit "a y 2"].

Example c106_simple_case :
  (exists c refs hyps hyps' e, command (map lit ["--collapse_matches"; "false"; "--sort"; "asc"; "r"; "h"]) c /\ no_bootstrap c /\
    cf_sort c = lit "asc" /\ cf_collapse c = false /\
    inputs str_event_text scored_str_event_text (wrong_word "1") c refs hyps NoQueries /\
    inputs str_event_text scored_str_event_text (wrong_word "2.5") c refs hyps' NoQueries /\ (Z.of_nat (strings refs hyps NoQueries) <= 2147483648)%Z /\
    raised e hyps hyps' /\ ~ In e refs) /\
  map (fun s => map snd (firstn 2 (printed (fst (tie_run TQ (wrong_word s) ["--collapse_matches"; "false"; "--sort"; "asc"; "r"; "h"])))))
    ["1"; "2.5"; "4"] = [[2 # 3; 2 # 3]; [5 # 6; 5 # 6]; [1; 1]]%Q.
Proof.
  split; [|vm_compute; reflexivity].
  eexists _, _, _, _, _. split; [apply Compute.config_for_ok; vm_compute; reflexivity|].
  split; [repeat split|]. split; [reflexivity|]. split; [reflexivity|].
  split; [apply Compute.simple_inputs_ok; vm_compute; reflexivity|]. split; [apply Compute.simple_inputs_ok; vm_compute; reflexivity|].
  split; [vm_compute; discriminate|]. split.
  - eexists [_], _, _, [_]. split; [reflexivity|]. split; [reflexivity|]. vm_compute. reflexivity.
  - intros I. repeat (destruct I as [I|I]; [discriminate|]). destruct I.
Qed.
