(** C95: one more reference that nobody finds. *)
From Coq Require Import Ascii String List Bool ZArith QArith Reals Lia Lra Permutation.
From Flocq Require Import Core BinarySingleNaN.
From Verif.Model Require Import Cpp Floats Box Events EventSets Matches Matcher Scorers Assessment Bootstrap Mapper Stream
  Reader Options Tool.
From Verif.Spec Require Import Order Objects Sets Matching Scorers Grouping Collapse Metrics Curves Reader Options Tool Parts Better Unfound.
From Verif.Proofs Require Order Scorers Reader Lines Runs Instances Compute Unfound.
From Verif.Props Require Import P17_Tool P18_Results P25_Ties.
Import ListNotations.
Local Open Scope string_scope.
Local Open Scope list_scope.

(** ** C95 *)

(** C95.  Icdar17KwsEval with one more reference, anywhere in its file, that
    is not there yet and accepts no hypothesis. *)
Theorem c95_icdar17_rejecting : forall srt rngs show_int show_f64 w w' pn args c refs refs' hyps f r, sort_contract srt ->
  command args c -> no_bootstrap c ->
  inputs shaped_text scored_shaped_text w c refs hyps f -> inputs shaped_text scored_shaped_text w' c refs' hyps f ->
  one_more r refs refs' -> ~ In r refs -> (forall h, In h hyps -> Spec.Scorers.rejected (ioh_scorer cmp_str f32_half r (sc_base h))) ->
  (cf_collapse c = true -> Z.of_nat (List.length refs' + List.length hyps) <= 2 ^ 24)%Z ->
  exists gap vap gndcg vndcg gap' vap' gndcg' vndcg' : R,
    prints (A := RArith) (fst (icdar17 RArith RTrans srt rngs show_int show_f64 w pn args)) gap vap gndcg vndcg /\
    prints (A := RArith) (fst (icdar17 RArith RTrans srt rngs show_int show_f64 w' pn args)) gap' vap' gndcg' vndcg' /\
    dilutes f refs r gap vap gndcg vndcg gap' vap' gndcg' vndcg'.
Proof.
  intros srt rngs si sf w w' pn args c refs refs' hyps f r Hs. exact (Unfound.icdar_unfound srt Hs rngs si sf w w' pn args c refs refs' hyps f r).
Qed.
Print Assumptions c95_icdar17_rejecting.

(** C95.  The same for one that covers no hypothesis of the same query by half,
    where these have at most 2^24 cells. *)
Theorem c95_icdar17 : forall srt rngs show_int show_f64 w w' pn args c refs refs' hyps f r, sort_contract srt ->
  command args c -> no_bootstrap c ->
  inputs shaped_text scored_shaped_text w c refs hyps f -> inputs shaped_text scored_shaped_text w' c refs' hyps f ->
  one_more r refs refs' -> ~ In r refs -> fits (ev_loc r) ->
  (forall h, In h hyps -> fits (ev_loc (sc_base h)) /\ exists a i, covers (ev_loc (sc_base h)) a /\ (a <= 2 ^ 24)%Z /\
    shares (ev_loc r) (ev_loc (sc_base h)) i /\ (ev_query r <> ev_query (sc_base h) \/ a = 0 \/ 2 * i < a)%Z) ->
  (cf_collapse c = true -> Z.of_nat (List.length refs' + List.length hyps) <= 2 ^ 24)%Z ->
  exists gap vap gndcg vndcg gap' vap' gndcg' vndcg' : R,
    prints (A := RArith) (fst (icdar17 RArith RTrans srt rngs show_int show_f64 w pn args)) gap vap gndcg vndcg /\
    prints (A := RArith) (fst (icdar17 RArith RTrans srt rngs show_int show_f64 w' pn args)) gap' vap' gndcg' vndcg' /\
    dilutes f refs r gap vap gndcg vndcg gap' vap' gndcg' vndcg'.
Proof.
  intros srt rngs si sf w w' pn args c refs refs' hyps f r Hs Cm NB I I' O Nr Fr Rj.
  apply (c95_icdar17_rejecting srt rngs si sf w w' pn args c refs refs' hyps f r Hs Cm NB I I' O Nr). intros h J.
  destruct (Rj h J) as (Fh & a & i & Ca & La & Sh & N).
  destruct (Scorers.ioh_exact_rule cmp_str Order.total_order_str r (sc_base h) i a Fr Fh Sh Ca La) as [[(A & B & C) _]|[_ K]]; [|exact K].
  exfalso. destruct N as [N|[N|N]]; [contradiction|lia|lia].
Qed.
Print Assumptions c95_icdar17.

(** C95.  SimpleKwsEval with one more reference, anywhere in its file, that is
    not there yet and is not among the hypotheses, when equal scores are
    collapsed. *)
Theorem c95_simple : forall srt rngs show_int show_f64 qf w w' pn args c refs refs' hyps f r, sort_contract srt ->
  command args c -> no_bootstrap c -> cf_collapse c = true -> cf_sort c = lit "desc" \/ cf_sort c = lit "asc" ->
  inputs str_event_text scored_str_event_text w c refs hyps f -> inputs str_event_text scored_str_event_text w' c refs' hyps f ->
  (Z.of_nat (strings refs' hyps f) <= 2147483648)%Z -> one_more r refs refs' -> ~ In r refs -> ~ In r (map sc_base hyps) ->
  (Z.of_nat (List.length refs' + List.length hyps) <= 2 ^ 24)%Z ->
  exists gap vap gndcg vndcg gap' vap' gndcg' vndcg' : R,
    prints (A := RArith) (fst (simple_kws RArith RTrans srt rngs show_int show_f64 qf w pn args)) gap vap gndcg vndcg /\
    prints (A := RArith) (fst (simple_kws RArith RTrans srt rngs show_int show_f64 qf w' pn args)) gap' vap' gndcg' vndcg' /\
    dilutes f refs r gap vap gndcg vndcg gap' vap' gndcg' vndcg'.
Proof.
  intros srt rngs si sf qf w w' pn args c refs refs' hyps f r Hs. exact (Unfound.simple_unfound srt Hs rngs si sf qf w w' pn args c refs refs' hyps f r).
Qed.
Print Assumptions c95_simple.

(** Three references and four hypotheses, and more references in the middle,
    one of a query with events and one of a new query. *)
Definition more_refs (extra : list string) : world :=
  tie_world (map lit (["a x"] ++ extra ++ ["b x"; "b y"])) (map lit ["a x 3"; "b z 2"; "b x 2"; "a z 1"]).

Example c95_simple_case :
  (exists c refs refs' hyps r, command (map lit ["r"; "h"]) c /\ no_bootstrap c /\ cf_collapse c = true /\ cf_sort c = lit "desc" /\
    inputs str_event_text scored_str_event_text (more_refs []) c refs hyps NoQueries /\
    inputs str_event_text scored_str_event_text (more_refs ["b w"]) c refs' hyps NoQueries /\ (Z.of_nat (strings refs' hyps NoQueries) <= 2147483648)%Z /\
    one_more r refs refs' /\ ~ In r refs /\ ~ In r (map sc_base hyps) /\ (Z.of_nat (List.length refs' + List.length hyps) <= 2 ^ 24)%Z /\
    kept NoQueries (ev_query r)) /\
  map (fun x => map snd (firstn 2 (printed (fst (tie_run TQ (more_refs x) ["r"; "h"]))))) [[]; ["b w"]; ["c x"]] =
    [[11 # 18; 5 # 8]; [11 # 24; 7 # 12]; [11 # 24; 5 # 12]]%Q.
Proof.
  split.
  - eexists _, _, _, _, _. split; [apply Compute.config_for_ok; vm_compute; reflexivity|].
    split; [repeat split|]. split; [reflexivity|]. split; [reflexivity|].
    split; [apply Compute.simple_inputs_ok; vm_compute; reflexivity|]. split; [apply Compute.simple_inputs_ok; vm_compute; reflexivity|].
    split; [vm_compute; discriminate|]. split; [eexists [_], [_; _]; split; reflexivity|].
    split; [intros I; repeat (destruct I as [I|I]; [discriminate|]); destruct I|].
    split; [intros I; repeat (destruct I as [I|I]; [discriminate|]); destruct I|]. split; [vm_compute; discriminate|]. right. intros q g A. inversion A.
  - vm_compute. reflexivity.
Qed.

(** Without collapsing the references decide the order of tied hypotheses, and
    the statistics may go up. *)
Example c95_ties_case :
  map (fun x => map snd (firstn 1 (printed (fst (tie_run TQ (tie_world (map lit (x ++ ["b x"])) (map lit ["a x 1"; "a z 1"; "b x 1"; "a w 1"]))
    ["--collapse_matches"; "false"; "r"; "h"]))))) [[]; ["a y"]] = [[1 # 4]; [1 # 2]]%Q.
Proof. vm_compute. reflexivity. Qed.

(** Two references of one query, and one more that shares less than half of
    the second hypothesis. *)
Definition more_ref_boxes (extra : list string) : world :=
  tie_world (map lit (["q d 0 0 10 10"] ++ extra ++ ["q d 20 0 10 10"])) (map lit ["q d 0 0 10 9 2"; "q d 26 0 10 10 3"]).

Example c95_icdar17_case :
  (exists c refs refs' hyps r, command (map lit ["r"; "h"]) c /\ no_bootstrap c /\
    inputs shaped_text scored_shaped_text (more_ref_boxes []) c refs hyps NoQueries /\
    inputs shaped_text scored_shaped_text (more_ref_boxes ["q d 32 0 10 10"]) c refs' hyps NoQueries /\
    one_more r refs refs' /\ ~ In r refs /\ fits (ev_loc r) /\
    (forall h, In h hyps -> fits (ev_loc (sc_base h)) /\ exists a i, covers (ev_loc (sc_base h)) a /\ (a <= 2 ^ 24)%Z /\
      shares (ev_loc r) (ev_loc (sc_base h)) i /\ (ev_query r <> ev_query (sc_base h) \/ a = 0 \/ 2 * i < a)%Z) /\
    (Z.of_nat (List.length refs' + List.length hyps) <= 2 ^ 24)%Z) /\
  map (fun x => map snd (firstn 2 (printed (fst (icdar17 QArith_ TQ (@isort) (fun _ => stream (fun _ => O)) (fun _ => []) (fun _ => [])
    (more_ref_boxes x) (lit "prog") (map lit ["r"; "h"])))))) [[]; ["q d 32 0 10 10"]; ["p d 32 0 10 10"]] =
    [[1 # 4; 1 # 4]; [1 # 6; 1 # 6]; [1 # 6; 1 # 8]]%Q.
Proof.
  split.
  - eexists _, _, _, _, _. split; [apply Compute.config_for_ok; vm_compute; reflexivity|].
    split; [repeat split|].
    split; [apply Compute.icdar_inputs_ok; vm_compute; reflexivity|]. split; [apply Compute.icdar_inputs_ok; vm_compute; reflexivity|].
    split; [eexists [_], [_]; split; reflexivity|].
    split; [intros I; repeat (destruct I as [I|I]; [discriminate|]); destruct I|].
    split; [apply Scorers.fits_intro; easy|]. split; [|vm_compute; discriminate].
    intros h I. destruct I as [<-|[<-|[]]]; (split; [apply Scorers.fits_intro; easy|]).
    + exists 90%Z, 0%Z. split; [apply Scorers.covers_intro; [apply Scorers.fits_intro; easy|reflexivity]|]. split; [easy|].
      split; [apply Scorers.shares_intro; [apply Scorers.fits_intro; easy|apply Scorers.fits_intro; easy|reflexivity]|]. right; right. easy.
    + exists 100%Z, 40%Z. split; [apply Scorers.covers_intro; [apply Scorers.fits_intro; easy|reflexivity]|]. split; [easy|].
      split; [apply Scorers.shares_intro; [apply Scorers.fits_intro; easy|apply Scorers.fits_intro; easy|reflexivity]|]. right; right. easy.
  - vm_compute. reflexivity.
Qed.
