(** C93: one more hypothesis. *)
From Coq Require Import Ascii String List Bool ZArith QArith Reals Lia Lra Permutation.
From Flocq Require Import Core BinarySingleNaN.
From Verif.Model Require Import Cpp Floats Box Events EventSets Matches Matcher Scorers Assessment Bootstrap Mapper Stream
  Reader Options Tool.
From Verif.Spec Require Import Order Objects Sets Matching Scorers Grouping Collapse Metrics Curves Reader Options Tool Parts Better Added.
From Verif.Proofs Require Order Scorers Reader Lines Runs Instances Compute Better Raised Insert Added.
From Verif.Props Require Import P17_Tool P18_Results P25_Ties P27_Better.
Import ListNotations.
Local Open Scope string_scope.
Local Open Scope list_scope.

(** ** C93 *)

Lemma list_values {RE HE} (score : HE -> f32) (l l' : list (match_t RE HE)) :
  (forall i t, Raised.ap_value i t (map m_err l) <= Raised.ap_value i t (map m_err l'))%R ->
  (Better.raw_ndcg (map m_err l) <= Better.raw_ndcg (map m_err l'))%R -> forall interpolate trapezoid,
  exists ap ap' : R, global_ap RArith score l false interpolate trapezoid = Ok ap /\ global_ap RArith score l' false interpolate trapezoid = Ok ap' /\
    (ap <= ap')%R /\ (global_ndcg RArith RTrans score l false <= global_ndcg RArith RTrans score l' false)%R.
Proof.
  intros H K i t. rewrite !Better.raw_ap_ok, !Raised.ap_value_ok, !Better.raw_ndcg_ok. do 2 eexists.
  split; [reflexivity|]. split; [reflexivity|]. split; [apply H|exact K].
Qed.

(** C93.  Without collapsing, one more false alarm anywhere in the ranking
    raises neither AP nor NDCG. *)
Theorem c93_alarm : forall RE HE (score : HE -> f32) (u v : list (match_t RE HE)) h interpolate trapezoid,
  (forall m, In m (u ++ v) -> zero_one (m_err m)) ->
  exists ap ap' : R, global_ap RArith score (u ++ make_fp h :: v) false interpolate trapezoid = Ok ap /\
    global_ap RArith score (u ++ v) false interpolate trapezoid = Ok ap' /\ (ap <= ap')%R /\
    (global_ndcg RArith RTrans score (u ++ make_fp h :: v) false <= global_ndcg RArith RTrans score (u ++ v) false)%R.
Proof.
  intros RE HE score u v h i t Zo. apply list_values.
  - intros i' t'. rewrite !map_app. apply Insert.alarm_ap. intros e I. rewrite <- map_app in I. apply in_map_iff in I as (m & <- & J). auto.
  - rewrite !map_app. apply Insert.alarm_ndcg. intros e I. rewrite <- map_app in I. apply in_map_iff in I as (m & <- & J). auto.
Qed.
Print Assumptions c93_alarm.

(** C93.  Without collapsing, finding a reference that was missed, anywhere in
    the ranking, lowers neither AP nor NDCG. *)
Theorem c93_hit : forall RE HE (score : HE -> f32) (u v : list (match_t RE HE)) r h missed missed' interpolate trapezoid,
  (forall m, In m (u ++ v) -> m_err m = hit_error \/ m_err m = alarm_error) ->
  exists ap ap' : R, global_ap RArith score (u ++ v ++ map make_fn (missed ++ r :: missed')) false interpolate trapezoid = Ok ap /\
    global_ap RArith score (u ++ Match (Some r) (Some h) hit_error :: v ++ map make_fn (missed ++ missed')) false interpolate trapezoid = Ok ap' /\ (ap <= ap')%R /\
    (global_ndcg RArith RTrans score (u ++ v ++ map make_fn (missed ++ r :: missed')) false <=
     global_ndcg RArith RTrans score (u ++ Match (Some r) (Some h) hit_error :: v ++ map make_fn (missed ++ missed')) false)%R.
Proof.
  intros RE HE score u v r h k k' i t Z.
  assert (E : map m_err (u ++ v ++ map make_fn (k ++ r :: k')) = map m_err u ++ map m_err v ++ Insert.miss_error :: map m_err (map (make_fn (HE := HE)) (k ++ k'))).
  { rewrite !map_app. f_equal. f_equal. cbn [map]. clear. induction k as [|x k IH]; [reflexivity|]. cbn [map app]. rewrite IH. reflexivity. }
  assert (E' : map m_err (u ++ Match (Some r) (Some h) hit_error :: v ++ map make_fn (k ++ k')) = map m_err u ++ hit_error :: map m_err v ++ map m_err (map (make_fn (HE := HE)) (k ++ k'))).
  { rewrite map_app. cbn [map m_err]. now rewrite map_app. }
  destruct (Insert.new_hit (map m_err u) (map m_err v) (map m_err (map (make_fn (HE := HE)) (k ++ k')))) as [A B].
  - intros e I. apply in_map_iff in I as (m & <- & J). apply Z, in_or_app. auto.
  - intros e I. apply in_map_iff in I as (m & <- & J). apply in_map_iff in J as (x & <- & J). reflexivity.
  - intros e I. apply in_map_iff in I as (m & <- & J). destruct (Z m) as [K|K]; [apply in_or_app; auto| |]; rewrite K; split; cbn; auto.
  - apply list_values; intros; rewrite E, E'; auto.
Qed.
Print Assumptions c93_hit.

(** C93.  Icdar17KwsEval with one more hypothesis, anywhere in its file, that no
    reference accepts: without collapsing, it raises none of the four
    statistics, and with collapsing and decreasing scores neither gAP nor
    mAP. *)
Theorem c93_icdar17_rejected : forall srt rngs show_int show_f64 w w' pn args c refs hyps hyps' f h, sort_contract srt ->
  command args c -> no_bootstrap c ->
  inputs shaped_text scored_shaped_text w c refs hyps f -> inputs shaped_text scored_shaped_text w' c refs hyps' f ->
  added h hyps hyps' -> (forall r, In r refs -> Spec.Scorers.rejected (ioh_scorer cmp_str f32_half r (sc_base h))) ->
  exists gap vap gndcg vndcg gap' vap' gndcg' vndcg' : R,
    prints (A := RArith) (fst (icdar17 RArith RTrans srt rngs show_int show_f64 w pn args)) gap vap gndcg vndcg /\
    prints (A := RArith) (fst (icdar17 RArith RTrans srt rngs show_int show_f64 w' pn args)) gap' vap' gndcg' vndcg' /\
    (cf_collapse c = false -> gap' <= gap /\ vap' <= vap /\ gndcg' <= gndcg /\ vndcg' <= vndcg)%R /\
    (cf_collapse c = true -> cf_sort c = lit "desc" -> (Z.of_nat (List.length refs + List.length hyps) < 2 ^ 24)%Z -> gap' <= gap /\ vap' <= vap)%R.
Proof.
  intros srt rngs si sf w w' pn args c refs hyps hyps' f h Hs. exact (Added.icdar_alarm srt Hs rngs si sf w w' pn args c refs hyps hyps' f h).
Qed.
Print Assumptions c93_icdar17_rejected.

(** C93.  The same for one that no reference of the same query covers by half,
    where it has at most 2^24 cells. *)
Theorem c93_icdar17_wrong : forall srt rngs show_int show_f64 w w' pn args c refs hyps hyps' f h a, sort_contract srt ->
  command args c -> no_bootstrap c ->
  inputs shaped_text scored_shaped_text w c refs hyps f -> inputs shaped_text scored_shaped_text w' c refs hyps' f ->
  added h hyps hyps' -> fits (ev_loc (sc_base h)) -> covers (ev_loc (sc_base h)) a -> (a <= 2 ^ 24)%Z ->
  (forall r, In r refs -> fits (ev_loc r) /\
    exists i, shares (ev_loc r) (ev_loc (sc_base h)) i /\ (ev_query r <> ev_query (sc_base h) \/ a = 0 \/ 2 * i < a)%Z) ->
  exists gap vap gndcg vndcg gap' vap' gndcg' vndcg' : R,
    prints (A := RArith) (fst (icdar17 RArith RTrans srt rngs show_int show_f64 w pn args)) gap vap gndcg vndcg /\
    prints (A := RArith) (fst (icdar17 RArith RTrans srt rngs show_int show_f64 w' pn args)) gap' vap' gndcg' vndcg' /\
    (cf_collapse c = false -> gap' <= gap /\ vap' <= vap /\ gndcg' <= gndcg /\ vndcg' <= vndcg)%R /\
    (cf_collapse c = true -> cf_sort c = lit "desc" -> (Z.of_nat (List.length refs + List.length hyps) < 2 ^ 24)%Z -> gap' <= gap /\ vap' <= vap)%R.
Proof.
  intros srt rngs si sf w w' pn args c refs hyps hyps' f h a Hs Cm NB I I' Ad Fh Ca La Rj.
  apply (c93_icdar17_rejected srt rngs si sf w w' pn args c refs hyps hyps' f h Hs Cm NB I I' Ad). intros r J.
  destruct (Rj r J) as (Fr & i & Sh & N).
  destruct (Scorers.ioh_exact_rule cmp_str Order.total_order_str r (sc_base h) i a Fr Fh Sh Ca La) as [[(A & B & C) _]|[_ K]]; [|exact K].
  exfalso. destruct N as [N|[N|N]]; [contradiction|lia|lia].
Qed.
Print Assumptions c93_icdar17_wrong.

(** C93.  Icdar17KwsEval with one more hypothesis, anywhere in its file, that
    some reference accepts: without collapsing, it lowers none of the four
    statistics, and with collapsing and decreasing scores neither gAP nor mAP, if the
    precision is interpolated or no reference accepts both it and another
    hypothesis. *)
Theorem c93_icdar17_accepted : forall srt rngs show_int show_f64 w w' pn args c refs hyps hyps' f h, sort_contract srt ->
  command args c -> no_bootstrap c ->
  inputs shaped_text scored_shaped_text w c refs hyps f -> inputs shaped_text scored_shaped_text w' c refs hyps' f ->
  added h hyps hyps' -> (exists r, In r refs /\ Spec.Scorers.accepted (ioh_scorer cmp_str f32_half r (sc_base h))) ->
  exists gap vap gndcg vndcg gap' vap' gndcg' vndcg' : R,
    prints (A := RArith) (fst (icdar17 RArith RTrans srt rngs show_int show_f64 w pn args)) gap vap gndcg vndcg /\
    prints (A := RArith) (fst (icdar17 RArith RTrans srt rngs show_int show_f64 w' pn args)) gap' vap' gndcg' vndcg' /\
    (cf_collapse c = false -> gap <= gap' /\ vap <= vap' /\ gndcg <= gndcg' /\ vndcg <= vndcg')%R /\
    (cf_collapse c = true -> cf_sort c = lit "desc" -> (Z.of_nat (List.length refs + List.length hyps) <= 2 ^ 24)%Z ->
      (cf_interp c = true \/ (forall r h', In r refs -> In h' hyps -> Spec.Scorers.accepted (ioh_scorer cmp_str f32_half r (sc_base h)) -> ~ Spec.Scorers.accepted (ioh_scorer cmp_str f32_half r (sc_base h')))) ->
      gap <= gap' /\ vap <= vap')%R.
Proof.
  intros srt rngs si sf w w' pn args c refs hyps hyps' f h Hs. exact (Added.icdar_hit srt Hs rngs si sf w w' pn args c refs hyps hyps' f h).
Qed.
Print Assumptions c93_icdar17_accepted.

(** C93.  The same for one that a reference of the same query covers by half. *)
Theorem c93_icdar17_right : forall srt rngs show_int show_f64 w w' pn args c refs hyps hyps' f h r i a, sort_contract srt ->
  command args c -> no_bootstrap c ->
  inputs shaped_text scored_shaped_text w c refs hyps f -> inputs shaped_text scored_shaped_text w' c refs hyps' f ->
  added h hyps hyps' -> fits (ev_loc (sc_base h)) -> covers (ev_loc (sc_base h)) a -> (0 < a <= 2 ^ 24)%Z ->
  In r refs -> fits (ev_loc r) -> shares (ev_loc r) (ev_loc (sc_base h)) i -> ev_query r = ev_query (sc_base h) -> (a <= 2 * i)%Z ->
  exists gap vap gndcg vndcg gap' vap' gndcg' vndcg' : R,
    prints (A := RArith) (fst (icdar17 RArith RTrans srt rngs show_int show_f64 w pn args)) gap vap gndcg vndcg /\
    prints (A := RArith) (fst (icdar17 RArith RTrans srt rngs show_int show_f64 w' pn args)) gap' vap' gndcg' vndcg' /\
    (cf_collapse c = false -> gap <= gap' /\ vap <= vap' /\ gndcg <= gndcg' /\ vndcg <= vndcg')%R /\
    (cf_collapse c = true -> cf_sort c = lit "desc" -> (Z.of_nat (List.length refs + List.length hyps) <= 2 ^ 24)%Z ->
      (cf_interp c = true \/ (forall r h', In r refs -> In h' hyps -> Spec.Scorers.accepted (ioh_scorer cmp_str f32_half r (sc_base h)) -> ~ Spec.Scorers.accepted (ioh_scorer cmp_str f32_half r (sc_base h')))) ->
      gap <= gap' /\ vap <= vap')%R.
Proof.
  intros srt rngs si sf w w' pn args c refs hyps hyps' f h r i a Hs Cm NB I I' Ad Fh Ca [La Lb] Ir Fr Sh Eq Lh.
  apply (c93_icdar17_accepted srt rngs si sf w w' pn args c refs hyps hyps' f h Hs Cm NB I I' Ad). exists r. split; [exact Ir|].
  destruct (Scorers.ioh_exact_rule cmp_str Order.total_order_str r (sc_base h) i a Fr Fh Sh Ca Lb) as [[_ K]|[N _]]; [exact K|].
  exfalso. apply N. auto.
Qed.
Print Assumptions c93_icdar17_right.

(** C93.  SimpleKwsEval with one more hypothesis, anywhere in its file, that is
    not a reference. *)
Theorem c93_simple_wrong : forall srt rngs show_int show_f64 qf w w' pn args c refs hyps hyps' f h, sort_contract srt ->
  command args c -> no_bootstrap c ->
  inputs str_event_text scored_str_event_text w c refs hyps f -> inputs str_event_text scored_str_event_text w' c refs hyps' f ->
  (Z.of_nat (strings refs hyps' f) <= 2147483648)%Z -> added h hyps hyps' -> ~ In (sc_base h) refs ->
  exists gap vap gndcg vndcg gap' vap' gndcg' vndcg' : R,
    prints (A := RArith) (fst (simple_kws RArith RTrans srt rngs show_int show_f64 qf w pn args)) gap vap gndcg vndcg /\
    prints (A := RArith) (fst (simple_kws RArith RTrans srt rngs show_int show_f64 qf w' pn args)) gap' vap' gndcg' vndcg' /\
    (cf_collapse c = false -> gap' <= gap /\ vap' <= vap /\ gndcg' <= gndcg /\ vndcg' <= vndcg)%R /\
    (cf_collapse c = true -> cf_sort c = lit "desc" -> (Z.of_nat (List.length refs + List.length hyps) < 2 ^ 24)%Z -> gap' <= gap /\ vap' <= vap)%R.
Proof.
  intros srt rngs si sf qf w w' pn args c refs hyps hyps' f h Hs. exact (Added.simple_alarm srt Hs rngs si sf qf w w' pn args c refs hyps hyps' f h).
Qed.
Print Assumptions c93_simple_wrong.

(** C93.  SimpleKwsEval with one more hypothesis, anywhere in its file, that is
    a reference. *)
Theorem c93_simple_right : forall srt rngs show_int show_f64 qf w w' pn args c refs hyps hyps' f h, sort_contract srt ->
  command args c -> no_bootstrap c ->
  inputs str_event_text scored_str_event_text w c refs hyps f -> inputs str_event_text scored_str_event_text w' c refs hyps' f ->
  (Z.of_nat (strings refs hyps' f) <= 2147483648)%Z -> added h hyps hyps' -> In (sc_base h) refs ->
  exists gap vap gndcg vndcg gap' vap' gndcg' vndcg' : R,
    prints (A := RArith) (fst (simple_kws RArith RTrans srt rngs show_int show_f64 qf w pn args)) gap vap gndcg vndcg /\
    prints (A := RArith) (fst (simple_kws RArith RTrans srt rngs show_int show_f64 qf w' pn args)) gap' vap' gndcg' vndcg' /\
    (cf_collapse c = false -> gap <= gap' /\ vap <= vap' /\ gndcg <= gndcg' /\ vndcg <= vndcg')%R /\
    (cf_collapse c = true -> cf_sort c = lit "desc" -> (Z.of_nat (List.length refs + List.length hyps) <= 2 ^ 24)%Z ->
      (cf_interp c = true \/ ~ In (sc_base h) (map sc_base hyps)) -> gap <= gap' /\ vap <= vap')%R.
Proof.
  intros srt rngs si sf qf w w' pn args c refs hyps hyps' f h Hs. exact (Added.simple_hit srt Hs rngs si sf qf w w' pn args c refs hyps hyps' f h).
Qed.
Print Assumptions c93_simple_right.

(** Some hits and false alarms of two queries, and one more hypothesis between
    them. *)
Definition more_hyps (extra : list string) : world :=
  tie_world (map lit ["a x"; "a y"; "b x"; "b y"]) (map lit (["a p 7"; "a x 8"] ++ extra ++ ["a q 8"; "b x 9"; "b p 6"; "b y 1"])).

Example c93_simple_case :
  (exists c refs hyps hyps' h, command (map lit ["r"; "h"]) c /\ no_bootstrap c /\ cf_sort c = lit "desc" /\ cf_collapse c = true /\
    inputs str_event_text scored_str_event_text (more_hyps []) c refs hyps NoQueries /\
    inputs str_event_text scored_str_event_text (more_hyps ["a y 7"]) c refs hyps' NoQueries /\ (Z.of_nat (strings refs hyps' NoQueries) <= 2147483648)%Z /\
    added h hyps hyps' /\ In (sc_base h) refs /\ (Z.of_nat (List.length refs + List.length hyps) < 2 ^ 24)%Z) /\
  (exists c refs hyps hyps' h, command (map lit ["--collapse_matches"; "false"; "r"; "h"]) c /\ no_bootstrap c /\ cf_collapse c = false /\
    inputs str_event_text scored_str_event_text (more_hyps []) c refs hyps NoQueries /\
    inputs str_event_text scored_str_event_text (more_hyps ["b z 9"]) c refs hyps' NoQueries /\ (Z.of_nat (strings refs hyps' NoQueries) <= 2147483648)%Z /\
    added h hyps hyps' /\ ~ In (sc_base h) refs) /\
  map (fun x => map snd (firstn 2 (printed (fst (tie_run TQ (more_hyps x) ["r"; "h"]))))) [[]; ["a y 7"]; ["b z 9"]] =
    [[7 # 12; 13 # 24]; [319 # 420; 2 # 3]; [5 # 14; 3 # 8]]%Q /\
  map (fun x => map snd (firstn 2 (printed (fst (tie_run TQ (more_hyps x) ["--collapse_matches"; "false"; "r"; "h"]))))) [[]; ["a y 7"]; ["b z 9"]] =
    [[13 # 24; 13 # 24]; [149 # 210; 2 # 3]; [5 # 14; 3 # 8]]%Q.
Proof.
  split; [|split; [|split]].
  - eexists _, _, _, _, _. split; [apply Compute.config_for_ok; vm_compute; reflexivity|].
    split; [repeat split|]. split; [reflexivity|]. split; [reflexivity|].
    split; [apply Compute.simple_inputs_ok; vm_compute; reflexivity|]. split; [apply Compute.simple_inputs_ok; vm_compute; reflexivity|].
    split; [vm_compute; discriminate|]. split; [eexists [_; _], [_; _; _; _]; split; reflexivity|].
    split; [right; left; reflexivity|vm_compute; reflexivity].
  - eexists _, _, _, _, _. split; [apply Compute.config_for_ok; vm_compute; reflexivity|].
    split; [repeat split|]. split; [reflexivity|].
    split; [apply Compute.simple_inputs_ok; vm_compute; reflexivity|]. split; [apply Compute.simple_inputs_ok; vm_compute; reflexivity|].
    split; [vm_compute; discriminate|]. split; [eexists [_; _], [_; _; _; _]; split; reflexivity|].
    intros I. repeat (destruct I as [I|I]; [discriminate|]). destruct I.
  - vm_compute. reflexivity.
  - vm_compute. reflexivity.
Qed.

(** Without interpolation: a reference that was missed, and one that was found
    further down, where the precision was better. *)
Definition more_right (extra : list string) : world :=
  tie_world (map lit ["a w"; "a x"; "a y"; "a z"]) (map lit (extra ++ ["a p 9"; "a x 1"; "a y 1"; "a z 1"])).

Example c93_interpolation_case :
  (exists c refs hyps hyps' h, command (map lit ["--interpolated_precision"; "false"; "--trapezoid_integral"; "false"; "r"; "h"]) c /\ no_bootstrap c /\
    cf_sort c = lit "desc" /\ cf_collapse c = true /\ cf_interp c = false /\
    inputs str_event_text scored_str_event_text (more_right []) c refs hyps NoQueries /\
    inputs str_event_text scored_str_event_text (more_right ["a w 9"]) c refs hyps' NoQueries /\ (Z.of_nat (strings refs hyps' NoQueries) <= 2147483648)%Z /\
    added h hyps hyps' /\ In (sc_base h) refs /\ ~ In (sc_base h) (map sc_base hyps) /\ (Z.of_nat (List.length refs + List.length hyps) <= 2 ^ 24)%Z) /\
  map (fun x => map snd (firstn 2 (printed (fst (tie_run TQ (more_right x) ["--interpolated_precision"; "false"; "--trapezoid_integral"; "false"; "r"; "h"])))))
    [[]; ["a w 9"]; ["a z 9"]] = [[9 # 16; 9 # 16]; [29 # 40; 29 # 40]; [1 # 2; 1 # 2]]%Q.
Proof.
  split.
  - eexists _, _, _, _, _. split; [apply Compute.config_for_ok; vm_compute; reflexivity|].
    split; [repeat split|]. split; [reflexivity|]. split; [reflexivity|]. split; [reflexivity|].
    split; [apply Compute.simple_inputs_ok; vm_compute; reflexivity|]. split; [apply Compute.simple_inputs_ok; vm_compute; reflexivity|].
    split; [vm_compute; discriminate|]. split; [eexists [], [_; _; _; _]; split; reflexivity|].
    split; [left; reflexivity|]. split; [|vm_compute; discriminate].
    intros I. repeat (destruct I as [I|I]; [discriminate|]). destruct I.
  - vm_compute. reflexivity.
Qed.

(** Two references and two hypotheses that match one of them, and more
    hypotheses in the middle. *)
Definition more_boxes (extra : list string) : world :=
  tie_world (map lit ["q d 0 0 10 10"; "q d 20 0 10 10"]) (map lit (["q d 0 0 10 9 2"] ++ extra ++ ["q d 0 0 9 10 1"])).

Example c93_icdar17_case :
  (exists c refs hyps hyps' h r, command (map lit ["r"; "h"]) c /\ no_bootstrap c /\ cf_sort c = lit "desc" /\ cf_collapse c = true /\
    inputs shaped_text scored_shaped_text (more_boxes []) c refs hyps NoQueries /\
    inputs shaped_text scored_shaped_text (more_boxes ["q d 25 0 10 10 1"]) c refs hyps' NoQueries /\
    added h hyps hyps' /\ fits (ev_loc (sc_base h)) /\ covers (ev_loc (sc_base h)) 100 /\ In r refs /\ fits (ev_loc r) /\
    shares (ev_loc r) (ev_loc (sc_base h)) 50 /\ ev_query r = ev_query (sc_base h) /\ (Z.of_nat (List.length refs + List.length hyps) < 2 ^ 24)%Z) /\
  (exists c refs hyps hyps' h, command (map lit ["--collapse_matches"; "false"; "r"; "h"]) c /\ no_bootstrap c /\ cf_collapse c = false /\
    inputs shaped_text scored_shaped_text (more_boxes []) c refs hyps NoQueries /\
    inputs shaped_text scored_shaped_text (more_boxes ["q d 26 0 10 10 3"]) c refs hyps' NoQueries /\
    added h hyps hyps' /\ fits (ev_loc (sc_base h)) /\ covers (ev_loc (sc_base h)) 100 /\
    (forall r, In r refs -> fits (ev_loc r) /\
      exists i, shares (ev_loc r) (ev_loc (sc_base h)) i /\ (ev_query r <> ev_query (sc_base h) \/ 100 = 0 \/ 2 * i < 100)%Z)) /\
  map (fun x => map snd (firstn 2 (printed (fst (icdar17 QArith_ TQ (@isort) (fun _ => stream (fun _ => O)) (fun _ => []) (fun _ => [])
    (more_boxes x) (lit "prog") (map lit ["r"; "h"])))))) [[]; ["q d 25 0 10 10 1"]; ["q d 26 0 10 10 3"]] =
    [[1 # 2; 1 # 2]; [1; 1]; [1 # 4; 1 # 4]]%Q.
Proof.
  split; [|split].
  - eexists _, _, _, _, _, _. split; [apply Compute.config_for_ok; vm_compute; reflexivity|].
    split; [repeat split|]. split; [reflexivity|]. split; [reflexivity|].
    split; [apply Compute.icdar_inputs_ok; vm_compute; reflexivity|]. split; [apply Compute.icdar_inputs_ok; vm_compute; reflexivity|].
    split; [eexists [_], [_]; split; reflexivity|].
    split; [apply Scorers.fits_intro; easy|]. split; [apply Scorers.covers_intro; [apply Scorers.fits_intro; easy|reflexivity]|].
    split; [right; left; reflexivity|]. split; [apply Scorers.fits_intro; easy|].
    split; [apply Scorers.shares_intro; [apply Scorers.fits_intro; easy|apply Scorers.fits_intro; easy|reflexivity]|].
    split; [reflexivity|vm_compute; reflexivity].
  - eexists _, _, _, _, _. split; [apply Compute.config_for_ok; vm_compute; reflexivity|].
    split; [repeat split|]. split; [reflexivity|].
    split; [apply Compute.icdar_inputs_ok; vm_compute; reflexivity|]. split; [apply Compute.icdar_inputs_ok; vm_compute; reflexivity|].
    split; [eexists [_], [_]; split; reflexivity|].
    split; [apply Scorers.fits_intro; easy|]. split; [apply Scorers.covers_intro; [apply Scorers.fits_intro; easy|reflexivity]|].
    intros r [<-|[<-|[]]]; (split; [apply Scorers.fits_intro; easy|]); [exists 0%Z|exists 40%Z];
      (split; [apply Scorers.shares_intro; [apply Scorers.fits_intro; easy|apply Scorers.fits_intro; easy|reflexivity]|right; right; reflexivity]).
  - vm_compute. reflexivity.
Qed.

(** One more false alarm and one more hit in a ranking. *)
Example c93_lists_case :
  let hit := Match (Some 1%Z) (Some 2%Z) hit_error in let fp := make_fp 3%Z in
  (forall m, In m ([hit; fp] ++ [fp; hit]) -> m_err m = hit_error \/ m_err m = alarm_error) /\
  map (fun l => global_ap QArith_ (fun _ : Z => f32_0) l false false false)
    [[hit; fp] ++ [fp; hit] ++ map make_fn ([4] ++ 5 :: [6])%Z;
     [hit; fp] ++ Match (Some 5%Z) (Some 7%Z) hit_error :: [fp; hit] ++ map make_fn ([4] ++ [6])%Z;
     [hit; fp] ++ make_fp 8%Z :: [fp; hit] ++ map make_fn ([4] ++ 5 :: [6])%Z] = map Ok [3 # 10; 34 # 75; 7 # 25]%Q.
Proof.
  cbv zeta. split; [|vm_compute; reflexivity]. intros m I. repeat (destruct I as [<-|I]; [cbn; auto|]). destruct I.
Qed.
