(** C89 and C90: queries do not affect each other; one group only. *)
From Coq Require Import Ascii String List Bool ZArith QArith Reals Lia Lra Permutation.
From Flocq Require Import Core BinarySingleNaN.
From Verif.Model Require Import Cpp Floats Events EventSets Matches Matcher Scorers Assessment Bootstrap Mapper Stream
  Reader Options Tool.
From Verif.Spec Require Import Order Sets Matching Grouping Collapse Metrics Curves Reader Options Tool Parts.
From Verif.Proofs Require Reader Order Lines Runs Instances Compute Ties Parts.
From Verif.Props Require P12_Double.
From Verif.Props Require Import P17_Tool P18_Results P25_Ties.
Import ListNotations.
Local Open Scope string_scope.
Local Open Scope list_scope.

(** ** C89 *)

(** C89.  The mAP and mNDCG of a run of Icdar17KwsEval are the means of the gAP
    and gNDCG of runs on the queries of one group at a time, one run for each
    group that has events: the events of other groups change nothing.  This
    holds in any arithmetic; the groups are added in the order in which the
    ranking reaches them. *)
Theorem c89_icdar17 : forall A (T : Trans A) srt rngs show_int show_f64 ws pns argss cs fs w pn args c refs hyps f, sort_contract srt ->
  command args c -> no_bootstrap c -> inputs shaped_text scored_shaped_text w c refs hyps f ->
  (forall k, present f refs hyps k -> only f k (fs k) /\ command (argss k) (cs k) /\ no_bootstrap (cs k) /\ same_settings c (cs k) /\
    inputs shaped_text scored_shaped_text (ws k) (cs k) refs hyps (fs k)) ->
  exists ks vs ns gap gndcg, NoDup ks /\ (forall k, In k ks <-> present f refs hyps k) /\
    prints (fst (icdar17 A T srt rngs show_int show_f64 w pn args)) gap (average vs) gndcg (average ns) /\
    Forall2 (fun k vn => exists m m',
      prints (fst (icdar17 A T srt rngs show_int show_f64 (ws k) (pns k) (argss k))) (fst vn) m (snd vn) m') ks (combine vs ns) /\
    List.length vs = List.length ns.
Proof.
  intros A T srt rngs si sf ws pns argss cs fs w pn args c refs hyps f Hs Cm NB I H.
  exact (Parts.icdar_parts T srt Hs rngs si sf pns argss ws cs fs w pn args c refs hyps f Cm NB I H).
Qed.
Print Assumptions c89_icdar17.

(** C89.  The same for SimpleKwsEval: the file of queries is read last and does
    not change the ids of the events. *)
Theorem c89_simple : forall A (T : Trans A) srt rngs show_int show_f64 ws pns argss cs fs qf w pn args c refs hyps f, sort_contract srt ->
  command args c -> no_bootstrap c ->
  inputs str_event_text scored_str_event_text w c refs hyps f -> (Z.of_nat (strings refs hyps f) <= 2147483648)%Z ->
  (forall k, present f refs hyps k -> only f k (fs k) /\ command (argss k) (cs k) /\ no_bootstrap (cs k) /\ same_settings c (cs k) /\
    inputs str_event_text scored_str_event_text (ws k) (cs k) refs hyps (fs k) /\ (Z.of_nat (strings refs hyps (fs k)) <= 2147483648)%Z) ->
  exists ks vs ns gap gndcg, NoDup ks /\ (forall k, In k ks <-> present f refs hyps k) /\
    prints (fst (simple_kws A T srt rngs show_int show_f64 qf w pn args)) gap (average vs) gndcg (average ns) /\
    Forall2 (fun k vn => exists m m',
      prints (fst (simple_kws A T srt rngs show_int show_f64 qf (ws k) (pns k) (argss k))) (fst vn) m (snd vn) m') ks (combine vs ns) /\
    List.length vs = List.length ns.
Proof.
  intros A T srt rngs si sf ws pns argss cs fs qf w pn args c refs hyps f Hs Cm NB I L H.
  exact (Parts.simple_parts T srt Hs rngs si sf pns argss ws cs fs qf w pn args c refs hyps f Cm NB I L H).
Qed.
Print Assumptions c89_simple.

(** C89.  The file with one query keeps just the group of that query, when no
    queries are listed. *)
Theorem c89_single : forall (q : bytes), only NoQueries q (QuerySet [q]).
Proof.
  intros q x. split.
  - intros [(g & I & _)|N]; [|exfalso; apply (N q q); split; simpl; auto].
    destruct I as [<-|[]]. split; [right; intros ? ? []|]. right. split; [intros ? []|reflexivity].
  - intros [_ [[]|[_ E]]]. left. exists x. split; [|reflexivity]. left. exact E.
Qed.
Print Assumptions c89_single.

(** C89.  In real arithmetic the order of the groups does not matter: the means
    are those of the runs on single groups however they are listed. *)
Theorem c89_real : forall (T : Trans RArith) srt rngs show_int show_f64 ws pns argss cs fs w pn args c refs hyps f ks vns, sort_contract srt ->
  command args c -> no_bootstrap c -> inputs shaped_text scored_shaped_text w c refs hyps f ->
  (forall k, present f refs hyps k -> only f k (fs k) /\ command (argss k) (cs k) /\ no_bootstrap (cs k) /\ same_settings c (cs k) /\
    inputs shaped_text scored_shaped_text (ws k) (cs k) refs hyps (fs k)) ->
  NoDup ks -> (forall k, In k ks <-> present f refs hyps k) ->
  Forall2 (fun k vn => exists m m',
    prints (fst (icdar17 RArith T srt rngs show_int show_f64 (ws k) (pns k) (argss k))) (fst vn) m (snd vn) m') ks vns ->
  exists gap vap gndcg vndcg, prints (fst (icdar17 RArith T srt rngs show_int show_f64 w pn args)) gap vap gndcg vndcg /\
    is_mean (map fst vns) vap /\ is_mean (map snd vns) vndcg.
Proof.
  intros T srt rngs si sf ws pns argss cs fs w pn args c refs hyps f ks vns Hs Cm NB I H Nk Ik F.
  destruct (c89_icdar17 RArith T srt rngs si sf ws pns argss cs fs w pn args c refs hyps f Hs Cm NB I H)
    as (ks' & vs & ns & gap & gndcg & Nk' & Ik' & Pr & F' & L).
  exists gap, (average vs), gndcg, (average ns). split; [exact Pr|].
  exact (Parts.real_means (fun k v n => exists m m', prints (A := RArith) (fst (icdar17 RArith T srt rngs si sf (ws k) (pns k) (argss k))) v m n m') ks ks' vns vs ns
    (fun k v n v' n' => Parts.prints_fun (A := RArith) _ v n v' n') Nk Nk' (fun k => iff_trans (Ik k) (iff_sym (Ik' k))) F F' L).
Qed.
Print Assumptions c89_real.

(** C89.  The same for SimpleKwsEval. *)
Theorem c89_simple_real : forall (T : Trans RArith) srt rngs show_int show_f64 ws pns argss cs fs qf w pn args c refs hyps f ks vns, sort_contract srt ->
  command args c -> no_bootstrap c ->
  inputs str_event_text scored_str_event_text w c refs hyps f -> (Z.of_nat (strings refs hyps f) <= 2147483648)%Z ->
  (forall k, present f refs hyps k -> only f k (fs k) /\ command (argss k) (cs k) /\ no_bootstrap (cs k) /\ same_settings c (cs k) /\
    inputs str_event_text scored_str_event_text (ws k) (cs k) refs hyps (fs k) /\ (Z.of_nat (strings refs hyps (fs k)) <= 2147483648)%Z) ->
  NoDup ks -> (forall k, In k ks <-> present f refs hyps k) ->
  Forall2 (fun k vn => exists m m',
    prints (fst (simple_kws RArith T srt rngs show_int show_f64 qf (ws k) (pns k) (argss k))) (fst vn) m (snd vn) m') ks vns ->
  exists gap vap gndcg vndcg, prints (fst (simple_kws RArith T srt rngs show_int show_f64 qf w pn args)) gap vap gndcg vndcg /\
    is_mean (map fst vns) vap /\ is_mean (map snd vns) vndcg.
Proof.
  intros T srt rngs si sf ws pns argss cs fs qf w pn args c refs hyps f ks vns Hs Cm NB I L H Nk Ik F.
  destruct (c89_simple RArith T srt rngs si sf ws pns argss cs fs qf w pn args c refs hyps f Hs Cm NB I L H)
    as (ks' & vs & ns & gap & gndcg & Nk' & Ik' & Pr & F' & Le).
  exists gap, (average vs), gndcg, (average ns). split; [exact Pr|].
  exact (Parts.real_means (fun k v n => exists m m', prints (A := RArith) (fst (simple_kws RArith T srt rngs si sf qf (ws k) (pns k) (argss k))) v m n m') ks ks' vns vs ns
    (fun k v n v' n' => Parts.prints_fun (A := RArith) _ v n v' n') Nk Nk' (fun k => iff_trans (Ik k) (iff_sym (Ik' k))) F F' Le).
Qed.
Print Assumptions c89_simple_real.

(** The files of the example with a file [only] of one query. *)
Definition with_only (w : world) (q : bytes) : world :=
  World (fun n => if str_eq n (lit "only") then Some (q ++ lit eol) else w_file w n) (w_writable w) [].

(** The runs on one query of the example, in rational arithmetic. *)
Definition only_run (q : string) :=
  icdar17 QArith_ TQ (@isort) (fun _ => stream (fun _ => O)) (fun _ => []) (fun _ => []) (with_only here (lit q)) (lit "prog")
    (map lit ["--query_set"; "only"; "r"; "h"]).

(** Four queries, two of which have events in both files. *)
Example c89_case :
  (exists c c' refs hyps, command (map lit ["r"; "h"]) c /\ no_bootstrap c /\
    inputs shaped_text scored_shaped_text here c refs hyps NoQueries /\
    (forall k, present NoQueries refs hyps k <-> In k (map lit ["q1"; "q2"; "q3"; "q99"])) /\
    forall k, present NoQueries refs hyps k -> only NoQueries k (QuerySet [k]) /\
      command (map lit ["--query_set"; "only"; "r"; "h"]) c' /\ no_bootstrap c' /\ same_settings c c' /\
      inputs shaped_text scored_shaped_text (with_only here k) c' refs hyps (QuerySet [k])) /\
  firstn 2 (printed (fst (try_icdar17 ["r"; "h"]))) = [(lit "gAP", 1 # 4); (lit "mAP", 1 # 6)]%Q /\
  map (fun q => map snd (firstn 1 (printed (fst (only_run q))))) ["q1"; "q2"; "q3"; "q99"] = [[1 # 2]; [1 # 6]; [0]; [0]]%Q.
Proof.
  split; [|split; vm_compute; reflexivity].
  assert (Pk : forall (refs : list shaped) (hyps : list (scored shaped)) ks,
    (forall q, In q (map ev_query refs ++ map (fun h => ev_query (sc_base h)) hyps) <-> In q ks) ->
    forall k, present NoQueries refs hyps k <-> In k ks).
  { intros refs hyps ks H k. rewrite <- H, in_app_iff, !in_map_iff. split.
    - intros (q & _ & [[]|[_ ->]] & [(r & I & <-)|(h & I & <-)]); eauto.
    - intros I. exists k. split; [right; intros ? ? []|]. split; [right; split; [intros ? []|reflexivity]|].
      destruct I as [(r & <- & I)|(h & <- & I)]; eauto. }
  eexists _, _, _, _. split; [apply Compute.config_for_ok; vm_compute; reflexivity|].
  split; [repeat split|]. split; [apply Compute.icdar_inputs_ok; vm_compute; reflexivity|].
  split.
  - apply Pk. vm_compute. tauto.
  - intros k K. split; [apply c89_single|]. split; [apply Compute.config_for_ok; vm_compute; reflexivity|].
    split; [repeat split|]. split; [repeat split|].
    eapply Pk in K; [|intros q; apply iff_refl]. vm_compute in K.
    repeat (destruct K as [<-|K]; [apply Compute.icdar_inputs_ok; vm_compute; reflexivity|]). destruct K.
Qed.

(** The same with the files of C88, where all scores are equal. *)
Example c89_simple_case :
  (exists c c' refs hyps, command (map lit ["r"; "h"]) c /\ no_bootstrap c /\
    inputs str_event_text scored_str_event_text ties c refs hyps NoQueries /\
    (Z.of_nat (strings refs hyps NoQueries) <= 2147483648)%Z /\
    (forall k, present NoQueries refs hyps k <-> In k (map lit ["a"; "b"; "c"])) /\
    forall k, present NoQueries refs hyps k -> only NoQueries k (QuerySet [k]) /\
      command (map lit ["--query_set"; "only"; "r"; "h"]) c' /\ no_bootstrap c' /\ same_settings c c' /\
      inputs str_event_text scored_str_event_text (with_only ties k) c' refs hyps (QuerySet [k]) /\
      (Z.of_nat (strings refs hyps (QuerySet [k])) <= 2147483648)%Z) /\
  firstn 2 (printed (fst (tie_run TQ ties ["r"; "h"]))) = [(lit "gAP", 3 # 7); (lit "mAP", 5 # 9)]%Q /\
  map (fun q => map snd (firstn 1 (printed (fst (tie_run TQ (with_only ties (lit q)) ["--query_set"; "only"; "r"; "h"]))))) ["a"; "b"; "c"] =
    [[1]; [1 # 3]; [1 # 3]]%Q.
Proof.
  split; [|split; vm_compute; reflexivity].
  assert (Pk : forall (refs : list (event bytes bytes)) (hyps : list (scored (event bytes bytes))) ks,
    (forall q, In q (map ev_query refs ++ map (fun h => ev_query (sc_base h)) hyps) <-> In q ks) ->
    forall k, present NoQueries refs hyps k <-> In k ks).
  { intros refs hyps ks H k. rewrite <- H, in_app_iff, !in_map_iff. split.
    - intros (q & _ & [[]|[_ ->]] & [(r & I & <-)|(h & I & <-)]); eauto.
    - intros I. exists k. split; [right; intros ? ? []|]. split; [right; split; [intros ? []|reflexivity]|].
      destruct I as [(r & <- & I)|(h & <- & I)]; eauto. }
  eexists _, _, _, _. split; [apply Compute.config_for_ok; vm_compute; reflexivity|].
  split; [repeat split|].
  split; [apply Compute.simple_inputs_ok; vm_compute; reflexivity|]. split; [vm_compute; discriminate|].
  split.
  - apply Pk. vm_compute. tauto.
  - intros k K. split; [apply c89_single|]. split; [apply Compute.config_for_ok; vm_compute; reflexivity|].
    split; [repeat split|]. split; [repeat split|]. split; [|vm_compute; discriminate].
    eapply Pk in K; [|intros q; apply iff_refl]. vm_compute in K.
    repeat (destruct K as [<-|K]; [apply Compute.simple_inputs_ok; vm_compute; reflexivity|]). destruct K.
Qed.

(** ** C90 *)

(** C90.  If all the events kept are of one group, mAP is gAP and mNDCG is
    gNDCG; in double arithmetic as well, up to the sign of zero. *)
Theorem c90_icdar17 : forall (T : Trans RArith) srt rngs show_int show_f64 w pn args c refs hyps f, sort_contract srt ->
  command args c -> no_bootstrap c -> inputs shaped_text scored_shaped_text w c refs hyps f -> one_group_only f refs hyps ->
  exists ap ndcg, prints (fst (icdar17 RArith T srt rngs show_int show_f64 w pn args)) ap ap ndcg ndcg.
Proof.
  intros T srt rngs si sf w pn args c refs hyps f Hs Cm NB I One.
  destruct (Parts.icdar_one T srt Hs rngs si sf w pn args c refs hyps f Cm NB I One) as (v & n & ms & Pr & _).
  exists v, n. now rewrite !Parts.average_one_real in Pr.
Qed.
Print Assumptions c90_icdar17.

(** C90.  The same for SimpleKwsEval. *)
Theorem c90_simple : forall (T : Trans RArith) srt rngs show_int show_f64 qf w pn args c refs hyps f, sort_contract srt ->
  command args c -> no_bootstrap c -> inputs str_event_text scored_str_event_text w c refs hyps f ->
  (Z.of_nat (strings refs hyps f) <= 2147483648)%Z -> one_group_only f refs hyps ->
  exists ap ndcg, prints (fst (simple_kws RArith T srt rngs show_int show_f64 qf w pn args)) ap ap ndcg ndcg.
Proof.
  intros T srt rngs si sf qf w pn args c refs hyps f Hs Cm NB I L One.
  destruct (Parts.simple_one T srt Hs rngs si sf qf w pn args c refs hyps f Cm NB I L One) as (v & n & ms & Pr & _).
  exists v, n. now rewrite !Parts.average_one_real in Pr.
Qed.
Print Assumptions c90_simple.

(** C90.  In double arithmetic, for Icdar17KwsEval. *)
Theorem c90_icdar17_double : forall (T : Trans DArith) srt rngs show_int show_f64 w pn args c refs hyps f, sort_contract srt ->
  command args c -> no_bootstrap c -> inputs shaped_text scored_shaped_text w c refs hyps f -> one_group_only f refs hyps ->
  (Z.of_nat (List.length refs + List.length hyps) <= 2 ^ 53)%Z ->
  exists gap vap gndcg vndcg : f64, prints (A := DArith) (fst (icdar17 DArith T srt rngs show_int show_f64 w pn args)) gap vap gndcg vndcg /\
    is_finite gap = true /\ is_finite vap = true /\ (B2R vap = B2R gap)%R /\
    (is_finite gndcg = true -> is_finite vndcg = true /\ (B2R vndcg = B2R gndcg)%R).
Proof.
  intros T srt rngs si sf w pn args c refs hyps f Hs Cm NB I One B.
  destruct (Parts.icdar_one T srt Hs rngs si sf w pn args c refs hyps f Cm NB I One) as (v & n & ms & Pr & G & Z & L).
  assert (F : is_finite (v : f64) = true).
  { destruct (P12_Double.c47_error _ _ sc_score ms (cf_collapse c) (cf_interp c) (cf_trapezoid c) Z) as (a & x & E & _ & [Fa _]); [lia|].
    rewrite G in E. injection E as ->. exact Fa. }
  destruct (Parts.average_one_double v F) as [F1 F2].
  exists v, (average (A := DArith) [v]), n, (average (A := DArith) [n]). split; [exact Pr|]. split; [exact F|]. split; [exact F1|]. split; [exact F2|].
  exact (Parts.average_one_double n).
Qed.
Print Assumptions c90_icdar17_double.

(** C90.  In double arithmetic, for SimpleKwsEval. *)
Theorem c90_simple_double : forall (T : Trans DArith) srt rngs show_int show_f64 qf w pn args c refs hyps f, sort_contract srt ->
  command args c -> no_bootstrap c -> inputs str_event_text scored_str_event_text w c refs hyps f ->
  (Z.of_nat (strings refs hyps f) <= 2147483648)%Z -> one_group_only f refs hyps ->
  (Z.of_nat (List.length refs + List.length hyps) <= 2 ^ 53)%Z ->
  exists gap vap gndcg vndcg : f64, prints (A := DArith) (fst (simple_kws DArith T srt rngs show_int show_f64 qf w pn args)) gap vap gndcg vndcg /\
    is_finite gap = true /\ is_finite vap = true /\ (B2R vap = B2R gap)%R /\
    (is_finite gndcg = true -> is_finite vndcg = true /\ (B2R vndcg = B2R gndcg)%R).
Proof.
  intros T srt rngs si sf qf w pn args c refs hyps f Hs Cm NB I Ls One B.
  destruct (Parts.simple_one T srt Hs rngs si sf qf w pn args c refs hyps f Cm NB I Ls One) as (v & n & ms & Pr & G & Z & L).
  assert (F : is_finite (v : f64) = true).
  { destruct (P12_Double.c47_error _ _ sc_score ms (cf_collapse c) (cf_interp c) (cf_trapezoid c) Z) as (a & x & E & _ & [Fa _]); [lia|].
    rewrite G in E. injection E as ->. exact Fa. }
  destruct (Parts.average_one_double v F) as [F1 F2].
  exists v, (average (A := DArith) [v]), n, (average (A := DArith) [n]). split; [exact Pr|]. split; [exact F|]. split; [exact F1|]. split; [exact F2|].
  exact (Parts.average_one_double n).
Qed.
Print Assumptions c90_simple_double.

(** The run on the second query of the example, and on all the queries of the
    files of C88 in one group. *)
Definition one_group_world : world :=
  World (fun n => if str_eq n (lit "groups") then Some (text_of [lit "g a b"; lit "g c"]) else w_file ties n) (w_writable ties) [].

Example c90_case :
  (exists c refs hyps, command (map lit ["--query_set"; "only"; "r"; "h"]) c /\ no_bootstrap c /\
    inputs shaped_text scored_shaped_text (with_only here (lit "q2")) c refs hyps (QuerySet [lit "q2"]) /\
    one_group_only (QuerySet [lit "q2"]) refs hyps) /\
  map snd (firstn 2 (printed (fst (only_run "q2")))) = [1 # 6; 1 # 6]%Q /\
  (exists c refs hyps f, command (map lit ["--query_groups"; "groups"; "r"; "h"]) c /\ no_bootstrap c /\
    inputs str_event_text scored_str_event_text one_group_world c refs hyps f /\ one_group_only f refs hyps /\
    List.length refs = 3%nat /\ List.length hyps = 7%nat) /\
  map snd (firstn 2 (printed (fst (tie_run TQ one_group_world ["--query_groups"; "groups"; "r"; "h"])))) = [3 # 7; 3 # 7]%Q.
Proof.
  split; [|split; [vm_compute; reflexivity|split; [|vm_compute; reflexivity]]].
  - eexists _, _, _. split; [apply Compute.config_for_ok; vm_compute; reflexivity|].
    split; [repeat split|]. split; [apply Compute.icdar_inputs_ok; vm_compute; reflexivity|].
    exists (lit "q2"). split.
    + exists (lit "q2"). split; [left; exists (lit "q2"); split; simpl; auto|]. split; [left; split; simpl; auto|].
      left. eexists. split; [do 2 right; left; reflexivity|reflexivity].
    + intros x (q & K & Gq & _). apply c89_single in K as [_ [[]|[_ <-]]]. destruct Gq as [[_ ->]|[N _]]; [reflexivity|].
      exfalso. apply (N (lit "q2")). split; simpl; auto.
  - eexists _, _, _, _. split; [apply Compute.config_for_ok; vm_compute; reflexivity|].
    split; [repeat split|]. split; [apply Compute.simple_inputs_ok; vm_compute; reflexivity|]. split; [|split; reflexivity].
    exists (lit "g"). split.
    + exists (lit "a"). assert (As : assigns (QueryGroups [map lit ["g"; "a"; "b"]; map lit ["g"; "c"]]) (lit "a") (lit "g")).
      { exists [], (map lit ["a"; "b"]), [map lit ["g"; "c"]]. split; [reflexivity|]. split; [simpl; auto|].
        intros g' qs' [E|[]]. injection E as _ <-. intros [F|[]]. discriminate F. }
      split; [left; eauto|]. split; [left; exact As|]. left. eexists. split; [left; reflexivity|reflexivity].
    + intros x (q & [[g As]|N] & Gq & _).
      * assert (E : forall z, assigns (QueryGroups [map lit ["g"; "a"; "b"]; map lit ["g"; "c"]]) q z -> z = lit "g").
        { intros z (l1 & qs & l2 & E & _). destruct l1 as [|? [|? [|]]]; try discriminate; now injection E as <-. }
        destruct Gq as [Gq|[N _]]; [exact (E _ Gq)|exfalso; exact (N _ As)].
      * exfalso. apply (N (lit "a") (lit "g")). exists [], (map lit ["a"; "b"]), [map lit ["g"; "c"]].
        split; [reflexivity|]. split; [simpl; auto|]. intros g' qs' [E|[]]. injection E as _ <-. intros [F|[]]. discriminate F.
Qed.
