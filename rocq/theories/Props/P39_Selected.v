(** C103: the files of queries compared. *)
From Coq Require Import Ascii String List Bool ZArith QArith Lia Permutation.
From Flocq Require Import Core BinarySingleNaN.
From Verif.Model Require Import Cpp Floats Box Events EventSets Matches Matcher Scorers Assessment Bootstrap Mapper Stream
  Reader Options Tool.
From Verif.Spec Require Import Order Objects Sets Matching Scorers Grouping Reader Options Tool Where Selected.
From Verif.Proofs Require Order Compute Instances Where Selected.
From Verif.Props Require Import P17_Tool P18_Results P25_Ties P35_Where.
Import ListNotations.
Local Open Scope string_scope.
Local Open Scope list_scope.

(** ** C103 *)

(** C103.  Icdar17KwsEval only sees the events of the listed queries and which
    of their queries are in one group: runs that agree in these end in the same
    way with the same results, with all settings. *)
Theorem c103_icdar17 : forall A (T : Trans A) srt rngs show_int show_f64 w w' pn pn' args args' c c' refs hyps f refs' hyps' f' kr kh, sort_contract srt ->
  command args c -> command args' c' -> same_settings c c' -> w_writable w = w_writable w' ->
  inputs shaped_text scored_shaped_text w c refs hyps f -> inputs shaped_text scored_shaped_text w' c' refs' hyps' f' ->
  keeps f refs kr hyps kh -> keeps f' refs' kr hyps' kh -> same_groups kr kh f f' ->
  same_results (icdar17 A T srt rngs show_int show_f64 w pn args) (icdar17 A T srt rngs show_int show_f64 w' pn' args').
Proof. intros A T srt rngs si sf w w' pn pn' args args' c c' refs hyps f refs' hyps' f' kr kh Hs. exact (Selected.icdar_selected T srt Hs rngs si sf w w' pn pn' args args' c c' refs hyps f refs' hyps' f' kr kh). Qed.
Print Assumptions c103_icdar17.

(** C103.  So does SimpleKwsEval for files of queries that keep the same events. *)
Theorem c103_simple : forall A (T : Trans A) srt rngs show_int show_f64 qf w w' pn pn' args args' c c' refs hyps f f' kr kh, sort_contract srt ->
  command args c -> command args' c' -> same_settings c c' -> w_writable w = w_writable w' ->
  inputs str_event_text scored_str_event_text w c refs hyps f -> inputs str_event_text scored_str_event_text w' c' refs hyps f' ->
  (Z.of_nat (strings refs hyps f) <= 2147483648)%Z -> (Z.of_nat (strings refs hyps f') <= 2147483648)%Z ->
  keeps f refs kr hyps kh -> keeps f' refs kr hyps kh -> same_groups kr kh f f' ->
  same_results (simple_kws A T srt rngs show_int show_f64 qf w pn args) (simple_kws A T srt rngs show_int show_f64 qf w' pn' args').
Proof. intros A T srt rngs si sf qf w w' pn pn' args args' c c' refs hyps f f' kr kh Hs. exact (Selected.simple_selected T srt Hs rngs si sf qf w w' pn pn' args args' c c' refs hyps f f' kr kh). Qed.
Print Assumptions c103_simple.

(** C103.  The names of the groups and the form of the file do not matter, only
    which queries are listed and which of them together. *)
Theorem c103_partition : forall A (T : Trans A) srt rngs show_int show_f64 w w' pn pn' args args' c c' f f', sort_contract srt ->
  command args c -> command args' c' -> same_settings c c' -> w_writable w = w_writable w' ->
  (forall q q', listed_together f q q' <-> listed_together f' q q') ->
  (forall refs hyps,
    inputs shaped_text scored_shaped_text w c refs hyps f -> inputs shaped_text scored_shaped_text w' c' refs hyps f' ->
    same_results (icdar17 A T srt rngs show_int show_f64 w pn args) (icdar17 A T srt rngs show_int show_f64 w' pn' args')) /\
  (forall qf refs hyps,
    inputs str_event_text scored_str_event_text w c refs hyps f -> inputs str_event_text scored_str_event_text w' c' refs hyps f' ->
    (Z.of_nat (strings refs hyps f) <= 2147483648)%Z -> (Z.of_nat (strings refs hyps f') <= 2147483648)%Z ->
    same_results (simple_kws A T srt rngs show_int show_f64 qf w pn args) (simple_kws A T srt rngs show_int show_f64 qf w' pn' args')).
Proof.
  intros A T srt rngs si sf w w' pn pn' args args' c c' f f' Hs Cm Cm' Ss Hw H. split.
  - intros refs hyps I I'. exact (Selected.icdar_partition T srt Hs rngs si sf w w' pn pn' args args' c c' refs hyps f f' Cm Cm' Ss Hw I I' H).
  - intros qf refs hyps I I' L L'. exact (Selected.simple_partition T srt Hs rngs si sf qf w w' pn pn' args args' c c' refs hyps f f' Cm Cm' Ss Hw I I' L L' H).
Qed.
Print Assumptions c103_partition.

(** C103.  A set of queries is the same to Icdar17KwsEval as files that hold just
    the events of these queries. *)
Theorem c103_filtered : forall A (T : Trans A) srt rngs show_int show_f64 w w' pn pn' args args' c c' refs hyps qs kr kh, sort_contract srt ->
  command args c -> command args' c' -> same_settings c c' -> w_writable w = w_writable w' -> qs <> [] ->
  inputs shaped_text scored_shaped_text w c refs hyps (QuerySet qs) -> inputs shaped_text scored_shaped_text w' c' kr kh NoQueries ->
  selects (fun r => In (ev_query r) qs) refs kr -> selects (fun h => In (ev_query (sc_base h)) qs) hyps kh ->
  same_results (icdar17 A T srt rngs show_int show_f64 w pn args) (icdar17 A T srt rngs show_int show_f64 w' pn' args').
Proof.
  intros A T srt rngs si sf w w' pn pn' args args' c c' refs hyps qs kr kh Hs Cm Cm' Ss Hw Ne I I' Sr Sh.
  apply (Selected.icdar_filtered T srt Hs rngs si sf w w' pn pn' args args' c c' refs hyps qs kr kh Cm Cm' Ss Hw I I').
  assert (K : forall q, In q qs <-> kept (QuerySet qs) q).
  { intros q. split; [intros J; left; exists q; now split|]. intros [[g [J _]]|N]; [exact J|]. destruct qs as [|x qs]; [now elim Ne|]. elim (N x x). split; [now left|reflexivity]. }
  split; [eapply Selected.selects_iff, Sr|eapply Selected.selects_iff, Sh]; intros; apply K.
Qed.
Print Assumptions c103_filtered.

(** C103.  A set with all queries of the events is the same to SimpleKwsEval as no
    set. *)
Theorem c103_all : forall A (T : Trans A) srt rngs show_int show_f64 qf w w' pn pn' args args' c c' refs hyps qs, sort_contract srt ->
  command args c -> command args' c' -> same_settings c c' -> w_writable w = w_writable w' ->
  inputs str_event_text scored_str_event_text w c refs hyps (QuerySet qs) -> inputs str_event_text scored_str_event_text w' c' refs hyps NoQueries ->
  (Z.of_nat (strings refs hyps (QuerySet qs)) <= 2147483648)%Z -> (forall q, asked refs hyps q -> In q qs) ->
  same_results (simple_kws A T srt rngs show_int show_f64 qf w pn args) (simple_kws A T srt rngs show_int show_f64 qf w' pn' args').
Proof. intros A T srt rngs si sf qf w w' pn pn' args args' c c' refs hyps qs Hs. exact (Selected.simple_all T srt Hs rngs si sf qf w w' pn pn' args args' c c' refs hyps qs). Qed.
Print Assumptions c103_all.

(** C103.  Without intervals, the groups of the listed queries only matter to mAP,
    mNDCG and the mean curve. *)
Theorem c103_global : forall A (T : Trans A) srt rngs show_int show_f64 w w' pn pn' args args' c c' f f', sort_contract srt ->
  command args c -> command args' c' -> same_settings c c' -> w_writable w = w_writable w' -> no_bootstrap c ->
  (forall q, (exists g, assigns f q g) <-> (exists g, assigns f' q g)) ->
  (forall refs hyps,
    inputs shaped_text scored_shaped_text w c refs hyps f -> inputs shaped_text scored_shaped_text w' c' refs hyps f' ->
    same_global c (icdar17 A T srt rngs show_int show_f64 w pn args) (icdar17 A T srt rngs show_int show_f64 w' pn' args')) /\
  (forall qf refs hyps,
    inputs str_event_text scored_str_event_text w c refs hyps f -> inputs str_event_text scored_str_event_text w' c' refs hyps f' ->
    (Z.of_nat (strings refs hyps f) <= 2147483648)%Z -> (Z.of_nat (strings refs hyps f') <= 2147483648)%Z ->
    same_global c (simple_kws A T srt rngs show_int show_f64 qf w pn args) (simple_kws A T srt rngs show_int show_f64 qf w' pn' args')).
Proof.
  intros A T srt rngs si sf w w' pn pn' args args' c c' f f' Hs Cm Cm' Ss Hw NB H. split.
  - intros refs hyps I I'. exact (Selected.icdar_global T srt Hs rngs si sf w w' pn pn' args args' c c' refs hyps f f' Cm Cm' Ss Hw NB I I' H).
  - intros qf refs hyps I I' L L'. exact (Selected.simple_global T srt Hs rngs si sf qf w w' pn pn' args args' c c' refs hyps f f' Cm Cm' Ss Hw NB I I' L L' H).
Qed.
Print Assumptions c103_global.

(** ** Examples *)

(** Three queries with a set of two of them, groups of the same two, and one
    group of both. *)
Definition chosen : world :=
  where_world [("r", ["a x"; "b y"; "b z"; "c z"]); ("h", ["c x 4"; "a x 2"; "b x 1"; "b y 0.5"; "c z 3"]);
               ("q", ["b a"]); ("g", ["G0 a"; "G1 a"; "G2 b"]); ("one", ["G a b"]); ("all", ["c"; "b"; "a"; "d"])] [].

(** The arguments of runs on [chosen]. *)
Definition chosen_args (l : list string) : list bytes := map lit (l ++ ["r"; "h"]).

(** What a file assigns, in a computed form. *)
Lemma assigned f m : (forall fs, f = QueryGroups fs -> forall x, In x fs -> (2 <= List.length x)%nat) ->
  Where.queries_map cmp_str identity_mapper f tt = Ok (m, tt) -> forall q g, In (q, g) m <-> assigns f q g.
Proof.
  intros L Em. destruct (Selected.queries_map_holds cmp_str Order.total_order_str identity_mapper f tt f tt L (Instances.map_file_id f)) as (m' & Em' & _ & H).
  rewrite Em in Em'. injection Em' as <-. exact H.
Qed.
(** See [assigned]. *)
Lemma listed_pairs f m q q' : (forall fs, f = QueryGroups fs -> forall x, In x fs -> (2 <= List.length x)%nat) ->
  Where.queries_map cmp_str identity_mapper f tt = Ok (m, tt) -> (listed_together f q q' <-> exists g, In (q, g) m /\ In (q', g) m).
Proof. intros L Em. assert (H := assigned f m L Em). unfold listed_together. split; intros (g & G & G'); exists g; split; now apply H. Qed.

Example c103_partition_case :
  (exists c c' refs hyps f f',
    command (chosen_args ["--query_set"; "q"]) c /\ command (chosen_args ["--query_groups"; "g"]) c' /\ same_settings c c' /\
    inputs str_event_text scored_str_event_text chosen c refs hyps f /\ inputs str_event_text scored_str_event_text chosen c' refs hyps f' /\
    (Z.of_nat (strings refs hyps f) <= 2147483648)%Z /\ (Z.of_nat (strings refs hyps f') <= 2147483648)%Z /\
    (forall q q', listed_together f q q' <-> listed_together f' q q')) /\
  map (fun x => map snd (firstn 2 (printed (fst (tie_run TQ chosen (x ++ ["r"; "h"]))))))
    [["--query_set"; "q"]; ["--query_groups"; "g"]] = [[5 # 9; 5 # 8]; [5 # 9; 5 # 8]]%Q.
Proof.
  split; [|vm_compute; reflexivity].
  eexists _, _, _, _, _, _. split; [apply Compute.config_for_ok; vm_compute; reflexivity|]. split; [apply Compute.config_for_ok; vm_compute; reflexivity|].
  split; [repeat split|]. split; [apply Compute.simple_inputs_ok; vm_compute; reflexivity|]. split; [apply Compute.simple_inputs_ok; vm_compute; reflexivity|].
  split; [vm_compute; discriminate|]. split; [vm_compute; discriminate|].
  intros q q'. rewrite (listed_pairs (QuerySet _) [(lit "b", lit "b"); (lit "a", lit "a")]) by (discriminate || reflexivity).
  rewrite (listed_pairs (QueryGroups _) [(lit "a", lit "G1"); (lit "b", lit "G2")]).
  - split; intros (g & [K|[K|[]]] & [K'|[K'|[]]]); apply pair_equal_spec in K as [<- <-]; apply pair_equal_spec in K' as [<- K']; try discriminate; eexists; split; cbn [In]; auto.
  - intros fs E x J. injection E as <-. cbn [In] in J. repeat (destruct J as [<-|J]; [cbn; lia|]). destruct J.
  - reflexivity.
Qed.

(** One group of both queries instead of two groups; the means differ. *)
Example c103_global_case :
  (exists c c' refs hyps f f',
    command (chosen_args ["--query_groups"; "one"]) c /\ command (chosen_args ["--query_groups"; "g"]) c' /\ same_settings c c' /\ no_bootstrap c /\
    inputs str_event_text scored_str_event_text chosen c refs hyps f /\ inputs str_event_text scored_str_event_text chosen c' refs hyps f' /\
    (Z.of_nat (strings refs hyps f) <= 2147483648)%Z /\ (Z.of_nat (strings refs hyps f') <= 2147483648)%Z /\
    (forall q, (exists g, assigns f q g) <-> (exists g, assigns f' q g))) /\
  map (fun x => map snd (firstn 2 (printed (fst (tie_run TQ chosen (x ++ ["r"; "h"]))))))
    [["--query_groups"; "one"]; ["--query_groups"; "g"]] = [[5 # 9; 5 # 9]; [5 # 9; 5 # 8]]%Q.
Proof.
  split; [|vm_compute; reflexivity].
  eexists _, _, _, _, _, _. split; [apply Compute.config_for_ok; vm_compute; reflexivity|]. split; [apply Compute.config_for_ok; vm_compute; reflexivity|].
  split; [repeat split|]. split; [now vm_compute|].
  split; [apply Compute.simple_inputs_ok; vm_compute; reflexivity|]. split; [apply Compute.simple_inputs_ok; vm_compute; reflexivity|].
  split; [vm_compute; discriminate|]. split; [vm_compute; discriminate|].
  intros q. match goal with |- (exists _, assigns ?f _ _) <-> (exists _, assigns ?f' _ _) =>
    assert (H : listed_together f q q <-> exists g, In (q, g) [(lit "a", lit "G"); (lit "b", lit "G")] /\ In (q, g) [(lit "a", lit "G"); (lit "b", lit "G")]);
    [|assert (H' : listed_together f' q q <-> exists g, In (q, g) [(lit "a", lit "G1"); (lit "b", lit "G2")] /\ In (q, g) [(lit "a", lit "G1"); (lit "b", lit "G2")])] end.
  1-2: apply listed_pairs; [|reflexivity]; intros fs E x J; injection E as <-; cbn [In] in J; repeat (destruct J as [<-|J]; [cbn; lia|]); destruct J.
  unfold listed_together in H, H'. split; intros [g G].
  - destruct (proj1 H (ex_intro _ g (conj G G))) as (g0 & [K|[K|[]]] & _); apply pair_equal_spec in K as [<- _]; (edestruct (proj2 H') as (g' & G' & _); [eexists; split; cbn [In]; eauto|exists g'; exact G']).
  - destruct (proj1 H' (ex_intro _ g (conj G G))) as (g0 & [K|[K|[]]] & _); apply pair_equal_spec in K as [<- _]; (edestruct (proj2 H) as (g' & G' & _); [eexists; split; cbn [In]; eauto|exists g'; exact G']).
Qed.

Example c103_all_case :
  (exists c c' refs hyps qs,
    command (chosen_args ["--query_set"; "all"]) c /\ command (chosen_args []) c' /\ same_settings c c' /\
    inputs str_event_text scored_str_event_text chosen c refs hyps (QuerySet qs) /\ inputs str_event_text scored_str_event_text chosen c' refs hyps NoQueries /\
    (Z.of_nat (strings refs hyps (QuerySet qs)) <= 2147483648)%Z /\ (forall q, asked refs hyps q -> In q qs)) /\
  map (fun x => map snd (firstn 2 (printed (fst (tie_run TQ chosen (x ++ ["r"; "h"])))))) [["--query_set"; "all"]; []] = [[29 # 60; 7 # 12]; [29 # 60; 7 # 12]]%Q.
Proof.
  split; [|vm_compute; reflexivity].
  eexists _, _, _, _, _. split; [apply Compute.config_for_ok; vm_compute; reflexivity|]. split; [apply Compute.config_for_ok; vm_compute; reflexivity|].
  split; [repeat split|]. split; [apply Compute.simple_inputs_ok; vm_compute; reflexivity|]. split; [apply Compute.simple_inputs_ok; vm_compute; reflexivity|].
  split; [vm_compute; discriminate|].
  intros q [(r & J & <-)|(h & J & <-)]; cbn [In] in J; repeat (destruct J as [<-|J]; [cbn; auto 6|]); destruct J.
Qed.

(** Boxes of three queries with a set of two, and the lines of these two. *)
Definition chosen_boxes : world :=
  where_world [("r", ["a d 0 0 10 10"; "b d 5 0 10 10"; "c d 0 0 9 9"]); ("h", ["c d 0 0 9 9 7"; "a d 1 0 10 10 2"; "b e 5 0 10 10 1"; "b d 5 0 9 10 0.5"]);
               ("q", ["b a"; "d"]);
               ("r2", ["a d 0 0 10 10"; "b d 5 0 10 10"]); ("h2", ["a d 1 0 10 10 2"; "b e 5 0 10 10 1"; "b d 5 0 9 10 0.5"])] [].

Example c103_filtered_case :
  (exists c c' refs hyps qs kr kh,
    command (map lit ["--query_set"; "q"; "r"; "h"]) c /\ command (map lit ["r2"; "h2"]) c' /\ same_settings c c' /\ qs <> [] /\
    inputs shaped_text scored_shaped_text chosen_boxes c refs hyps (QuerySet qs) /\ inputs shaped_text scored_shaped_text chosen_boxes c' kr kh NoQueries /\
    selects (fun r => In (ev_query r) qs) refs kr /\ selects (fun h => In (ev_query (sc_base h)) qs) hyps kh) /\
  map (fun x => map snd (firstn 2 (printed (fst (icdar17 QArith_ TQ (@isort) (fun _ => stream (fun _ => O)) (fun _ => []) (fun _ => []) chosen_boxes (lit "prog") (map lit x))))))
    [["--query_set"; "q"; "r"; "h"]; ["r2"; "h2"]; ["r"; "h"]] = [[5 # 6; 3 # 4]; [5 # 6; 3 # 4]; [11 # 12; 5 # 6]]%Q.
Proof.
  split; [|vm_compute; reflexivity].
  eexists _, _, _, _, _, _, _. split; [apply Compute.config_for_ok; vm_compute; reflexivity|]. split; [apply Compute.config_for_ok; vm_compute; reflexivity|].
  split; [repeat split|]. split; [|split; [apply Compute.icdar_inputs_ok; vm_compute; reflexivity|split; [apply Compute.icdar_inputs_ok; vm_compute; reflexivity|]]]; [discriminate|].
  split; repeat first [apply sel_yes; [cbn; auto; fail|]|apply sel_no; [cbn; intuition discriminate|]|apply sel_nil].
Qed.

(** Two files of groups with other names that list queries without events. *)
Definition one_group : list (list string) := [["G"; "a"; "b"]; ["H"; "z"]].
(** See [one_group]. *)
Definition one_group_too : list (list string) := [["Y"; "y"]; ["X"; "b"]; ["X"; "a"]].
(** The files of queries of these groups. *)
Definition groups_file (l : list (list string)) : query_file bytes := QueryGroups (map (map lit) l).

Lemma one_group_assigned q g : In (q, g) [(lit "a", lit "G"); (lit "b", lit "G"); (lit "z", lit "H")] <-> assigns (groups_file one_group) q g.
Proof. apply assigned; [|reflexivity]. intros fs E x J. injection E as <-. cbn [In] in J. repeat (destruct J as [<-|J]; [cbn; lia|]). destruct J. Qed.
Lemma one_group_too_assigned q g : In (q, g) [(lit "y", lit "Y"); (lit "b", lit "X"); (lit "a", lit "X")] <-> assigns (groups_file one_group_too) q g.
Proof. apply assigned; [|reflexivity]. intros fs E x J. injection E as <-. cbn [In] in J. repeat (destruct J as [<-|J]; [cbn; lia|]). destruct J. Qed.

Lemma one_group_kept q : (kept (groups_file one_group) q <-> In q (map lit ["a"; "b"; "z"])) /\ (kept (groups_file one_group_too) q <-> In q (map lit ["y"; "b"; "a"])).
Proof.
  split; split.
  - intros [[g G]|N]; [|elim (N (lit "a") (lit "G")); apply one_group_assigned; now left]. apply one_group_assigned in G. apply (in_map fst) in G. exact G.
  - intros J. left. cbn [map In] in J. destruct J as [<-|[<-|[<-|[]]]]; eexists; apply one_group_assigned; cbn [In]; eauto.
  - intros [[g G]|N]; [|elim (N (lit "b") (lit "X")); apply one_group_too_assigned; cbn [In]; auto]. apply one_group_too_assigned in G. apply (in_map fst) in G. exact G.
  - intros J. left. cbn [map In] in J. destruct J as [<-|[<-|[<-|[]]]]; eexists; apply one_group_too_assigned; cbn [In]; eauto.
Qed.

Lemma one_group_same {L} (kr : list (event bytes L)) kh : (forall q, asked kr kh q -> q = lit "a" \/ q = lit "b") -> same_groups kr kh (groups_file one_group) (groups_file one_group_too).
Proof.
  intros H q q' Aq Aq'. split; intros _.
  - exists (lit "X"). split; left; apply one_group_too_assigned; [destruct (H q Aq) as [->| ->]|destruct (H q' Aq') as [->| ->]]; cbn [In]; auto.
  - exists (lit "G"). split; left; apply one_group_assigned; [destruct (H q Aq) as [->| ->]|destruct (H q' Aq') as [->| ->]]; cbn [In]; auto.
Qed.

(** Runs with these groups. *)
Definition grouped_world (refs hyps : list string) (g : list (list string)) : world := where_world [("r", refs); ("h", hyps); ("g", map (String.concat " ") g)] [].

Example c103_icdar17_case :
  let w := grouped_world ["a d 0 0 10 10"; "b d 5 0 10 10"; "c d 0 0 9 9"] ["c d 0 0 9 9 7"; "a d 1 0 10 10 2"; "b e 5 0 10 10 1"] one_group in
  let w' := grouped_world ["a d 0 0 10 10"; "b d 5 0 10 10"] ["a d 1 0 10 10 2"; "b e 5 0 10 10 1"; "e d 1 1 9 9 9"] one_group_too in
  (exists c refs hyps refs' hyps' kr kh,
    command (map lit ["--query_groups"; "g"; "r"; "h"]) c /\ same_settings c c /\ w_writable w = w_writable w' /\
    inputs shaped_text scored_shaped_text w c refs hyps (groups_file one_group) /\ inputs shaped_text scored_shaped_text w' c refs' hyps' (groups_file one_group_too) /\
    keeps (groups_file one_group) refs kr hyps kh /\ keeps (groups_file one_group_too) refs' kr hyps' kh /\ same_groups kr kh (groups_file one_group) (groups_file one_group_too)) /\
  map (fun w => map snd (firstn 2 (printed (fst (icdar17 QArith_ TQ (@isort) (fun _ => stream (fun _ => O)) (fun _ => []) (fun _ => []) w (lit "prog") (map lit ["--query_groups"; "g"; "r"; "h"]))))))
    [w; w'] = [[1 # 2; 1 # 2]; [1 # 2; 1 # 2]]%Q.
Proof.
  cbv zeta. split; [|vm_compute; reflexivity].
  eexists _, _, _, _, _, _, _. split; [apply Compute.config_for_ok; vm_compute; reflexivity|]. split; [repeat split|]. split; [reflexivity|].
  split; [apply Compute.icdar_inputs_ok; vm_compute; reflexivity|]. split; [apply Compute.icdar_inputs_ok; vm_compute; reflexivity|].
  split; [split; repeat first [apply sel_yes; [apply one_group_kept; cbn; auto; fail|]|apply sel_no; [intros K; apply one_group_kept in K; cbn in K; intuition discriminate|]|apply sel_nil]|].
  split; [split; repeat first [apply sel_yes; [apply one_group_kept; cbn; auto; fail|]|apply sel_no; [intros K; apply one_group_kept in K; cbn in K; intuition discriminate|]|apply sel_nil]|].
  apply one_group_same. intros q [(r & J & <-)|(h & J & <-)]; cbn [In] in J; repeat (destruct J as [<-|J]; [cbn; auto|]); destruct J.
Qed.

Example c103_simple_case :
  let w := grouped_world ["a x"; "b y"; "c z"] ["c z 4"; "a x 2"; "b x 1"] one_group in
  let w' := grouped_world ["a x"; "b y"; "c z"] ["c z 4"; "a x 2"; "b x 1"] one_group_too in
  (exists c refs hyps kr kh,
    command (map lit ["--query_groups"; "g"; "r"; "h"]) c /\ same_settings c c /\ w_writable w = w_writable w' /\
    inputs str_event_text scored_str_event_text w c refs hyps (groups_file one_group) /\ inputs str_event_text scored_str_event_text w' c refs hyps (groups_file one_group_too) /\
    (Z.of_nat (strings refs hyps (groups_file one_group)) <= 2147483648)%Z /\ (Z.of_nat (strings refs hyps (groups_file one_group_too)) <= 2147483648)%Z /\
    keeps (groups_file one_group) refs kr hyps kh /\ keeps (groups_file one_group_too) refs kr hyps kh /\ same_groups kr kh (groups_file one_group) (groups_file one_group_too)) /\
  map (fun w => map snd (firstn 2 (printed (fst (tie_run TQ w ["--query_groups"; "g"; "r"; "h"]))))) [w; w'] = [[1 # 2; 1 # 2]; [1 # 2; 1 # 2]]%Q.
Proof.
  cbv zeta. split; [|vm_compute; reflexivity].
  eexists _, _, _, _, _. split; [apply Compute.config_for_ok; vm_compute; reflexivity|]. split; [repeat split|]. split; [reflexivity|].
  split; [apply Compute.simple_inputs_ok; vm_compute; reflexivity|]. split; [apply Compute.simple_inputs_ok; vm_compute; reflexivity|].
  split; [vm_compute; discriminate|]. split; [vm_compute; discriminate|].
  split; [split; repeat first [apply sel_yes; [apply one_group_kept; cbn; auto; fail|]|apply sel_no; [intros K; apply one_group_kept in K; cbn in K; intuition discriminate|]|apply sel_nil]|].
  split; [split; repeat first [apply sel_yes; [apply one_group_kept; cbn; auto; fail|]|apply sel_no; [intros K; apply one_group_kept in K; cbn in K; intuition discriminate|]|apply sel_nil]|].
  apply one_group_same. intros q [(r & J & <-)|(h & J & <-)]; cbn [In] in J; repeat (destruct J as [<-|J]; [cbn; auto|]); destruct J.
Qed.
