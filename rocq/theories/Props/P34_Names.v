(** C98: other names for queries, locations and documents, other coordinates. *)
From Coq Require Import Ascii String List Bool ZArith QArith Lia Permutation.
From Flocq Require Import Core BinarySingleNaN.
From Verif.Model Require Import Cpp Floats Box Events EventSets Matches Matcher Scorers Assessment Bootstrap Mapper Stream
  Reader Options Tool.
From Verif.Spec Require Import Order Objects Sets Matching Geometry Scorers Grouping Reader Options Tool Parts Names.
From Verif.Proofs Require Order Geometry Scorers Runs Compute Names.
From Verif.Props Require Import P17_Tool P18_Results P25_Ties.
Import ListNotations.
Local Open Scope string_scope.
Local Open Scope list_scope.

(** ** C98 *)

(** C98.  Renaming the strings in all files of SimpleKwsEval, with different
    names for different strings, does not change the run: neither its messages
    nor the intervals of bootstrapping. *)
Theorem c98_simple : forall A (T : Trans A) srt rngs show_int show_f64 qf w w' pn args c refs hyps f g,
  command args c -> inputs str_event_text scored_str_event_text w c refs hyps f ->
  inputs str_event_text scored_str_event_text w' c (map (map_event g g) refs) (map (map_scored (map_event g g)) hyps) (map_queries g f) ->
  w_writable w = w_writable w' -> one_to_one (strings_of refs hyps f) g ->
  simple_kws A T srt rngs show_int show_f64 qf w pn args = simple_kws A T srt rngs show_int show_f64 qf w' pn args.
Proof. exact @Names.simple_names. Qed.
Print Assumptions c98_simple.

(** C98.  Icdar17KwsEval ends in the same way with the same statistics and
    curves if the queries and documents are renamed in an order-preserving way
    and the boxes of each document are moved together; the matches written are
    the renamed ones, up to the sign of zero scores. *)
Theorem c98_icdar17 : forall A (T : Trans A) srt rngs show_int show_f64 w w' pn args c refs hyps f gq gd dx dy l r l' r', sort_contract srt ->
  command args c -> no_bootstrap c ->
  inputs shaped_text scored_shaped_text w c refs hyps f ->
  inputs shaped_text scored_shaped_text w' c (map (map_event gq (moved gd dx dy)) refs) (map (map_scored (map_event gq (moved gd dx dy))) hyps) (map_queries gq f) ->
  w_writable w = w_writable w' ->
  one_to_one (fun s => queries_of refs hyps s \/ listed f s) gq -> keeps_order (queries_of refs hyps) gq -> keeps_order (documents_of refs hyps) gd ->
  (forall r, In r refs -> stays gd dx dy (ev_loc r)) -> (forall h, In h hyps -> stays gd dx dy (ev_loc (sc_base h))) ->
  icdar17 A T srt rngs show_int show_f64 w pn args = (l, r) -> icdar17 A T srt rngs show_int show_f64 w' pn args = (l', r') ->
  r = r' /\ exists ms log ms' log' rest,
    Forall2 equal_matches (map (map_match (map_event gq (moved gd dx dy)) (map_scored (map_event gq (moved gd dx dy)))) ms) ms' /\
    outputs l = dumped c ms log ++ rest /\ outputs l' = dumped c ms' log' ++ rest.
Proof.
  intros A T srt rngs si sf w w' pn args c refs hyps f gq gd dx dy l r l' r' Hs.
  exact (Names.icdar_names T srt Hs rngs si sf w w' pn args c refs hyps f gq gd dx dy l r l' r').
Qed.
Print Assumptions c98_icdar17.

(** C98.  In particular the statistics are the same. *)
Theorem c98_printed : forall A (T : Trans A) srt rngs show_int show_f64 w w' pn args c refs hyps f gq gd dx dy, sort_contract srt ->
  command args c -> no_bootstrap c ->
  inputs shaped_text scored_shaped_text w c refs hyps f ->
  inputs shaped_text scored_shaped_text w' c (map (map_event gq (moved gd dx dy)) refs) (map (map_scored (map_event gq (moved gd dx dy))) hyps) (map_queries gq f) ->
  w_writable w = w_writable w' ->
  one_to_one (fun s => queries_of refs hyps s \/ listed f s) gq -> keeps_order (queries_of refs hyps) gq -> keeps_order (documents_of refs hyps) gd ->
  (forall r, In r refs -> stays gd dx dy (ev_loc r)) -> (forall h, In h hyps -> stays gd dx dy (ev_loc (sc_base h))) ->
  printed (fst (icdar17 A T srt rngs show_int show_f64 w pn args)) = printed (fst (icdar17 A T srt rngs show_int show_f64 w' pn args)).
Proof.
  intros A T srt rngs si sf w w' pn args c refs hyps f gq gd dx dy Hs Cm NB I I' Hw Inj Kq Kd Sr Sh.
  destruct (icdar17 A T srt rngs si sf w pn args) as [l r] eqn:E. destruct (icdar17 A T srt rngs si sf w' pn args) as [l' r'] eqn:E'.
  destruct (c98_icdar17 A T srt rngs si sf w w' pn args c refs hyps f gq gd dx dy l r l' r' Hs Cm NB I I' Hw Inj Kq Kd Sr Sh E E')
    as (_ & ms & log & ms' & log' & rest & _ & O & O').
  cbn [fst]. rewrite <- (Runs.printed_outputs l), <- (Runs.printed_outputs l'), O, O'.
  rewrite !Runs.printed_app, !Runs.printed_dumped. reflexivity.
Qed.
Print Assumptions c98_printed.

(** Replaces the strings of the table and keeps the others. *)
Fixpoint table (t : list (string * string)) (s : bytes) : bytes :=
  match t with
  | [] => s
  | (a, b) :: t => if str_eq (lit a) s then lit b else table t s
  end.

(** Queries and locations exchange their order; with two hypotheses of the same
    score the one read first still comes first. *)
Definition names_before : world := tie_world (map lit ["a x"; "b y"; "c x"]) (map lit ["a x 2"; "b x 2"; "b y 1"; "c y 0.5"]).
(** See [names_before]. *)
Definition names_after : world := tie_world (map lit ["zz k"; "mm j"; "cc k"]) (map lit ["zz k 2"; "mm k 2"; "mm j 1"; "cc j 0.5"]).
(** See [names_before]. *)
Definition names_of : bytes -> bytes := table [("a", "zz"); ("b", "mm"); ("c", "cc"); ("x", "k"); ("y", "j")].
(** The same, but two queries get the same name. *)
Definition names_merged : world := tie_world (map lit ["zz k"; "mm j"; "mm k"]) (map lit ["zz k 2"; "mm k 2"; "mm j 1"; "mm j 0.5"]).

Example c98_simple_case :
  (exists c refs hyps, command (map lit ["r"; "h"]) c /\
    inputs str_event_text scored_str_event_text names_before c refs hyps NoQueries /\
    inputs str_event_text scored_str_event_text names_after c (map (map_event names_of names_of) refs) (map (map_scored (map_event names_of names_of)) hyps) (map_queries names_of NoQueries) /\
    w_writable names_before = w_writable names_after /\ one_to_one (strings_of refs hyps NoQueries) names_of) /\
  map (fun w => map snd (firstn 2 (printed (fst (tie_run TQ w ["r"; "h"]))))) [names_before; names_after; names_merged] = [[4 # 9; 1 # 2]; [4 # 9; 1 # 2]; [1; 1]]%Q.
Proof.
  split.
  - eexists _, _, _. split; [apply Compute.config_for_ok; vm_compute; reflexivity|].
    split; [apply Compute.simple_inputs_ok; vm_compute; reflexivity|].
    split; [apply Compute.simple_inputs_ok; vm_compute; reflexivity|].
    split; [reflexivity|].
    apply (Names.one_to_one_ok _ _ _ (Names.strings_of_list _ _)). vm_compute. reflexivity.
  - vm_compute. reflexivity.
Qed.

(** Two documents; with two hypotheses of the same score the order of their
    events decides. *)
Definition moved_before : world :=
  tie_world (map lit ["a d 0 0 10 10"; "b d 20 5 10 10"; "b e 0 0 4 4"]) (map lit ["b d 21 5 10 10 2"; "a d 1 1 10 10 2"; "a e 0 0 5 5 2"; "b e 2 0 4 4 1"]).
(** See [moved_before]. *)
Definition moved_after : world :=
  tie_world (map lit ["Q doc1 100 7 10 10"; "R doc1 120 12 10 10"; "R doc2 0 3 4 4"]) (map lit ["R doc1 121 12 10 10 2"; "Q doc1 101 8 10 10 2"; "Q doc2 0 3 5 5 2"; "R doc2 2 3 4 4 1"]).
(** Queries that change their order: the false alarm comes earlier. *)
Definition moved_swapped : world :=
  tie_world (map lit ["R d 0 0 10 10"; "Q d 20 5 10 10"; "Q e 0 0 4 4"]) (map lit ["Q d 21 5 10 10 2"; "R d 1 1 10 10 2"; "R e 0 0 5 5 2"; "Q e 2 0 4 4 1"]).
(** The new names. *)
Definition moved_query : bytes -> bytes := table [("a", "Q"); ("b", "R")].
(** See [moved_query]. *)
Definition moved_doc : bytes -> bytes := table [("d", "doc1"); ("e", "doc2")].
(** See [moved_query]. *)
Definition moved_x (s : bytes) : Z := if str_eq (lit "d") s then 100 else 0.
(** See [moved_query]. *)
Definition moved_y (s : bytes) : Z := if str_eq (lit "d") s then 7 else 3.

Example c98_icdar17_case :
  (exists c refs hyps, command (map lit ["--collapse_matches"; "false"; "r"; "h"]) c /\ no_bootstrap c /\
    let k := map_event moved_query (moved moved_doc moved_x moved_y) in
    inputs shaped_text scored_shaped_text moved_before c refs hyps NoQueries /\
    inputs shaped_text scored_shaped_text moved_after c (map k refs) (map (map_scored k) hyps) (map_queries moved_query NoQueries) /\
    w_writable moved_before = w_writable moved_after /\
    one_to_one (fun s => queries_of refs hyps s \/ listed NoQueries s) moved_query /\
    keeps_order (queries_of refs hyps) moved_query /\ keeps_order (documents_of refs hyps) moved_doc /\
    (forall r, In r refs -> stays moved_doc moved_x moved_y (ev_loc r)) /\
    (forall h, In h hyps -> stays moved_doc moved_x moved_y (ev_loc (sc_base h)))) /\
  map (fun w => map snd (firstn 2 (printed (fst (icdar17 QArith_ TQ (@isort) (fun _ => stream (fun _ => O)) (fun _ => []) (fun _ => [])
    w (lit "prog") (map lit ["--collapse_matches"; "false"; "r"; "h"])))))) [moved_before; moved_after; moved_swapped] = [[5 # 6; 3 # 4]; [5 # 6; 3 # 4]; [3 # 4; 3 # 4]]%Q.
Proof.
  split.
  - eexists _, _, _. split; [apply Compute.config_for_ok; vm_compute; reflexivity|]. split; [repeat split|]. cbv zeta.
    split; [apply Compute.icdar_inputs_ok; vm_compute; reflexivity|].
    split; [apply Compute.icdar_inputs_ok; vm_compute; reflexivity|].
    split; [reflexivity|]. split; [|split; [|split; [|split]]].
    + eapply Names.one_to_one_ok; [intros s [K|[]]; exact (Names.queries_of_list _ _ _ K)|]. vm_compute. reflexivity.
    + apply (Names.keeps_order_ok _ _ _ (Names.queries_of_list _ _)). vm_compute. reflexivity.
    + apply (Names.keeps_order_ok _ _ _ (Names.documents_of_list _ _)). vm_compute. reflexivity.
    + intros r [<-|[<-|[<-|[]]]]; repeat split; easy.
    + intros h [<-|[<-|[<-|[<-|[]]]]]; repeat split; easy.
  - vm_compute. reflexivity.
Qed.

(** C98.  In Icdar17KwsEval new names in another order can change gAP: the order
    of the events decides between hypotheses of the same score. *)
Theorem c98_order_refuted : ~ forall srt w w' c refs hyps g, sort_contract srt ->
  let args := map lit ["--collapse_matches"; "false"; "r"; "h"] in
  command args c -> inputs shaped_text scored_shaped_text w c refs hyps NoQueries ->
  inputs shaped_text scored_shaped_text w' c (map (map_event g (fun l => l)) refs) (map (map_scored (map_event g (fun l => l))) hyps) NoQueries ->
  w_writable w = w_writable w' -> one_to_one (queries_of refs hyps) g ->
  let run w := icdar17 QArith_ TQ srt (fun _ => stream (fun _ => O)) (fun _ => []) (fun _ => []) w (lit "prog") args in
  printed (fst (run w)) = printed (fst (run w')).
Proof.
  intros K.
  assert (X : exists c refs hyps, let g := table [("a", "R"); ("b", "Q")] in
    command (map lit ["--collapse_matches"; "false"; "r"; "h"]) c /\ inputs shaped_text scored_shaped_text moved_before c refs hyps NoQueries /\
    inputs shaped_text scored_shaped_text moved_swapped c (map (map_event g (fun l => l)) refs) (map (map_scored (map_event g (fun l => l))) hyps) NoQueries /\
    one_to_one (queries_of refs hyps) g).
  { eexists _, _, _. cbv zeta. split; [apply Compute.config_for_ok; vm_compute; reflexivity|].
    split; [apply Compute.icdar_inputs_ok; vm_compute; reflexivity|]. split; [apply Compute.icdar_inputs_ok; vm_compute; reflexivity|].
    apply (Names.one_to_one_ok _ _ _ (Names.queries_of_list _ _)). vm_compute. reflexivity. }
  destruct X as (c & refs & hyps & Cm & I & I' & O).
  assert (E := K (@isort) moved_before moved_swapped c refs hyps _ Order.isort_contract Cm I I' eq_refl O). clear K.
  cbv zeta in E. apply (f_equal (fun l => map snd (firstn 1 l))) in E. vm_compute in E. discriminate.
Qed.
Print Assumptions c98_order_refuted.
