(** Runs that keep the same events and put the same queries together. *)
From Coq Require Import String List.
From Verif.Model Require Import Cpp Floats Events Options Tool.
From Verif.Spec Require Import Grouping Tool.
Import ListNotations.
Local Open Scope string_scope.
Local Open Scope list_scope.

(** Two queries are in the same group. *)
Definition together {Q} (f : query_file Q) (q q' : Q) : Prop := exists g, group_is f q g /\ group_is f q' g.

(** Two queries are listed in the same group. *)
Definition listed_together {Q} (f : query_file Q) (q q' : Q) : Prop := exists g, assigns f q g /\ assigns f q' g.

(** Some event has this query. *)
Definition asked {Q L} (refs : list (event Q L)) (hyps : list (scored (event Q L))) (q : Q) : Prop :=
  (exists r, In r refs /\ ev_query r = q) \/ (exists h, In h hyps /\ ev_query (sc_base h) = q).

(** These references and hypotheses are the ones that are kept. *)
Definition keeps {Q L} (f : query_file Q) (refs kr : list (event Q L)) (hyps kh : list (scored (event Q L))) : Prop :=
  selects (fun r => kept f (ev_query r)) refs kr /\ selects (fun h => kept f (ev_query (sc_base h))) hyps kh.

(** Two files of queries with the same groups for these events. *)
Definition same_groups {Q L} (kr : list (event Q L)) (kh : list (scored (event Q L))) (f f' : query_file Q) : Prop :=
  forall q q', asked kr kh q -> asked kr kh q' -> (together f q q' <-> together f' q q').

(** The same statistics, intervals, files and end; the messages may differ. *)
Definition same_results {A : Arith} {RE HE} (p p' : prog A (RE := RE) (HE := HE) unit) : Prop :=
  outputs (fst p) = outputs (fst p') /\ snd p = snd p'.

(** The same matches, global statistics, global curve and end, without
    intervals; the means and the mean curve may differ. *)
Definition same_global {A : Arith} {RE E} (c : config) (p p' : prog A (RE := RE) (HE := scored E) unit) : Prop :=
  snd p = snd p' /\ exists ms log v1 v2 v3 v4 v2' v4' g k k',
    outputs (fst p) = dumped c ms log ++ [EStat (lit "gAP") v1 None; EStat (lit "mAP") v2 None;
                                          EStat (lit "gNDCG") v3 None; EStat (lit "mNDCG") v4 None] ++ g ++ k /\
    outputs (fst p') = dumped c ms log ++ [EStat (lit "gAP") v1 None; EStat (lit "mAP") v2' None;
                                           EStat (lit "gNDCG") v3 None; EStat (lit "mNDCG") v4' None] ++ g ++ k' /\
    (forall e, In e (k ++ k') -> exists pts, e = EWrite (cf_mrp c) (FCurve pts)).
