(** Runs on a part of the queries. *)
From Coq Require Import String List.
From Verif.Model Require Import Cpp Floats Events Assessment Options Tool.
From Verif.Spec Require Import Tool.

Import ListNotations.
Local Open Scope string_scope.
Local Open Scope list_scope.

(** The second file keeps just the queries of one group of the first. *)
Definition only {Q} (f : query_file Q) (k : Q) (f' : query_file Q) : Prop :=
  forall q, kept f' q <-> kept f q /\ group_is f q k.

(** The group has events among those kept. *)
Definition present {Q L} (f : query_file Q) (refs : list (event Q L)) (hyps : list (scored (event Q L))) (k : Q) : Prop :=
  exists q, kept f q /\ group_is f q k /\
    ((exists r, In r refs /\ ev_query r = q) \/ (exists h, In h hyps /\ ev_query (sc_base h) = q)).

(** Two command lines ask for the same ranking and the same statistics. *)
Definition same_settings (c c' : config) : Prop :=
  cf_sort c = cf_sort c' /\ cf_collapse c = cf_collapse c' /\ cf_interp c = cf_interp c' /\ cf_trapezoid c = cf_trapezoid c'.

(** What the four statistics of a run are. *)
Definition prints {A : Arith} {RE HE} (l : list (effect A (RE := RE) (HE := HE))) (gap map gndcg mndcg : num A) : Prop :=
  printed l = [(lit "gAP", gap); (lit "mAP", map); (lit "gNDCG", gndcg); (lit "mNDCG", mndcg)].

(** The mean of numbers, added from the left; 0 of none. *)
Definition average {A : Arith} (vs : list (num A)) : num A :=
  match vs with [] => a0 A | _ => a_div A (fold_left (a_add A) vs (a0 A)) (a_nat A (List.length vs)) end.

(** The events kept are all of one group, and there are some. *)
Definition one_group_only {Q L} (f : query_file Q) (refs : list (event Q L)) (hyps : list (scored (event Q L))) : Prop :=
  exists k, present f refs hyps k /\ forall x, present f refs hyps x -> x = k.
