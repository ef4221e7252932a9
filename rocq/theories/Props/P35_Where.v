(** C99: the runs depend on the files only through the events they list. *)
From Coq Require Import Ascii String List Bool ZArith QArith Lia Permutation.
From Flocq Require Import Core BinarySingleNaN.
From Verif.Model Require Import Cpp Floats Box Events EventSets Matches Matcher Scorers Assessment Bootstrap Mapper Stream
  Reader Options Tool.
From Verif.Spec Require Import Order Objects Sets Matching Scorers Grouping Reader Options Tool Where.
From Verif.Proofs Require Order Compute Where.
From Verif.Props Require Import P17_Tool P18_Results P25_Ties.
Import ListNotations.
Local Open Scope string_scope.
Local Open Scope list_scope.

(** ** C99 *)

(** C99.  Two files with the same events are the same to a program: not even a
    message differs, with all settings. *)
Theorem c99_files : forall A (T : Trans A) srt rngs show_int show_f64 w w' pn args c f, command args c -> w_writable w = w_writable w' ->
  (forall refs hyps,
    inputs shaped_text scored_shaped_text w c refs hyps f -> inputs shaped_text scored_shaped_text w' c refs hyps f ->
    icdar17 A T srt rngs show_int show_f64 w pn args = icdar17 A T srt rngs show_int show_f64 w' pn args) /\
  (forall qf refs hyps,
    inputs str_event_text scored_str_event_text w c refs hyps f -> inputs str_event_text scored_str_event_text w' c refs hyps f ->
    simple_kws A T srt rngs show_int show_f64 qf w pn args = simple_kws A T srt rngs show_int show_f64 qf w' pn args).
Proof.
  intros A T srt rngs si sf w w' pn args c f Cm Hw. split.
  - intros refs hyps I I'. exact (Where.icdar_files T srt rngs si sf w w' pn args c refs hyps f Cm I I' Hw).
  - intros qf refs hyps I I'. exact (Where.simple_files T srt rngs si sf qf w w' pn args c refs hyps f Cm I I' Hw).
Qed.
Print Assumptions c99_files.

(** C99.  Neither the names of the input files matter nor whether the hypotheses
    come from a file or the standard input, nor the order of the arguments: runs
    with the same events and settings end in the same way with the same results,
    with all settings. *)
Theorem c99_places : forall A (T : Trans A) srt rngs show_int show_f64 w w' pn pn' args args' c c' f,
  command args c -> command args' c' -> same_settings c c' -> w_writable w = w_writable w' ->
  (forall refs hyps,
    inputs shaped_text scored_shaped_text w c refs hyps f -> inputs shaped_text scored_shaped_text w' c' refs hyps f ->
    forall l r l' r', icdar17 A T srt rngs show_int show_f64 w pn args = (l, r) -> icdar17 A T srt rngs show_int show_f64 w' pn' args' = (l', r') ->
    outputs l = outputs l' /\ r = r') /\
  (forall qf refs hyps,
    inputs str_event_text scored_str_event_text w c refs hyps f -> inputs str_event_text scored_str_event_text w' c' refs hyps f ->
    forall l r l' r', simple_kws A T srt rngs show_int show_f64 qf w pn args = (l, r) -> simple_kws A T srt rngs show_int show_f64 qf w' pn' args' = (l', r') ->
    outputs l = outputs l' /\ r = r').
Proof.
  intros A T srt rngs si sf w w' pn pn' args args' c c' f Cm Cm' Ss Hw. split.
  - intros refs hyps I I' l r l' r' E E'. assert (K := Where.icdar_places T srt rngs si sf w w' pn pn' args args' c c' refs hyps f Cm Cm' Ss I I' Hw).
    rewrite E, E' in K. exact K.
  - intros qf refs hyps I I' l r l' r' E E'. assert (K := Where.simple_places T srt rngs si sf qf w w' pn pn' args args' c c' refs hyps f Cm Cm' Ss I I' Hw).
    rewrite E, E' in K. exact K.
Qed.
Print Assumptions c99_places.

(** The files of a run. *)
Definition where_world (files : list (string * list string)) (stdin : list string) : world :=
  World (fun n => option_map (fun p => text_of (map lit (snd p))) (find (fun p => str_eq (lit (fst p)) n) files)) (fun _ => true) (text_of (map lit stdin)).

(** Names on the command line and a file of hypotheses; the same events on the
    standard input, with comments, blanks and other spellings of the scores. *)
Definition where_named : world :=
  where_world [("r", ["a x"; "b y"; "c z"]); ("h", ["a x 2"; "b x 1"; "b y 0.5"; "c z 3"]); ("q", ["a"; "b"])] [].
(** See [where_named]. *)
Definition where_piped : world :=
  where_world [("gold", ["# references"; "  a x"; ""; "b y  "; "c z"]); ("Q", ["a b"])] ["a  x 2.00"; "b x 1e0"; "# last ones"; "b y .5"; "c z 3"].

Example c99_places_case :
  (exists c c' refs hyps f,
    command (map lit ["--query_set"; "q"; "r"; "h"]) c /\ command (map lit ["--query_set"; "Q"; "gold"]) c' /\ same_settings c c' /\
    w_writable where_named = w_writable where_piped /\
    inputs str_event_text scored_str_event_text where_named c refs hyps f /\ inputs str_event_text scored_str_event_text where_piped c' refs hyps f) /\
  map (fun x => map snd (firstn 2 (printed (fst (tie_run TQ (fst x) (snd x))))))
    [(where_named, ["--query_set"; "q"; "r"; "h"]); (where_piped, ["--query_set"; "Q"; "gold"]); (where_piped, ["gold"])] = [[5 # 6; 3 # 4]; [5 # 6; 3 # 4]; [11 # 12; 5 # 6]]%Q.
Proof.
  split.
  - eexists _, _, _, _, _. split; [apply Compute.config_for_ok; vm_compute; reflexivity|]. split; [apply Compute.config_for_ok; vm_compute; reflexivity|].
    split; [repeat split|]. split; [reflexivity|].
    split; [apply Compute.simple_inputs_ok; vm_compute; reflexivity|]. apply Compute.simple_inputs_ok. vm_compute. reflexivity.
  - vm_compute. reflexivity.
Qed.

(** Boxes, with the same command line. *)
Definition where_boxes (refs hyps : list string) : world := where_world [("r", refs); ("h", hyps)] [].

Example c99_files_case :
  exists c refs hyps, let w := where_boxes ["a d 0 0 10 10"] ["a d 1 1 10 10 2"; "b d 0 0 5 5 1"] in
    let w' := where_boxes ["# one"; "a d  0 0 10 10"] ["a d 1 1 010 10 20e-1"; ""; "b d +0 0 5 5 1.0"] in
    command (map lit ["r"; "h"]) c /\ w_writable w = w_writable w' /\
    inputs shaped_text scored_shaped_text w c refs hyps NoQueries /\ inputs shaped_text scored_shaped_text w' c refs hyps NoQueries.
Proof.
  eexists _, _, _. cbv zeta. split; [apply Compute.config_for_ok; vm_compute; reflexivity|]. split; [reflexivity|].
  split; [apply Compute.icdar_inputs_ok; vm_compute; reflexivity|]. apply Compute.icdar_inputs_ok. vm_compute. reflexivity.
Qed.
