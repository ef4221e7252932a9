(** What should be written to the standard error stream. *)
From Coq Require Import Ascii String List ZArith.
From Verif.Model Require Import Cpp Floats Events Matches Options Tool.
From Verif.Spec Require Import Reader Grouping Tool Text.
Import ListNotations.

(** Lines, each with a newline at the end. *)
Definition text_lines (ls : list bytes) : bytes := flat_map (fun x => x ++ [ascii_of_N 10]) ls.

(** Some line starts with "ERROR: ". *)
Definition error_line (b : bytes) : Prop := exists x t,
  b = x ++ lit "ERROR: " ++ t /\ (x = [] \/ exists y, x = y ++ [ascii_of_N 10]).

(** A line with a number. *)
Definition count_line (before : string) (n : nat) (after l : bytes) : Prop := exists t,
  integer_form t (Z.of_nat n) /\ l = lit before ++ t ++ after.

(** A name in quotes. *)
Definition in_quotes (name : bytes) : bytes := """"%char :: name ++ [""""%char].

(** The message that a file could not be read. *)
Definition unreadable (name : bytes) : bytes := lit "ERROR: Failed reading file " ++ in_quotes name ++ lit "!".

(** A line that is there if something holds. *)
Definition line_if (P : Prop) (F : bytes -> Prop) (ls : list bytes) : Prop :=
  (P /\ exists l, ls = [l] /\ F l) \/ (~ P /\ ls = []).

(** The number of things with some property. *)
Definition number {X} (P : X -> Prop) (n : nat) : Prop := exists l, NoDup l /\ (forall x, In x l <-> P x) /\ List.length l = n.

(** Reading events from some text: the messages, and the events if all lines
    are fine. *)
Inductive events_told {E} (text : bytes -> E -> Prop) (source : option bytes) (failure : bytes) (count : string)
  : list bytes -> option (list E) -> Prop :=
| et_missing : source = None -> events_told text source failure count [failure] None
| et_broken b ls es n l : source = Some b -> file_lines b ls -> events_of text 1 ls es (Some n) ->
    count_line "ERROR: Failed to read event from line " n [] l ->
    events_told text source failure count [l; failure] None
| et_fine b es l : source = Some b -> events_file text b es -> count_line count (List.length es) [] l ->
    events_told text source failure count [l] (Some es).

Section Messages.
  Context {ER EH : Type}.
  Variables (text_r : bytes -> ER -> Prop) (text_h : bytes -> EH -> Prop).
  Variables (w : world) (c : config).

  (** The references. *)
  Inductive refs_told : list bytes -> option (list ER) -> Prop :=
  | rt_empty : cf_ref c = [] -> refs_told [lit "ERROR: Empty filename was given for the references!"] None
  | rt_file ls o : cf_ref c <> [] ->
      events_told text_r (w_file w (cf_ref c)) (unreadable (cf_ref c)) "INFO: Number of reference events read = " ls o ->
      refs_told ls o.

  (** The hypotheses.  That they come from the standard input is only said if
      the name of the references is the whole command line. *)
  Definition hyps_told (alone : bool) : list bytes -> option (list EH) -> Prop :=
    events_told text_h (hyp_source w c)
      (if alone then lit "ERROR: Failed reading from stdin!" else unreadable (cf_hyp c))
      "INFO: Number of hypothesis events read = ".

  (** The file of queries or groups. *)
  Inductive queries_told : list bytes -> option (query_file bytes) -> Prop :=
  | qt_none : names_queries w c NoQueries -> queries_told [] (Some NoQueries)
  | qt_set qs n l : names_queries w c (QuerySet qs) -> number (fun q => In q qs) n ->
      count_line "INFO: " n (lit " queries were read from " ++ in_quotes (cf_queryset c)) l ->
      queries_told [l] (Some (QuerySet qs))
  | qt_groups gs n l : names_queries w c (QueryGroups gs) ->
      number (fun q => exists g qs, In (g :: qs) gs /\ In q qs) n ->
      count_line "INFO: " n (lit " queries were read from " ++ in_quotes (cf_querygroups c)) l ->
      queries_told [l] (Some (QueryGroups gs))
  | qt_no_set : cf_querygroups c = [] -> cf_queryset c <> [] -> w_file w (cf_queryset c) = None ->
      queries_told [lit "ERROR: Query set file " ++ in_quotes (cf_queryset c) ++ lit " could not be read!"] None
  | qt_no_groups : cf_querygroups c <> [] -> w_file w (cf_querygroups c) = None ->
      queries_told [lit "ERROR: Query groups file " ++ in_quotes (cf_querygroups c) ++ lit " could not be read!"] None
  | qt_format b ls l ws : cf_querygroups c <> [] -> w_file w (cf_querygroups c) = Some b -> file_lines b ls -> In l ls ->
      words l ws -> (List.length ws < 2)%nat ->
      queries_told [lit "ERROR: Query groups file " ++ in_quotes (cf_querygroups c) ++ lit " has a wrong format!"] None.

  (** Up to the inputs: the first problem ends the run. *)
  Inductive inputs_told (alone : bool) : list bytes -> option (list ER * list EH * query_file bytes) -> Prop :=
  | it_refs l1 : refs_told l1 None -> inputs_told alone l1 None
  | it_hyps l1 refs l2 : refs_told l1 (Some refs) -> hyps_told alone l2 None -> inputs_told alone (l1 ++ l2) None
  | it_queries l1 refs l2 hyps l3 : refs_told l1 (Some refs) -> hyps_told alone l2 (Some hyps) ->
      queries_told l3 None -> inputs_told alone (l1 ++ l2 ++ l3) None
  | it_all l1 refs l2 hyps l3 f : refs_told l1 (Some refs) -> hyps_told alone l2 (Some hyps) ->
      queries_told l3 (Some f) -> inputs_told alone (l1 ++ l2 ++ l3) (Some (refs, hyps, f)).

  (** The selection and the matching: nr of the references and nh of the
      hypotheses are kept. *)
  Definition selection_told (f : query_file bytes) (refs : list ER) (hyps : list EH) (nr nh : nat) (ls : list bytes) : Prop :=
    exists k1 k2 g s, ls = k1 ++ k2 ++ g ++ s ++ [lit "INFO: Computing matches..."] /\
      line_if (nr <> List.length refs) (count_line "INFO: Number of kept reference events = " nr []) k1 /\
      line_if (nh <> List.length hyps) (count_line "INFO: Number of kept hypothesis events = " nh []) k2 /\
      line_if (cf_querygroups c <> [] /\ exists q g, assigns f q g)
        (fun l => exists n, number (fun g => exists q, assigns f q g) n /\
           count_line "INFO: " n (lit " groups were read from " ++ in_quotes (cf_querygroups c)) l) g /\
      line_if (cf_sort c <> lit "desc" /\ cf_sort c <> lit "asc" /\ cf_sort c <> lit "none")
        (eq (lit "WARN: Ignoring sorting criterion " ++ in_quotes (cf_sort c) ++ lit ". Hypotheses won't be sorted.")) s.

  (** The rest, when n of the nh hypotheses kept are in the matches.  Nothing
      follows if the file of matches cannot be written. *)
  Definition end_told (nh n : nat) (ls : list bytes) : Prop := exists d e, ls = d ++ e /\
    line_if (cf_dump c <> [] /\ w_writable w (cf_dump c) = false)
      (eq (lit "ERROR: Dump matches file " ++ in_quotes (cf_dump c) ++ lit " could not be opened for write!")) d /\
    line_if (d = [] /\ n <> nh) (count_line "INFO: Effective number of hypotheses is " n
      (lit ". The rest of hypotheses were considered repetitions of some other match, and ignored.")) e.

  (** After the inputs, when n hypotheses are in the matches. *)
  Definition rest_told (rq : ER -> bytes) (hq : EH -> bytes) (f : query_file bytes) (refs : list ER) (hyps : list EH) (n : nat)
    (ls : list bytes) : Prop := exists refs' hyps' l4 l5,
    selects (fun r => kept f (rq r)) refs refs' /\ selects (fun h => kept f (hq h)) hyps hyps' /\
    selection_told f refs hyps (List.length refs') (List.length hyps') l4 /\
    end_told (List.length hyps') n l5 /\ ls = l4 ++ l5.
End Messages.

(** A text of one line. *)
Definition one_line (b : bytes) : Prop := ~ In (ascii_of_N 10) b.
