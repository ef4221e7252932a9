(** C81-C82: the standard error stream. *)
From Coq Require Import Ascii String List Bool ZArith Reals.
From Flocq Require Import Core BinarySingleNaN.
From Verif.Model Require Import Cpp Floats Events Matches Assessment Bootstrap Stream Options Output Tool Text.
From Verif.Spec Require Import Order Matching Grouping Reader Options Tool Text Messages.
From Verif.Proofs Require Order Compute Messages.
From Verif.Props Require Import P17_Tool P18_Results.
Import ListNotations.
Local Open Scope string_scope.
Local Open Scope list_scope.

(** ** C82 *)

(** C82.  The messages of Icdar17KwsEval, line by line: what was read up to
    the first problem; without one, how many events and groups are kept and how
    many hypotheses are in the matches that are dumped. *)
Theorem c82_icdar17 : forall T srt rngs show_int show_f64 w pn args c l r, sort_contract srt -> command args c ->
  icdar17 DArith T srt rngs show_int show_f64 w pn args = (l, r) ->
  exists ls o, inputs_told shaped_text scored_shaped_text w c (Nat.eqb (List.length args) 1) ls o /\
  match o with
  | None => r = inr (FExit 1) /\ stderr_of l = text_lines ls
  | Some (refs, hyps, f) => exists ms log groups ls',
      icdar17_evaluation (cf_sort c) f refs hyps ms log groups /\
      rest_told w c ev_query (fun h => ev_query (sc_base h)) f refs hyps (List.length (hyps_of ms)) ls' /\
      stderr_of l = text_lines (ls ++ ls') /\
      (w_writable w (cf_dump c) = true -> forall e, In e (dumped c ms log) -> In e l) /\
      (r = inr (FExit 1) <-> cf_dump c <> [] /\ w_writable w (cf_dump c) = false)
  end.
Proof.
  intros T srt rngs si sf w pn args c l r Hs C E. exact (Messages.icdar_told T srt Hs rngs si sf w pn args c l r C E).
Qed.
Print Assumptions c82_icdar17.

(** C82.  The messages of SimpleKwsEval, unless there are too many strings. *)
Theorem c82_simple : forall T srt rngs show_int show_f64 qf w pn args c l r, sort_contract srt -> command args c ->
  simple_kws DArith T srt rngs show_int show_f64 qf w pn args = (l, r) ->
  r = inr (FThrow RangeError) \/
  exists ls o, inputs_told str_event_text scored_str_event_text w c (Nat.eqb (List.length args) 1) ls o /\
  match o with
  | None => r = inr (FExit 1) /\ stderr_of l = text_lines ls
  | Some (refs, hyps, f) => exists id ms log groups ls', (forall s s', id s = id s' -> s = s') /\
      simple_evaluation id (cf_sort c) f refs hyps ms log groups /\
      rest_told w c ev_query (fun h => ev_query (sc_base h)) f refs hyps (List.length (hyps_of ms)) ls' /\
      stderr_of l = text_lines (ls ++ ls') /\
      (w_writable w (cf_dump c) = true ->
       forall e, In e (dumped c (map (renamed_match id) ms) (map (renamed_match id) log)) -> In e l) /\
      (r = inr (FExit 1) <-> cf_dump c <> [] /\ w_writable w (cf_dump c) = false)
  end.
Proof.
  intros T srt rngs si sf qf w pn args c l r Hs C E. exact (Messages.simple_told T srt Hs rngs si sf qf w pn args c l r C E).
Qed.
Print Assumptions c82_simple.

(** Runs in double arithmetic, and what they print. *)
Definition told_icdar17 (w : world) (args : list string) : string * (unit + fin) :=
  let p := icdar17 DArith TD (@isort) (fun _ => stream (fun _ => O)) (fun _ => []) (fun _ => []) w (lit "prog") (map lit args) in
  (string_of_list_ascii (stderr_of (fst p)), snd p).
(** See [told_icdar17]. *)
Definition told_simple (w : world) (args : list string) : string * (unit + fin) :=
  let p := simple_kws DArith TD (@isort) (fun _ => stream (fun _ => O)) (fun _ => []) (fun _ => []) true w (lit "prog") (map lit args) in
  (string_of_list_ascii (stderr_of (fst p)), snd p).

(** A file of queries, an unknown criterion, and a hypothesis that repeats a
    match. *)
Example c82_case_set : told_icdar17 here ["--query_set"; "set"; "--sort"; "up"; "r"; "h"] = (
  ("INFO: Number of reference events read = 6" ++ eol ++
   "INFO: Number of hypothesis events read = 7" ++ eol ++
   "INFO: 2 queries were read from ""set""" ++ eol ++
   "INFO: Number of kept reference events = 2" ++ eol ++
   "INFO: Number of kept hypothesis events = 4" ++ eol ++
   "WARN: Ignoring sorting criterion ""up"". Hypotheses won't be sorted." ++ eol ++
   "INFO: Computing matches..." ++ eol ++
   "INFO: Effective number of hypotheses is 3. The rest of hypotheses were considered repetitions of some other match, and ignored."
   ++ eol)%string, inr (FExit 0)).
Proof. vm_compute. reflexivity. Qed.

(** Groups: "b" is named twice, and "q1" moves from "b" to "a". *)
Example c82_case_groups : told_icdar17 here ["--query_groups"; "groups"; "r"; "h"] = (
  ("INFO: Number of reference events read = 6" ++ eol ++
   "INFO: Number of hypothesis events read = 7" ++ eol ++
   "INFO: 3 queries were read from ""groups""" ++ eol ++
   "INFO: Number of kept hypothesis events = 6" ++ eol ++
   "INFO: 2 groups were read from ""groups""" ++ eol ++
   "INFO: Computing matches..." ++ eol ++
   "INFO: Effective number of hypotheses is 4. The rest of hypotheses were considered repetitions of some other match, and ignored."
   ++ eol)%string, inr (FExit 0)).
Proof. vm_compute. reflexivity. Qed.

(** SimpleKwsEval. *)
Example c82_case_simple : told_simple here ["sr"; "sh"] = (
  ("INFO: Number of reference events read = 3" ++ eol ++
   "INFO: Number of hypothesis events read = 4" ++ eol ++
   "INFO: Computing matches..." ++ eol ++
   "INFO: Effective number of hypotheses is 3. The rest of hypotheses were considered repetitions of some other match, and ignored."
   ++ eol)%string, inr (FExit 0)).
Proof. vm_compute. reflexivity. Qed.

(** The hypotheses of the theorems are met. *)
Example c82_met : exists c, command (map lit ["--query_set"; "set"; "--sort"; "up"; "r"; "h"]) c /\ cf_sort c = lit "up" /\
  cf_queryset c = lit "set" /\ sort_contract (@isort).
Proof.
  eexists. split; [apply Compute.config_for_ok; vm_compute; reflexivity|]. split; [reflexivity|]. split; [reflexivity|].
  exact Order.isort_contract.
Qed.

(** ** C81 *)

(** C81.  Icdar17KwsEval: if the exit status is 1, some line of the messages
    starts with "ERROR: "; and a run that prints such a line ends with status 1,
    as long as the options repeated in messages have no newline. *)
Theorem c81_icdar17 : forall T srt rngs show_int show_f64 w pn args l r, sort_contract srt ->
  icdar17 DArith T srt rngs show_int show_f64 w pn args = (l, r) ->
  (r = inr (FExit 1) -> error_line (stderr_of l)) /\
  (forall c, command args c -> one_line (cf_queryset c) -> one_line (cf_querygroups c) -> one_line (cf_sort c) ->
   error_line (stderr_of l) -> r = inr (FExit 1)).
Proof.
  intros T srt rngs si sf w pn args l r Hs E. exact (Messages.icdar_errors T srt Hs rngs si sf w pn args l r E).
Qed.
Print Assumptions c81_icdar17.

(** C81.  SimpleKwsEval, which may also end with the exception about too many
    strings. *)
Theorem c81_simple : forall T srt rngs show_int show_f64 qf w pn args l r, sort_contract srt ->
  simple_kws DArith T srt rngs show_int show_f64 qf w pn args = (l, r) ->
  (r = inr (FExit 1) -> error_line (stderr_of l)) /\
  (forall c, command args c -> one_line (cf_queryset c) -> one_line (cf_querygroups c) -> one_line (cf_sort c) ->
   error_line (stderr_of l) -> r = inr (FExit 1) \/ r = inr (FThrow RangeError)).
Proof.
  intros T srt rngs si sf qf w pn args l r Hs E. exact (Messages.simple_errors T srt Hs rngs si sf qf w pn args l r E).
Qed.
Print Assumptions c81_simple.

(** Failures: a line of groups without queries, a bad line, a file that is
    not there, a file that cannot be written, an unknown option. *)
Example c81_cases :
  told_icdar17 here ["--query_groups"; "blank"; "r"; "h"] = (
  ("INFO: Number of reference events read = 6" ++ eol ++
   "INFO: Number of hypothesis events read = 7" ++ eol ++
   "ERROR: Query groups file ""blank"" has a wrong format!" ++ eol)%string, inr (FExit 1)) /\
  told_icdar17 here ["r"; "bad"] = (
  ("INFO: Number of reference events read = 6" ++ eol ++
   "ERROR: Failed to read event from line 1" ++ eol ++
   "ERROR: Failed reading file ""bad""!" ++ eol)%string, inr (FExit 1)) /\
  told_simple here ["sr"; "nothing"] = (
  ("INFO: Number of reference events read = 3" ++ eol ++
   "ERROR: Failed reading file ""nothing""!" ++ eol)%string, inr (FExit 1)) /\
  told_icdar17 here ["--dump_matches"; "no"; "r"; "h"] = (
  ("INFO: Number of reference events read = 6" ++ eol ++
   "INFO: Number of hypothesis events read = 7" ++ eol ++
   "INFO: Computing matches..." ++ eol ++
   "ERROR: Dump matches file ""no"" could not be opened for write!" ++ eol)%string, inr (FExit 1)) /\
  substring 0 31 (fst (told_icdar17 here ["--what"])) = ("ERROR: Unknown option '--what'" ++ eol)%string /\
  snd (told_icdar17 here ["--what"]) = inr (FExit 1).
Proof. vm_compute. auto 10. Qed.

(** C81.  The name of a file may bring a newline into a message that is not
    about an error. *)
Theorem c81_newline_refuted :
  let p := icdar17 DArith TD (@isort) (fun _ => stream (fun _ => O)) (fun _ => []) (fun _ => []) here (lit "prog")
    (map lit ["--sort"; eol ++ "ERROR: "; "r"; "h"]%string) in
  error_line (stderr_of (fst p)) /\ snd p = inr (FExit 0).
Proof.
  split; [|vm_compute; reflexivity].
  exists (lit ("INFO: Number of reference events read = 6" ++ eol ++ "INFO: Number of hypothesis events read = 7" ++ eol ++
    "WARN: Ignoring sorting criterion """ ++ eol)%string),
    (lit (""". Hypotheses won't be sorted." ++ eol ++ "INFO: Computing matches..." ++ eol ++
    "INFO: Effective number of hypotheses is 5. The rest of hypotheses were considered repetitions of some other match, and ignored."
    ++ eol)%string).
  split; [vm_compute; reflexivity|]. right.
  exists (lit ("INFO: Number of reference events read = 6" ++ eol ++ "INFO: Number of hypothesis events read = 7" ++ eol ++
    "WARN: Ignoring sorting criterion """)%string). vm_compute. reflexivity.
Qed.
Print Assumptions c81_newline_refuted.

(** C81.  "A failure names its source" is false: when the hypotheses come from
    the standard input and there is any option, the message is about a file with
    an empty name. *)
Theorem c81_stdin_refuted :
  let w := World files (fun _ => true) (lit ("q1 d1 3 5 400 forty" ++ eol)%string) in
  told_icdar17 w ["r"] = (
  ("INFO: Number of reference events read = 6" ++ eol ++
   "ERROR: Failed to read event from line 1" ++ eol ++
   "ERROR: Failed reading from stdin!" ++ eol)%string, inr (FExit 1)) /\
  told_icdar17 w ["--sort"; "asc"; "r"] = (
  ("INFO: Number of reference events read = 6" ++ eol ++
   "ERROR: Failed to read event from line 1" ++ eol ++
   "ERROR: Failed reading file """"!" ++ eol)%string, inr (FExit 1)).
Proof. vm_compute. auto. Qed.
Print Assumptions c81_stdin_refuted.
