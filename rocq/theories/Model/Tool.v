(** Model of /repo/tools/GenericKwsEvalTool.h, /repo/tools/Icdar17KwsEval.cc
    and /repo/tools/SimpleKwsEval.cc. *)
From Coq Require Import Ascii String List Bool ZArith.
From Flocq Require Import Core BinarySingleNaN.
From Verif.Model Require Import Cpp Floats Box Events EventSets Matches Scorers Matcher
  Assessment Bootstrap Mapper Stream Reader Options.
Import ListNotations.

(** ** The outside world *)

(** What the program finds when it runs: the contents of the files that can
    be opened for reading, whether a file can be opened for writing, and the
    standard input. *)
Record world : Type := World {
  w_file : bytes -> option bytes;
  w_writable : bytes -> bool;
  w_stdin : bytes
}.

(** How a run ends: with an exit status, an exception that nobody catches,
    or undefined behaviour. *)
Inductive fin : Type :=
| FExit (status : Z)
| FThrow (e : exn)
| FUB.

(** The lines written to the standard error stream
    (/repo/tools/GenericKwsEvalTool.h, line numbers on the right). *)
Inductive diag : Type :=
| DParse (e : parse_error)                (* /repo/cmd/Parser.h *)
| DHelp (text : bytes)                    (* 266 and /repo/cmd/Parser.h:124 *)
| DEmptyRefName                           (* 272 *)
| DBadLine (n : nat)                      (* /repo/reader/PlainTextMapEventReader.h:38 *)
| DReadFailed (name : bytes)              (* 278 and 293 *)
| DStdinFailed                            (* 291 *)
| DNumRefs (n : nat)                      (* 282 *)
| DNumHyps (n : nat)                      (* 298 *)
| DQuerySetFailed (name : bytes)          (* 310 *)
| DQueryGroupsFailed (name : bytes)       (* 326 *)
| DQueryGroupsFormat (name : bytes)       (* 336 *)
| DNumQueries (n : nat) (name : bytes)    (* 320 and 345 *)
| DKeptRefs (n : nat)                     (* 355 *)
| DKeptHyps (n : nat)                     (* 362 *)
| DNumGroups (n : nat) (name : bytes)     (* 371 *)
| DUnknownSort (criterion : bytes)        (* 386 *)
| DMatching                               (* 393 *)
| DDumpFailed (name : bytes)              (* 401 *)
| DFewerHyps (nh : nat)                   (* 420 *)
| DMoreHyps.                              (* 424 *)

Section Tool.
  Context (A : Arith) (T : Trans A).
  Notation Num := (num A).
  Variable srt : sort_fn.
  Variable rngs : Z -> rng.              (* the engine seeded with a number *)
  Variable show_int : Z -> bytes.        (* text of numbers in the help *)
  Variable show_f64 : f64 -> bytes.

  Context {Q RE HE St : Type}.
  Variable cq : Cmp Q.                   (* operators of QType *)
  Variable ltr : RE -> RE -> bool.       (* operator< of RefEvent *)
  Variable lth : HE -> HE -> bool.       (* operator< of HypEvent *)
  Variable rq : RE -> Q.                 (* Query() *)
  Variable hq : HE -> Q.
  Variable score : HE -> f32.            (* Score() *)
  Variable S : EvSet RE HE.
  Variable scorer : RE -> HE -> match_error.
  (** [ref_reader_->Read(file)], [hyp_reader_->Read(file)] and
      [hyp_reader_->Read(&std::cin)]; the state is that of the mapper. *)
  Variable read_refs : option bytes -> St -> outcome (read_res (E2 := RE) (S := St)).
  Variable read_hyps : option bytes -> St -> outcome (read_res (E2 := HE) (S := St)).
  Variable read_hyps_stdin : bytes -> St -> outcome (read_res (E2 := HE) (S := St)).
  (** [*query_mapper_] *)
  Variable map_query : St -> bytes -> outcome (Q * St).
  Variable description : bytes.
  Variable w : world.

  Notation M := (match_t RE HE).

  (** Contents of the files written. *)
  Inductive file_data : Type :=
  | FDump (matches repeated : list M)        (* lines 405-411 *)
  | FCurve (points : list (Num * Num)).      (* /repo/core/Assessment.h:365-367 *)

  (** The observable effects, in order. *)
  Inductive effect : Type :=
  | EDiag (d : diag)
  | EStat (name : bytes) (v : Num) (ci : option (Num * Num))  (* 72-77, 97-102 *)
  | EWrite (name : bytes) (d : file_data).

  (** A piece of the program: its effects and its result, or the end of the
      run. *)
  Definition prog (X : Type) : Type := (list effect * (X + fin))%type.

  (** Return a value. *)
  Definition pret {X} (x : X) : prog X := ([], inl x).
  (** Sequencing. *)
  Definition pbind {X Y} (m : prog X) (f : X -> prog Y) : prog Y :=
    match m with
    | (l, inl x) => let (l', r) := f x in (l ++ l', r)
    | (l, inr e) => (l, inr e)
    end.
  (** An effect. *)
  Definition emit (e : effect) : prog unit := ([e], inl tt).
  (** [return status] from Main, or exit(status). *)
  Definition stop {X} (status : Z) : prog X := ([], inr (FExit status)).
  (** Run code that may throw or be undefined. *)
  Definition run {X} (o : outcome X) : prog X :=
    match o with
    | Ok x => ([], inl x)
    | UB => ([], inr FUB)
    | Throw e => ([], inr (FThrow e))
    end.

  Notation "'do' x <- m ; f" := (pbind m (fun x => f))
    (at level 200, x pattern, m at level 100, f at level 200).
  Notation "m ;; f" := (pbind m (fun _ => f)) (at level 199, f at level 200).

  (** ** Command line *)

  (** /repo/tools/GenericKwsEvalTool.h:160-178, the variables with their
      initial values. *)
  Definition initial_store : store :=
    [ (lit "ref_filename", VStr []);
      (lit "hyp_filename", VStr []);
      (lit "queryset_filename", VStr []);
      (lit "querygroups_filename", VStr []);
      (lit "matches_filename", VStr []);
      (lit "sort_criterion", VStr (lit "desc"));
      (lit "grp_filename", VStr []);
      (lit "mrp_filename", VStr []);
      (lit "collapse_matches", VBool true);
      (lit "interpolated_precision", VBool true);
      (lit "trapezoid_integral", VBool true);
      (lit "bootstrap_ci_gap", VBool false);
      (lit "bootstrap_ci_map", VBool false);
      (lit "bootstrap_ci_gndcg", VBool false);
      (lit "bootstrap_ci_mndcg", VBool false);
      (lit "bootstrap_samples", VInt 10000);
      (lit "bootstrap_seed", VInt 74565);
      (lit "bootstrap_alpha", VF64 (of_decimal 53 1024 false 5 (-2)));
      (lit "curve_samples", VInt 10000) ].

  (** /repo/tools/GenericKwsEvalTool.h:182-254, the options registered: name,
      help, type and variable. *)
  Definition option_table : list (bytes * bytes * vtype * bytes) :=
    [ (lit "collapse_matches",
       lit "Collapse all matches with the same score before computing precision and recall curves.",
       TBool, lit "collapse_matches");
      (lit "interpolated_precision", lit "Use interpolated precision.",
       TBool, lit "interpolated_precision");
      (lit "trapezoid_integral", lit "Use trapezoid integral to compute AP/mAP.",
       TBool, lit "trapezoid_integral");
      (lit "query_set",
       lit "File containing the set of queries to consider. Events regarding other queries are excluded from both references and hypotheses.",
       TStr, lit "queryset_filename");
      (lit "dump_matches", lit "Dump the raw matches to this file.",
       TStr, lit "matches_filename");
      (lit "query_groups",
       lit "File containing the set of query groups to consider in the mAP. This option supersedes the queries read from the file --query_set.",
       TStr, lit "querygroups_filename");
      (lit "bootstrap_ci_gap",
       lit "Compute bootstrapped confidence intervals for the Global AP.",
       TBool, lit "bootstrap_ci_gap");
      (lit "bootstrap_ci_map",
       lit "Compute bootstrapped confidence intervals for the Mean AP.",
       TBool, lit "bootstrap_ci_map");
      (lit "bootstrap_ci_gndcg",
       lit "Compute bootstrapped confidence intervals for the Global NDCG.",
       TBool, lit "bootstrap_ci_gndcg");
      (lit "bootstrap_ci_mndcg",
       lit "Compute bootstrapped confidence intervals for the Mean NDCG.",
       TBool, lit "bootstrap_ci_mndcg");
      (lit "bootstrap_samples",
       lit "Use this number of bootstrapped samples to compute the confidence intervals.",
       TInt fmt_u64, lit "bootstrap_samples");
      (lit "bootstrap_seed",
       lit "Use this random seed to generate the bootstrapped samples.",
       TInt fmt_u64, lit "bootstrap_seed");
      (lit "bootstrap_alpha",
       lit "Use this alpha value to compute confidence intervals.",
       TF64, lit "bootstrap_alpha");
      (lit "sort",
       lit "Sort the hypotheses according to this criterion. Values: ""asc"", ""desc"", ""none""",
       TStr, lit "sort_criterion");
      (lit "output_grp", lit "Filename of the output global recall-precision curve.",
       TStr, lit "grp_filename");
      (lit "output_mrp", lit "Filename of the output mean recall-precision curve.",
       TStr, lit "mrp_filename");
      (lit "rp_curve_samples",
       lit "Number of sample points to use to interpolate the mean recall-precision curve.",
       TInt fmt_u64, lit "curve_samples") ].

  (** /repo/tools/GenericKwsEvalTool.h:181-263, the parser. *)
  Definition tool_parser (prog_name : bytes) : parser :=
    let p := fold_left (fun p x => match x with (n, h, t, v) => snd (register_option n h t v p) end)
               option_table (parser_new prog_name description) in
    register_opt_argument (lit "hypotheses")
      (lit "File containing the hypothesis events (submission).") TStr (lit "hyp_filename")
      (register_argument (lit "references")
         (lit "File containing the reference events (ground-truth).") TStr
         (lit "ref_filename") p).

  (** Read a variable of each type. *)
  Definition var_str (n : bytes) (s : store) : bytes :=
    match get_var n s with Some (VStr x) => x | _ => [] end.
  (** See [var_str]. *)
  Definition var_bool (n : bytes) (s : store) : bool :=
    match get_var n s with Some (VBool x) => x | _ => false end.
  (** See [var_str]. *)
  Definition var_int (n : bytes) (s : store) : Z :=
    match get_var n s with Some (VInt x) => x | _ => 0%Z end.
  (** See [var_str]. *)
  Definition var_f64 (n : bytes) (s : store) : f64 :=
    match get_var n s with Some (VF64 x) => x | _ => B754_zero false end.

  (** /repo/tools/GenericKwsEvalTool.h:160-178, the variables after parsing. *)
  Record config : Type := Config {
    cf_ref : bytes; cf_hyp : bytes; cf_queryset : bytes; cf_querygroups : bytes;
    cf_dump : bytes; cf_sort : bytes; cf_grp : bytes; cf_mrp : bytes;
    cf_collapse : bool; cf_interp : bool; cf_trapezoid : bool;
    cf_ci_gap : bool; cf_ci_map : bool; cf_ci_gndcg : bool; cf_ci_mndcg : bool;
    cf_samples : Z; cf_seed : Z; cf_alpha : f64; cf_curve : Z
  }.

  (** See [config]. *)
  Definition config_of (s : store) : config :=
    Config (var_str (lit "ref_filename") s) (var_str (lit "hyp_filename") s)
      (var_str (lit "queryset_filename") s) (var_str (lit "querygroups_filename") s)
      (var_str (lit "matches_filename") s) (var_str (lit "sort_criterion") s)
      (var_str (lit "grp_filename") s) (var_str (lit "mrp_filename") s)
      (var_bool (lit "collapse_matches") s) (var_bool (lit "interpolated_precision") s)
      (var_bool (lit "trapezoid_integral") s)
      (var_bool (lit "bootstrap_ci_gap") s) (var_bool (lit "bootstrap_ci_map") s)
      (var_bool (lit "bootstrap_ci_gndcg") s) (var_bool (lit "bootstrap_ci_mndcg") s)
      (var_int (lit "bootstrap_samples") s) (var_int (lit "bootstrap_seed") s)
      (var_f64 (lit "bootstrap_alpha") s) (var_int (lit "curve_samples") s).

  (** /repo/tools/GenericKwsEvalTool.h:264-268, parsing the command line. *)
  Definition parse_command_line (prog_name : bytes) (args : list bytes) : prog config :=
    let p := tool_parser prog_name in
    match parse p args initial_store with
    | PTrue s => pret (config_of s)
    | PFalse e s =>
        emit (EDiag (DParse e)) ;;
        emit (EDiag (DHelp (parser_help show_int show_f64 p s))) ;; stop 1
    | PExit s => emit (EDiag (DHelp (parser_help show_int show_f64 p s))) ;; stop 0
    end.

  (** ** Reading the inputs *)

  (** The message of the reader about a bad line, if any. *)
  Definition report_bad_line (bad : option nat) : prog unit :=
    match bad with
    | None => pret tt
    | Some n => emit (EDiag (DBadLine n))
    end.

  (** /repo/tools/GenericKwsEvalTool.h:270-283, the references. *)
  Definition load_refs (c : config) (st : St) : prog (list RE * St) :=
    match cf_ref c with
    | [] => emit (EDiag DEmptyRefName) ;; stop 1
    | name =>
        do r <- run (read_refs (w_file w name) st);
        report_bad_line (rr_bad r) ;;
        if rr_ok r then
          emit (EDiag (DNumRefs (length (rr_events r)))) ;;
          pret (rr_events r, rr_state r)
        else emit (EDiag (DReadFailed name)) ;; stop 1
    end.

  (** /repo/tools/GenericKwsEvalTool.h:285-300, the hypotheses; [argc2] is
      [argc == 2]. *)
  Definition load_hyps (argc2 : bool) (c : config) (st : St) : prog (list HE * St) :=
    do r <- run (match cf_hyp c with
                 | [] => read_hyps_stdin (w_stdin w) st
                 | name => read_hyps (w_file w name) st
                 end);
    report_bad_line (rr_bad r) ;;
    if rr_ok r then
      emit (EDiag (DNumHyps (length (rr_events r)))) ;;
      pret (rr_events r, rr_state r)
    else
      (if argc2 then emit (EDiag DStdinFailed) else emit (EDiag (DReadFailed (cf_hyp c)))) ;;
      stop 1.

  (** /repo/tools/GenericKwsEvalTool.h:315 and 334, [while (is >> s)]: the
      words left in a stream.  Each iteration consumes a character, so [fuel]
      greater than the number of characters suffices (proved).  The mapper is
      applied to the words afterwards; the code does it one by one, which
      makes no difference because it does not touch the stream. *)
  Fixpoint read_words (fuel : nat) (old : bytes) (is : istream) : outcome (list bytes) :=
    match fuel with
    | O => Throw OutOfFuel
    | Datatypes.S fuel' =>
        let (x, is1) := read_string old is in
        if is_fail is1 then Ok []
        else obind (read_words fuel' x is1) (fun rest => Ok (x :: rest))
    end.

  (** The words of some contents. *)
  Definition words_of (b : bytes) : outcome (list bytes) :=
    read_words (1 + length b) [] (open_stream b).

  (** /repo/tools/GenericKwsEvalTool.h:331, [while (std::getline(qfs, line))]:
      the lines of a stream; see [read_words] about [fuel] and order. *)
  Fixpoint read_lines (fuel : nat) (old : bytes) (is : istream) : outcome (list bytes) :=
    match fuel with
    | O => Throw OutOfFuel
    | Datatypes.S fuel' =>
        let (x, is1) := getline nl old is in
        if is_fail is1 then Ok []
        else obind (read_lines fuel' x is1) (fun rest => Ok (x :: rest))
    end.

  (** The lines of some contents. *)
  Definition lines_of (b : bytes) : outcome (list bytes) :=
    read_lines (2 + length b) [] (open_stream b).

  (** Map a list of words, threading the mapper's state
      (/repo/tools/GenericKwsEvalTool.h:316 and 334). *)
  Fixpoint map_words (st : St) (ws : list bytes) : outcome (list Q * St) :=
    match ws with
    | [] => Ok ([], st)
    | x :: t =>
        obind (map_query st x) (fun qs =>
        obind (map_words (snd qs) t) (fun r => Ok (fst qs :: fst r, snd r)))
    end.

  (** The maps of /repo/tools/GenericKwsEvalTool.h:302. *)
  Definition q2g := list (Q * Q).

  (** /repo/tools/GenericKwsEvalTool.h:308-322, the query set. *)
  Definition load_query_set (name : bytes) (st : St) : prog (q2g * St) :=
    match w_file w name with
    | None => emit (EDiag (DQuerySetFailed name)) ;; stop 1
    | Some b =>
        do ws <- run (words_of b);
        do (qs, st1) <- run (map_words st ws);
        let m := fold_left (fun m q => map_set (c_eq cq) q q m) qs [] in
        emit (EDiag (DNumQueries (length m) name)) ;;
        pret (m, st1)
    end.

  (** /repo/tools/GenericKwsEvalTool.h:340-342, the assignments of a line. *)
  Definition add_group (fields : list Q) (m : q2g) : q2g :=
    match fields with
    | g :: qs => fold_left (fun m q => map_set (c_eq cq) q g m) qs m
    | [] => m
    end.

  (** /repo/tools/GenericKwsEvalTool.h:331-343, the loop over lines. *)
  Fixpoint group_lines (name : bytes) (lines : list bytes) (m : q2g) (st : St)
    : prog (q2g * St) :=
    match lines with
    | [] => pret (m, st)
    | line :: rest =>
        do ws <- run (words_of line);
        do (fields, st1) <- run (map_words st ws);
        if Nat.ltb (length fields) 2 then
          emit (EDiag (DQueryGroupsFormat name)) ;; stop 1
        else group_lines name rest (add_group fields m) st1
    end.

  (** /repo/tools/GenericKwsEvalTool.h:324-347, the query groups. *)
  Definition load_query_groups (name : bytes) (st : St) : prog (q2g * St) :=
    match w_file w name with
    | None => emit (EDiag (DQueryGroupsFailed name)) ;; stop 1
    | Some b =>
        do lines <- run (lines_of b);
        do (m, st1) <- group_lines name lines [] st;
        emit (EDiag (DNumQueries (length m) name)) ;;
        pret (m, st1)
    end.

  (** /repo/tools/GenericKwsEvalTool.h:302-348, the map from queries to
      groups. *)
  Definition load_queries (c : config) (st : St) : prog (q2g * St) :=
    match cf_querygroups c with
    | [] =>
        match cf_queryset c with
        | [] => pret ([], st)
        | name => load_query_set name st
        end
    | name => load_query_groups name st
    end.

  (** /repo/tools/GenericKwsEvalTool.h:33-40, [filter_events]. *)
  Definition filter_events {E} (query : E -> Q) (m : q2g) (events : list E) : list E :=
    filter (fun e => match map_find (c_eq cq) (query e) m with
                     | Some _ => true
                     | None => false
                     end) events.

  (** /repo/tools/GenericKwsEvalTool.h:366-369, the number of groups. *)
  Definition num_groups (m : q2g) : nat :=
    length (fold_left (fun g kv => map_emplace (c_eq cq) (snd kv) tt g) m []).

  (** /repo/tools/GenericKwsEvalTool.h:350-374, the filter. *)
  Definition filter_inputs (c : config) (m : q2g) (refs : list RE) (hyps : list HE)
    : prog (list RE * list HE) :=
    match m with
    | [] => pret (refs, hyps)
    | _ =>
        let refs' := filter_events rq m refs in
        let hyps' := filter_events hq m hyps in
        (if Nat.eqb (length refs) (length refs') then pret tt
         else emit (EDiag (DKeptRefs (length refs')))) ;;
        (if Nat.eqb (length hyps) (length hyps') then pret tt
         else emit (EDiag (DKeptHyps (length hyps')))) ;;
        (match cf_querygroups c with
         | [] => pret tt
         | name => emit (EDiag (DNumGroups (num_groups m) name))
         end) ;;
        pret (refs', hyps')
    end.

  (** /repo/tools/GenericKwsEvalTool.h:376-388, sorting. *)
  Definition sort_hyps (criterion : bytes) (hyps : list HE) : prog (list HE) :=
    if str_eq criterion (lit "desc") then run (std_sort srt (flip_lt lth) hyps)
    else if str_eq criterion (lit "asc") then run (std_sort srt lth hyps)
    else
      (if str_eq criterion (lit "none") then pret tt
       else emit (EDiag (DUnknownSort criterion))) ;;
      pret hyps.

  (** ** Statistics *)

  (** /repo/tools/GenericKwsEvalTool.h:57-104, [ComputeMeanStatistic] and
      [ComputeGlobalStatistic]: [plain] is the value without bootstrap,
      [on_groups] the statistic the lambda evaluates. *)
  Definition compute_statistic (name : bytes) (c : config) (bootstrap : bool)
    (groups : list (list M)) (plain : outcome Num)
    (on_groups : list (list M) -> outcome Num) : prog unit :=
    if bootstrap then
      do (v, lo, up) <- run (bootstrap_groups A match_default srt on_groups
                (rngs (cf_seed c)) groups (Z.to_nat (cf_samples c)) (cf_alpha c));
      emit (EStat name v (Some (lo, up)))
    else
      do v <- run plain;
      emit (EStat name v None).

  (** /repo/tools/GenericKwsEvalTool.h:106-120, [WriteGlobalRPCurve]. *)
  Definition write_global_curve (c : config) (matches : list M) : prog unit :=
    let (pr, rc) := precision_recall_matches A score matches (cf_collapse c) (cf_interp c) in
    let xs := even_points A (Z.to_nat (cf_curve c)) in
    do ys <- run (sample_curve A rc pr xs (cf_trapezoid c));
    do pts <- run (write_curve A (w_writable w) (cf_grp c) xs ys);
    emit (EWrite (cf_grp c) (FCurve pts)).

  (** /repo/tools/GenericKwsEvalTool.h:145-148, the sum over groups at point
      [i]. *)
  Definition sum_at (i : nat) (curves : list (list Num)) : outcome Num :=
    ofold (fun s ys => obind (at_ ys i) (fun y => Ok (a_add A s y))) curves (a0 A).

  (** /repo/tools/GenericKwsEvalTool.h:122-153, [WriteMeanRPCurve]. *)
  Definition write_mean_curve (c : config) (groups : list (list M)) : prog unit :=
    let xs := even_points A (Z.to_nat (cf_curve c)) in
    do curves <- run (omap (fun g =>
        let (pr, rc) := precision_recall_matches A score g (cf_collapse c) (cf_interp c) in
        sample_curve A rc pr xs (cf_trapezoid c)) groups);
    do ys <- run (omap (fun i =>
        obind (sum_at i curves) (fun s => Ok (a_div A s (a_nat A (length groups)))))
        (seq 0 (length xs)));
    do pts <- run (write_curve A (w_writable w) (cf_mrp c) xs ys);
    emit (EWrite (cf_mrp c) (FCurve pts)).

  (** ** Main *)

  (** /repo/tools/GenericKwsEvalTool.h:397-413, dumping the matches. *)
  Definition dump_matches (c : config) (matches repeated : list M) : prog unit :=
    match cf_dump c with
    | [] => pret tt
    | name =>
        if w_writable w name then emit (EWrite name (FDump matches repeated))
        else emit (EDiag (DDumpFailed name)) ;; stop 1
    end.

  (** /repo/tools/GenericKwsEvalTool.h:415-429, the check of the number of
      hypotheses. *)
  Definition check_hyps (num_hyps : nat) (matches : list M) : prog unit :=
    let nh := fold_left (fun n m => n + me_nh (m_err m)) matches 0 in
    if Nat.ltb nh num_hyps then emit (EDiag (DFewerHyps nh))
    else if Nat.ltb num_hyps nh then emit (EDiag DMoreHyps) ;; stop 1
    else pret tt.

  (** /repo/tools/GenericKwsEvalTool.h:431-475, everything after the check:
      grouping, statistics and curves.  The statistics are the function objects
      of /repo/core/Statistic.h:11-117, whose calls are resolved: each passes
      the flags it was constructed with on to /repo/core/Assessment.h. *)
  Definition report (c : config) (m : q2g) (matches : list M) : prog unit :=
    do groups <- run (group_matches cq rq hq matches m);
    compute_statistic (lit "gAP") c (cf_ci_gap c) groups
      (global_ap A score matches (cf_collapse c) (cf_interp c) (cf_trapezoid c))
      (fun g => global_ap_groups A score srt g (cf_collapse c) (cf_interp c)
                  (cf_trapezoid c) true) ;;
    compute_statistic (lit "mAP") c (cf_ci_map c) groups
      (mean_ap A score srt groups (cf_collapse c) (cf_interp c) (cf_trapezoid c) false)
      (fun g => mean_ap A score srt g (cf_collapse c) (cf_interp c) (cf_trapezoid c) true) ;;
    compute_statistic (lit "gNDCG") c (cf_ci_gndcg c) groups
      (Ok (global_ndcg A T score matches (cf_collapse c)))
      (fun g => global_ndcg_groups A T score srt g (cf_collapse c) true) ;;
    compute_statistic (lit "mNDCG") c (cf_ci_mndcg c) groups
      (mean_ndcg A T score srt groups (cf_collapse c) false)
      (fun g => mean_ndcg A T score srt g (cf_collapse c) true) ;;
    (match cf_grp c with [] => pret tt | _ => write_global_curve c matches end) ;;
    (match cf_mrp c with [] => pret tt | _ => write_mean_curve c groups end).

  (** /repo/tools/GenericKwsEvalTool.h:392-394, the matching. *)
  Definition match_inputs (refs : list RE) (hyps : list HE)
    : outcome (list M * matcher S) :=
    match_run ltr S scorer (matcher_new S) refs hyps.

  (** /repo/tools/GenericKwsEvalTool.h:155-476, [Main]; [args] is argv[1],
      argv[2], ... *)
  Definition tool_main (prog_name : bytes) (args : list bytes) (st : St) : prog unit :=
    do c <- parse_command_line prog_name args;
    do (refs, st1) <- load_refs c st;
    do (hyps, st2) <- load_hyps (Nat.eqb (length args) 1) c st1;
    do (m, _) <- load_queries c st2;
    do (refs', hyps') <- filter_inputs c m refs hyps;
    do sorted <- sort_hyps (cf_sort c) hyps';
    emit (EDiag DMatching) ;;
    do (matches, mt) <- run (match_inputs refs' sorted);
    dump_matches c matches (mt_repeated mt) ;;
    check_hyps (length sorted) matches ;;
    report c m matches ;;
    stop 0.
End Tool.

Arguments EDiag {A RE HE}.
Arguments EStat {A RE HE}.
Arguments EWrite {A RE HE}.
Arguments FDump {A RE HE}.
Arguments FCurve {A RE HE}.

(** ** The two programs *)

Section Programs.
  Context (A : Arith) (T : Trans A).
  Variable srt : sort_fn.
  Variable rngs : Z -> rng.
  Variable show_int : Z -> bytes.
  Variable show_f64 : f64 -> bytes.

  (** /repo/tools/Icdar17KwsEval.cc:19-41, [main]. *)
  Definition icdar17 (w : world) (prog_name : bytes) (args : list bytes) :=
    tool_main A T srt rngs show_int show_f64
      cmp_str (c_lt cmp_shaped) (c_lt (cmp_scored cmp_shaped))
      ev_query (fun h => ev_query (sc_base h)) sc_score
      (evset_docbox srt cmp_str)
      (fun r h => ioh_scorer cmp_str f32_half r (sc_base h))
      (fun f st => read_file read_shaped identity_mapper f [] st)
      (fun f st => read_file (read_scored read_shaped) identity_mapper f [] st)
      (fun b st => read_stream (read_scored read_shaped) identity_mapper (open_stream b) [] st)
      identity_mapper
      (lit "  Official evaluation tool for ICDAR2017 H-KWS Competition.")
      w prog_name args tt.

  (** Operators of Event<int32_t, int32_t>, /repo/tools/SimpleKwsEval.cc:20. *)
  Definition cmp_int_event : Cmp (event Z Z) := cmp_event cmp_Z cmp_Z.

  (** /repo/tools/SimpleKwsEval.cc:16-48, [main].  [qf] is the compiler's
      choice described at [event_to_int]. *)
  Definition simple_kws (qf : bool) (w : world) (prog_name : bytes) (args : list bytes) :=
    let int_max := 2147483647%Z in
    let ref_mapper := event_to_int qf int_max in
    let hyp_mapper := scored_mapper ref_mapper in
    tool_main A T srt rngs show_int show_f64
      cmp_Z (c_lt cmp_int_event) (c_lt (cmp_scored cmp_int_event))
      ev_query (fun h => ev_query (sc_base h)) sc_score
      (evset_generic cmp_int_event)
      (fun r h => trivial_scorer cmp_Z cmp_Z r (sc_base h))
      (fun f st => read_file read_str_event ref_mapper f [] st)
      (fun f st => read_file (read_scored read_str_event) hyp_mapper f [] st)
      (fun b st => read_stream (read_scored read_str_event) hyp_mapper (open_stream b) [] st)
      (string_to_int int_max)
      (lit "  Perform simple evaluation for segmentation-based keyword spotting.")
      w prog_name args [].
End Programs.
