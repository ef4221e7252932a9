(** What a run of the evaluation tools should do. *)
From Coq Require Import Ascii String List ZArith Reals Permutation Sorted.
From Flocq Require Import BinarySingleNaN.
From Verif.Model Require Import Cpp Floats Events Matches Scorers Assessment Options Tool.
From Verif.Spec Require Import Order Matching Grouping Collapse Metrics Curves Reader Options.
Import ListNotations.

(** ** Effects of a run *)

Section Effects.
  Context {A : Arith} {RE HE : Type}.
  Notation E := (effect A (RE := RE) (HE := HE)).

  (** The statistics printed and the files written, in order: everything but
      the messages. *)
  Definition outputs (l : list E) : list E :=
    filter (fun e => match e with EDiag _ => false | _ => true end) l.

  (** The names of the statistics printed. *)
  Definition stat_names (l : list E) : list bytes :=
    flat_map (fun e => match e with EStat n _ _ => [n] | _ => [] end) l.

  (** The same with the values, without intervals. *)
  Definition printed (l : list E) : list (bytes * num A) :=
    flat_map (fun e => match e with EStat n v _ => [(n, v)] | _ => [] end) l.

  (** And with the intervals. *)
  Definition stats (l : list E) : list (bytes * num A * option (num A * num A)) :=
    flat_map (fun e => match e with EStat n v ci => [(n, v, ci)] | _ => [] end) l.
End Effects.

(** The statistics of a complete run. *)
Definition four_names : list bytes := [lit "gAP"; lit "mAP"; lit "gNDCG"; lit "mNDCG"].

(** ** Command lines *)

(** The options and arguments of the tools; program name and description do
    not matter. *)
Definition tool_options : parser := tool_parser [] [].

(** The command line asks for an evaluation with this configuration: options,
    the references and perhaps the hypotheses. *)
Definition command (args : list bytes) (c : config) : Prop := exists asg rest s,
  opt_section (p_opts tool_options) args asg false rest /\
  (1 <= List.length rest <= 2)%nat /\
  assigned initial_store (asg ++ combine (p_args tool_options ++ p_opt_args tool_options) rest) s /\
  c = config_of s.

(** The command line asks for help. *)
Definition asks_help (args : list bytes) : Prop := exists asg rest s,
  opt_section (p_opts tool_options) args asg true rest /\ assigned initial_store asg s.

(** It is not understood. *)
Definition bad_command (args : list bytes) : Prop := ~ asks_help args /\ forall c, ~ command args c.

(** ** Input files *)

(** The events of a file all of whose lines are fine. *)
Definition events_file {E} (text : bytes -> E -> Prop) (b : bytes) (es : list E) : Prop :=
  exists ls, file_lines b ls /\ events_of text 1 ls es None.

(** A file with a line that is not. *)
Definition broken_file {E} (text : bytes -> E -> Prop) (b : bytes) : Prop :=
  exists ls es n, file_lines b ls /\ events_of text 1 ls es (Some n).

(** The hypotheses come from the standard input if no file is named. *)
Definition hyp_source (w : world) (c : config) : option bytes :=
  match cf_hyp c with [] => Some (w_stdin w) | name => w_file w name end.

(** The words of a text. *)
Inductive words : bytes -> list bytes -> Prop :=
| wd_none b : white b -> words b []
| wd_word i x r ws : white i -> word x -> (forall c t, r = c :: t -> white_char c) ->
    words r ws -> words (i ++ x ++ r) (x :: ws).

(** The kinds of files that select queries: none, a set of queries, or lines
    with a group and its queries. *)
Inductive query_file (Q : Type) : Type :=
| NoQueries
| QuerySet (qs : list Q)
| QueryGroups (ls : list (list Q)).
Arguments NoQueries {Q}.
Arguments QuerySet {Q} qs.
Arguments QueryGroups {Q} ls.

(** The file a configuration names: a file of groups takes precedence. *)
Inductive names_queries (w : world) (c : config) : query_file bytes -> Prop :=
| nq_none : cf_querygroups c = [] -> cf_queryset c = [] -> names_queries w c NoQueries
| nq_set b ws : cf_querygroups c = [] -> cf_queryset c <> [] ->
    w_file w (cf_queryset c) = Some b -> words b ws -> names_queries w c (QuerySet ws)
| nq_groups b ls fs : cf_querygroups c <> [] -> w_file w (cf_querygroups c) = Some b ->
    file_lines b ls -> Forall2 words ls fs -> (forall f, In f fs -> (2 <= List.length f)%nat) ->
    names_queries w c (QueryGroups fs).

(** A file of queries that cannot be used: it cannot be read, or a line of
    the groups has fewer than two words. *)
Definition broken_queries (w : world) (c : config) : Prop :=
  (cf_querygroups c <> [] /\
   (w_file w (cf_querygroups c) = None \/
    exists b ls l ws, w_file w (cf_querygroups c) = Some b /\ file_lines b ls /\ In l ls /\
      words l ws /\ (List.length ws < 2)%nat)) \/
  (cf_querygroups c = [] /\ cf_queryset c <> [] /\ w_file w (cf_queryset c) = None).

(** A configuration with which the tool should give up. *)
Definition rejected {ER EH} (text_r : bytes -> ER -> Prop) (text_h : bytes -> EH -> Prop)
  (w : world) (c : config) : Prop :=
  cf_ref c = [] \/
  w_file w (cf_ref c) = None \/ (exists b, w_file w (cf_ref c) = Some b /\ broken_file text_r b) \/
  hyp_source w c = None \/ (exists b, hyp_source w c = Some b /\ broken_file text_h b) \/
  broken_queries w c \/
  (cf_dump c <> [] /\ w_writable w (cf_dump c) = false).

(** The inputs of a run. *)
Record inputs {ER EH} (text_r : bytes -> ER -> Prop) (text_h : bytes -> EH -> Prop)
  (w : world) (c : config) (refs : list ER) (hyps : list EH) (f : query_file bytes) : Prop := {
  in_named : cf_ref c <> [];
  in_refs : exists b, w_file w (cf_ref c) = Some b /\ events_file text_r b refs;
  in_hyps : exists b, hyp_source w c = Some b /\ events_file text_h b hyps;
  in_queries : names_queries w c f;
  in_dump : cf_dump c <> [] -> w_writable w (cf_dump c) = true
}.

(** ** Selection and groups *)

Section Queries.
  Context {Q : Type}.

  (** The group a file gives to a query: the query itself in a set; in a file
      of groups, the last line that names the query counts. *)
  Definition assigns (f : query_file Q) (q g : Q) : Prop :=
    match f with
    | NoQueries => False
    | QuerySet qs => In q qs /\ g = q
    | QueryGroups ls => exists l1 qs l2, ls = l1 ++ (g :: qs) :: l2 /\ In q qs /\
        forall g' qs', In (g' :: qs') l2 -> ~ In q qs'
    end.

  (** An event is kept if its query is listed, or nothing is listed. *)
  Definition kept (f : query_file Q) (q : Q) : Prop :=
    (exists g, assigns f q g) \/ (forall q' g, ~ assigns f q' g).

  (** The group of a query: a query that is not listed is its own group. *)
  Definition group_is (f : query_file Q) (q g : Q) : Prop :=
    assigns f q g \/ ((forall g', ~ assigns f q g') /\ g = q).
End Queries.

(** ** Evaluation *)

Section Evaluation.
  Context {Q RE E : Type}.
  Variable lte : E -> E -> bool.                  (* order of events *)
  Variable ltr : RE -> RE -> bool.                (* order of references *)
  Variable rq : RE -> Q.
  Variable hq : E -> Q.
  Variable R : list RE -> scored E -> list RE -> Prop.
  Variable scorer : RE -> scored E -> match_error.

  (** The first hypothesis does not have the smaller score and, the scores
      being equal, not the smaller event. *)
  Definition not_below (a b : scored E) : Prop :=
    f32_lt (sc_score a) (sc_score b) = false /\
    (same_number (sc_score a) (sc_score b) -> lte (sc_base a) (sc_base b) = false).

  (** The ranking of the hypotheses according to the sort criterion. *)
  Definition ranking (criterion : bytes) (hyps rank : list (scored E)) : Prop :=
    (criterion = lit "desc" /\ Permutation hyps rank /\ StronglySorted not_below rank) \/
    (criterion = lit "asc" /\ Permutation hyps rank /\ StronglySorted (fun a b => not_below b a) rank) \/
    (criterion <> lit "desc" /\ criterion <> lit "asc" /\ rank = hyps).

  (** The group of a match. *)
  Definition match_group (f : query_file Q) (m : match_t RE (scored E)) (g : Q) : Prop :=
    exists q, has_query rq (fun h => hq (sc_base h)) m q /\ group_is f q g.

  (** The matches by groups: one group for each key, in the order in which the
      keys first appear, with the matches of that key in order. *)
  Definition grouping (f : query_file Q) (ms : list (match_t RE (scored E)))
    (groups : list (list (match_t RE (scored E)))) : Prop :=
    exists ks keys, Forall2 (match_group f) ms ks /\ first_seen ks keys /\
      Forall2 (fun k g => g <> [] /\ selects (fun m => match_group f m k) ms g) keys groups.

  (** The matches, the log and the groups of a run: both inputs are filtered,
      the hypotheses ranked and matched, and the references that are left
      follow in order. *)
  Definition evaluation (criterion : bytes) (f : query_file Q) (refs : list RE) (hyps : list (scored E))
    (ms log : list (match_t RE (scored E))) (groups : list (list (match_t RE (scored E)))) : Prop :=
    exists refs' hyps' rank taken found missed,
      selects (fun r => kept f (rq r)) refs refs' /\
      selects (fun h => kept f (hq (sc_base h))) hyps hyps' /\
      ranking criterion hyps' rank /\
      matching R scorer refs' rank taken found log /\
      StronglySorted (fun x y => ltr x y = true) missed /\
      (forall r, In r missed <-> In r refs' /\ ~ In r taken) /\
      ms = found ++ map make_fn missed /\
      grouping f ms groups.
End Evaluation.

(** ** Outputs *)

(** No confidence interval is asked for. *)
Definition no_bootstrap (c : config) : Prop :=
  cf_ci_gap c = false /\ cf_ci_map c = false /\ cf_ci_gndcg c = false /\ cf_ci_mndcg c = false.

(** The file of matches, if one is named. *)
Definition dumped {A : Arith} {RE HE} (c : config) (ms log : list (match_t RE HE)) : list (effect A) :=
  match cf_dump c with [] => [] | name => [EWrite name (FDump ms log)] end.

(** The only files written are the curves named, where they can be. *)
Definition only_curves {A : Arith} {RE HE} (w : world) (c : config) (l : list (effect A (RE := RE) (HE := HE))) : Prop :=
  forall name d, In (EWrite name d) l ->
    (exists pts, d = FCurve pts) /\ name <> [] /\ w_writable w name = true /\ (name = cf_grp c \/ name = cf_mrp c).

(** ** Curve files *)

Section CurveFiles.
  Context {A : Arith} {RE HE : Type}.
  Notation E := (effect A (RE := RE) (HE := HE)).
  Variable w : world.

  (** What happens to a curve with points [P]: nothing if no file is named; the
      flag tells that the run goes on. *)
  Inductive curve_file (name : bytes) (P : list (num A * num A) -> Prop) : list E -> bool -> Prop :=
  | cv_none : name = [] -> curve_file name P [] true
  | cv_written pts : name <> [] -> w_writable w name = true -> P pts ->
      curve_file name P [EWrite name (FCurve pts)] true
  | cv_failed : name <> [] -> w_writable w name = false -> curve_file name P [] false.

  (** The end of a run: the global curve, the mean curve, and status 0; an
      exception if one of the files cannot be written. *)
  Inductive curve_files (c : config) (PG PM : list (num A * num A) -> Prop) : list E -> fin -> Prop :=
  | cf_both g m b : curve_file (cf_grp c) PG g true -> curve_file (cf_mrp c) PM m b ->
      curve_files c PG PM (g ++ m) (if b then FExit 0 else FThrow IosFailure)
  | cf_global g : curve_file (cf_grp c) PG g false -> curve_files c PG PM g (FThrow IosFailure).
End CurveFiles.

(** ** Average precision *)

(** The precision and recall of a ranking: the ranking is cut into runs of
    equal score, or single matches; precision and recall are those of the
    matches up to the end of each run; interpolated precision is the best one
    from there on. *)
Definition curve_of {RE HE} (score : HE -> f32) (collapse interpolate : bool) (l : list (match_t RE HE))
  (pr rc : list R) : Prop := exists rs pts raw,
  (if collapse then are_runs score l rs else rs = map (fun m => [m]) l) /\
  Forall2 counted_as rs pts /\ Forall2 summed_as rs pts /\
  List.length raw = List.length pts /\ List.length rc = List.length pts /\ List.length pr = List.length pts /\
  (forall i p, nth_error raw i = Some p -> is_precision (firstn (S i) pts) p) /\
  (forall i r, nth_error rc i = Some r -> is_recall (references pts) (firstn (S i) pts) r) /\
  (if interpolate then forall i m, nth_error pr i = Some m -> is_max (skipn i raw) m else pr = raw).

(** The area under it. *)
Definition average_precision {RE HE} (score : HE -> f32) (collapse interpolate trapezoid : bool)
  (l : list (match_t RE HE)) (v : R) : Prop :=
  exists pr rc, curve_of score collapse interpolate l pr rc /\ v = area trapezoid pr rc.

(** The points of the file of the curve of a ranking: evenly spaced recalls
    with the value of the curve there. *)
Definition global_curve {RE E} (c : config) (l : list (match_t RE (scored E))) (pts : list (R * R)) : Prop :=
  evenly_spaced (Z.to_nat (cf_curve c)) (map fst pts) /\
  exists pr rc, curve_of sc_score (cf_collapse c) (cf_interp c) l pr rc /\
    forall x y, In (x, y) pts -> curve_value (cf_trapezoid c) rc pr x y.

(** The mean of the curves of the groups. *)
Definition mean_curve {RE E} (c : config) (groups : list (list (match_t RE (scored E)))) (pts : list (R * R)) : Prop :=
  evenly_spaced (Z.to_nat (cf_curve c)) (map fst pts) /\
  exists curves : list (list R * list R),
    Forall2 (fun g prc => curve_of sc_score (cf_collapse c) (cf_interp c) g (fst prc) (snd prc)) groups curves /\
    forall x y, In (x, y) pts -> exists vs,
      Forall2 (fun prc v => curve_value (cf_trapezoid c) (snd prc) (fst prc) x v) curves vs /\ is_mean vs y.

(** ** Renaming *)

(** The same event, match or file with other names. *)
Definition map_scored {X Y} (g : X -> Y) (h : scored X) : scored Y := Scored (g (sc_base h)) (sc_score h).
(** See [map_scored]. *)
Definition map_match {X Y X' Y'} (f : X -> X') (g : Y -> Y') (m : match_t X Y) : match_t X' Y' :=
  Match (option_map f (m_ref m)) (option_map g (m_hyp m)) (m_err m).
(** See [map_scored]. *)
Definition map_queries {X Y} (k : X -> Y) (f : query_file X) : query_file Y :=
  match f with
  | NoQueries => NoQueries
  | QuerySet qs => QuerySet (map k qs)
  | QueryGroups ls => QueryGroups (map (map k) ls)
  end.

(** An event and a match of strings, with ids for the strings. *)
Definition renamed (id : bytes -> Z) (e : event bytes bytes) : event Z Z := Event (id (ev_query e)) (id (ev_loc e)).
(** See [renamed]. *)
Definition renamed_match (id : bytes -> Z) : match_t (event bytes bytes) (scored (event bytes bytes)) -> match_t (event Z Z) (scored (event Z Z)) :=
  map_match (renamed id) (map_scored (renamed id)).

(** An upper bound of the number of different strings in the inputs. *)
Definition strings {X Y} (refs : list X) (hyps : list Y) (f : query_file bytes) : nat :=
  2 * List.length refs + 2 * List.length hyps +
  match f with NoQueries => 0 | QuerySet ws => List.length ws | QueryGroups fs => List.length (concat fs) end.

(** ** The evaluations of the two programs *)

(** Icdar17KwsEval: references that share area with the hypothesis, the largest
    overlap first; the rule of half the area of the hypothesis. *)
Definition icdar17_evaluation := evaluation (c_lt cmp_shaped) (c_lt cmp_shaped) ev_query ev_query
  (box_search cmp_str) (fun r h => ioh_scorer cmp_str f32_half r (sc_base h)).

(** SimpleKwsEval on strings: the same query and location; ties are broken,
    and references left listed, in the order of the ids. *)
Definition simple_evaluation (id : bytes -> Z) :=
  evaluation (fun x y => c_lt cmp_int_event (renamed id x) (renamed id y))
    (fun x y => c_lt cmp_int_event (renamed id x) (renamed id y)) ev_query ev_query
    exact_search (fun r h => trivial_scorer cmp_str cmp_str r (sc_base h)).

(** ** Equal results *)

(** Equal as the operators of the classes see it: scores +0 and -0 are equal. *)
Definition equal_hyps {E} (h h' : scored E) : Prop :=
  sc_base h = sc_base h' /\ same_number (sc_score h) (sc_score h').
(** See [equal_hyps]. *)
Definition equal_matches {RE E} (m m' : match_t RE (scored E)) : Prop :=
  m_ref m = m_ref m' /\ m_err m = m_err m' /\
  match m_hyp m, m_hyp m' with
  | Some h, Some h' => equal_hyps h h'
  | None, None => True
  | _, _ => False
  end.

(** ** Hits by comparing events *)

(** The rule for one hypothesis after those of [before]: a hit if it is a
    reference and the first of its event, a repetition if it is not the first,
    a false alarm if it is no reference. *)
Inductive first_rule {E} (refs : list E) (before : list (scored E)) (h : scored E)
  : list (match_t E (scored E)) -> list (match_t E (scored E)) -> Prop :=
| first_hit : In (sc_base h) refs -> (forall h', In h' before -> sc_base h' <> sc_base h) ->
    first_rule refs before h [match_pair (sc_base h) h (MatchError (f32_of_Z 0) (f32_of_Z 0))] []
| first_repeated : In (sc_base h) refs -> (exists h', In h' before /\ sc_base h' = sc_base h) ->
    first_rule refs before h [] [match_pair (sc_base h) h (MatchError (f32_of_Z 0) (f32_of_Z 0))]
| first_alarm : ~ In (sc_base h) refs -> first_rule refs before h [make_fp h] [].

(** The matches and the log of a ranking by this rule. *)
Inductive first_rules {E} (refs : list E)
  : list (scored E) -> list (match_t E (scored E)) -> list (match_t E (scored E)) -> Prop :=
| fr_nil : first_rules refs [] [] []
| fr_next rank ms log h m g : first_rules refs rank ms log -> first_rule refs rank h m g ->
    first_rules refs (rank ++ [h]) (ms ++ m) (log ++ g).

(** ** Other orders of lines *)

(** A file system with the lines of the hypotheses in another order, those of
    the references also repeated, and the other files the same. *)
Record reordered (w w' : world) (c : config) : Prop := {
  ro_refs : exists b b' ls ls', w_file w (cf_ref c) = Some b /\ w_file w' (cf_ref c) = Some b' /\
    file_lines b ls /\ file_lines b' ls' /\ same_elements ls ls';
  ro_hyps : exists b b' ls ls', hyp_source w c = Some b /\ hyp_source w' c = Some b' /\
    file_lines b ls /\ file_lines b' ls' /\ Permutation ls ls';
  ro_queryset : w_file w (cf_queryset c) = w_file w' (cf_queryset c);
  ro_querygroups : w_file w (cf_querygroups c) = w_file w' (cf_querygroups c);
  ro_writable : forall n, w_writable w n = w_writable w' n
}.
