(** What the command line of the evaluation tools should mean, written out
    option by option. *)
From Coq Require Import Ascii String List Bool ZArith.
From Verif.Model Require Import Cpp Floats Stream Tool.
From Verif.Spec Require Import Options.
Import ListNotations.

(** What an option takes: a truth value, a text, a count or a real number. *)
Inductive kind : Type := Flag | Text | Count | Level.

(** The options of the tools. *)
Definition options : list (bytes * kind) :=
  [ (lit "collapse_matches", Flag);
    (lit "interpolated_precision", Flag);
    (lit "trapezoid_integral", Flag);
    (lit "bootstrap_ci_gap", Flag);
    (lit "bootstrap_ci_map", Flag);
    (lit "bootstrap_ci_gndcg", Flag);
    (lit "bootstrap_ci_mndcg", Flag);
    (lit "query_set", Text);
    (lit "query_groups", Text);
    (lit "dump_matches", Text);
    (lit "sort", Text);
    (lit "output_grp", Text);
    (lit "output_mrp", Text);
    (lit "bootstrap_samples", Count);
    (lit "bootstrap_seed", Count);
    (lit "rp_curve_samples", Count);
    (lit "bootstrap_alpha", Level) ].

(** Options with their values at the beginning of the command line, whether
    there is a --help among them, and what follows.  An option is written as
    a dash, any character (normally another dash) and its name.  A flag takes
    the next word unless that begins with a dash. *)
Inductive option_words : list bytes -> list (bytes * bytes) -> bool -> list bytes -> Prop :=
| ow_end args : option_words args [] false args
| ow_help args asg h post : option_words args asg h post -> option_words (lit "--help" :: args) asg true post
| ow_bare c n args asg h post : In (n, Flag) options -> (forall v args', args = v :: args' -> dashed v) ->
    option_words args asg h post -> option_words (("-"%char :: c :: n) :: args) ((n, []) :: asg) h post
| ow_flag c n v args asg h post : In (n, Flag) options -> ~ dashed v ->
    option_words args asg h post -> option_words (("-"%char :: c :: n) :: v :: args) ((n, v) :: asg) h post
| ow_value c n k v args asg h post : In (n, k) options -> k <> Flag ->
    option_words args asg h post -> option_words (("-"%char :: c :: n) :: v :: args) ((n, v) :: asg) h post.

(** No character of the text is the null character. *)
Definition no_nul (t : bytes) : Prop := ~ In (ascii_of_N 0) t.

(** The texts of truth values. *)
Definition flag_text (t : bytes) (v : bool) : Prop :=
  if v then t = [] \/ t = lit "true" \/ t = lit "1" else t = lit "false" \/ t = lit "0".

(** A text an option accepts. *)
Definition acceptable (a : bytes * bytes) : Prop := exists k, In (fst a, k) options /\
  match k with
  | Flag => exists v, flag_text (snd a) v
  | Text => no_nul (snd a)
  | Count => exists v, int_text fmt_u64 (snd a) v
  | Level => exists v, f64_text (snd a) v
  end.

(** The text given last to an option, or else its default. *)
Fixpoint latest (n d : bytes) (asg : list (bytes * bytes)) : bytes :=
  match asg with
  | [] => d
  | (n', t) :: asg' => latest n (if list_eq_dec ascii_dec n n' then t else d) asg'
  end.

(** The configuration made of the values of options and the positional
    arguments. *)
Definition fields (asg : list (bytes * bytes)) (rest : list bytes) (c : config) : Prop :=
  (rest = [cf_ref c] /\ cf_hyp c = [] \/ rest = [cf_ref c; cf_hyp c]) /\
  flag_text (latest (lit "collapse_matches") (lit "true") asg) (cf_collapse c) /\
  flag_text (latest (lit "interpolated_precision") (lit "true") asg) (cf_interp c) /\
  flag_text (latest (lit "trapezoid_integral") (lit "true") asg) (cf_trapezoid c) /\
  flag_text (latest (lit "bootstrap_ci_gap") (lit "false") asg) (cf_ci_gap c) /\
  flag_text (latest (lit "bootstrap_ci_map") (lit "false") asg) (cf_ci_map c) /\
  flag_text (latest (lit "bootstrap_ci_gndcg") (lit "false") asg) (cf_ci_gndcg c) /\
  flag_text (latest (lit "bootstrap_ci_mndcg") (lit "false") asg) (cf_ci_mndcg c) /\
  cf_queryset c = latest (lit "query_set") [] asg /\
  cf_querygroups c = latest (lit "query_groups") [] asg /\
  cf_dump c = latest (lit "dump_matches") [] asg /\
  cf_sort c = latest (lit "sort") (lit "desc") asg /\
  cf_grp c = latest (lit "output_grp") [] asg /\
  cf_mrp c = latest (lit "output_mrp") [] asg /\
  int_text fmt_u64 (latest (lit "bootstrap_samples") (lit "10000") asg) (cf_samples c) /\
  int_text fmt_u64 (latest (lit "bootstrap_seed") (lit "74565") asg) (cf_seed c) /\
  int_text fmt_u64 (latest (lit "rp_curve_samples") (lit "10000") asg) (cf_curve c) /\
  f64_text (latest (lit "bootstrap_alpha") (lit "0.05") asg) (cf_alpha c).

(** The command line asks for an evaluation. *)
Definition asks_for (args : list bytes) (c : config) : Prop := exists asg post rest,
  option_words args asg false post /\ section_end post rest /\
  Forall acceptable asg /\ Forall no_nul rest /\ fields asg rest c.

(** It asks for help. *)
Definition asks_for_help (args : list bytes) : Prop := exists asg post rest,
  option_words args asg true post /\ section_end post rest /\ Forall acceptable asg.
