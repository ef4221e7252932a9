(** What a command line should mean. *)
From Coq Require Import Ascii String List Bool ZArith Reals.
From Flocq Require Import Core BinarySingleNaN.
From Verif.Model Require Import Cpp Floats Stream Options.
From Verif.Spec Require Import Reader.
Import ListNotations.
Local Open Scope Z_scope.

(** ** Texts of values *)

(** The value of an integer text: a number outside the range is moved to the
    nearest limit; a negative number given for an unsigned type counts
    backwards from the limit plus one. *)
Definition int_limited (f : int_fmt) (neg : bool) (n : Z) : Z :=
  if if_signed f then Z.max (if_min f) (Z.min (if_max f) (if neg then - n else n))
  else if if_max f <? n then if_max f
  else if neg then (- n) mod (if_max f + 1) else n.

(** An optional sign and digits, possibly none (then the value is 0). *)
Definition int_text (f : int_fmt) (b : bytes) (v : Z) : Prop := exists s neg ds,
  b = s ++ ds /\ sign s neg /\ (ds = [] /\ v = 0 \/ exists n, numeral ds n /\ v = int_limited f neg n).

(** The double nearest to a real number, ties to even. *)
Definition nearest_f64 (x : R) : R := round radix2 (FLT_exp (-1074) 53) ZnearestE x.

(** The largest double. *)
Definition max_f64 : R := (bpow radix2 1024 - bpow radix2 971)%R.

(** The beginning of a decimal number: a sign, perhaps with a point, or a
    number with an exponent mark but no exponent. *)
Inductive unfinished : bytes -> Prop :=
| uf_start s neg fp : sign s neg -> fp = [] \/ fp = ["."%char] -> unfinished (s ++ fp)
| uf_exp b neg m e c s neg' : decimal_text b neg m e -> ~ In "e"%char b -> ~ In "E"%char b ->
    c = "e"%char \/ c = "E"%char -> sign s neg' -> unfinished (b ++ c :: s).

(** A decimal number, whose value is limited to the largest double; or the
    beginning of one, whose value is 0. *)
Definition f64_text (b : bytes) (v : f64) : Prop :=
  (exists neg m e, decimal_text b neg m e /\ is_finite v = true /\ Bsign v = neg /\
     let x := nearest_f64 (decimal_value neg m e) in
     B2R v = if Rlt_dec (Rabs x) (bpow radix2 1024) then x else if neg then (- max_f64)%R else max_f64)
  \/ v = B754_zero false /\ unfinished b.

(** The texts accepted for a value; [arg] tells an argument from an option. *)
Inductive value_text (arg : bool) : vtype -> bytes -> value -> Prop :=
| vt_true b : b = lit "true" \/ b = lit "1" \/ arg = false /\ b = [] -> value_text arg TBool b (VBool true)
| vt_false b : b = lit "false" \/ b = lit "0" -> value_text arg TBool b (VBool false)
| vt_str b : ~ In (ascii_of_N 0) b -> value_text arg TStr b (VStr b)
| vt_int f b v : int_text f b v -> value_text arg (TInt f) b (VInt v)
| vt_f64 b v : f64_text b v -> value_text arg TF64 b (VF64 v).

(** ** Command lines *)

(** Begins with a dash. *)
Definition dashed (a : bytes) : Prop := exists t, a = "-"%char :: t.

(** An argument made of a dash, one more character and the name of an
    option; but -- and --help have other meanings. *)
Inductive names_option (opts : list (bytes * opt)) : bytes -> opt -> Prop :=
| no_intro c name o : In (name, o) opts -> "-"%char :: c :: name <> lit "--" ->
    "-"%char :: c :: name <> lit "--help" -> names_option opts ("-"%char :: c :: name) o.

(** The value an option takes from the arguments after it, and what follows:
    a boolean option takes the next argument unless it begins with a dash. *)
Inductive option_value (o : opt) : list bytes -> bytes -> list bytes -> Prop :=
| ov_flag args : op_type o = TBool -> (forall v args', args = v :: args' -> dashed v) -> option_value o args [] args
| ov_given v args : (op_type o = TBool -> ~ dashed v) -> option_value o (v :: args) v args.

(** Options, --help and their values at the beginning of a command line: the
    values given to options, whether there is a --help, and what follows. *)
Inductive opt_items (opts : list (bytes * opt)) : list bytes -> list (opt * bytes) -> bool -> list bytes -> Prop :=
| oi_end args : opt_items opts args [] false args
| oi_help args asg h post : opt_items opts args asg h post -> opt_items opts (lit "--help" :: args) asg true post
| oi_option a o args b args' asg h post : names_option opts a o -> option_value o args b args' ->
    opt_items opts args' asg h post -> opt_items opts (a :: args) ((o, b) :: asg) h post.

(** Where the section of options ends, and the positional arguments. *)
Inductive section_end : list bytes -> list bytes -> Prop :=
| se_nil : section_end [] []
| se_stop a args : ~ dashed a \/ a = lit "-" -> section_end (a :: args) (a :: args)
| se_dashes args : section_end (lit "--" :: args) args.

Definition opt_section (opts : list (bytes * opt)) (args : list bytes) (asg : list (opt * bytes)) (h : bool)
  (rest : list bytes) : Prop := exists post, opt_items opts args asg h post /\ section_end post rest.

(** Giving values to variables, from left to right. *)
Inductive assigned : store -> list (opt * bytes) -> store -> Prop :=
| as_nil s : assigned s [] s
| as_cons s o b v l s' : value_text (op_arg o) (op_type o) b v ->
    assigned (set_var (op_var o) v s) l s' -> assigned s ((o, b) :: l) s'.

(** A parser whose option names are distinct and whose integer types contain 0. *)
Definition type_ok (t : vtype) : Prop := match t with TInt f => if_min f <= 0 <= if_max f | _ => True end.
Definition parser_ok (p : parser) : Prop :=
  NoDup (map fst (p_opts p)) /\
  Forall (fun o => type_ok (op_type o)) (map snd (p_opts p) ++ p_args p ++ p_opt_args p).

(** Something that looks like an option but names none. *)
Definition unknown_option (opts : list (bytes * opt)) (a : bytes) : Prop :=
  dashed a /\ a <> lit "-" /\ a <> lit "--" /\ a <> lit "--help" /\ forall o, ~ names_option opts a o.

(** An option without value, or with a value that is not acceptable. *)
Definition bad_option (opts : list (bytes * opt)) (a : bytes) (post : list bytes) : Prop := exists o,
  names_option opts a o /\ forall b post' v, option_value o post b post' -> ~ value_text (op_arg o) (op_type o) b v.

(** ** Registering *)

(** A history of registrations, and the parser it leads to. *)
Inductive registered (prog desc : bytes) : parser -> Prop :=
| rg_new : registered prog desc (parser_new prog desc)
| rg_option p name help t var : registered prog desc p ->
    registered prog desc (snd (register_option name help t var p))
| rg_arg p name help t var : registered prog desc p -> registered prog desc (register_argument name help t var p)
| rg_opt_arg p name help t var : registered prog desc p -> registered prog desc (register_opt_argument name help t var p).
