(** The text the program writes: numbers, matches, statistics, curves and
    messages (std::ostream with the "C" locale).  Output errors are not
    modelled. *)
From Coq Require Import Ascii String List Bool ZArith.
From Flocq Require Import Core BinarySingleNaN.
From Verif.Model Require Import Cpp Floats Events Matches Stream Options Assessment Output Tool.
Import ListNotations.
Local Open Scope Z_scope.

(** ** Integers *)

(** [os << n] for a signed integer. *)
Definition write_int (n : Z) : bytes := if n <? 0 then "-"%char :: write_uint (- n) else write_uint n.

(** ** Floating-point numbers: printf with %g and %e *)

(** The least k such that n * 10^k is at least d. *)
Fixpoint scale_up (fuel : nat) (n d : Z) : Z :=
  match fuel with
  | O => 0
  | S fuel' => if d <=? n then 0 else 1 + scale_up fuel' (10 * n) d
  end.

(** The decimal exponent of n/d, for positive n and d. *)
Definition dec_exponent (n d : Z) : Z :=
  if d <=? n then Z.of_nat (List.length (write_uint (n / d))) - 1
  else - scale_up (S (Z.to_nat (Z.log2 d))) n d.

(** The integer nearest to n/d, ties to even. *)
Definition round_div (n d : Z) : Z :=
  let q := n / d in
  match 2 * (n mod d) ?= d with
  | Lt => q
  | Gt => q + 1
  | Eq => if Z.even q then q else q + 1
  end.

(** The first p significant digits of n/d, rounded, as an integer, and the
    decimal exponent. *)
Definition significant (p n d : Z) : Z * Z :=
  let x := dec_exponent n d in
  let s := p - 1 - x in
  let q := if 0 <=? s then round_div (n * 10 ^ s) d else round_div n (d * 10 ^ (- s)) in
  if q =? 10 ^ p then (10 ^ (p - 1), x + 1) else (q, x).

(** A positive number m * 2^e as a quotient of integers. *)
Definition quotient (m : positive) (e : Z) : Z * Z :=
  if 0 <=? e then (Zpos m * 2 ^ e, 1) else (Zpos m, 2 ^ (- e)).

(** The sign. *)
Definition write_sign (neg : bool) : bytes := if neg then ["-"%char] else [].

(** The exponent: the sign and two digits or more. *)
Definition write_exponent (x : Z) : bytes :=
  "e"%char :: (if x <? 0 then "-"%char else "+"%char) ::
  (if Z.abs x <? 10 then ["0"%char] else []) ++ write_uint (Z.abs x).

(** Without trailing zeros. *)
Fixpoint strip_zeros (b : bytes) : bytes :=
  match b with
  | [] => []
  | c :: t => match strip_zeros t with
              | [] => if Ascii.eqb c "0"%char then [] else [c]
              | t' => c :: t'
              end
  end.

(** The digits after the point, with the point, if any. *)
Definition write_frac (f : bytes) : bytes := match f with [] => [] | _ => "."%char :: f end.

Section Numbers.
  (** The text of a NaN: "nan" or "-nan", depending on its sign bit, which
      the model of floating-point numbers does not have. *)
  Variable nan : bytes.

  (** [os << x] for a double with the default flags, i.e. printf with %g:
      six significant digits, without trailing zeros, with an exponent if it
      would be less than -4 or more than 5. *)
  Definition write_short (v : f64) : bytes :=
    match v with
    | B754_nan => nan
    | B754_infinity neg => write_sign neg ++ lit "inf"
    | B754_zero neg => write_sign neg ++ lit "0"
    | B754_finite neg m e _ =>
        let (n, d) := quotient m e in
        let (q, x) := significant 6 n d in
        let ds := write_uint q in
        write_sign neg ++
        (if (-4 <=? x) && (x <? 6) then
           if 0 <=? x then
             firstn (Z.to_nat (x + 1)) ds ++ write_frac (strip_zeros (skipn (Z.to_nat (x + 1)) ds))
           else
             lit "0" ++ write_frac (strip_zeros (repeat "0"%char (Z.to_nat (- x - 1)) ++ ds))
         else firstn 1 ds ++ write_frac (strip_zeros (skipn 1 ds)) ++ write_exponent x)
    end.

  (** [os << std::scientific << x], i.e. printf with %e: one digit, the point,
      six digits and the exponent. *)
  Definition write_scientific (v : f64) : bytes :=
    match v with
    | B754_nan => nan
    | B754_infinity neg => write_sign neg ++ lit "inf"
    | B754_zero neg => write_sign neg ++ lit "0.000000e+00"
    | B754_finite neg m e _ =>
        let (n, d) := quotient m e in
        let (q, x) := significant 7 n d in
        let ds := write_uint q in
        write_sign neg ++ firstn 1 ds ++ "."%char :: skipn 1 ds ++ write_exponent x
    end.

  (** [os << x] for a float, which is converted to double. *)
  Definition write_float (v : f32) : bytes := write_short (f64_of_f32 v).

  (** ** Events and matches *)

  (** /repo/core/ScoredEvent.h:66-70, [operator<<]; [wb] writes query and
      location as [operator<<] of Event does. *)
  Definition write_scored {E} (wb : E -> bytes) (e : scored E) : bytes :=
    wb (sc_base e) ++ sp ++ write_float (sc_score e).

  (** /repo/core/MatchError.h:37-41, [operator<<]. *)
  Definition write_error (e : match_error) : bytes :=
    lit "MatchError[fp=" ++ write_float (me_fp e) ++ lit ", fn=" ++ write_float (me_fn e) ++
    lit ", nh=" ++ write_uint (Z.of_nat (me_nh e)) ++ lit ", nr=" ++ write_uint (Z.of_nat (me_nr e)) ++ lit "]".

  (** /repo/core/MatchErrorCounts.h:57-61, [operator<<]. *)
  Definition write_counts (e : counts) : bytes :=
    lit "MatchErrorCounts[fp=" ++ write_float (ec_fp e) ++ lit ", fn=" ++ write_float (ec_fn e) ++
    lit ", nh=" ++ write_uint (Z.of_nat (ec_nh e)) ++ lit ", nr=" ++ write_uint (Z.of_nat (ec_nr e)) ++ lit "]".

  Section Match.
    Context {RE HE : Type}.
    Variable wr : RE -> bytes.
    Variable wh : HE -> bytes.

    (** /repo/core/Match.h:102-109, [operator<<]. *)
    Definition write_match (m : match_t RE HE) : bytes :=
      lit "Match[" ++
      (match m_hyp m with Some h => lit "Hyp=" ++ wh h ++ lit ", " | None => [] end) ++
      (match m_ref m with Some r => lit "Ref=" ++ wr r ++ lit ", " | None => [] end) ++
      lit "Error=" ++ write_error (m_err m) ++ lit "]".

    (** /repo/tools/GenericKwsEvalTool.h:405-411, the file of matches. *)
    Definition write_dump (matches repeated : list (match_t RE HE)) : bytes :=
      flat_map (fun m => write_match m ++ [nl]) matches ++
      lit "#### REPEATED MATCHES ####" ++ [nl] ++
      flat_map (fun m => lit "## " ++ write_match m ++ [nl]) repeated.

    (** /repo/core/Assessment.h:365-367, the file of a curve. *)
    Definition write_points (pts : list (f64 * f64)) : bytes :=
      flat_map (fun p => write_scientific (fst p) ++ sp ++ write_scientific (snd p) ++ [nl]) pts.

    (** The contents of a file written. *)
    Definition write_file (d : file_data DArith (RE := RE) (HE := HE)) : bytes :=
      match d with
      | FDump ms rs => write_dump ms rs
      | FCurve pts => write_points pts
      end.

    (** ** Streams *)

    (** /repo/tools/GenericKwsEvalTool.h:72-77 and 97-102, the line of a statistic. *)
    Definition write_stat (name : bytes) (v : f64) (ci : option (f64 * f64)) : bytes :=
      name ++ lit " = " ++ write_short v ++
      (match ci with
       | Some (lo, up) => lit " [" ++ write_short lo ++ lit ", " ++ write_short up ++ lit "]"
       | None => []
       end) ++ [nl].

    (** The standard output of a run. *)
    Definition stdout_of (l : list (effect DArith (RE := RE) (HE := HE))) : bytes :=
      flat_map (fun e : effect DArith => match e with EStat n v ci => write_stat n v ci | _ => [] end) l.

    (** A number of things. *)
    Definition write_nat (n : nat) : bytes := write_uint (Z.of_nat n).

    (** The messages of /repo/cmd/Parser.h:106, 117-118, 131-132, 146-147,
        138-139 and 156-158.  The message about an argument, line 131, lacks a
        blank; with the only positional arguments of the tools this is the
        first of them. *)
    Definition parse_message (e : parse_error) : bytes :=
      match e with
      | UnknownOption a => lit "ERROR: Unknown option '" ++ a ++ lit "'"
      | InvalidOption a => lit "ERROR: Invalid value for option '" ++ a ++ lit "'"
      | InvalidPositional i =>
          lit "ERROR: Invalid value for " ++ write_nat i ++
          lit (if Nat.eqb i 1 then "positional argument" else " positional argument")
      | MissingArguments n => lit "ERROR: Missing " ++ write_nat n ++ lit " arguments."
      | TooManyArguments max given =>
          lit "ERROR: Expecting at most " ++ write_nat max ++ lit " positional cmd, but " ++
          write_nat given ++ lit " were given"
      end.

    (** A file name in quotes. *)
    Definition quoted (name : bytes) : bytes := lit """" ++ name ++ lit """".

    (** The messages, see [diag].  The help after an error in the command line
        follows an empty line (/repo/tools/GenericKwsEvalTool.h:266); the help
        asked for does not (/repo/cmd/Parser.h:124). *)
    Definition message (d : diag) : bytes :=
      match d with
      | DParse e => parse_message e ++ [nl] ++ [nl]
      | DHelp t => t ++ [nl]
      | DEmptyRefName => lit "ERROR: Empty filename was given for the references!" ++ [nl]
      | DBadLine n => lit "ERROR: Failed to read event from line " ++ write_nat n ++ [nl]
      | DReadFailed name => lit "ERROR: Failed reading file " ++ quoted name ++ lit "!" ++ [nl]
      | DStdinFailed => lit "ERROR: Failed reading from stdin!" ++ [nl]
      | DNumRefs n => lit "INFO: Number of reference events read = " ++ write_nat n ++ [nl]
      | DNumHyps n => lit "INFO: Number of hypothesis events read = " ++ write_nat n ++ [nl]
      | DQuerySetFailed name => lit "ERROR: Query set file " ++ quoted name ++ lit " could not be read!" ++ [nl]
      | DQueryGroupsFailed name =>
          lit "ERROR: Query groups file " ++ quoted name ++ lit " could not be read!" ++ [nl]
      | DQueryGroupsFormat name =>
          lit "ERROR: Query groups file " ++ quoted name ++ lit " has a wrong format!" ++ [nl]
      | DNumQueries n name => lit "INFO: " ++ write_nat n ++ lit " queries were read from " ++ quoted name ++ [nl]
      | DKeptRefs n => lit "INFO: Number of kept reference events = " ++ write_nat n ++ [nl]
      | DKeptHyps n => lit "INFO: Number of kept hypothesis events = " ++ write_nat n ++ [nl]
      | DNumGroups n name => lit "INFO: " ++ write_nat n ++ lit " groups were read from " ++ quoted name ++ [nl]
      | DUnknownSort c =>
          lit "WARN: Ignoring sorting criterion " ++ quoted c ++ lit ". Hypotheses won't be sorted." ++ [nl]
      | DMatching => lit "INFO: Computing matches..." ++ [nl]
      | DDumpFailed name =>
          lit "ERROR: Dump matches file " ++ quoted name ++ lit " could not be opened for write!" ++ [nl]
      | DFewerHyps n =>
          lit "INFO: Effective number of hypotheses is " ++ write_nat n ++
          lit ". The rest of hypotheses were considered repetitions of some other match, and ignored." ++ [nl]
      | DMoreHyps =>
          lit "ERROR: Effective number of hypotheses IS GREATER than the original number! This should not happen ever, contact the author."
          ++ [nl]
      end.

    (** The standard error stream of a run. *)
    Definition stderr_of (l : list (effect DArith (RE := RE) (HE := HE))) : bytes :=
      flat_map (fun e : effect DArith => match e with EDiag d => message d | _ => [] end) l.

    (** The contents of a file after a run that wrote it: what was written
        last. *)
    Definition file_of (name : bytes) (l : list (effect DArith (RE := RE) (HE := HE))) : option bytes :=
      fold_left (fun c (e : effect DArith) => match e with
                            | EWrite n d => if str_eq n name then Some (write_file d) else c
                            | _ => c
                            end) l None.
  End Match.
End Numbers.

(** The events of Icdar17KwsEval. *)
Definition write_icdar_match (nan : bytes) : match_t shaped (scored shaped) -> bytes :=
  write_match nan write_shaped (write_scored nan write_shaped).

(** The events of SimpleKwsEval, Event<int32_t, int32_t>. *)
Definition write_int_event : event Z Z -> bytes := write_event write_int write_int.
(** See [write_int_event]. *)
Definition write_simple_match (nan : bytes) : match_t (event Z Z) (scored (event Z Z)) -> bytes :=
  write_match nan write_int_event (write_scored nan write_int_event).
