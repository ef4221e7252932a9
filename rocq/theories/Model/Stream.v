(** The parts of the standard input streams that /repo uses, following
    libstdc++ in the "C" locale: std::getline, std::ws, peek, and
    [operator>>] for strings, integers and floating-point numbers.
    They are used by /repo/reader/PlainTextMapEventReader.h:24-44,
    /repo/core/BoundingBox.h:65-69, /repo/core/DocumentBoundingBox.h:58-62,
    /repo/core/Event.h:61-65, /repo/core/ScoredEvent.h:60-64,
    /repo/cmd/Option.h:52-56, 93-97 and
    /repo/tools/GenericKwsEvalTool.h:315, 331-334. *)
From Coq Require Import Ascii String List Bool ZArith.
From Flocq Require Import Core BinarySingleNaN Calc.Div.
From Verif.Model Require Import Cpp Floats Box Events.
Import ListNotations.
Local Open Scope Z_scope.

(** An input stream: the characters not yet read, eofbit and failbit.
    badbit (input/output errors of the device) is not modelled. *)
Record istream : Type := IStream { is_buf : bytes; is_eof : bool; is_fail : bool }.

(** A stream just opened on some contents, e.g.
    [std::istringstream iss(buff)], /repo/reader/PlainTextMapEventReader.h:28. *)
Definition open_stream (b : bytes) : istream := IStream b false false.

(** [good()]. *)
Definition is_good (s : istream) : bool := negb (is_eof s) && negb (is_fail s).

(** [isspace] in the "C" locale: tab, newline, vertical tab, form feed,
    carriage return and space. *)
Definition is_space (c : ascii) : bool :=
  let n := code c in (N.eqb n 32 || (N.leb 9 n && N.leb n 13))%N.

(** [isdigit]. *)
Definition is_digit (c : ascii) : bool :=
  let n := code c in (N.leb 48 n && N.leb n 57)%N.

(** Value of a decimal digit. *)
Definition digit_val (c : ascii) : Z := Z.of_N (code c) - 48.

(** Drop leading white space. *)
Fixpoint skip_ws (b : bytes) : bytes :=
  match b with
  | [] => []
  | c :: t => if is_space c then skip_ws t else b
  end.

(** The sentry object: fails (setting failbit) unless the stream is good;
    with [skip] it skips white space and fails with eofbit at the end. *)
Definition sentry (skip : bool) (s : istream) : bool * istream :=
  if is_good s then
    if skip then
      match skip_ws (is_buf s) with
      | [] => (false, IStream [] true true)
      | b => (true, IStream b false false)
      end
    else (true, s)
  else (false, IStream (is_buf s) (is_eof s) true).

(** [is >> std::ws]. *)
Definition read_ws (s : istream) : istream :=
  let (ok, s1) := sentry false s in
  if ok then
    match skip_ws (is_buf s1) with
    | [] => IStream [] true (is_fail s1)
    | b => IStream b (is_eof s1) (is_fail s1)
    end
  else s1.

(** [peek()]: the next character, [None] for EOF. *)
Definition peek (s : istream) : option ascii * istream :=
  let (ok, s1) := sentry false s in
  if ok then
    match is_buf s1 with
    | [] => (None, IStream [] true (is_fail s1))
    | c :: _ => (Some c, s1)
    end
  else (None, s1).

(** Split at the first [d]: the part before, the part after it (if [d]
    occurs). *)
Fixpoint split_at (d : ascii) (b : bytes) : bytes * option bytes :=
  match b with
  | [] => ([], None)
  | c :: t =>
      if Ascii.eqb c d then ([], Some t)
      else let (l, r) := split_at d t in (c :: l, r)
  end.

(** [std::getline(is, str, delim)]; [old] is the previous value of [str]. *)
Definition getline (delim : ascii) (old : bytes) (s : istream) : bytes * istream :=
  let (ok, s1) := sentry false s in
  if ok then
    match split_at delim (is_buf s1) with
    | (l, Some rest) => (l, IStream rest false false)
    | ([], None) => ([], IStream [] true true)
    | (l, None) => (l, IStream [] true false)
    end
  else (old, s1).

(** The newline character. *)
Definition nl : ascii := ascii_of_N 10.

(** Split before the first white space. *)
Fixpoint span_nonspace (b : bytes) : bytes * bytes :=
  match b with
  | [] => ([], [])
  | c :: t =>
      if is_space c then ([], b)
      else let (w, r) := span_nonspace t in (c :: w, r)
  end.

(** [is >> str] for std::string (with skipws set). *)
Definition read_string (old : bytes) (s : istream) : bytes * istream :=
  let (ok, s1) := sentry true s in
  if ok then
    let (w, rest) := span_nonspace (is_buf s1) in
    (w, IStream rest (match rest with [] => true | _ => false end)
          (match w with [] => true | _ => false end))
  else (old, s1).

(** Split before the first non-digit. *)
Fixpoint span_digits (b : bytes) : bytes * bytes :=
  match b with
  | [] => ([], [])
  | c :: t =>
      if is_digit c then let (w, r) := span_digits t in (c :: w, r)
      else ([], b)
  end.

(** The number a string of digits denotes. *)
Definition digits_val (b : bytes) : Z :=
  fold_left (fun a c => 10 * a + digit_val c) b 0.

(** An optional sign: is it a minus, and the rest. *)
Definition read_sign (b : bytes) : bool * bytes :=
  match b with
  | c :: t =>
      if Ascii.eqb c "-"%char then (true, t)
      else if Ascii.eqb c "+"%char then (false, t)
      else (false, b)
  | [] => (false, [])
  end.

(** The integer types with formatted input: signed or not, and the range. *)
Record int_fmt : Type := IntFmt { if_signed : bool; if_min : Z; if_max : Z }.
(** uint32_t *)
Definition fmt_u32 : int_fmt := IntFmt false 0 4294967295.
(** size_t *)
Definition fmt_u64 : int_fmt := IntFmt false 0 18446744073709551615.
(** int32_t *)
Definition fmt_i32 : int_fmt := IntFmt true (-2147483648) 2147483647.

(** num_get for integers (libstdc++ [_M_extract_int], decimal): the value
    stored, whether the conversion failed, and the rest of the input. *)
Definition extract_int (f : int_fmt) (b : bytes) : Z * bool * bytes :=
  let (neg, b1) := read_sign b in
  let (ds, rest) := span_digits b1 in
  match ds with
  | [] => (0, true, rest)
  | _ =>
      let n := digits_val ds in
      if neg then
        if if_signed f then
          if n <=? - if_min f then (- n, false, rest) else (if_min f, true, rest)
        else
          if n <=? if_max f then ((- n) mod (if_max f + 1), false, rest)
          else (if_max f, true, rest)
      else
        if n <=? if_max f then (n, false, rest) else (if_max f, true, rest)
  end.

(** [is >> n] for integers. *)
Definition read_int (f : int_fmt) (skip : bool) (old : Z) (s : istream) : Z * istream :=
  let (ok, s1) := sentry skip s in
  if ok then
    let '(v, failed, rest) := extract_int f (is_buf s1) in
    (v, IStream rest (match rest with [] => true | _ => false end) failed)
  else (old, s1).

(** What the floating-point reader accumulates (libstdc++
    [_M_extract_float]): digits of the mantissa as one number, how many of
    them follow the point, whether there was a digit, a point, an exponent
    mark, digits after it, and the exponent. *)
Record fl_acc : Type := FlAcc {
  fa_mant : Z; fa_frac : Z; fa_any : bool; fa_dot : bool;
  fa_sci : bool; fa_eany : bool; fa_exp : Z
}.

(** Mantissa part. *)
Fixpoint scan_mant (mant frac : Z) (any dot : bool) (b : bytes)
  : Z * Z * bool * bool * bytes :=
  match b with
  | [] => (mant, frac, any, dot, [])
  | c :: t =>
      if is_digit c then
        scan_mant (10 * mant + digit_val c) (if dot then frac + 1 else frac) true dot t
      else if Ascii.eqb c "."%char && negb dot then scan_mant mant frac any true t
      else (mant, frac, any, dot, b)
  end.

(** The whole token, after the sign. *)
Definition scan_float (b : bytes) : fl_acc * bytes :=
  let '(mant, frac, any, dot, rest) := scan_mant 0 0 false false b in
  let stop := (FlAcc mant frac any dot false false 0, rest) in
  match rest with
  | c :: t =>
      if (Ascii.eqb c "e"%char || Ascii.eqb c "E"%char) && any then
        let (eneg, t1) := read_sign t in
        let (ds, rest') := span_digits t1 in
        (FlAcc mant frac any dot true (match ds with [] => false | _ => true end)
           (if eneg then - digits_val ds else digits_val ds), rest')
      else stop
  | [] => stop
  end.

Section FloatFmt.
  Variables (prec emax : Z).
  Context (Hp : Prec_gt_0 prec) (He : Prec_lt_emax prec emax).

  (** The value of type [prec, emax] nearest to (-1)^neg * n / d. *)
  Definition round_ratio (neg : bool) (n d : positive) : binary_float prec emax :=
    let '(m, e, l) := Fdiv (beta := radix2) (SpecFloat.fexp prec emax)
                        (Float radix2 (Zpos n) 0) (Float radix2 (Zpos d) 0) in
    let z := binary_round_aux prec emax mode_NE neg m e l in
    match Bool.bool_dec (SpecFloat.valid_binary prec emax z) true with
    | left H => SF2B z H
    | right _ => B754_nan
    end.

  (** The value nearest to (-1)^neg * mant * 10^e10 (what glibc's strtof and
      strtod return). *)
  Definition of_decimal (neg : bool) (mant e10 : Z) : binary_float prec emax :=
    match mant with
    | Zpos m =>
        round_ratio neg (m * Z.to_pos (10 ^ Z.max e10 0)) (Z.to_pos (10 ^ Z.max (- e10) 0))
    | _ => B754_zero neg
    end.

  (** The largest finite value, with a sign. *)
  Definition max_float (neg : bool) : binary_float prec emax :=
    if neg then Bopp Bmax_float else Bmax_float.

  (** num_get for floating-point numbers: value, failure, rest.  A token that
      is not a complete number gives 0 and failure, an overflow gives the
      largest finite value and failure. *)
  Definition extract_float (b : bytes) : binary_float prec emax * bool * bytes :=
    let (neg, b1) := read_sign b in
    let (a, rest) := scan_float b1 in
    if fa_any a && (negb (fa_sci a) || fa_eany a) then
      match of_decimal neg (fa_mant a) (fa_exp a - fa_frac a) with
      | B754_infinity s => (max_float s, true, rest)
      | v => (v, false, rest)
      end
    else (B754_zero false, true, rest).

  (** [is >> x] for floating-point numbers. *)
  Definition read_float (skip : bool) (old : binary_float prec emax) (s : istream)
    : binary_float prec emax * istream :=
    let (ok, s1) := sentry skip s in
    if ok then
      let '(v, failed, rest) := extract_float (is_buf s1) in
      (v, IStream rest (match rest with [] => true | _ => false end) failed)
    else (old, s1).
End FloatFmt.

(** [is >> x] for [float] with skipws, /repo/core/ScoredEvent.h:62. *)
Definition read_f32 (s : istream) : f32 * istream :=
  read_float 24 128 prec32 emax32 true f32_0 s.

(** ** The extraction operators of /repo/core *)

(** The previous values of the fields are those of a default-constructed
    event; where C++ leaves them indeterminate the model uses 0.  They only
    survive a failed extraction, after which the event is discarded
    (/repo/reader/PlainTextMapEventReader.h:34-40). *)

(** /repo/core/BoundingBox.h:65-69, [operator>>], T = uint32_t. *)
Definition read_box (s : istream) : box * istream :=
  let (x, s1) := read_int fmt_u32 true 0 s in
  let (y, s2) := read_int fmt_u32 true 0 s1 in
  let (w, s3) := read_int fmt_u32 true 0 s2 in
  let (h, s4) := read_int fmt_u32 true 0 s3 in
  (Box x y w h, s4).

(** /repo/core/DocumentBoundingBox.h:58-62, [operator>>]. *)
Definition read_docbox (s : istream) : docbox * istream :=
  let (d, s1) := read_string [] s in
  let (b, s2) := read_box s1 in
  (DocBox d b, s2).

(** /repo/core/Event.h:61-65, [operator>>]. *)
Definition read_event {Q L} (rq : istream -> Q * istream) (rl : istream -> L * istream)
  (s : istream) : event Q L * istream :=
  let (q, s1) := rq s in
  let (l, s2) := rl s1 in
  (Event q l, s2).

(** /repo/core/ScoredEvent.h:60-64, [operator>>]. *)
Definition read_scored {E} (re : istream -> E * istream) (s : istream)
  : scored E * istream :=
  let (e, s1) := re s in
  let (x, s2) := read_f32 s1 in
  (Scored e x, s2).

(** Event<std::string, DocumentBoundingBox<uint32_t>>. *)
Definition read_shaped : istream -> shaped * istream :=
  read_event (read_string []) read_docbox.

(** Event<std::string, std::string>, the input type of
    /repo/mapper/StringEventToIntMapper.h:19. *)
Definition read_str_event : istream -> event bytes bytes * istream :=
  read_event (read_string []) (read_string []).
