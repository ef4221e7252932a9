(** Model of /repo/cmd/Option.h, /repo/cmd/Argument.h, /repo/cmd/Parser.h
    and /repo/core/TypeInfo.h. *)
From Coq Require Import Ascii String List Bool ZArith.
From Flocq Require Import Core BinarySingleNaN.
From Verif.Model Require Import Cpp Floats Stream.
Import ListNotations.

(** The value types of options modelled: bool, std::string, integer types
    and double.  (Other instantiations of Option<T> are not modelled.) *)
Inductive vtype : Type :=
| TBool
| TStr
| TInt (f : int_fmt)
| TF64.

(** A value of one of these types. *)
Inductive value : Type :=
| VBool (b : bool)
| VStr (s : bytes)
| VInt (z : Z)
| VF64 (d : f64).

(** The caller's variables that options point to ([T *value_],
    /repo/cmd/Option.h:65), by name. *)
Definition store := list (bytes * value).

(** Read a variable. *)
Definition get_var (c : bytes) (s : store) : option value := map_find str_eq c s.

(** Write a variable. *)
Definition set_var (c : bytes) (v : value) (s : store) : store := map_set str_eq c v s.

(** /repo/cmd/Option.h:31-36 and 62-65, an option or argument: [name_],
    [help_], the type [T] and the variable [value_] points to; [op_arg] tells
    an Argument<T> (/repo/cmd/Argument.h) from an Option<T>. *)
Record opt : Type := Opt {
  op_arg : bool;
  op_name : bytes;
  op_help : bytes;
  op_type : vtype;
  op_var : bytes
}.

(** /repo/cmd/Option.h:48-50, [IsBoolean]. *)
Definition is_boolean (o : opt) : bool :=
  match op_type o with TBool => true | _ => false end.

(** /repo/cmd/Option.h:79-90, [Option<bool>::Parse], and
    /repo/cmd/Argument.h:43-53, [Argument<bool>::Parse], which does not take
    the empty string. *)
Definition parse_bool (arg : bool) (str : bytes) : option bool :=
  if (negb arg && str_eq str (lit "")) || str_eq str (lit "true") || str_eq str (lit "1")
  then Some true
  else if str_eq str (lit "false") || str_eq str (lit "0") then Some false
  else None.

(** The NUL character. *)
Definition nul : ascii := ascii_of_N 0.

(** /repo/cmd/Option.h:52-56, [Parse] for numbers, and 92-97 for strings:
    the value stored and the result. *)
Definition parse_value (arg : bool) (t : vtype) (old : value) (str : bytes) : value * bool :=
  match t with
  | TBool =>
      match parse_bool arg str with
      | Some b => (VBool b, true)
      | None => (old, false)
      end
  | TStr =>
      let oldv := match old with VStr s => s | _ => [] end in
      let (v, iss) := getline nul oldv (open_stream str) in
      (VStr v, is_eof iss)
  | TInt f =>
      let oldv := match old with VInt z => z | _ => 0%Z end in
      let (v, iss) := read_int f false oldv (open_stream str) in
      (VInt v, is_eof iss)
  | TF64 =>
      let oldv := match old with VF64 d => d | _ => B754_zero false end in
      let (v, iss) := read_float 53 1024 prec64 emax64 false oldv (open_stream str) in
      (VF64 v, is_eof iss)
  end.

(** [o->Parse(str)] on the caller's variables. *)
Definition opt_parse (o : opt) (str : bytes) (s : store) : store * bool :=
  let old := match get_var (op_var o) s with Some v => v | None => VStr [] end in
  let (v, ok) := parse_value (op_arg o) (op_type o) old str in
  (set_var (op_var o) v s, ok).

(** /repo/cmd/Parser.h:189-195, the members; [p_opts] is the std::map in its
    iteration order. *)
Record parser : Type := Parser {
  p_prog : bytes;
  p_desc : bytes;
  p_opts : list (bytes * opt);
  p_args : list opt;
  p_opt_args : list opt
}.

(** /repo/cmd/Parser.h:18-19, the constructor. *)
Definition parser_new (prog desc : bytes) : parser := Parser prog desc [] [] [].

(** [std::map::emplace] on a map keyed by strings, in iteration order: the
    flag tells whether the key was new. *)
Fixpoint smap_emplace {V} (k : bytes) (v : V) (m : list (bytes * V)) : list (bytes * V) * bool :=
  match m with
  | [] => ([(k, v)], true)
  | (k', v') :: t =>
      if str_lt k' k then let (t', b) := smap_emplace k v t in ((k', v') :: t', b)
      else if str_lt k k' then ((k, v) :: (k', v') :: t, true)
      else ((k', v') :: t, false)
  end.

(** /repo/cmd/Parser.h:165-175, [RegisterOption]. *)
Definition register_option (name help : bytes) (t : vtype) (var : bytes) (p : parser)
  : bool * parser :=
  if str_eq name (lit "help") then (false, p)
  else
    let o := Opt false (lit "--" ++ name) help t var in
    let (m, inserted) := smap_emplace name o (p_opts p) in
    if inserted then (true, Parser (p_prog p) (p_desc p) m (p_args p) (p_opt_args p))
    else (false, p).

(** /repo/cmd/Parser.h:177-181, [RegisterArgument]. *)
Definition register_argument (name help : bytes) (t : vtype) (var : bytes) (p : parser)
  : parser :=
  Parser (p_prog p) (p_desc p) (p_opts p) (p_args p ++ [Opt true name help t var])
    (p_opt_args p).

(** /repo/cmd/Parser.h:183-187, [RegisterOptArgument]. *)
Definition register_opt_argument (name help : bytes) (t : vtype) (var : bytes) (p : parser)
  : parser :=
  Parser (p_prog p) (p_desc p) (p_opts p) (p_args p)
    (p_opt_args p ++ [Opt true name help t var]).

(** The messages of /repo/cmd/Parser.h:106, 117-118, 131-132 and 146-147,
    138-139, 156-158. *)
Inductive parse_error : Type :=
| UnknownOption (arg : bytes)
| InvalidOption (arg : bytes)
| InvalidPositional (i : nat)
| MissingArguments (n : nat)
| TooManyArguments (max given : nat).

(** Result of [Parse]: [true], [false] (with the message), or exit(0) after
    printing the help; with the caller's variables. *)
Inductive parse_res : Type :=
| PTrue (s : store)
| PFalse (e : parse_error) (s : store)
| PExit (s : store).

(** Result of the option section, /repo/cmd/Parser.h:96-121. *)
Inductive opts_res : Type :=
| ODone (help : bool) (rest : list bytes) (s : store)
| OError (e : parse_error) (s : store).

(** /repo/cmd/Parser.h:99, does the argument belong to the option section? *)
Definition looks_like_option (arg : bytes) : bool :=
  match arg with
  | c :: _ :: _ => Ascii.eqb c "-"%char
  | _ => false
  end.

(** /repo/cmd/Parser.h:111, [argv[i][0] != '-']; the first character of an
    empty argument is the terminating NUL. *)
Definition not_dash (arg : bytes) : bool :=
  match arg with
  | c :: _ => negb (Ascii.eqb c "-"%char)
  | [] => true
  end.

(** /repo/cmd/Parser.h:97-121, the loop over the option section.  [args] is
    argv[i], argv[i+1], ... *)
Fixpoint parse_options (opts : list (bytes * opt)) (help : bool) (args : list bytes)
  (s : store) : opts_res :=
  match args with
  | [] => ODone help [] s
  | arg :: rest =>
      if negb (looks_like_option arg) then ODone help args s
      else if str_eq arg (lit "--") then ODone help rest s
      else if str_eq arg (lit "--help") then parse_options opts true rest s
      else
        match map_find str_eq (skipn 2 arg) opts with
        | None => OError (UnknownOption arg) s
        | Some o =>
            if is_boolean o then
              match rest with
              | v :: rest' =>
                  if not_dash v then
                    let (s', ok) := opt_parse o v s in
                    if ok then parse_options opts help rest' s'
                    else OError (InvalidOption arg) s'
                  else
                    let (s', ok) := opt_parse o (lit "") s in
                    if ok then parse_options opts help rest s'
                    else OError (InvalidOption arg) s'
              | [] =>
                  let (s', ok) := opt_parse o (lit "") s in
                  if ok then parse_options opts help rest s'
                  else OError (InvalidOption arg) s'
              end
            else
              match rest with
              | v :: rest' =>
                  let (s', ok) := opt_parse o v s in
                  if ok then parse_options opts help rest' s'
                  else OError (InvalidOption arg) s'
              | [] => OError (InvalidOption arg) s
              end
        end
  end.

(** /repo/cmd/Parser.h:129-135 and 144-150, the loops over positional
    arguments; [j] counts from the first positional.  The result has the
    arguments of the list not yet filled, and the values not consumed. *)
Fixpoint parse_positional (j : nat) (args : list opt) (vals : list bytes) (s : store)
  : (list opt * list bytes * store) + (parse_error * store) :=
  match args, vals with
  | a :: args', v :: vals' =>
      let (s', ok) := opt_parse a v s in
      if ok then parse_positional (S j) args' vals' s'
      else inr (InvalidPositional (j + 1), s')
  | _, _ => inl (args, vals, s)
  end.

(** /repo/cmd/Parser.h:92-163, [Parse]; [args] is argv[1], argv[2], ... *)
Definition parse (p : parser) (args : list bytes) (s : store) : parse_res :=
  match parse_options (p_opts p) false args s with
  | OError e s1 => PFalse e s1
  | ODone true _ s1 => PExit s1
  | ODone false rest s1 =>
      match parse_positional 0 (p_args p) rest s1 with
      | inr (e, s2) => PFalse e s2
      | inl (a :: missing, _, s2) => PFalse (MissingArguments (length (a :: missing))) s2
      | inl ([], rest2, s2) =>
          match parse_positional (length (p_args p)) (p_opt_args p) rest2 s2 with
          | inr (e, s3) => PFalse e s3
          | inl (_, [], s3) => PTrue s3
          | inl (_, extra, s3) =>
              let max_args := length (p_args p) + length (p_opt_args p) in
              PFalse (TooManyArguments max_args (max_args + length extra)) s3
          end
      end
  end.

(** ** Help *)

(** /repo/core/TypeInfo.h:20-78, [TypeInfo<T>::Name]; for double it is the
    compiler's mangled name, "d" in the Itanium ABI. *)
Definition type_name (t : vtype) : bytes :=
  match t with
  | TBool => lit "bool"
  | TStr => lit "string"
  | TInt f =>
      if if_signed f then
        if Z.eqb (if_max f) 2147483647 then lit "int32_t" else lit "int64_t"
      else if Z.eqb (if_max f) 4294967295 then lit "uint32_t" else lit "uint64_t"
  | TF64 => lit "d"
  end.

(** [std::setw(w) << std::left << s]: padding with blanks on the right. *)
Definition pad_right (w : nat) (s : bytes) : bytes := s ++ repeat " "%char (w - length s).

Section Help.
  (** Text of integers and doubles written with [<<]; only the layout of the
      help text matters here. *)
  Variable show_int : Z -> bytes.
  Variable show_f64 : f64 -> bytes.

  (** [os << *value_], /repo/cmd/Option.h:44 and 75. *)
  Definition show_value (v : value) : bytes :=
    match v with
    | VBool b => if b then lit "true" else lit "false"
    | VStr s => s
    | VInt z => show_int z
    | VF64 d => show_f64 d
    end.

  (** /repo/cmd/Option.h:40-46 and 70-77, [Option<T>::Help], and
      /repo/cmd/Argument.h:18-23 and 36-41, [Argument<T>::Help]. *)
  Definition opt_help (w : nat) (s : store) (o : opt) : bytes :=
    pad_right w (op_name o) ++ lit " : " ++ op_help o ++ lit " (type = " ++ type_name (op_type o)
    ++ (if op_arg o then lit ")"
        else lit ", value = """ ++
             match get_var (op_var o) s with Some v => show_value v | None => [] end
             ++ lit """)").

  (** /repo/cmd/Parser.h:64-67, [max_w]. *)
  Definition max_width (p : parser) : nat :=
    fold_left Nat.max
      (map (fun o => length (op_name o)) (map snd (p_opts p) ++ p_args p ++ p_opt_args p)) 0.

  (** /repo/cmd/Parser.h:33-90, [Help]. *)
  Definition parser_help (p : parser) (s : store) : bytes :=
    let w := max_width p in
    let entry o := lit "  " ++ opt_help w s o ++ [nl] in
    lit "Usage: " ++ p_prog p
    ++ (match p_opts p with [] => [] | _ => lit " [ options ]" end)
    ++ flat_map (fun a => lit " " ++ op_name a) (p_args p)
    ++ flat_map (fun a => lit " [ " ++ op_name a) (p_opt_args p)
    ++ flat_map (fun _ => lit " ]") (p_opt_args p)
    ++ [nl]
    ++ (match p_desc p with
        | [] => []
        | d => [nl] ++ lit "Description:" ++ [nl] ++ d ++ [nl]
        end)
    ++ (match p_args p ++ p_opt_args p with
        | [] => []
        | l => [nl] ++ lit "Arguments:" ++ [nl] ++ flat_map entry l
        end)
    ++ (match p_opts p with
        | [] => []
        | l => [nl] ++ lit "Options:" ++ [nl] ++ flat_map (fun ko => entry (snd ko)) l
        end).
End Help.
