(** Parsers described by the list of what was registered. *)
From Coq Require Import Ascii String List Bool ZArith.
From Verif.Model Require Import Cpp Stream Options.
Import ListNotations.
Local Open Scope string_scope.
Local Open Scope list_scope.

(** A call of RegisterOption, RegisterArgument or RegisterOptArgument. *)
Inductive kind : Type := AnOption | AnArgument | AnOptArgument.
Record call : Type := Call { cl_kind : kind; cl_name : bytes; cl_help : bytes; cl_type : vtype; cl_var : bytes }.

(** One call after the other, on a new parser. *)
Definition do_call (p : parser) (c : call) : parser :=
  match cl_kind c with
  | AnOption => snd (register_option (cl_name c) (cl_help c) (cl_type c) (cl_var c) p)
  | AnArgument => register_argument (cl_name c) (cl_help c) (cl_type c) (cl_var c) p
  | AnOptArgument => register_opt_argument (cl_name c) (cl_help c) (cl_type c) (cl_var c) p
  end.
Definition after (prog desc : bytes) (cs : list call) : parser := fold_left do_call cs (parser_new prog desc).

(** The arguments of a kind, in the order of the calls. *)
Definition arguments (k : kind) (cs : list call) : list opt :=
  flat_map (fun c => match k, cl_kind c with
    | AnArgument, AnArgument | AnOptArgument, AnOptArgument => [Opt true (cl_name c) (cl_help c) (cl_type c) (cl_var c)]
    | _, _ => []
    end) cs.

(** The first call that registers an option of this name. *)
Definition option_call (cs : list call) (name : bytes) (o : opt) : Prop :=
  name <> lit "help" /\ exists l1 c l2, cs = l1 ++ c :: l2 /\ cl_kind c = AnOption /\ cl_name c = name /\
    o = Opt false (lit "--" ++ name) (cl_help c) (cl_type c) (cl_var c) /\
    forall c', In c' l1 -> cl_kind c' = AnOption -> cl_name c' <> name.
