(** Parts of the C++ language and standard library that the code of /repo
    relies on.  Nothing here models a particular function of /repo: each
    definition names the standard facility it stands for and a place in
    /repo where that facility is used. *)
From Coq Require Import Ascii String List Bool ZArith.
Import ListNotations.

(** ** Outcomes *)

(** The exceptions thrown by the code.
    [RangeError]: /repo/mapper/StringToIntMapper.h:46-47; [InvalidArgument]:
    /repo/core/Assessment.h:354-360; [IosFailure]: /repo/core/Assessment.h:363-364
    (the stream throws when the file cannot be opened); [OutOfFuel]: never
    produced by the C++ code, it marks a recursion of the model cut short
    (theorems show where it does not occur). *)
Inductive exn : Type :=
| RangeError
| InvalidArgument
| IosFailure
| OutOfFuel.

(** Result of running a piece of C++ code: a value, undefined behaviour or
    an exception. *)
Inductive outcome (A : Type) : Type :=
| Ok (a : A)
| UB
| Throw (e : exn).
Arguments Ok {A} a.
Arguments UB {A}.
Arguments Throw {A} e.

(** Sequencing of C++ statements. *)
Definition obind {A B} (m : outcome A) (f : A -> outcome B) : outcome B :=
  match m with
  | Ok a => f a
  | UB => UB
  | Throw e => Throw e
  end.

Declare Scope cpp_scope.
Delimit Scope cpp_scope with cpp.
Notation "'let*' x ':=' m 'in' f" :=
  (obind m (fun x => f))
    (at level 200, x pattern, m at level 100, f at level 200) : cpp_scope.

(** A loop that applies [f] to each element and collects the results. *)
Fixpoint omap {A B} (f : A -> outcome B) (l : list A) : outcome (list B) :=
  match l with
  | [] => Ok []
  | x :: t => obind (f x) (fun y => obind (omap f t) (fun ys => Ok (y :: ys)))
  end.

(** A loop over a container threading a state. *)
Fixpoint ofold {A S} (f : S -> A -> outcome S) (l : list A) (s : S) : outcome S :=
  match l with
  | [] => Ok s
  | x :: t => obind (f s x) (fun s' => ofold f t s')
  end.

(** ** Strings *)

(** [std::string]: a sequence of bytes. *)
Definition bytes := list ascii.

(** A C++ string literal. *)
Definition lit (s : string) : bytes := list_ascii_of_string s.

(** [unsigned char] value of a byte. *)
Definition code (c : ascii) : N := N_of_ascii c.

(** [std::string::operator==]. *)
Fixpoint str_eq (a b : bytes) : bool :=
  match a, b with
  | [], [] => true
  | x :: a', y :: b' => N.eqb (code x) (code y) && str_eq a' b'
  | _, _ => false
  end.

(** [std::string::operator<]: lexicographic on unsigned bytes
    (char_traits<char>::compare), the shorter string first on a tie. *)
Fixpoint str_lt (a b : bytes) : bool :=
  match a, b with
  | _, [] => false
  | [], _ :: _ => true
  | x :: a', y :: b' =>
      if N.ltb (code x) (code y) then true
      else if N.ltb (code y) (code x) then false
      else str_lt a' b'
  end.

(** ** Comparison operators *)

(** The comparison operators a C++ type provides: [==], [!=] and [<].
    They are separate operators in C++, hence separate fields here. *)
Record Cmp (A : Type) : Type := mkCmp {
  c_eq : A -> A -> bool;
  c_ne : A -> A -> bool;
  c_lt : A -> A -> bool
}.
Arguments mkCmp {A}.
Arguments c_eq {A}.
Arguments c_ne {A}.
Arguments c_lt {A}.

(** The operators of [std::string]. *)
Definition cmp_str : Cmp bytes :=
  mkCmp str_eq (fun a b => negb (str_eq a b)) str_lt.

(** The operators of the built-in integer types. *)
Definition cmp_Z : Cmp Z :=
  mkCmp Z.eqb (fun a b => negb (Z.eqb a b)) Z.ltb.

(** [std::pair::operator<], used by /repo/core/DocumentBoundingBoxEventSet.h:85-86:
    [x.first < y.first || (!(y.first < x.first) && x.second < y.second)]. *)
Definition pair_lt {A B} (la : A -> A -> bool) (lb : B -> B -> bool)
  (x y : A * B) : bool :=
  la (fst x) (fst y) || (negb (la (fst y) (fst x)) && lb (snd x) (snd y)).

(** [std::greater<T>] given the [operator>] the type defines as
    [other < *this]. *)
Definition flip_lt {A} (lt : A -> A -> bool) (x y : A) : bool := lt y x.

(** ** std::sort *)

(** Is [lt] a strict weak ordering on the elements of [l]?  This is the
    precondition of [std::sort]; the behaviour is undefined without it. *)
Definition swo_onb {A} (lt : A -> A -> bool) (l : list A) : bool :=
  forallb (fun a => negb (lt a a)) l
  && forallb (fun a => forallb (fun b => forallb (fun c =>
       (* transitivity of < *)
       (negb (lt a b && lt b c) || lt a c)
       (* transitivity of incomparability *)
       && (negb (negb (lt a b) && negb (lt b a) && negb (lt b c) && negb (lt c b))
           || (negb (lt a c) && negb (lt c a)))) l) l) l.

(** A sorting algorithm: the C++ standard does not fix the order in which
    equivalent elements come out, so theorems quantify over all of these. *)
Definition sort_fn := forall A : Type, (A -> A -> bool) -> list A -> list A.

(** [std::sort(begin, end, lt)] run with the sorting algorithm [srt]. *)
Definition std_sort (srt : sort_fn) {A} (lt : A -> A -> bool) (l : list A)
  : outcome (list A) :=
  if swo_onb lt l then Ok (srt A lt l) else UB.

(** One concrete sorting algorithm (stable insertion sort), used to run
    examples. *)
Fixpoint ins {A} (lt : A -> A -> bool) (x : A) (l : list A) : list A :=
  match l with
  | [] => [x]
  | y :: t => if lt y x then y :: ins lt x t else x :: y :: t
  end.

(** See [ins]. *)
Definition isort : sort_fn := fun A lt l => fold_right (ins lt) [] l.

(** ** std::set *)

(** [std::set] with comparator [lt] is modelled by the list of its elements
    in iteration order. *)

(** [std::set::insert] / [emplace]: does nothing if an equivalent element is
    there.  The flag is the [second] of the returned pair. *)
Fixpoint set_insert {A} (lt : A -> A -> bool) (x : A) (l : list A) : list A * bool :=
  match l with
  | [] => ([x], true)
  | y :: t =>
      if lt y x then let (t', b) := set_insert lt x t in (y :: t', b)
      else if lt x y then (x :: y :: t, true)
      else (y :: t, false)
  end.

(** [std::set::find]: the element equivalent to [x], if any. *)
Fixpoint set_find {A} (lt : A -> A -> bool) (x : A) (l : list A) : option A :=
  match l with
  | [] => None
  | y :: t =>
      if lt y x then set_find lt x t
      else if lt x y then None
      else Some y
  end.

(** [std::set::erase(const key_type&)]: removes the equivalent element; the
    number is the number of elements removed. *)
Fixpoint set_erase {A} (lt : A -> A -> bool) (x : A) (l : list A) : list A * nat :=
  match l with
  | [] => ([], 0)
  | y :: t =>
      if lt y x then let (t', n) := set_erase lt x t in (y :: t', n)
      else if lt x y then (y :: t, 0)
      else (t, 1)
  end.

(** The range constructor [std::set(begin, end)]. *)
Definition set_of_range {A} (lt : A -> A -> bool) (l : list A) : list A :=
  fold_left (fun s x => fst (set_insert lt x s)) l [].

(** ** std::unordered_map *)

(** [std::unordered_map] (and [std::map] where its order is not observed) is
    modelled by an association list.  Only lookups are observed. *)

(** [find]. *)
Fixpoint map_find {K V} (keq : K -> K -> bool) (k : K) (m : list (K * V)) : option V :=
  match m with
  | [] => None
  | (k', v) :: t => if keq k' k then Some v else map_find keq k t
  end.

(** Assignment through [operator[]] or through the iterator that [emplace]
    returns: replaces the value of [k] or adds it. *)
Fixpoint map_set {K V} (keq : K -> K -> bool) (k : K) (v : V) (m : list (K * V))
  : list (K * V) :=
  match m with
  | [] => [(k, v)]
  | (k', v') :: t =>
      if keq k' k then (k', v) :: t else (k', v') :: map_set keq k v t
  end.

(** [emplace(k, v)]: inserts only when [k] is absent. *)
Definition map_emplace {K V} (keq : K -> K -> bool) (k : K) (v : V) (m : list (K * V))
  : list (K * V) :=
  match map_find keq k m with
  | Some _ => m
  | None => m ++ [(k, v)]
  end.

(** ** Integer types *)

(** 2^32. *)
Definition two32 : Z := 4294967296.

(** 2^64. *)
Definition two64 : Z := 18446744073709551616.

(** An arithmetic result stored in an integer type: the type either reduces
    it modulo a power of two (unsigned) or has undefined behaviour when it
    does not fit (signed). *)
Definition int_ty := Z -> outcome Z.

(** [uint32_t]: reduction modulo 2^32. *)
Definition ty_u32 : int_ty := fun z => Ok (Z.modulo z two32).

(** [int32_t]: overflow is undefined behaviour. *)
Definition ty_i32 : int_ty := fun z =>
  if ((-2147483648 <=? z) && (z <=? 2147483647))%Z%bool then Ok z else UB.

(** [uint32_t] arithmetic as pure functions. *)
Definition u32_wrap (z : Z) : Z := Z.modulo z two32.
(** addition *)
Definition u32_add (a b : Z) : Z := u32_wrap (a + b).
(** subtraction *)
Definition u32_sub (a b : Z) : Z := u32_wrap (a - b).
(** multiplication *)
Definition u32_mul (a b : Z) : Z := u32_wrap (a * b).

(** A value of type [uint32_t]. *)
Definition is_u32 (z : Z) : Prop := (0 <= z < two32)%Z.
