(** Model of /repo/core/MatchError.h, /repo/core/MatchErrorCounts.h and
    /repo/core/Match.h. *)
From Coq Require Import List Bool ZArith.
From Verif.Model Require Import Cpp Floats.
Import ListNotations.
Local Open Scope cpp_scope.

(** /repo/core/MatchError.h:9-13 and 33-34, [class MatchError]. *)
Record match_error : Type := MatchError { me_fp : f32; me_fn : f32 }.

(** /repo/core/MatchError.h:11, the default constructor. *)
Definition me_default : match_error := MatchError f32_0 f32_0.

(** /repo/core/MatchError.h:17-19, [operator==]. *)
Definition me_eq (a b : match_error) : bool :=
  f32_eq (me_fp a) (me_fp b) && f32_eq (me_fn a) (me_fn b).

(** /repo/core/MatchError.h:21-23, [operator!=]. *)
Definition me_ne (a b : match_error) : bool :=
  f32_ne (me_fp a) (me_fp b) || f32_ne (me_fn a) (me_fn b).

(** /repo/core/MatchError.h:29, [NH]. *)
Definition me_nh (e : match_error) : nat :=
  if f32_lt f32_0 (me_fp e) || f32_lt (me_fn e) f32_1 then 1 else 0.

(** /repo/core/MatchError.h:31, [NR]. *)
Definition me_nr (e : match_error) : nat :=
  if f32_lt (me_fp e) f32_1 || f32_lt f32_0 (me_fn e) then 1 else 0.

(** /repo/core/MatchErrorCounts.h:12-24 and 53-54, [class MatchErrorCounts].
    The counters are [size_t]; they are modelled by [nat], i.e. the model
    assumes fewer than 2^64 events. *)
Record counts : Type := Counts { ec_fp : f32; ec_fn : f32; ec_nh : nat; ec_nr : nat }.

(** /repo/core/MatchErrorCounts.h:20-21, the converting constructor.  Also
    used to pass a [MatchError] where the metric functions of
    /repo/core/Assessment.h are instantiated with a container of
    [MatchError]: FP, FN, NH and NR are all they read. *)
Definition counts_of (e : match_error) : counts :=
  Counts (me_fp e) (me_fn e) (me_nh e) (me_nr e).

(** /repo/core/MatchErrorCounts.h:26-29, [operator==]. *)
Definition counts_eq (a b : counts) : bool :=
  f32_eq (ec_fp a) (ec_fp b) && f32_eq (ec_fn a) (ec_fn b)
  && Nat.eqb (ec_nh a) (ec_nh b) && Nat.eqb (ec_nr a) (ec_nr b).

(** /repo/core/MatchErrorCounts.h:31-34, [operator!=]; that of tuples is the
    negation of [==]. *)
Definition counts_ne (a b : counts) : bool :=
  negb (counts_eq a b).

(** /repo/core/MatchErrorCounts.h:36-39, [operator+]; and 41-47, [operator+=],
    which computes the same fields in place. *)
Definition counts_add (a b : counts) : counts :=
  Counts (f32_add (ec_fp a) (ec_fp b)) (f32_add (ec_fn a) (ec_fn b))
    (ec_nh a + ec_nh b) (ec_nr a + ec_nr b).

(** /repo/core/Match.h:12-31 and 96-99, [class Match], seen as a value: the
    events behind the two pointers, if any, and the error. *)
Record match_t (RE HE : Type) : Type :=
  Match { m_ref : option RE; m_hyp : option HE; m_err : match_error }.
Arguments Match {RE HE}.
Arguments m_ref {RE HE}.
Arguments m_hyp {RE HE}.
Arguments m_err {RE HE}.

Section MatchOps.
  Context {RE HE : Type}.

  (** /repo/core/Match.h:18, the default constructor. *)
  Definition match_default : match_t RE HE := Match None None me_default.

  (** /repo/core/Match.h:33, [HasHyp]. *)
  Definition has_hyp (m : match_t RE HE) : bool :=
    match m_hyp m with Some _ => true | None => false end.

  (** /repo/core/Match.h:35, [HasRef]. *)
  Definition has_ref (m : match_t RE HE) : bool :=
    match m_ref m with Some _ => true | None => false end.

  (** /repo/core/Match.h:45-48, [GetHyp].  With a null pointer the assertion
      fails, or a null pointer is dereferenced when assertions are off; both
      are modelled as [UB]. *)
  Definition get_hyp (m : match_t RE HE) : outcome HE :=
    match m_hyp m with Some h => Ok h | None => UB end.

  (** /repo/core/Match.h:50-53, [GetRef]; see [get_hyp]. *)
  Definition get_ref (m : match_t RE HE) : outcome RE :=
    match m_ref m with Some r => Ok r | None => UB end.

  (** /repo/core/Match.h:27-31, the constructor from a pair and its error. *)
  Definition match_pair (r : RE) (h : HE) (e : match_error) : match_t RE HE :=
    Match (Some r) (Some h) e.

  (** /repo/core/Match.h:82-87, [MakeFalsePositive]. *)
  Definition make_fp (h : HE) : match_t RE HE :=
    Match None (Some h) (MatchError f32_1 f32_0).

  (** /repo/core/Match.h:89-94, [MakeFalseNegative]. *)
  Definition make_fn (r : RE) : match_t RE HE :=
    Match (Some r) None (MatchError f32_0 f32_1).

  (** /repo/core/Match.h:70-76, [operator==].  The dereferences are guarded
      by the comparisons before them, so no [UB] can arise. *)
  Definition match_eq (cr : Cmp RE) (ch : Cmp HE) (a b : match_t RE HE) : bool :=
    me_eq (m_err a) (m_err b)
    && Bool.eqb (has_ref a) (has_ref b)
    && Bool.eqb (has_hyp a) (has_hyp b)
    && match m_ref a, m_ref b with
       | Some x, Some y => c_eq cr x y
       | _, _ => true
       end
    && match m_hyp a, m_hyp b with
       | Some x, Some y => c_eq ch x y
       | _, _ => true
       end.

  (** /repo/core/Match.h:78-80, [operator!=]: [return !( *this != other)], a
      call of itself.  [n] bounds the depth of the calls. *)
  Fixpoint match_ne (n : nat) (a b : match_t RE HE) : outcome bool :=
    match n with
    | O => Throw OutOfFuel
    | S n' => let* r := match_ne n' a b in Ok (negb r)
    end.
End MatchOps.

(** ** Match objects with their storage *)

(** /repo/core/Match.h:96-99: the object holds two owning pointers.  Here the
    pointers are addresses in a heap, so that sharing and leaks can be
    observed. *)
Section Objects.
  Context {RE HE : Type}.

  (** A heap cell made by [new RefEvent(...)] or [new HypEvent(...)]. *)
  Inductive cell : Type := CRef (r : RE) | CHyp (h : HE).

  (** /repo/core/Match.h:96-99, the members. *)
  Record mobj : Type := MObj { o_ref : option nat; o_hyp : option nat; o_err : match_error }.

  (** The heap, the next free address and the live [Match] objects (by
      name). *)
  Record mstate : Type := MState {
    s_heap : list (nat * cell);
    s_next : nat;
    s_objs : list (nat * mobj)
  }.

  (** [new] *)
  Definition heap_new (c : cell) (s : mstate) : nat * mstate :=
    (s_next s, MState ((s_next s, c) :: s_heap s) (S (s_next s)) (s_objs s)).

  (** [delete] of a possibly null pointer *)
  Definition heap_free (p : option nat) (s : mstate) : mstate :=
    match p with
    | None => s
    | Some a => MState (filter (fun kc => negb (Nat.eqb (fst kc) a)) (s_heap s))
                  (s_next s) (s_objs s)
    end.

  (** Read a live object. *)
  Definition get_obj (x : nat) (s : mstate) : outcome mobj :=
    match map_find Nat.eqb x (s_objs s) with Some o => Ok o | None => UB end.

  (** Write a live object. *)
  Definition put_obj (x : nat) (o : mobj) (s : mstate) : mstate :=
    MState (s_heap s) (s_next s) (map_set Nat.eqb x o (s_objs s)).

  (** Dereference. *)
  Definition deref (p : option nat) (s : mstate) : outcome cell :=
    match p with
    | None => UB
    | Some a => match map_find Nat.eqb a (s_heap s) with Some c => Ok c | None => UB end
    end.

  (** /repo/core/Match.h:41, [SetRef]: [ref_.reset(new RefEvent(ref))]. *)
  Definition obj_set_ref (x : nat) (c : cell) (s : mstate) : outcome mstate :=
    let* o := get_obj x s in
    let (a, s1) := heap_new c s in
    Ok (put_obj x (MObj (Some a) (o_hyp o) (o_err o)) (heap_free (o_ref o) s1)).

  (** /repo/core/Match.h:39, [SetHyp]. *)
  Definition obj_set_hyp (x : nat) (c : cell) (s : mstate) : outcome mstate :=
    let* o := get_obj x s in
    let (a, s1) := heap_new c s in
    Ok (put_obj x (MObj (o_ref o) (Some a) (o_err o)) (heap_free (o_hyp o) s1)).

  (** /repo/core/Match.h:37, [SetError]. *)
  Definition obj_set_error (x : nat) (e : match_error) (s : mstate) : outcome mstate :=
    let* o := get_obj x s in
    Ok (put_obj x (MObj (o_ref o) (o_hyp o) e) s).

  (** /repo/core/Match.h:21-22 and 58-59, the two copying statements shared
      by the copy constructor and the copy assignment. *)
  Definition obj_copy_events (x y : nat) (s : mstate) : outcome mstate :=
    let* oy := get_obj y s in
    let* s1 := (match o_ref oy with
                | None => Ok s
                | p => let* c := deref p s in obj_set_ref x c s
                end) in
    let* oy1 := get_obj y s1 in
    match o_hyp oy1 with
    | None => Ok s1
    | p => let* c := deref p s1 in obj_set_hyp x c s1
    end.

  (** /repo/core/Match.h:18, construct a default [Match] named [x]. *)
  Definition obj_default (x : nat) (s : mstate) : mstate :=
    put_obj x (MObj None None me_default) s.

  (** /repo/core/Match.h:20-23, copy construction of [x] from [y]. *)
  Definition obj_copy_construct (x y : nat) (s : mstate) : outcome mstate :=
    let* oy := get_obj y s in
    obj_copy_events x y (put_obj x (MObj None None (o_err oy)) s).

  (** /repo/core/Match.h:55-61, copy assignment [x = y]: the pointers are
      released (not deleted) and the events copied. *)
  Definition obj_assign (x y : nat) (s : mstate) : outcome mstate :=
    let* oy := get_obj y s in
    let* ox := get_obj x s in
    let s1 := put_obj x (MObj None None (o_err oy)) s in
    obj_copy_events x y s1.

  (** /repo/core/Match.h:63-68, move assignment [x = std::move(y)]: each
      [unique_ptr] move deletes the old target and nulls the source;
      self-move leaves a [unique_ptr] unchanged (reset(release())). *)
  Definition obj_move_assign (x y : nat) (s : mstate) : outcome mstate :=
    let* oy := get_obj y s in
    let* ox := get_obj x s in
    if Nat.eqb x y then Ok s
    else
      let s1 := heap_free (o_hyp ox) (heap_free (o_ref ox) s) in
      let s2 := put_obj y (MObj None None (o_err oy)) s1 in
      Ok (put_obj x (MObj (o_ref oy) (o_hyp oy) (o_err oy)) s2).

  (** The implicit destructor: the [unique_ptr] members delete their
      targets. *)
  Definition obj_destroy (x : nat) (s : mstate) : outcome mstate :=
    let* o := get_obj x s in
    let s1 := heap_free (o_hyp o) (heap_free (o_ref o) s) in
    Ok (MState (s_heap s1) (s_next s1)
          (filter (fun ko => negb (Nat.eqb (fst ko) x)) (s_objs s1))).

  (** /repo/core/Match.h:33-53, the value of object [x] as its accessors show
      it. *)
  Definition obj_view (x : nat) (s : mstate) : option (match_t RE HE) :=
    match map_find Nat.eqb x (s_objs s) with
    | None => None
    | Some o =>
        let r := match o_ref o with
                 | None => Some None
                 | Some a => match map_find Nat.eqb a (s_heap s) with
                             | Some (CRef r) => Some (Some r)
                             | _ => None
                             end
                 end in
        let h := match o_hyp o with
                 | None => Some None
                 | Some a => match map_find Nat.eqb a (s_heap s) with
                             | Some (CHyp h) => Some (Some h)
                             | _ => None
                             end
                 end in
        match r, h with
        | Some r, Some h => Some (Match r h (o_err o))
        | _, _ => None
        end
    end.
End Objects.
Arguments cell : clear implicits.
Arguments mstate : clear implicits.
