(** Model of /repo/core/EventSet.h and
    /repo/core/DocumentBoundingBoxEventSet.h. *)
From Coq Require Import List Bool ZArith.
From Verif.Model Require Import Cpp Floats Box Events.
Import ListNotations.
Local Open Scope Z_scope.
Local Open Scope cpp_scope.

(** ** The generic set, /repo/core/EventSet.h *)

Section Generic.
  Context {E : Type} (ce : Cmp E).

  (** /repo/core/EventSet.h:56, the member [event_set_]: a [std::set<E>],
      as the list of its elements in iteration order. *)
  Definition gset := list E.

  (** /repo/core/EventSet.h:26, the default constructor. *)
  Definition gset_empty : gset := [].

  (** /repo/core/EventSet.h:35-37, [Insert]. *)
  Definition gset_insert (e : E) (s : gset) : gset := fst (set_insert (c_lt ce) e s).

  (** /repo/core/EventSet.h:30-33, the range constructor. *)
  Definition gset_of_range (l : list E) : gset :=
    fold_left (fun s e => gset_insert e s) l gset_empty.

  (** /repo/core/EventSet.h:39-41, [Clear]. *)
  Definition gset_clear (s : gset) : gset := [].

  (** /repo/core/EventSet.h:43-45, [Remove]. *)
  Definition gset_remove (e : E) (s : gset) : gset := fst (set_erase (c_lt ce) e s).

  (** /repo/core/EventSet.h:47, [Size]. *)
  Definition gset_size (s : gset) : nat := length s.

  (** /repo/core/EventSet.h:49-53, [FindOverlapping]. *)
  Definition gset_find_overlapping (e : E) (s : gset) : list E :=
    match set_find (c_lt ce) e s with
    | Some x => [x]
    | None => []
    end.
End Generic.

(** ** The specialisation for document boxes,
    /repo/core/DocumentBoundingBoxEventSet.h (T = uint32_t) *)

Section DocBoxes.
  Context {Q : Type} (cq : Cmp Q).

  (** /repo/core/DocumentBoundingBoxEventSet.h:28, [EventType]. *)
  Definition devent := event Q docbox.

  (** [EventType]'s operators, /repo/core/Event.h:31-42. *)
  Definition cmp_devent : Cmp devent := cmp_event cq cmp_docbox.

  (** /repo/core/DocumentBoundingBoxEventSet.h:95-98, [documents_by_query_]
      and [size_].  [None] for [ds_size] is the indeterminate value that
      [size_] has when the range constructor left it uninitialised. *)
  Record dset : Type := DSet {
    ds_map : list (Q * list (bytes * list devent));
    ds_size : option Z
  }.

  (** /repo/core/DocumentBoundingBoxEventSet.h:34, the default constructor. *)
  Definition dset_empty : dset := DSet [] (Some 0).

  (** The inner set of [query] and [document], empty when absent; used to
      describe /repo/core/DocumentBoundingBoxEventSet.h:44-47, 59-62, 71-74. *)
  Definition dset_inner (q : Q) (d : bytes)
    (m : list (Q * list (bytes * list devent))) : option (list devent) :=
    match map_find (c_eq cq) q m with
    | None => None
    | Some p => map_find str_eq d p
    end.

  (** [++size_] / [size_ -= n]: reading an indeterminate value is undefined
      behaviour. *)
  Definition size_update (f : Z -> Z) (s : option Z) : outcome (option Z) :=
    match s with
    | None => UB
    | Some n => Ok (Some (f n mod two64))
    end.

  (** /repo/core/DocumentBoundingBoxEventSet.h:43-51, [Insert]. *)
  Definition dset_insert (e : devent) (s : dset) : outcome dset :=
    let q := ev_query e in
    let d := db_doc (ev_loc e) in
    let m1 := map_emplace (c_eq cq) q [] (ds_map s) in
    let p := match map_find (c_eq cq) q m1 with Some p => p | None => [] end in
    let p1 := map_emplace str_eq d [] p in
    let l := match map_find str_eq d p1 with Some l => l | None => [] end in
    let (l', inserted) := set_insert (c_lt cmp_devent) e l in
    let m2 := map_set (c_eq cq) q (map_set str_eq d l' p1) m1 in
    if inserted then
      let* n := size_update (fun n => n + 1) (ds_size s) in
      Ok (DSet m2 n)
    else Ok (DSet m2 (ds_size s)).

  (** /repo/core/DocumentBoundingBoxEventSet.h:38-41, the range constructor:
      it has no initialiser for [size_]. *)
  Definition dset_of_range (l : list devent) : outcome dset :=
    ofold (fun s e => dset_insert e s) l (DSet [] None).

  (** /repo/core/DocumentBoundingBoxEventSet.h:53-56, [Clear]. *)
  Definition dset_clear (s : dset) : dset := DSet [] (Some 0).

  (** /repo/core/DocumentBoundingBoxEventSet.h:58-66, [Remove]. *)
  Definition dset_remove (e : devent) (s : dset) : outcome dset :=
    let q := ev_query e in
    let d := db_doc (ev_loc e) in
    match map_find (c_eq cq) q (ds_map s) with
    | None => Ok s
    | Some p =>
        match map_find str_eq d p with
        | None => Ok s
        | Some l =>
            let (l', n) := set_erase (c_lt cmp_devent) e l in
            let m := map_set (c_eq cq) q (map_set str_eq d l' p) (ds_map s) in
            let* sz := size_update (fun z => z - Z.of_nat n) (ds_size s) in
            Ok (DSet m sz)
        end
    end.

  (** /repo/core/DocumentBoundingBoxEventSet.h:92, [Size]. *)
  Definition dset_size (s : dset) : outcome Z :=
    match ds_size s with
    | None => UB
    | Some n => Ok n
    end.

  (** /repo/core/DocumentBoundingBoxEventSet.h:75-81, the loop that fills
      [aux]. *)
  Definition dset_overlaps (e : devent) (l : list devent) : list (Z * devent) :=
    fold_right (fun x acc =>
      let a := docbox_inter (ev_loc x) (ev_loc e) in
      if 0 <? a then (a, x) :: acc else acc) [] l.

  (** /repo/core/DocumentBoundingBoxEventSet.h:85-86,
      [std::greater<std::pair<T, EventType>>]. *)
  Definition overlap_gt (a b : Z * devent) : bool :=
    flip_lt (pair_lt Z.ltb (c_lt cmp_devent)) a b.

  (** /repo/core/DocumentBoundingBoxEventSet.h:68-90, [FindOverlapping]. *)
  Definition dset_find_overlapping (srt : sort_fn) (e : devent) (s : dset)
    : outcome (list devent) :=
    let aux :=
      match dset_inner (ev_query e) (db_doc (ev_loc e)) (ds_map s) with
      | None => []
      | Some l => dset_overlaps e l
      end in
    let* sorted := std_sort srt overlap_gt aux in
    Ok (map snd sorted).
End DocBoxes.
Arguments dset Q : clear implicits.
Arguments devent Q : clear implicits.
