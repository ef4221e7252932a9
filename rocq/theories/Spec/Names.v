(** Other names for queries, locations and documents, and other coordinates. *)
From Coq Require Import String List ZArith.
From Verif.Model Require Import Cpp Floats Box Events Matches.
From Verif.Spec Require Import Order Geometry Scorers Tool Added.
Import ListNotations.

(** An event with another query and another location. *)
Definition map_event {Q L Q' L'} (g : Q -> Q') (k : L -> L') (e : event Q L) : event Q' L' := Event (g (ev_query e)) (k (ev_loc e)).

(** The string is in the file of queries, as a query or as a group. *)
Definition listed (f : query_file bytes) (s : bytes) : Prop :=
  match f with
  | NoQueries => False
  | QuerySet qs => In s qs
  | QueryGroups ls => exists l, In l ls /\ In s l
  end.

(** Different strings stay different. *)
Definition one_to_one (D : bytes -> Prop) (g : bytes -> bytes) : Prop := forall s t, D s -> D t -> g s = g t -> s = t.
(** The order of the strings stays the same. *)
Definition keeps_order (D : bytes -> Prop) (g : bytes -> bytes) : Prop :=
  forall s t, D s -> D t -> (c_lt cmp_str (g s) (g t) = true <-> c_lt cmp_str s t = true).

(** The strings in the files of SimpleKwsEval. *)
Definition strings_of (refs : list (event bytes bytes)) (hyps : list (scored (event bytes bytes))) (f : query_file bytes) (s : bytes) : Prop :=
  (exists e, In e refs /\ spells e s) \/ (exists h, In h hyps /\ spells (sc_base h) s) \/ listed f s.

(** The queries and the documents of the events of Icdar17KwsEval. *)
Definition queries_of (refs : list (event bytes docbox)) (hyps : list (scored (event bytes docbox))) (s : bytes) : Prop :=
  (exists e, In e refs /\ s = ev_query e) \/ (exists h, In h hyps /\ s = ev_query (sc_base h)).
(** See [queries_of]. *)
Definition documents_of (refs : list (event bytes docbox)) (hyps : list (scored (event bytes docbox))) (s : bytes) : Prop :=
  (exists e, In e refs /\ s = db_doc (ev_loc e)) \/ (exists h, In h hyps /\ s = db_doc (ev_loc (sc_base h))).

(** The box in another document, and moved by a distance that depends on the
    document. *)
Definition moved (doc : bytes -> bytes) (dx dy : bytes -> Z) (l : docbox) : docbox :=
  DocBox (doc (db_doc l)) (Box (bx (db_box l) + dx (db_doc l)) (by_ (db_box l) + dy (db_doc l)) (bw (db_box l)) (bh (db_box l)))%Z.

(** The corners of the box are values of type uint32_t, before and after. *)
Definition stays (doc : bytes -> bytes) (dx dy : bytes -> Z) (l : docbox) : Prop :=
  (u32_box (db_box l) /\ edges_fit (db_box l)) /\ u32_box (db_box (moved doc dx dy l)) /\ edges_fit (db_box (moved doc dx dy l)).
