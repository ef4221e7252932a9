(** One more hypothesis. *)
From Coq Require Import List.
From Verif.Model Require Import Cpp Events.

Import ListNotations.

(** The same hypotheses and one more. *)
Definition added {E} (h : scored E) (hyps hyps' : list (scored E)) : Prop :=
  exists a b, hyps = a ++ b /\ hyps' = a ++ h :: b.

(** The query or the location of an event. *)
Definition spells (e : event bytes bytes) (s : bytes) : Prop := s = ev_query e \/ s = ev_loc e.
