(** What grouping matches by query group should mean. *)
From Coq Require Import List.
From Verif.Model Require Import Cpp Matches.
Import ListNotations.

Section Groups.
  Context {Q RE HE : Type} (rq : RE -> Q) (hq : HE -> Q).

  (** The query of a match: that of its reference, else of its hypothesis. *)
  Definition has_query (m : match_t RE HE) (q : Q) : Prop :=
    match m_ref m, m_hyp m with
    | Some r, _ => q = rq r
    | None, Some h => q = hq h
    | None, None => False
    end.

  (** The group of a query: the one assigned, else the query itself. *)
  Definition in_group (q2g : list (Q * Q)) (q g : Q) : Prop :=
    In (q, g) q2g \/ ((forall g', ~ In (q, g') q2g) /\ g = q).

  (** The group of a match. *)
  Definition grouped (q2g : list (Q * Q)) (m : match_t RE HE) (g : Q) : Prop :=
    exists q, has_query m q /\ in_group q2g q g.
End Groups.

(** The second list has the elements of the first that satisfy [P], in
    order. *)
Inductive selects {A} (P : A -> Prop) : list A -> list A -> Prop :=
| sel_nil : selects P [] []
| sel_yes x l s : P x -> selects P l s -> selects P (x :: l) (x :: s)
| sel_no x l s : ~ P x -> selects P l s -> selects P (x :: l) s.

(** The second list has the distinct elements of the first, in the order of
    their first appearance. *)
Inductive first_seen {A} : list A -> list A -> Prop :=
| fs_nil : first_seen [] []
| fs_old l s x : first_seen l s -> In x s -> first_seen (l ++ [x]) s
| fs_new l s x : first_seen l s -> ~ In x s -> first_seen (l ++ [x]) (s ++ [x]).
