(** What a matching of hypotheses to references is supposed to be. *)
From Coq Require Import List ZArith Sorted.
From Verif.Model Require Import Cpp Floats Box Events EventSets Matches Matcher.
From Verif.Spec Require Import Order Sets.
Import ListNotations.

(** Same elements, whatever the order and the repetitions. *)
Definition same_elements {A} (a b : list A) : Prop := forall x, In x a <-> In x b.

(** [FindOverlapping] of a set filled with [refs] after a [Clear] returns a
    list in relation [R] with [refs] and the hypothesis, whatever the set held
    before; the relation leaves no choice, returns only references and sees
    only which references there are. *)
Record finds {RE HE} (S : EvSet RE HE) (R : list RE -> HE -> list RE -> Prop) : Prop := {
  fi_run : forall s refs,
    exists set, ofold (fun t r => es_insert S r t) refs (es_clear S s) = Ok set /\
                forall h, exists l, es_find S h set = Ok l /\ R refs h l;
  fi_unique : forall refs h l l', R refs h l -> R refs h l' -> l = l';
  fi_incl : forall refs h l, R refs h l -> incl l refs;
  fi_same : forall refs refs' h l, same_elements refs refs' -> R refs h l -> R refs' h l;
  fi_clear : forall s s', es_clear S s = es_clear S s'
}.

(** The search of the generic set: the event itself, if it is there. *)
Definition exact_search {E} (refs : list E) (h : scored E) (l : list E) : Prop :=
  (In (sc_base h) refs /\ l = [sc_base h]) \/ (~ In (sc_base h) refs /\ l = []).

(** The search of the set of document boxes: the references of the same query
    and document that share area, each once, larger overlap first, ties by
    decreasing event. *)
Definition box_search {Q} (cq : Cmp Q) (refs : list (devent Q)) (h : scored (devent Q))
  (l : list (devent Q)) : Prop :=
  NoDup l /\
  (forall r, In r l <-> In r refs /\ ev_query r = ev_query (sc_base h) /\
                        db_doc (ev_loc r) = db_doc (ev_loc (sc_base h)) /\
                        (0 < overlap (sc_base h) r)%Z) /\
  StronglySorted (overlap_order cq (sc_base h)) l.

Section Matching.
  Context {RE HE : Type}.
  Variable R : list RE -> HE -> list RE -> Prop.
  Variable scorer : RE -> HE -> match_error.

  (** The scorer lets the hypothesis count as a detection of the reference. *)
  Definition acceptable (r : RE) (h : HE) : Prop := f32_lt (me_fp (scorer r h)) f32_1 = true.

  (** The matches of the hypothesis with the acceptable references of a list,
      in the order of the list. *)
  Inductive logged (h : HE) : list RE -> list (match_t RE HE) -> Prop :=
  | log_nil : logged h [] []
  | log_yes r l ms : acceptable r h -> logged h l ms ->
      logged h (r :: l) (match_pair r h (scorer r h) :: ms)
  | log_no r l ms : ~ acceptable r h -> logged h l ms -> logged h (r :: l) ms.

  (** What may happen to a hypothesis whose search returned [l] when the
      references of [taken] are taken: the references it takes, the matches it
      adds to the result and to the log. *)
  Inductive decided (taken : list RE) (h : HE) (l : list RE)
    : list RE -> list (match_t RE HE) -> list (match_t RE HE) -> Prop :=
  | hit before r after ms :
      l = before ++ r :: after -> acceptable r h -> ~ In r taken ->
      (forall x, In x before -> acceptable x h -> In x taken) ->
      logged h before ms ->
      decided taken h l [r] [match_pair r h (scorer r h)] ms
  | false_alarm :
      (forall x, In x l -> ~ acceptable x h) ->
      decided taken h l [] [make_fp h] []
  | repeated ms :
      (exists x, In x l /\ acceptable x h) ->
      (forall x, In x l -> acceptable x h -> In x taken) ->
      logged h l ms ->
      decided taken h l [] [] ms.

  (** The hypotheses are decided one after the other. *)
  Inductive matching (refs : list RE)
    : list HE -> list RE -> list (match_t RE HE) -> list (match_t RE HE) -> Prop :=
  | no_hyps : matching refs [] [] [] []
  | next_hyp hyps taken ms log h l t m g :
      matching refs hyps taken ms log -> R refs h l -> decided taken h l t m g ->
      matching refs (hyps ++ [h]) (taken ++ t) (ms ++ m) (log ++ g).
End Matching.

(** The references and the hypotheses of a list of matches. *)
Definition refs_of {RE HE} (ms : list (match_t RE HE)) : list RE :=
  flat_map (fun m => match m_ref m with Some r => [r] | None => [] end) ms.
(** See [refs_of]. *)
Definition hyps_of {RE HE} (ms : list (match_t RE HE)) : list HE :=
  flat_map (fun m => match m_hyp m with Some h => [h] | None => [] end) ms.

(** The first list is the second with some elements left out. *)
Inductive sublist {A} : list A -> list A -> Prop :=
| sub_nil : sublist [] []
| sub_keep x a b : sublist a b -> sublist (x :: a) (x :: b)
| sub_drop x a b : sublist a b -> sublist a (x :: b).

(** Sum of a count over a list. *)
Definition total {A} (f : A -> nat) (l : list A) : nat := list_sum (map f l).
