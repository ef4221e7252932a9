(** Model of /repo/matcher/SimpleMatcher.h. *)
From Coq Require Import List Bool ZArith.
From Verif.Model Require Import Cpp Floats Box Events EventSets Matches.
Import ListNotations.
Local Open Scope cpp_scope.

(** The operations SimpleMatcher uses on its EventSet member
    (/repo/matcher/SimpleMatcher.h:37-38 and 45), as virtual functions of
    /repo/core/EventSet.h or /repo/core/DocumentBoundingBoxEventSet.h. *)
Record EvSet (RE HE : Type) : Type := mkEvSet {
  es_T : Type;
  es_new : es_T;
  es_clear : es_T -> es_T;
  es_insert : RE -> es_T -> outcome es_T;
  es_find : HE -> es_T -> outcome (list RE)
}.
Arguments mkEvSet {RE HE}.
Arguments es_T {RE HE}.
Arguments es_new {RE HE}.
Arguments es_clear {RE HE}.
Arguments es_insert {RE HE}.
Arguments es_find {RE HE}.

(** EventSet<RE> of /repo/core/EventSet.h used with hypotheses
    ScoredEvent<RE>: the hypothesis is passed as its base event. *)
Definition evset_generic {E} (ce : Cmp E) : EvSet E (scored E) :=
  mkEvSet (@gset E) gset_empty gset_clear
    (fun e s => Ok (gset_insert ce e s))
    (fun h s => Ok (gset_find_overlapping ce (sc_base h) s)).

(** EventSet<ShapedEvent<Q, DocumentBoundingBox<uint32_t>>> of
    /repo/core/DocumentBoundingBoxEventSet.h. *)
Definition evset_docbox (srt : sort_fn) {Q} (cq : Cmp Q)
  : EvSet (devent Q) (scored (devent Q)) :=
  mkEvSet (dset Q) dset_empty dset_clear (dset_insert cq)
    (fun h s => dset_find_overlapping cq srt (sc_base h) s).

Section SimpleMatcher.
  Context {RE HE : Type}.
  Variable ltr : RE -> RE -> bool.             (* operator< of RE, used by std::set<RE> *)
  Variable S : EvSet RE HE.                    (* *refs_set_ *)
  Variable scorer : RE -> HE -> match_error.   (* *scorer_ *)

  (** /repo/matcher/SimpleMatcher.h:89-92, the members. *)
  Record matcher : Type := Matcher {
    mt_set : es_T S;
    mt_repeated : list (match_t RE HE)
  }.

  (** /repo/matcher/SimpleMatcher.h:28-29, the constructor. *)
  Definition matcher_new : matcher := Matcher (es_new S) [].

  (** The variables of the loop of /repo/matcher/SimpleMatcher.h:44-74. *)
  Record loop_st : Type := LoopSt {
    l_unmatched : list RE;
    l_repeated : list (match_t RE HE);
    l_result : list (match_t RE HE)
  }.

  (** /repo/matcher/SimpleMatcher.h:47-68, the loop over the overlapping
      references of one hypothesis; the flag is [matched_hyp]. *)
  Fixpoint match_refs (h : HE) (refs : list RE) (matched : bool) (st : loop_st)
    : bool * loop_st :=
    match refs with
    | [] => (matched, st)
    | r :: rest =>
        let errors := scorer r h in
        if f32_lt (me_fp errors) f32_1 then
          let m := match_pair r h errors in
          match set_find ltr r (l_unmatched st) with
          | Some _ =>
              (true, LoopSt (fst (set_erase ltr r (l_unmatched st)))
                       (l_repeated st) (l_result st ++ [m]))
          | None =>
              match_refs h rest true
                (LoopSt (l_unmatched st) (l_repeated st ++ [m]) (l_result st))
          end
        else match_refs h rest matched st
    end.

  (** /repo/matcher/SimpleMatcher.h:45-73, one hypothesis. *)
  Definition match_hyp (set : es_T S) (st : loop_st) (h : HE) : outcome loop_st :=
    let* overlapping := es_find S h set in
    let (matched, st1) := match_refs h overlapping false st in
    if matched then Ok st1
    else Ok (LoopSt (l_unmatched st1) (l_repeated st1) (l_result st1 ++ [make_fp h])).

  (** /repo/matcher/SimpleMatcher.h:34-83, [Match]. *)
  Definition match_run (mt : matcher) (refs : list RE) (hyps : list HE)
    : outcome (list (match_t RE HE) * matcher) :=
    let* set := ofold (fun s r => es_insert S r s) refs (es_clear S (mt_set mt)) in
    let unmatched := set_of_range ltr refs in
    let* st := ofold (match_hyp set) hyps (LoopSt unmatched [] []) in
    Ok (l_result st ++ map make_fn (l_unmatched st), Matcher set (l_repeated st)).
End SimpleMatcher.
Arguments matcher_new {RE HE} S.
Arguments mt_repeated {RE HE S}.
Arguments mt_set {RE HE S}.
Arguments l_unmatched {RE HE}.
Arguments l_repeated {RE HE}.
Arguments l_result {RE HE}.
Arguments LoopSt {RE HE}.
