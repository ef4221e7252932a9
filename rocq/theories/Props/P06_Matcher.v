(** C20-C28: the matcher. *)
From Coq Require Import Ascii String List Bool ZArith Sorted.
From Verif.Model Require Import Cpp Floats Box Events EventSets Matches Scorers Matcher.
From Verif.Spec Require Import Order Sets Matching.
From Verif.Proofs Require Matching Order.
Import ListNotations.

(** The two event sets meet the requirement of the theorems below. *)
Theorem c20_generic_set_searches : forall E (ce : Cmp E), total_order ce ->
  finds (evset_generic ce) exact_search.
Proof. exact @Matching.finds_generic. Qed.
Print Assumptions c20_generic_set_searches.

Theorem c20_box_set_searches : forall srt Q (cq : Cmp Q), sort_contract srt -> total_order cq ->
  finds (evset_docbox srt cq) (box_search cq).
Proof. exact @Matching.finds_docbox. Qed.
Print Assumptions c20_box_set_searches.

(** C20.  Every match of the result is a pair that the search returned and
    the scorer accepts (with the scorer's errors), a false alarm of a
    hypothesis without acceptable reference, or a missed reference. *)
Theorem c20_pairs : forall RE HE (cr : Cmp RE), total_order cr ->
  forall (S : EvSet RE HE) R, finds S R -> forall scorer mt refs hyps ms mt',
  match_run (c_lt cr) S scorer mt refs hyps = Ok (ms, mt') ->
  forall m, In m ms ->
    (exists r h l, m = match_pair r h (scorer r h) /\ In h hyps /\ R refs h l /\ In r l /\
                   acceptable scorer r h) \/
    (exists h l, m = make_fp h /\ In h hyps /\ R refs h l /\
                 forall r, In r l -> ~ acceptable scorer r h) \/
    (exists r, m = make_fn r /\ In r refs).
Proof. exact @Matching.result_pairs. Qed.
Print Assumptions c20_pairs.

(** C20.  No reference is in two matches (C21 says which ones are there). *)
Theorem c20_reference_once : forall RE HE (cr : Cmp RE), total_order cr ->
  forall (S : EvSet RE HE) R, finds S R -> forall scorer mt refs hyps ms mt',
  match_run (c_lt cr) S scorer mt refs hyps = Ok (ms, mt') -> NoDup (refs_of ms).
Proof. exact @Matching.refs_once. Qed.
Print Assumptions c20_reference_once.

(** C20, C22.  The hypotheses of the result are the input with some left out:
    no position is used twice, and the order is kept. *)
Theorem c20_hypothesis_once : forall RE HE (cr : Cmp RE), total_order cr ->
  forall (S : EvSet RE HE) R, finds S R -> forall scorer mt refs hyps ms mt',
  match_run (c_lt cr) S scorer mt refs hyps = Ok (ms, mt') -> sublist (hyps_of ms) hyps.
Proof. exact @Matching.result_hyps. Qed.
Print Assumptions c20_hypothesis_once.

(** C21.  Every distinct reference is there exactly once. *)
Theorem c21_references : forall RE HE (cr : Cmp RE), total_order cr ->
  forall (S : EvSet RE HE) R, finds S R -> forall scorer mt refs hyps ms mt',
  match_run (c_lt cr) S scorer mt refs hyps = Ok (ms, mt') ->
  NoDup (refs_of ms) /\ same_elements (refs_of ms) refs.
Proof. exact @Matching.result_refs. Qed.
Print Assumptions c21_references.

(** C22.  The call always succeeds, and its result is the greedy matching
    followed by the missed references in increasing order. *)
Theorem c22_greedy : forall RE HE (cr : Cmp RE), total_order cr ->
  forall (S : EvSet RE HE) R, finds S R -> forall scorer mt refs hyps,
  exists taken ms missed mt',
    match_run (c_lt cr) S scorer mt refs hyps = Ok (ms ++ map make_fn missed, mt') /\
    matching R scorer refs hyps taken ms (mt_repeated mt') /\
    StronglySorted (fun x y => c_lt cr x y = true) missed /\
    (forall r, In r missed <-> In r refs /\ ~ In r taken).
Proof. exact @Matching.result_shape. Qed.
Print Assumptions c22_greedy.

(** C22.  The fate of the hypothesis at any position: a hit, a false alarm
    exactly without acceptable candidate, or missing exactly when it has
    acceptable candidates and all are in earlier matches. *)
Theorem c22_each_hypothesis : forall RE HE (cr : Cmp RE), total_order cr ->
  forall (S : EvSet RE HE) R, finds S R -> forall scorer mt refs h1 h h2 ms mt',
  match_run (c_lt cr) S scorer mt refs (h1 ++ h :: h2) = Ok (ms, mt') ->
  exists l a m b, R refs h l /\ ms = a ++ m ++ b /\ sublist (hyps_of a) h1 /\
    (m = [make_fp h] \/ m = [] \/ exists r, m = [match_pair r h (scorer r h)]) /\
    (m = [make_fp h] <-> forall r, In r l -> ~ acceptable scorer r h) /\
    (m = [] <-> (exists r, In r l /\ acceptable scorer r h) /\
                forall r, In r l -> acceptable scorer r h -> In r (refs_of a)).
Proof. exact @Matching.each_hyp. Qed.
Print Assumptions c22_each_hypothesis.

(** C23.  NR sums to the number of distinct references. *)
Theorem c23_reference_count : forall RE HE (cr : Cmp RE), total_order cr ->
  forall (S : EvSet RE HE) R, finds S R -> forall scorer mt refs hyps n ms mt',
  match_run (c_lt cr) S scorer mt refs hyps = Ok (ms, mt') ->
  has_size (fun r => In r refs) n -> total (fun m => me_nr (m_err m)) ms = n.
Proof. exact @Matching.count_refs. Qed.
Print Assumptions c23_reference_count.

(** C23.  NH sums to at most the number of hypotheses. *)
Theorem c23_hypothesis_count : forall RE HE (cr : Cmp RE), total_order cr ->
  forall (S : EvSet RE HE) R, finds S R -> forall scorer mt refs hyps ms mt',
  match_run (c_lt cr) S scorer mt refs hyps = Ok (ms, mt') ->
  total (fun m => me_nh (m_err m)) ms <= List.length hyps.
Proof. exact @Matching.count_hyps. Qed.
Print Assumptions c23_hypothesis_count.

(** C24.  A pair takes the first acceptable candidate that no earlier match
    has. *)
Theorem c24_first_free : forall RE HE (cr : Cmp RE), total_order cr ->
  forall (S : EvSet RE HE) R, finds S R -> forall scorer mt refs hyps a r h e b mt',
  match_run (c_lt cr) S scorer mt refs hyps = Ok (a ++ Match (Some r) (Some h) e :: b, mt') ->
  exists h1 h2 l before after,
    hyps = h1 ++ h :: h2 /\ sublist (hyps_of a) h1 /\
    R refs h l /\ l = before ++ r :: after /\ e = scorer r h /\ acceptable scorer r h /\
    ~ In r (refs_of a) /\
    forall x, In x before -> acceptable scorer x h -> In x (refs_of a).
Proof. exact @Matching.first_free. Qed.
Print Assumptions c24_first_free.

(** C24.  With document boxes an acceptable reference of larger overlap is in
    an earlier match. *)
Theorem c24_largest_overlap : forall srt Q (cq : Cmp Q), sort_contract srt -> total_order cq ->
  forall scorer mt refs hyps a r h e b mt',
  match_run (event_lt cq cmp_docbox) (evset_docbox srt cq) scorer mt refs hyps =
    Ok (a ++ Match (Some r) (Some h) e :: b, mt') ->
  forall x, In x refs -> ev_query x = ev_query (sc_base h) ->
    acceptable scorer x h -> (overlap (sc_base h) r < overlap (sc_base h) x)%Z ->
    In x (refs_of a).
Proof. exact @Matching.largest_overlap. Qed.
Print Assumptions c24_largest_overlap.

(** C25.  Earlier calls on the same object leave no trace: neither in the
    result nor in the log nor in the set. *)
Theorem c25_reuse : forall RE HE (cr : Cmp RE) (S : EvSet RE HE) R, finds S R ->
  forall scorer mt mt' refs hyps,
  match_run (c_lt cr) S scorer mt refs hyps = match_run (c_lt cr) S scorer mt' refs hyps.
Proof. exact @Matching.reuse. Qed.
Print Assumptions c25_reuse.

(** C26.  Order and repetition of the references. *)
Theorem c26_reference_order : forall RE HE (cr : Cmp RE), total_order cr ->
  forall (S : EvSet RE HE) R, finds S R -> forall scorer mt refs refs' hyps,
  same_elements refs refs' ->
  exists ms a b, match_run (c_lt cr) S scorer mt refs hyps = Ok (ms, a) /\
    match_run (c_lt cr) S scorer mt refs' hyps = Ok (ms, b) /\ mt_repeated a = mt_repeated b.
Proof. exact @Matching.same_refs_result. Qed.
Print Assumptions c26_reference_order.

(** C27.  Appended hypotheses: the matches with hypotheses stay in place,
    those added are of the new hypotheses, and the missed references are split
    between missed and hit; the log grows at the end. *)
Theorem c27_prefix_stable : forall RE HE (cr : Cmp RE), total_order cr ->
  forall (S : EvSet RE HE) R, finds S R -> forall scorer mt refs hyps more,
  exists a b u v s t,
    match_run (c_lt cr) S scorer mt refs hyps = Ok (a ++ map make_fn u, s) /\
    match_run (c_lt cr) S scorer mt refs (hyps ++ more) = Ok (a ++ b ++ map make_fn v, t) /\
    (forall m, In m (a ++ b) -> has_hyp m = true) /\
    sublist (hyps_of b) more /\
    (forall r, In r u <-> In r v \/ In r (refs_of b)) /\
    exists g, mt_repeated t = mt_repeated s ++ g.
Proof. exact @Matching.prefix_stable. Qed.
Print Assumptions c27_prefix_stable.

(** C28.  The log: acceptable pairs whose reference is in another match;
    every hypothesis is in the result or in the log.  (Its exact contents are
    in [c22_greedy]: the last argument of [matching].) *)
Theorem c28_log : forall RE HE (cr : Cmp RE), total_order cr ->
  forall (S : EvSet RE HE) R, finds S R -> forall scorer mt refs hyps ms mt',
  match_run (c_lt cr) S scorer mt refs hyps = Ok (ms, mt') ->
  (forall m, In m (mt_repeated mt') -> exists r h, m = match_pair r h (scorer r h) /\ In h hyps /\
    acceptable scorer r h /\ exists m', In m' ms /\ m_ref m' = Some r /\ has_hyp m' = true) /\
  (forall h, In h hyps -> In h (hyps_of ms) \/ In h (hyps_of (mt_repeated mt'))).
Proof. exact @Matching.log_members. Qed.
Print Assumptions c28_log.

(** A run on document boxes with a hit on the larger of two overlaps, a hit on
    the smaller one, a repetition, a false alarm and a missed reference. *)
Example box_ev (x w : Z) : devent Z := Event 7%Z (DocBox (lit "page") (Box x 0 w 4)).
Example hyp (e : devent Z) : scored (devent Z) := Scored e f32_0.
Example refs : list (devent Z) := [box_ev 0 10; box_ev 5 10; box_ev 40 5; box_ev 0 10].
Example hyps : list (scored (devent Z)) :=
  [hyp (box_ev 6 8); hyp (box_ev 7 8); hyp (box_ev 5 8); hyp (box_ev 60 8)].
Example any_overlap (r : devent Z) (h : scored (devent Z)) : match_error := err_hit.

Example c20_case :
  obind (match_run (event_lt cmp_Z cmp_docbox) (evset_docbox (@isort) cmp_Z) any_overlap
           (matcher_new _) refs hyps)
    (fun r => Ok (map m_ref (fst r), map m_hyp (fst r), map m_ref (mt_repeated (snd r)))) =
  Ok ([Some (box_ev 5 10); Some (box_ev 0 10); None; Some (box_ev 40 5)],
      [Some (hyp (box_ev 6 8)); Some (hyp (box_ev 7 8)); Some (hyp (box_ev 60 8)); None],
      [Some (box_ev 5 10); Some (box_ev 5 10); Some (box_ev 0 10)]).
Proof. vm_compute. reflexivity. Qed.

Example c20_case_hypotheses : sort_contract (@isort) /\ total_order cmp_Z /\
  total_order (cmp_devent cmp_Z) /\ has_size (fun r => In r refs) 3.
Proof.
  split; [apply Order.isort_contract|]. split; [apply Order.total_order_Z|].
  split; [apply Order.total_order_event; [apply Order.total_order_Z|apply Order.total_order_docbox]|].
  exists [box_ev 0 10; box_ev 5 10; box_ev 40 5]. split; [|split; [|reflexivity]].
  - repeat constructor; intros K; repeat (destruct K as [K|K]; [discriminate|]); destruct K.
  - intros e. unfold refs. simpl. tauto.
Qed.
