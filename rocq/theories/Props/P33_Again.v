(** C97: one more hypothesis for references that are already found. *)
From Coq Require Import Ascii String List Bool ZArith QArith Lia Permutation.
From Flocq Require Import Core BinarySingleNaN.
From Verif.Model Require Import Cpp Floats Box Events EventSets Matches Matcher Scorers Assessment Bootstrap Mapper Stream
  Reader Options Tool.
From Verif.Spec Require Import Order Objects Sets Matching Scorers Grouping Reader Options Tool Parts Again.
From Verif.Proofs Require Order Geometry Scorers Runs Compute Again.
From Verif.Props Require Import P17_Tool P18_Results P25_Ties.
Import ListNotations.
Local Open Scope string_scope.
Local Open Scope list_scope.

(** ** C97 *)

(** C97.  One more hypothesis changes nothing in Icdar17KwsEval if each
    reference that accepts it, and there is one, is the only one to accept
    another that comes first: the run ends in the same way with the same
    statistics and curves, and the matches written are the same up to the sign
    of zero scores, before the ignored ones. *)
Theorem c97_icdar17_accepting : forall A (T : Trans A) srt rngs show_int show_f64 w w' pn args c refs a h b f l r l' r', sort_contract srt ->
  command args c -> no_bootstrap c ->
  inputs shaped_text scored_shaped_text w c refs (a ++ b) f -> inputs shaped_text scored_shaped_text w' c refs (a ++ h :: b) f ->
  w_writable w = w_writable w' -> too_late (fun r h => Spec.Scorers.accepted (ioh_scorer cmp_str f32_half r (sc_base h))) refs (cf_sort c) a b h ->
  icdar17 A T srt rngs show_int show_f64 w pn args = (l, r) -> icdar17 A T srt rngs show_int show_f64 w' pn args = (l', r') ->
  r = r' /\ exists ms log ms' log' rest, Forall2 equal_matches ms ms' /\
    outputs l = dumped c ms log ++ rest /\ outputs l' = dumped c ms' log' ++ rest.
Proof.
  intros A T srt rngs si sf w w' pn args c refs a h b f l r l' r' Hs.
  exact (Again.icdar_again T srt Hs rngs si sf w w' pn args c refs a h b f l r l' r').
Qed.
Print Assumptions c97_icdar17_accepting.

(** C97.  The same by counting cells: those that accept a hypothesis are those
    that share half of its cells. *)
Theorem c97_icdar17 : forall A (T : Trans A) srt rngs show_int show_f64 w w' pn args c refs a h b f l r l' r', sort_contract srt ->
  command args c -> no_bootstrap c ->
  inputs shaped_text scored_shaped_text w c refs (a ++ b) f -> inputs shaped_text scored_shaped_text w' c refs (a ++ h :: b) f ->
  w_writable w = w_writable w' -> too_late shares_half refs (cf_sort c) a b h ->
  (forall r, In r refs -> fits (ev_loc r)) ->
  (forall x, In x (a ++ h :: b) -> fits (ev_loc (sc_base x)) /\ exists n, covers (ev_loc (sc_base x)) n /\ (n <= 2 ^ 24)%Z) ->
  icdar17 A T srt rngs show_int show_f64 w pn args = (l, r) -> icdar17 A T srt rngs show_int show_f64 w' pn args = (l', r') ->
  r = r' /\ exists ms log ms' log' rest, Forall2 equal_matches ms ms' /\
    outputs l = dumped c ms log ++ rest /\ outputs l' = dumped c ms' log' ++ rest.
Proof.
  intros A T srt rngs si sf w w' pn args c refs a h b f l r l' r' Hs Cm NB I I' Hw Tl Fr Fh.
  apply (c97_icdar17_accepting A T srt rngs si sf w w' pn args c refs a h b f l r l' r' Hs Cm NB I I' Hw).
  assert (Rule : forall y x, In y refs -> In x (a ++ h :: b) -> Spec.Scorers.accepted (ioh_scorer cmp_str f32_half y (sc_base x)) <-> shares_half y x).
  { intros y x Jr J. destruct (Fh x J) as (F1 & n & Ca & La).
    assert (Sh := Scorers.shares_intro (ev_loc y) (ev_loc (sc_base x)) _ (Fr y Jr) F1 eq_refl). unfold shares_half.
    destruct (Scorers.ioh_exact_rule cmp_str Order.total_order_str y (sc_base x) _ n (Fr y Jr) F1 Sh Ca La) as [[P K]|[P K]].
    { split; [intros _|intros _; exact K]. destruct P as (P1 & P2 & P3). split; [exact P1|]. eexists _, _. split; [exact Ca|]. split; [exact Sh|]. auto. }
    split; [intros Ac; rewrite Ac in K; discriminate (f_equal (fun e => f32_eq (me_fp e) f32_0) K)|].
    intros (Eq & n' & i' & Ca' & Sh' & P1 & P2). exfalso. apply P.
    rewrite (Geometry.cell_count_unique _ _ _ Ca Ca'), (Geometry.cell_count_unique _ _ _ Sh Sh'). auto. }
  assert (Ih : In h (a ++ h :: b)) by (apply in_or_app; right; now left).
  assert (Im : forall x, In x (a ++ b) -> In x (a ++ h :: b)).
  { intros x J. apply in_app_or in J as [J|J]; apply in_or_app; [now left|right; now right]. }
  destruct Tl as [(y & J & K) Tl]. split; [exists y; split; [exact J|now apply Rule]|]. intros z Iz Az.
  destruct (Tl z Iz) as (h0 & J1 & J2 & J3 & J4); [now apply Rule|]. exists h0. split; [exact J1|]. split; [exact J2|].
  split; [apply Rule; auto|]. intros z' Iz' Az'. apply J4; [exact Iz'|apply Rule; auto].
Qed.
Print Assumptions c97_icdar17.

(** C97.  In SimpleKwsEval it is enough that the hypothesis is a reference and
    another with the same text comes first. *)
Theorem c97_simple : forall A (T : Trans A) srt rngs show_int show_f64 qf w w' pn args c refs a h b f l r l' r', sort_contract srt ->
  command args c -> no_bootstrap c ->
  inputs str_event_text scored_str_event_text w c refs (a ++ b) f -> inputs str_event_text scored_str_event_text w' c refs (a ++ h :: b) f ->
  (Z.of_nat (strings refs (a ++ h :: b) f) <= 2147483648)%Z -> w_writable w = w_writable w' ->
  In (sc_base h) refs -> (exists h0, In h0 (a ++ b) /\ comes_first (cf_sort c) a h0 h /\ sc_base h0 = sc_base h) ->
  simple_kws A T srt rngs show_int show_f64 qf w pn args = (l, r) -> simple_kws A T srt rngs show_int show_f64 qf w' pn args = (l', r') ->
  r = r' /\ exists ms log ms' log' rest, Forall2 equal_matches ms ms' /\
    outputs l = dumped c ms log ++ rest /\ outputs l' = dumped c ms' log' ++ rest.
Proof.
  intros A T srt rngs si sf qf w w' pn args c refs a h b f l r l' r' Hs.
  exact (Again.simple_again T srt Hs rngs si sf qf w w' pn args c refs a h b f l r l' r').
Qed.
Print Assumptions c97_simple.

(** C97.  In particular the statistics are the same. *)
Theorem c97_printed : forall A (T : Trans A) srt rngs show_int show_f64 qf w w' pn args c f, sort_contract srt ->
  command args c -> no_bootstrap c -> w_writable w = w_writable w' ->
  (forall refs a h b,
    inputs shaped_text scored_shaped_text w c refs (a ++ b) f -> inputs shaped_text scored_shaped_text w' c refs (a ++ h :: b) f ->
    too_late (fun r h => Spec.Scorers.accepted (ioh_scorer cmp_str f32_half r (sc_base h))) refs (cf_sort c) a b h ->
    printed (fst (icdar17 A T srt rngs show_int show_f64 w pn args)) = printed (fst (icdar17 A T srt rngs show_int show_f64 w' pn args))) /\
  (forall refs a h b,
    inputs str_event_text scored_str_event_text w c refs (a ++ b) f -> inputs str_event_text scored_str_event_text w' c refs (a ++ h :: b) f ->
    (Z.of_nat (strings refs (a ++ h :: b) f) <= 2147483648)%Z ->
    In (sc_base h) refs -> (exists h0, In h0 (a ++ b) /\ comes_first (cf_sort c) a h0 h /\ sc_base h0 = sc_base h) ->
    printed (fst (simple_kws A T srt rngs show_int show_f64 qf w pn args)) = printed (fst (simple_kws A T srt rngs show_int show_f64 qf w' pn args))).
Proof.
  intros A T srt rngs si sf qf w w' pn args c f Hs Cm NB Hw. split.
  - intros refs a h b I I' Tl.
    destruct (icdar17 A T srt rngs si sf w pn args) as [l r] eqn:E. destruct (icdar17 A T srt rngs si sf w' pn args) as [l' r'] eqn:E'.
    destruct (c97_icdar17_accepting A T srt rngs si sf w w' pn args c refs a h b f l r l' r' Hs Cm NB I I' Hw Tl E E')
      as (_ & ms & log & ms' & log' & rest & _ & O & O').
    cbn [fst]. rewrite <- (Runs.printed_outputs l), <- (Runs.printed_outputs l'), O, O'.
    rewrite !Runs.printed_app, !Runs.printed_dumped. reflexivity.
  - intros refs a h b I I' Ls Ir Ex.
    destruct (simple_kws A T srt rngs si sf qf w pn args) as [l r] eqn:E. destruct (simple_kws A T srt rngs si sf qf w' pn args) as [l' r'] eqn:E'.
    destruct (c97_simple A T srt rngs si sf qf w w' pn args c refs a h b f l r l' r' Hs Cm NB I I' Ls Hw Ir Ex E E')
      as (_ & ms & log & ms' & log' & rest & _ & O & O').
    cbn [fst]. rewrite <- (Runs.printed_outputs l), <- (Runs.printed_outputs l'), O, O'.
    rewrite !Runs.printed_app, !Runs.printed_dumped. reflexivity.
Qed.
Print Assumptions c97_printed.

(** Two references and a false alarm; the hypothesis for the second reference
    again, with a lower, the same and a higher score; and a false alarm. *)
Definition again_lines (more : list string) : world :=
  tie_world (map lit ["a x"; "b x"]) (map lit (["a x 3"; "b z 2"] ++ more ++ ["b x 1"])).

Example c97_simple_case :
  (exists c refs a h b, command (map lit ["r"; "h"]) c /\ no_bootstrap c /\
    inputs str_event_text scored_str_event_text (again_lines []) c refs (a ++ b) NoQueries /\
    inputs str_event_text scored_str_event_text (again_lines ["b x 0.5"]) c refs (a ++ h :: b) NoQueries /\
    (Z.of_nat (strings refs (a ++ h :: b) NoQueries) <= 2147483648)%Z /\ w_writable (again_lines []) = w_writable (again_lines ["b x 0.5"]) /\
    In (sc_base h) refs /\ exists h0, In h0 (a ++ b) /\ comes_first (cf_sort c) a h0 h /\ sc_base h0 = sc_base h) /\
  map (fun m => map snd (firstn 1 (printed (fst (tie_run TQ (again_lines m) ["r"; "h"])))))
    [[]; ["b x 0.5"]; ["b x 1"]; ["b x 2.5"]; ["b y 1.5"]] = [[5 # 6]; [5 # 6]; [5 # 6]; [1]; [3 # 4]]%Q.
Proof.
  split.
  - eexists _, _, [_; _], _, [_]. split; [apply Compute.config_for_ok; vm_compute; reflexivity|].
    split; [repeat split|]. split; [apply Compute.simple_inputs_ok; vm_compute; reflexivity|].
    split; [apply Compute.simple_inputs_ok; vm_compute; reflexivity|].
    split; [vm_compute; discriminate|]. split; [reflexivity|]. split; [right; left; reflexivity|].
    eexists. split; [right; right; left; reflexivity|]. split; [left; split; [reflexivity|left; reflexivity]|reflexivity].
  - vm_compute. reflexivity.
Qed.

(** Two references, a hypothesis for each, and one of the same query that
    shares half of its cells with both. *)
Definition again_boxes (more : list string) : world :=
  tie_world (map lit ["q d 0 0 10 10"; "q d 10 0 10 10"]) (map lit (["q d 0 0 8 8 3"] ++ more ++ ["q d 12 0 8 8 2"; "q d 50 50 4 4 2.5"])).

Example c97_icdar17_case :
  (exists c refs a h b, command (map lit ["r"; "h"]) c /\ no_bootstrap c /\
    inputs shaped_text scored_shaped_text (again_boxes []) c refs (a ++ b) NoQueries /\
    inputs shaped_text scored_shaped_text (again_boxes ["q d 5 0 10 10 1"]) c refs (a ++ h :: b) NoQueries /\
    w_writable (again_boxes []) = w_writable (again_boxes ["q d 5 0 10 10 1"]) /\ too_late shares_half refs (cf_sort c) a b h /\
    (forall r, In r refs -> fits (ev_loc r)) /\
    (forall x, In x (a ++ h :: b) -> fits (ev_loc (sc_base x)) /\ exists n, covers (ev_loc (sc_base x)) n /\ (n <= 2 ^ 24)%Z)) /\
  map (fun m => map snd (firstn 1 (printed (fst (icdar17 QArith_ TQ (@isort) (fun _ => stream (fun _ => O)) (fun _ => []) (fun _ => [])
    (again_boxes m) (lit "prog") (map lit ["r"; "h"])))))) [[]; ["q d 5 0 10 10 1"]; ["q d 5 0 10 10 2.5"]; ["q d 5 0 10 10 4"]] = [[5 # 6]; [5 # 6]; [11 # 12]; [1]]%Q.
Proof.
  split.
  - eexists _, _, [_], _, [_; _]. split; [apply Compute.config_for_ok; vm_compute; reflexivity|].
    split; [repeat split|]. split; [apply Compute.icdar_inputs_ok; vm_compute; reflexivity|].
    split; [apply Compute.icdar_inputs_ok; vm_compute; reflexivity|]. split; [reflexivity|].
    split; [split|split].
    + eexists. split; [left; reflexivity|]. split; [reflexivity|]. exists 100%Z, 50%Z.
      split; [apply Scorers.covers_intro; [apply Scorers.fits_intro; easy|reflexivity]|].
      split; [apply Scorers.shares_intro; [apply Scorers.fits_intro; easy|apply Scorers.fits_intro; easy|reflexivity]|]. easy.
    + intros r [<-|[<-|[]]] _.
      * eexists. split; [left; reflexivity|]. split; [left; split; [reflexivity|left; reflexivity]|]. split.
        { split; [reflexivity|]. exists 64%Z, 64%Z.
          split; [apply Scorers.covers_intro; [apply Scorers.fits_intro; easy|reflexivity]|].
          split; [apply Scorers.shares_intro; [apply Scorers.fits_intro; easy|apply Scorers.fits_intro; easy|reflexivity]|]. easy. }
        intros r [<-|[<-|[]]] (_ & n & i & Ca & Sh & P & Q); [reflexivity|exfalso].
        apply Scorers.fits_area in Ca; [|apply Scorers.fits_intro; easy]. apply Scorers.fits_shared in Sh; [|apply Scorers.fits_intro; easy|apply Scorers.fits_intro; easy].
        subst n i. vm_compute in Q. now apply Q.
      * eexists. split; [right; left; reflexivity|]. split; [left; split; [reflexivity|left; reflexivity]|]. split.
        { split; [reflexivity|]. exists 64%Z, 64%Z.
          split; [apply Scorers.covers_intro; [apply Scorers.fits_intro; easy|reflexivity]|].
          split; [apply Scorers.shares_intro; [apply Scorers.fits_intro; easy|apply Scorers.fits_intro; easy|reflexivity]|]. easy. }
        intros r [<-|[<-|[]]] (_ & n & i & Ca & Sh & P & Q); [exfalso|reflexivity].
        apply Scorers.fits_area in Ca; [|apply Scorers.fits_intro; easy]. apply Scorers.fits_shared in Sh; [|apply Scorers.fits_intro; easy|apply Scorers.fits_intro; easy].
        subst n i. vm_compute in Q. now apply Q.
    + intros r [<-|[<-|[]]]; apply Scorers.fits_intro; easy.
    + intros h [<-|[<-|[<-|[<-|[]]]]]; (split; [apply Scorers.fits_intro; easy|]); eexists;
        (split; [apply Scorers.covers_intro; [apply Scorers.fits_intro; easy|reflexivity]|easy]).
  - vm_compute. reflexivity.
Qed.
