(** Proofs about one more hypothesis for references already found. *)
From Coq Require Import String List Bool ZArith Sorted Lia Permutation.
From Flocq Require Import Core BinarySingleNaN.
From Verif.Model Require Import Cpp Floats Box Events EventSets Matches Matcher Scorers Assessment Bootstrap Mapper Stream Reader Options Tool.
From Verif.Spec Require Import Order Objects Sets Matching Scorers Grouping Collapse Metrics Reader Options Tool Parts Added Again.
From Verif.Proofs Require Matching Grouping Evaluation Runs Ties Parts Raised Renumber Lifted Order Rescore Instances Results Mapper Sets Errors Geometry Ids Tool Scorers Added.
Import ListNotations.
Local Open Scope string_scope.
Local Open Scope list_scope.

(** ** Rankings *)

(** An element put in as late as possible. *)
Lemma insert_last {X} (lt : X -> X -> bool) h l : swo_on lt (h :: l) -> sorted_by lt l ->
  exists x y, l = x ++ y /\ sorted_by lt (x ++ h :: y) /\ forall z, In z l -> lt h z = false -> In z x.
Proof.
  induction l as [|z l IH]; intros W So.
  - exists [], []. split; [reflexivity|]. split; [repeat constructor|]. intros z [].
  - inversion So as [|? ? S1 F1]; subst. rewrite Forall_forall in F1. destruct W as [W1 W2 W3].
    destruct (lt h z) eqn:E.
    + exists [], (z :: l). split; [reflexivity|].
      assert (K : forall y, In y (z :: l) -> lt h y = true).
      { intros y [<-|I]; [exact E|]. destruct (lt h y) eqn:Ey; [reflexivity|exfalso].
        assert (Ih : In h (h :: z :: l)) by now left. assert (Iz : In z (h :: z :: l)) by (right; now left). assert (Iy : In y (h :: z :: l)) by (right; now right).
        assert (N := F1 y I). destruct (lt y h) eqn:Eyh.
        - rewrite (W2 y h z Iy Ih Iz Eyh E) in N. discriminate.
        - destruct (lt z y) eqn:Ezy.
          + rewrite (W2 h z y Ih Iz Iy E Ezy) in Ey. discriminate.
          + destruct (W3 h y z Ih Iy Iz Ey Eyh N Ezy) as [K _]. congruence. }
      split.
      * cbn [app]. constructor; [exact So|]. apply Forall_forall. intros y I. specialize (K y I). destruct (lt y h) eqn:Eyh; [|reflexivity].
        assert (Ih : In h (h :: z :: l)) by now left. assert (Iy : In y (h :: z :: l)) by now right.
        assert (X1 := W2 h y h Ih Iy Ih K Eyh). rewrite (W1 h Ih) in X1. discriminate.
      * intros y I N. rewrite (K y I) in N. discriminate.
    + assert (Sub : forall u, In u (h :: l) -> In u (h :: z :: l)) by (intros u [I|I]; [now left|right; now right]).
      assert (W' : swo_on lt (h :: l)).
      { constructor; [intros u I; apply W1; auto|intros u v w I J K; apply W2; auto|intros u v w I J K; apply W3; auto]. }
      destruct (IH W' S1) as (x & y & -> & S2 & K).
      exists (z :: x), y. split; [reflexivity|]. split.
      * cbn [app]. constructor; [exact S2|]. apply Forall_forall. intros u I. apply in_app_or in I as [I|[<-|I]]; [apply F1, in_or_app; now left|exact E|apply F1, in_or_app; now right].
      * intros u [<-|I] N; [now left|right; auto].
Qed.

Section Late.
  Context {RE E : Type}.
  Notation HE := (scored E).
  Notation M := (match_t RE HE).
  Variables (ce : Cmp E) (He : total_order ce) (cr : Cmp RE) (Hr : total_order cr).
  Variables (rq : RE -> bytes) (hq : E -> bytes).
  Variables (S : EvSet RE HE) (R : list RE -> HE -> list RE -> Prop) (HS : finds S R).
  Variable scorer : RE -> HE -> match_error.
  Hypothesis HR : forall refs h h' l, sc_base h = sc_base h' -> R refs h l -> R refs h' l.
  Hypothesis Hsc : forall r h h', sc_base h = sc_base h' -> scorer r h = scorer r h'.
  Hypothesis Lo : Parts.local rq hq R.
  Hypothesis Hfind : forall refs h l r, R refs h l -> In r refs -> acceptable scorer r h -> In r l.
  Notation eval := (evaluation (c_lt ce) (c_lt cr) rq hq R scorer).

  (** A ranking of the hypotheses with one more, which comes after those that
      come first. *)
  Lemma ranking_insert crit a b h (rank : list HE) (P : HE -> Prop) a1 b1 : (forall z, In z (h :: a ++ b) -> is_finite (sc_score z) = true) ->
    selects P a a1 -> selects P b b1 -> ranking (c_lt ce) crit (a1 ++ b1) rank ->
    exists x y, rank = x ++ y /\ ranking (c_lt ce) crit (a1 ++ h :: b1) (x ++ h :: y) /\
      forall z, In z (a1 ++ b1) -> comes_first crit a1 z h -> In z x.
  Proof.
    intros Fi Sa Sb Rk. assert (Nu : forall z, In z (h :: a1 ++ b1) -> numeric z).
    { intros z I. apply Rescore.finite_not_nan, Fi. destruct I as [->|I]; [now left|right]. apply in_app_or in I as [I|I]; apply in_or_app;
        [left; now apply (Grouping.selects_in _ _ _ Sa) in I|right; now apply (Grouping.selects_in _ _ _ Sb) in I]. }
    destruct Rk as [(-> & P1 & S1)|[(-> & P1 & S1)|(N1 & N2 & ->)]].
    - assert (Nr : forall z, In z (h :: rank) -> numeric z) by (intros z [->|I]; apply Nu; [now left|right; now apply (Permutation_in _ (Permutation_sym P1))]).
      destruct (insert_last (flip_lt (scored_lt ce)) h rank) as (x & y & -> & S2 & K).
      { apply Order.swo_flip, (Order.swo_scored ce He). exact Nr. }
      { revert S1. apply Tool.sorted_imp. intros u v I J. apply Runs.below_lt; apply Nr; now right. }
      exists x, y. split; [reflexivity|]. split.
      + left. split; [reflexivity|]. split; [apply Permutation_elt; exact P1|]. revert S2. apply Tool.sorted_imp. intros u v I J L.
        assert (Mid : forall w, In w (x ++ h :: y) -> In w (h :: x ++ y)) by (intros w K1; apply in_app_or in K1 as [K1|[->|K1]]; [right; apply in_or_app; now left|now left|right; apply in_or_app; now right]).
        apply Tool.not_below_lt; [| |exact L]; apply Nr, Mid; assumption.
      + intros z I C. apply K; [now apply (Permutation_in _ P1)|]. unfold flip_lt.
        destruct C as [[_ C]|[[C _]|(C & _)]]; [|discriminate|contradiction].
        apply not_true_iff_false. rewrite Order.scored_lt_spec by (apply Nu; simpl; auto). intros L. destruct C as [C|[B C]].
        * destruct L as [L|[L _]]; [rewrite (Order.f32_lt_asym _ _ C) in L; discriminate|]. unfold same_number in L. rewrite Order.f32_eq_sym in L. rewrite (Order.f32_eq_not_lt _ _ L) in C. discriminate.
        * destruct L as [L|[_ L]]; [congruence|]. rewrite B, (to_irrefl _ He) in L. discriminate.
    - assert (Nr : forall z, In z (h :: rank) -> numeric z) by (intros z [->|I]; apply Nu; [now left|right; now apply (Permutation_in _ (Permutation_sym P1))]).
      destruct (insert_last (scored_lt ce) h rank) as (x & y & -> & S2 & K).
      { apply (Order.swo_scored ce He). exact Nr. }
      { revert S1. apply Tool.sorted_imp. intros u v I J. apply Runs.below_lt; apply Nr; now right. }
      exists x, y. split; [reflexivity|]. split.
      + right; left. split; [reflexivity|]. split; [apply Permutation_elt; exact P1|]. revert S2. apply Tool.sorted_imp. intros u v I J L.
        assert (Mid : forall w, In w (x ++ h :: y) -> In w (h :: x ++ y)) by (intros w K1; apply in_app_or in K1 as [K1|[->|K1]]; [right; apply in_or_app; now left|now left|right; apply in_or_app; now right]).
        apply Tool.not_below_lt; [| |exact L]; apply Nr, Mid; assumption.
      + intros z I C. apply K; [now apply (Permutation_in _ P1)|].
        destruct C as [[C _]|[[_ C]|(_ & C & _)]]; [discriminate| |contradiction].
        apply not_true_iff_false. rewrite Order.scored_lt_spec by (apply Nu; simpl; auto). intros L. destruct C as [C|[B C]].
        * destruct L as [L|[L _]]; [rewrite (Order.f32_lt_asym _ _ C) in L; discriminate|]. unfold same_number in L. rewrite Order.f32_eq_sym in L. rewrite (Order.f32_eq_not_lt _ _ L) in C. discriminate.
        * destruct L as [L|[_ L]]; [congruence|]. rewrite B, (to_irrefl _ He) in L. discriminate.
    - exists a1, b1. split; [reflexivity|]. split; [right; right; auto|]. intros z I [[C _]|[[C _]|(_ & _ & C)]]; [contradiction|contradiction|exact C].
  Qed.

  Lemma matching_app refs a : forall b taken (ms log : list M), matching R scorer refs (a ++ b) taken ms log ->
    exists t1 m1 g1, matching R scorer refs a t1 m1 g1 /\ incl t1 taken.
  Proof.
    intros b. induction b as [|z b IH] using rev_ind; intros taken ms log Mt.
    - rewrite app_nil_r in Mt. exists taken, ms, log. split; [exact Mt|apply incl_refl].
    - rewrite app_assoc in Mt. destruct (Added.matching_snoc R scorer _ _ _ _ _ _ Mt) as (t0 & m0 & g0 & l & t & m & g & M0 & _ & _ & -> & _ & _).
      destruct (IH _ _ _ M0) as (t1 & m1 & g1 & M1 & I). exists t1, m1, g1. split; [exact M1|]. intros x J. apply in_or_app. left. auto.
  Qed.

  (** A reference is taken once a hypothesis that only it accepts is done. *)
  Lemma only_taken refs rank taken (ms log : list M) : matching R scorer refs rank taken ms log -> forall r h0, In h0 rank -> In r refs ->
    acceptable scorer r h0 -> (forall r', In r' refs -> acceptable scorer r' h0 -> r' = r) -> In r taken.
  Proof.
    induction 1 as [|rank taken ms log h l t m g Mt IH Rl D]; intros r h0 I Ir A U; [destruct I|].
    apply in_app_or in I as [I|[->|[]]]; [apply in_or_app; left; eauto|]. apply in_or_app.
    assert (Il := Hfind _ _ _ _ Rl Ir A). assert (Inc := fi_incl _ _ HS _ _ _ Rl).
    destruct D as [before x after ms1 El Ax _ _ _|Na|ms1 _ Al _].
    - right. left. apply U; [apply Inc; rewrite El; apply in_elt|exact Ax].
    - elim (Na r Il A).
    - left. auto.
  Qed.

  Lemma matching_insert refs a h : (exists r, In r refs /\ acceptable scorer r h) ->
    (forall taken (ms log : list M), matching R scorer refs a taken ms log -> forall r, In r refs -> acceptable scorer r h -> In r taken) ->
    forall b taken (ms log : list M), matching R scorer refs (a ++ b) taken ms log ->
    exists log', matching R scorer refs (a ++ h :: b) taken ms log'.
  Proof.
    intros (r0 & I0 & A0) Tk b. induction b as [|z b IH] using rev_ind; intros taken ms log Mt.
    - rewrite app_nil_r in Mt. destruct (fi_run _ _ HS (es_new S) refs) as (set & _ & K). destruct (K h) as (l & _ & Rl). clear K.
      destruct (Added.logged_exists scorer h l) as (g & Lg). exists (log ++ g).
      rewrite <- (app_nil_r taken), <- (app_nil_r ms). apply (next_hyp _ _ _ _ _ _ _ _ l); [exact Mt|exact Rl|].
      apply repeated; [exists r0; split; [exact (Hfind _ _ _ _ Rl I0 A0)|exact A0]| |exact Lg].
      intros x J A. exact (Tk _ _ _ Mt x (fi_incl _ _ HS _ _ _ Rl x J) A).
    - rewrite app_assoc in Mt. destruct (Added.matching_snoc R scorer _ _ _ _ _ _ Mt) as (t0 & m0 & g0 & l & t & m & g & M0 & Rl & D & -> & -> & ->).
      destruct (IH _ _ _ M0) as (log' & M1). exists (log' ++ g). rewrite app_comm_cons, app_assoc. apply (next_hyp _ _ _ _ _ _ _ _ l); auto.
  Qed.

  (** The matches do not change. *)
  Lemma evaluation_insert crit f refs a h b (ms log : list M) gs : (forall z, In z (h :: a ++ b) -> is_finite (sc_score z) = true) ->
    kept f (hq (sc_base h)) \/ ~ kept f (hq (sc_base h)) ->
    too_late (acceptable scorer) refs crit a b h -> eval crit f refs (a ++ b) ms log gs ->
    exists log', eval crit f refs (a ++ h :: b) ms log' gs.
  Proof.
    intros Fi Kd [(r0 & I0 & A0) Tl] (r1 & h1 & rank & taken & found & missed & Sr & Sh & Rk & Mt & So & Mi & -> & G).
    destruct (Parts.selects_split _ _ _ _ Sh) as (a1 & b1 & -> & Sa & Sb).
    assert (Qr : forall r z, In r refs -> acceptable scorer r z -> rq r = hq (sc_base z)).
    { intros r z Ir A. destruct (fi_run _ _ HS (es_new S) refs) as (set & _ & K). destruct (K z) as (l & _ & Rl).
      exact (Parts.lo_query _ _ _ Lo _ _ _ _ Rl (Hfind _ _ _ _ Rl Ir A)). }
    destruct Kd as [Kh|Kh].
    2:{ exists log. exists r1, (a1 ++ b1), rank, taken, found, missed. split; [exact Sr|]. split; [|auto 10].
        apply Added.selects_app; [exact Sa|]. now apply sel_no. }
    destruct (ranking_insert crit a b h rank _ a1 b1 Fi Sa Sb Rk) as (x & y & -> & Rk' & Fst).
    destruct (matching_insert r1 x h) with (b := y) (taken := taken) (ms := found) (log := log) as (log' & Mt').
    - exists r0. split; [|exact A0]. apply (Grouping.selects_in _ _ _ Sr). split; [exact I0|]. now rewrite (Qr r0 h I0 A0).
    - intros t m g Mx r Ir A. assert (Ir' := Ir). apply (Grouping.selects_in _ _ _ Sr) in Ir' as [Ir' _].
      destruct (Tl r Ir' A) as (h0 & J & Cf & B & U). apply (only_taken r1 x t m g Mx r h0); auto.
      + assert (Kz : kept f (hq (sc_base h0))) by (rewrite <- (Qr r h0 Ir' B), (Qr r h Ir' A); exact Kh).
        apply Fst.
        * apply in_app_or in J as [J|J]; apply in_or_app; [left; apply (Grouping.selects_in _ _ _ Sa); auto|right; apply (Grouping.selects_in _ _ _ Sb); auto].
        * destruct Cf as [C|[C|(C1 & C2 & C)]]; [left; exact C|right; left; exact C|right; right]. split; [exact C1|]. split; [exact C2|]. apply (Grouping.selects_in _ _ _ Sa). auto.
      + intros r' I' A'. apply U; [now apply (Grouping.selects_in _ _ _ Sr) in I'|exact A'].
    - exact Mt.
    - exists log'. exists r1, (a1 ++ h :: b1), (x ++ h :: y), taken, found, missed. split; [exact Sr|]. split; [|auto 10].
      apply Added.selects_app; [exact Sa|]. now apply sel_yes.
  Qed.

  Lemma evaluations_again crit f refs a h b (ms log : list M) gs ms' log' gs' : (forall z, In z (a ++ h :: b) -> is_finite (sc_score z) = true) ->
    too_late (acceptable scorer) refs crit a b h -> eval crit f refs (a ++ b) ms log gs -> eval crit f refs (a ++ h :: b) ms' log' gs' ->
    Forall2 equal_matches ms ms' /\ Forall2 (Forall2 equal_matches) gs gs'.
  Proof.
    intros Fi Tl Ev Ev'. assert (Fi' : forall z, In z (h :: a ++ b) -> is_finite (sc_score z) = true).
    { intros z I. apply Fi. destruct I as [->|I]; [apply in_elt|]. apply in_app_or in I as [I|I]; apply in_or_app; simpl; auto. }
    assert (Kd : kept f (hq (sc_base h)) \/ ~ kept f (hq (sc_base h))).
    { destruct Ev' as (? & ? & ? & ? & ? & ? & _ & Sh & _). destruct (Parts.selects_split _ _ _ _ Sh) as (? & ? & _ & _ & Sb). inversion Sb; auto. }
    destruct (evaluation_insert _ _ _ _ _ _ _ _ _ Fi' Kd Tl Ev) as (log0 & Ev0).
    assert (F := Added.evaluation_same ce He cr Hr rq hq S R HS scorer HR Hsc _ _ _ _ _ _ _ _ _ _ Fi Ev0 Ev'). split; [exact F|].
    destruct Ev as (? & ? & ? & ? & ? & ? & _ & _ & _ & _ & _ & _ & _ & G). destruct Ev' as (? & ? & ? & ? & ? & ? & _ & _ & _ & _ & _ & _ & _ & G').
    exact (Runs.groups_equal rq hq f ms ms' gs gs' F G G').
  Qed.
End Late.

(** ** The runs *)

Section Tools.
  Context {A : Arith} (T : Trans A).
  Variables (srt : sort_fn) (Hs : sort_contract srt).
  Variables (rngs : Z -> rng) (show_int : Z -> bytes) (show_f64 : f64 -> bytes).
  Notation icdar := (icdar17 A T srt rngs show_int show_f64).
  Notation simple := (simple_kws A T srt rngs show_int show_f64).

  Lemma icdar_again w w' pn args c refs a h b f l r l' r' : command args c -> no_bootstrap c ->
    inputs shaped_text scored_shaped_text w c refs (a ++ b) f -> inputs shaped_text scored_shaped_text w' c refs (a ++ h :: b) f ->
    w_writable w = w_writable w' -> too_late (fun r h => accepted (ioh_scorer cmp_str f32_half r (sc_base h))) refs (cf_sort c) a b h ->
    icdar w pn args = (l, r) -> icdar w' pn args = (l', r') ->
    r = r' /\ exists ms log ms' log' rest, Forall2 equal_matches ms ms' /\
      outputs l = dumped c ms log ++ rest /\ outputs l' = dumped c ms' log' ++ rest.
  Proof.
    intros Cm NB I I' Hw Tl Et Et'.
    destruct (Instances.icdar_run T srt Hs rngs show_int show_f64 w pn args c refs _ f l r Cm NB I Et) as (ms & log & gs & Fi & Ev & Rp).
    destruct (Instances.icdar_run T srt Hs rngs show_int show_f64 w' pn args c refs _ f l' r' Cm NB I' Et') as (ms' & log' & gs' & Fi' & Ev' & Rp').
    assert (Tl' : too_late (acceptable (fun r h => ioh_scorer cmp_str f32_half r (sc_base h))) refs (cf_sort c) a b h).
    { destruct Tl as [(x & J & K) Tl]. split; [exists x; split; [exact J|now apply Added.ioh_acceptable]|]. intros y Iy Ay.
      destruct (Tl y Iy) as (h0 & J1 & J2 & J3 & J4); [now apply Added.ioh_acceptable|]. exists h0. split; [exact J1|]. split; [exact J2|].
      split; [now apply Added.ioh_acceptable|]. intros z Iz Az. apply J4; [exact Iz|now apply Added.ioh_acceptable]. }
    destruct (evaluations_again cmp_shaped Order.total_order_shaped cmp_shaped Order.total_order_shaped ev_query ev_query
      (evset_docbox srt cmp_str) (box_search cmp_str) (Matching.finds_docbox srt cmp_str Hs Order.total_order_str)
      (fun r h => ioh_scorer cmp_str f32_half r (sc_base h)) Runs.box_search_base
      (fun r h h' B => f_equal (fun x => ioh_scorer cmp_str f32_half r x) B) (Parts.box_local cmp_str) Added.box_find
      _ _ _ _ _ _ _ _ _ _ _ _ Fi' Tl' Ev Ev') as (F1 & F2).
    destruct (Runs.reported_equal T srt w w' c ms log ms' log' gs gs' l r l' r' Hw F1 F2 Rp Rp') as (-> & rest & O & O').
    split; [reflexivity|]. exists ms, log, ms', log', rest. auto.
  Qed.

  Lemma renamed_equal (id id' : bytes -> Z) (ms ms' : list (match_t (event bytes bytes) (scored (event bytes bytes)))) :
    (forall m r, In m ms -> m_ref m = Some r -> renamed id r = renamed id' r) ->
    (forall m x, In m ms -> m_hyp m = Some x -> renamed id (sc_base x) = renamed id' (sc_base x)) ->
    Forall2 equal_matches ms ms' -> Forall2 equal_matches (map (renamed_match id) ms) (map (renamed_match id') ms').
  Proof.
    intros Kr Kh F. induction F as [|m m' ms ms' (E1 & E2 & E3) F IH]; [constructor|]. cbn [map]. constructor.
    - unfold equal_matches, renamed_match, map_match. cbn [m_ref m_err m_hyp]. split; [|split; [exact E2|]].
      + rewrite <- E1. destruct (m_ref m) as [r|] eqn:Er; [|reflexivity]. cbn [option_map]. f_equal. exact (Kr m r (or_introl eq_refl) Er).
      + assert (Km := Kh m). destruct (m_hyp m) as [x|], (m_hyp m') as [y|]; try contradiction; [|exact Logic.I]. cbn [option_map].
        destruct E3 as [E3 E4]. split; [|exact E4]. unfold map_scored. cbn [sc_base]. rewrite <- E3. exact (Km x (or_introl eq_refl) eq_refl).
    - apply IH; [intros m0 r0 I; apply (Kr m0 r0); now right|intros m0 x0 I; apply (Kh m0 x0); now right].
  Qed.

  Lemma simple_again qf w w' pn args c refs a h b f l r l' r' : command args c -> no_bootstrap c ->
    inputs str_event_text scored_str_event_text w c refs (a ++ b) f -> inputs str_event_text scored_str_event_text w' c refs (a ++ h :: b) f ->
    (Z.of_nat (strings refs (a ++ h :: b) f) <= 2147483648)%Z -> w_writable w = w_writable w' ->
    In (sc_base h) refs -> (exists h0, In h0 (a ++ b) /\ comes_first (cf_sort c) a h0 h /\ sc_base h0 = sc_base h) ->
    simple qf w pn args = (l, r) -> simple qf w' pn args = (l', r') ->
    r = r' /\ exists ms log ms' log' rest, Forall2 equal_matches ms ms' /\
      outputs l = dumped c ms log ++ rest /\ outputs l' = dumped c ms' log' ++ rest.
  Proof.
    intros Cm NB I I' Ls' Hw Ir (h0 & J0 & C0 & B0) Et Et'.
    assert (Ls : (Z.of_nat (strings refs (a ++ b) f) <= 2147483648)%Z) by (assert (K := Added.strings_added refs a b h f); lia).
    rewrite Instances.simple_tool in Et, Et'.
    destruct (Instances.simple_run_ids T srt Hs rngs show_int show_f64 w qf pn args c refs _ f l r Cm NB I Et Ls) as (id & ms & log & gs & Id & Inj & Fi & Ev & Rp).
    destruct (Instances.simple_run_ids T srt Hs rngs show_int show_f64 w' qf pn args c refs _ f l' r' Cm NB I' Et' Ls') as (id' & ms' & log' & gs' & Id' & Inj' & Fi' & Ev' & Rp').
    destruct (Added.ids_added qf refs a h b id id') as [Ar Ah]; auto.
    { right. intros s Sp. exists (sc_base h). auto. }
    apply (Added.orders_agree id id') in Ev; auto.
    assert (Tl : too_late (acceptable (fun r h => trivial_scorer cmp_str cmp_str r (sc_base h))) refs (cf_sort c) a b h).
    { assert (Same : forall x, acceptable (fun r h => trivial_scorer cmp_str cmp_str r (sc_base h)) (sc_base x) x) by (intros x; apply (Runs.trivial_accepts cmp_str Order.total_order_str cmp_str Order.total_order_str)).
      split; [exists (sc_base h); auto|]. intros y Iy Ay. apply Added.trivial_acceptable in Ay. subst y. exists h0. split; [exact J0|]. split; [exact C0|].
      split; [rewrite <- B0; apply Same|]. intros z _ Az. apply Added.trivial_acceptable in Az. congruence. }
    destruct (evaluations_again (Results.by_id id') (Results.by_id_total id' Inj') (Results.by_id id') (Results.by_id_total id' Inj') ev_query ev_query
      (evset_generic (Results.by_id id')) exact_search (Matching.finds_generic _ (Results.by_id_total id' Inj'))
      (fun r h => trivial_scorer cmp_str cmp_str r (sc_base h)) Parts.exact_base
      (fun r h h' B => f_equal (fun x => trivial_scorer cmp_str cmp_str r x) B) Parts.exact_local Added.exact_find
      _ _ _ _ _ _ _ _ _ _ _ _ Fi' Tl Ev Ev') as (F1 & F2).
    destruct (Evaluation.eval_refs _ (Results.by_id id') (Results.by_id_total id' Inj') ev_query ev_query (evset_generic (Results.by_id id')) exact_search
      (Matching.finds_generic _ (Results.by_id_total id' Inj')) _ _ _ _ _ _ _ _ Ev) as [_ N2].
    destruct (Evaluation.eval_hyps _ (Results.by_id id') ev_query ev_query exact_search _ _ _ _ _ _ _ _ Ev) as [N3 _].
    assert (Kr : forall m y, In m ms -> m_ref m = Some y -> renamed id y = renamed id' y).
    { intros m y Im Em. apply Ar. apply (N2 y). apply in_flat_map. exists m. split; [exact Im|]. rewrite Em. now left. }
    assert (Kh : forall m x, In m ms -> m_hyp m = Some x -> renamed id (sc_base x) = renamed id' (sc_base x)).
    { intros m x Im Em. apply Ah. apply (N3 x). left. apply in_flat_map. exists m. split; [exact Im|]. rewrite Em. now left. }
    assert (Gi : forall g m, In g gs -> In m g -> In m ms).
    { destruct (Parts.evaluation_grouping _ _ _ _ _ _ _ _ _ _ _ _ _ Ev) as (ks & keys & _ & _ & G). clear - G. intros g m Ig Im.
      induction G as [|k g0 keys gs [_ Se] G IH]; [contradiction|]. destruct Ig as [->|Ig]; [|auto]. now apply (Grouping.selects_in _ _ _ Se). }
    assert (E1 := renamed_equal id id' ms ms' Kr Kh F1).
    assert (E2 : Forall2 (Forall2 equal_matches) (map (map (renamed_match id)) gs) (map (map (renamed_match id')) gs')).
    { clear - F2 Gi Kr Kh. induction F2 as [|g g' gs gs' Fg F2 IH]; [constructor|]. cbn [map]. constructor.
      - apply renamed_equal; [intros m y Im; apply Kr; apply (Gi g); [now left|exact Im]|intros m y Im; apply Kh; apply (Gi g); [now left|exact Im]|exact Fg].
      - apply IH. intros g0 m Ig. apply Gi. now right. }
    destruct (Runs.reported_equal T srt w w' c _ _ _ _ _ _ l r l' r' Hw E1 E2 Rp Rp') as (-> & rest & O & O').
    split; [reflexivity|]. exists (map (renamed_match id) ms), (map (renamed_match id) log), (map (renamed_match id') ms'), (map (renamed_match id') log'), rest. auto.
  Qed.
End Tools.
