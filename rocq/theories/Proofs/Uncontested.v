(** Runs in which the score of a hypothesis is raised that finds a reference no
    other hypothesis can take. *)
From Coq Require Import String List Bool ZArith Sorted Reals Lra Lia Permutation.
From Flocq Require Import Core BinarySingleNaN.
From Verif.Model Require Import Cpp Floats Box Events EventSets Matches Matcher Scorers Assessment Bootstrap Mapper Stream Reader Options Tool.
From Verif.Spec Require Import Order Objects Sets Matching Scorers Grouping Collapse Metrics Reader Options Tool Parts Better Added.
From Verif.Proofs Require Import Queries Insert Added FloatFacts Rejected.
From Verif.Proofs Require Curves Matching Grouping Evaluation Runs Ties Parts Raised Lifted Hoist Better Order Rescore Instances Results Sets Scorers.
Import ListNotations.
Local Open Scope string_scope.
Local Open Scope list_scope.

Lemma Forall2_where {X} (P : X -> X -> Prop) (Q : X -> Prop) (a b a' b' : list X) : (forall x y, P x y -> (Q x <-> Q y)) ->
  Forall2 P (a ++ b) (a' ++ b') ->
  (forall x, In x a -> Q x) -> (forall x, In x a' -> Q x) -> (forall x, In x b -> ~ Q x) -> (forall x, In x b' -> ~ Q x) -> Forall2 P a a' /\ Forall2 P b b'.
Proof.
  intros H. revert a'. induction a as [|x a IH]; intros a' F A A' B B'.
  - destruct a' as [|x' a']; [auto|]. exfalso. cbn [app] in F. inversion F as [|x ? b1 ? Px F1]; subst.
    apply (B x (or_introl eq_refl)), (H x x' Px), A'. now left.
  - destruct a' as [|x' a']; cbn [app] in F.
    + exfalso. inversion F as [|? x' ? b1 Px F1]; subst. apply (B' x' (or_introl eq_refl)), (H x x' Px), A. now left.
    + inversion F as [|? ? ? ? Px F1]; subst. destruct (IH a' F1) as [K L]; auto; intros y I; [apply A|apply A']; now right.
Qed.

Lemma split_at {X} (x : X) p q p' q' : p ++ x :: q = p' ++ x :: q' -> ~ In x p -> ~ In x p' -> p = p' /\ q = q'.
Proof.
  revert p'. induction p as [|y p IH]; intros [|y' p'] E N N'; cbn [app] in E.
  - injection E as ->. auto.
  - injection E as <- _. exfalso. apply N'. now left.
  - injection E as -> _. exfalso. apply N. now left.
  - injection E as <- E. destruct (IH p' E) as [-> ->]; [intros C; apply N; now right|intros C; apply N'; now right|auto].
Qed.

Section Raise.
  Context {RE E : Type}.
  Notation HE := (scored E).
  Notation M := (match_t RE HE).
  Variables (ce : Cmp E) (He : total_order ce) (cr : Cmp RE) (Hr : total_order cr).
  Variables (rq : RE -> bytes) (hq : E -> bytes).
  Variables (S : EvSet RE HE) (R : list RE -> HE -> list RE -> Prop) (HS : finds S R).
  Variable scorer : RE -> HE -> match_error.
  Hypothesis HR : forall refs h h' l, sc_base h = sc_base h' -> R refs h l -> R refs h' l.
  Hypothesis Hsc : forall r h h', sc_base h = sc_base h' -> scorer r h = scorer r h'.
  Hypothesis Lo : Parts.local rq hq R.
  Hypothesis Zo : forall r h, zero_one (scorer r h).
  Hypothesis Hac : forall r h, acceptable scorer r h -> scorer r h = hit_error.
  Hypothesis Hfind : forall refs h l r, R refs h l -> In r refs -> acceptable scorer r h -> In r l.

  Notation eval := (evaluation (c_lt ce) (c_lt cr) rq hq R scorer).
  Notation pairs := (map (Hoist.scored_error (@sc_score E))).
  Notation errors := (map (@m_err RE HE)).
  Notation contested := (Added.contested scorer).

  Lemma matching_taken refs rk taken (ms log : list M) : matching R scorer refs rk taken ms log ->
    forall x, In x taken -> In x refs /\ exists z, In z rk /\ acceptable scorer x z.
  Proof.
    induction 1 as [|rk taken ms log h l t m g Mt IH Rl D]; intros x I; [destruct I|].
    apply in_app_or in I as [I|I].
    - destruct (IH x I) as (A & z & B & C). split; [exact A|]. exists z. split; [apply in_or_app; auto|exact C].
    - destruct D as [before r after ms0 El A _ _ _|_|ms0 _ _ _]; [|destruct I|destruct I]. destruct I as [<-|[]].
      split; [apply (fi_incl _ _ HS _ _ _ Rl); rewrite El; apply in_elt|]. exists h. split; [apply in_or_app; simpl; auto|exact A].
  Qed.

  (** The reference that a hypothesis finds first. *)
  Definition first_found (refs : list RE) (h : HE) (r : RE) : Prop :=
    exists before after, R refs h (before ++ r :: after) /\ acceptable scorer r h /\ forall x, In x before -> ~ acceptable scorer x h.

  Lemma first_found_unique refs h h' r r' : sc_base h = sc_base h' -> first_found refs h r -> first_found refs h' r' -> r = r'.
  Proof.
    intros Eb (b & a & Rl & A & N) (b' & a' & Rl' & A' & N').
    assert (El := fi_unique _ _ HS _ _ _ _ (HR _ _ _ _ Eb Rl) Rl').
    assert (Q : forall x, acceptable scorer x h <-> acceptable scorer x h') by (intros x; unfold acceptable; now rewrite (Hsc x h h' Eb)).
    clear Rl Rl'. revert b' El N'. induction b as [|x b IH]; intros [|x' b'] El N'; cbn [app] in El.
    - congruence.
    - injection El as <- _. exfalso. apply (N' r (or_introl eq_refl)). now apply Q.
    - injection El as -> _. exfalso. apply (N r' (or_introl eq_refl)). now apply Q.
    - injection El as _ El. apply (IH (fun y I => N y (or_intror I)) b' El). intros y I. apply N'. now right.
  Qed.

  Lemma decided_less r taken taken0 h l t (m g : list M) : ~ acceptable scorer r h -> (forall x, In x taken <-> x = r \/ In x taken0) ->
    decided scorer taken h l t m g -> decided scorer taken0 h l t m g.
  Proof.
    intros N T D. destruct D as [before r2 after ms El A Nt B L|F|ms X B L].
    - apply (Verif.Spec.Matching.hit scorer taken0 h l before r2 after); auto; [intros C; apply Nt, T; auto|].
      intros x I Ax. destruct (proj1 (T x) (B x I Ax)) as [->|K]; [contradiction|exact K].
    - now apply false_alarm.
    - apply repeated; auto. intros x I Ax. destruct (proj1 (T x) (B x I Ax)) as [->|K]; [contradiction|exact K].
  Qed.

  (** Without the hypothesis, the others find what they found. *)
  Lemma matching_drop refs a h r0 : In r0 refs -> acceptable scorer r0 h -> forall b taken (ms log : list M), ~ contested refs h (a ++ b) ->
    matching R scorer refs (a ++ h :: b) taken ms log ->
    exists x y r taken0 log0, ms = x ++ match_pair r h hit_error :: y /\ matching R scorer refs (a ++ b) taken0 (x ++ y) log0 /\
      (forall z, In z taken <-> z = r \/ In z taken0) /\ ~ In r taken0 /\ first_found refs h r.
  Proof.
    intros I0 A0 b. induction b as [|z b IH] using rev_ind; intros taken ms log Nc Mt.
    - rewrite app_nil_r in *. destruct (matching_snoc R scorer _ _ _ _ _ _ Mt) as (t0 & ms0 & log0 & l & t & m & g & Mt0 & Rl & D & -> & -> & ->).
      assert (Nt : forall x, In x t0 -> ~ acceptable scorer x h).
      { intros x I A. destruct (matching_taken _ _ _ _ _ Mt0 x I) as (Ix & z & Iz & Az). apply Nc. exists x, z. auto. }
      destruct D as [before r after ms El A N B L|F|ms (x & Ix & Ax) B L].
      + exists ms0, [], r, t0, log0. rewrite app_nil_r, (Hac _ _ A). split; [reflexivity|]. split; [exact Mt0|].
        split; [intros z; rewrite in_app_iff; simpl; intuition|]. split; [exact N|]. exists before, after. rewrite <- El.
        split; [exact Rl|]. split; [exact A|]. intros x Ix Ax. exact (Nt x (B x Ix Ax) Ax).
      + exfalso. exact (F r0 (Hfind _ _ _ _ Rl I0 A0) A0).
      + exfalso. exact (Nt x (B x Ix Ax) Ax).
    - change (a ++ h :: b ++ [z]) with (a ++ (h :: b) ++ [z]) in Mt. rewrite app_assoc in Mt.
      destruct (matching_snoc R scorer _ _ _ _ _ _ Mt) as (t0 & ms0 & log0 & l & t & m & g & Mt0 & Rl & D & -> & -> & ->).
      assert (Nc' : ~ contested refs h (a ++ b)).
      { intros C. apply Nc. apply (contested_more scorer _ _ _ _ _ C); auto. intros y I. rewrite app_assoc. apply in_or_app; auto. }
      destruct (IH _ _ _ Nc' Mt0) as (x & y & r & taken0 & log1 & -> & Mt1 & T & Nr & Ff). clear IH Mt Mt0.
      assert (Nz : ~ acceptable scorer r z).
      { intros C. destruct Ff as (be & af & Rl1 & Ar & _). apply Nc. exists r, z.
        split; [apply (fi_incl _ _ HS _ _ _ Rl1), in_elt|]. split; [rewrite app_assoc; apply in_or_app; simpl; auto|auto]. }
      assert (D' := decided_less r t0 taken0 z l t m g Nz T D).
      exists x, (y ++ m), r, (taken0 ++ t), (log1 ++ g). rewrite <- app_assoc. split; [reflexivity|].
      split; [rewrite (app_assoc a b [z]), (app_assoc x y m); now apply (next_hyp R scorer refs (a ++ b) taken0 (x ++ y) log1 z l)|].
      split; [intros k; rewrite !in_app_iff, T; tauto|]. split; [|exact Ff].
      intros C. apply in_app_or in C as [C|C]; [contradiction|]. destruct D as [before r2 after ms El A _ _ _|_|ms _ _ _]; [|destruct C|destruct C].
      destruct C as [->|[]]. contradiction.
  Qed.

  Lemma eval_drop crit f refs a h b (ms log : list M) groups : (exists r, In r refs /\ acceptable scorer r h) -> ~ contested refs h (a ++ b) ->
    eval crit f refs (a ++ h :: b) ms log groups ->
    exists ms0 log0 groups0, eval crit f refs (a ++ b) ms0 log0 groups0 /\
      ((kept f (hq (sc_base h)) /\ exists r1 x y p q r, selects (fun r => kept f (rq r)) refs r1 /\ first_found r1 h r /\
          ms = x ++ match_pair r h hit_error :: y ++ map make_fn (p ++ q) /\ ms0 = (x ++ y) ++ map make_fn (p ++ r :: q) /\
          (forall m, In m (x ++ y) -> m_hyp m <> None) /\ ~ In r p /\ ~ In r q) \/
       (~ kept f (hq (sc_base h)) /\ ms0 = ms)).
  Proof.
    intros (r & Ir & Ar) Nc (r1 & h1 & rk & taken & found & missed & Sr & Sh & Rk & Mt & So & Mi & -> & G).
    destruct (Parts.selects_split _ _ _ _ Sh) as (a1 & hb & -> & Sa & Sb).
    inversion Sb as [|? ? b1 Kh Sb1|? ? b1 Kh Sb1]; subst.
    2:{ exists (found ++ map make_fn missed), log, groups. split; [|now right].
      exists r1, (a1 ++ hb), rk, taken, found, missed. split; [exact Sr|]. split; [now apply selects_app|]. auto 10. }
    assert (Qr : rq r = hq (sc_base h)).
    { destruct (fi_run _ _ HS (es_new S) refs) as (set & _ & K). destruct (K h) as (l & _ & Rl).
      exact (Parts.lo_query _ _ _ Lo _ _ _ _ Rl (Hfind _ _ _ _ Rl Ir Ar)). }
    assert (Ir1 : In r r1) by (apply (Grouping.selects_in _ _ _ Sr); rewrite Qr; auto).
    assert (exists u v, rk = u ++ h :: v /\ ranking (c_lt ce) crit (a1 ++ b1) (u ++ v)) as (u & v & -> & Rk').
    { destruct Rk as [(C & P & K)|[(C & P & K)|(C & C' & ->)]].
      - destruct (in_split h rk) as (u & v & ->); [apply (Permutation_in _ P), in_elt|]. exists u, v. split; [reflexivity|].
        left. split; [exact C|]. split; [exact (Permutation_app_inv _ _ _ _ _ P)|]. exact (proj1 (Raised.sorted_remove _ _ _ _ K)).
      - destruct (in_split h rk) as (u & v & ->); [apply (Permutation_in _ P), in_elt|]. exists u, v. split; [reflexivity|].
        right; left. split; [exact C|]. split; [exact (Permutation_app_inv _ _ _ _ _ P)|]. exact (proj1 (Raised.sorted_remove _ _ _ _ K)).
      - exists a1, b1. split; [reflexivity|]. right; right; auto. }
    assert (Nc' : ~ contested r1 h (u ++ v)).
    { intros C. apply Nc. apply (contested_more scorer _ _ _ _ _ C).
      - intros y Iy. now apply (Grouping.selects_in _ _ _ Sr) in Iy.
      - intros y Iy. apply (proj1 (Evaluation.ranking_in (c_lt ce) _ _ _ Rk')) in Iy.
        apply in_app_or in Iy as [Iy|Iy]; apply in_or_app; [left; now apply (Grouping.selects_in _ _ _ Sa) in Iy|right; now apply (Grouping.selects_in _ _ _ Sb1) in Iy]. }
    destruct (matching_drop r1 u h r Ir1 Ar v _ _ _ Nc' Mt) as (x & y & k & taken0 & log0 & -> & Mt0 & T & Nk & Ff).
    assert (Ik : In k r1) by (destruct Ff as (be & af & Rl & _); apply (fi_incl _ _ HS _ _ _ Rl), in_elt).
    assert (Nm : ~ In k missed) by (rewrite Mi; intros [_ C]; apply C, T; now left).
    destruct (sorted_insert cr Hr k missed So Nm) as (p & q & -> & So0).
    assert (Qk : rq k = hq (sc_base h)).
    { destruct Ff as (be & af & Rl & _). apply (Parts.lo_query _ _ _ Lo _ _ _ _ Rl), in_elt. }
    destruct (Parts.grouping_exists Parts.bytes_dec rq hq f ((x ++ y) ++ map make_fn (p ++ k :: q))) as [g0 G0].
    { destruct G as (ks & keys & F1 & _). destruct (Evaluation.Forall2_in _ _ _ F1) as [K0 _]. intros m I.
      assert (D : m = make_fn k \/ In m ((x ++ match_pair k h hit_error :: y) ++ map make_fn (p ++ q))).
      { rewrite map_app in *. cbn [map] in *. rewrite !in_app_iff in *. cbn [In] in *. intuition. }
      destruct D as [->|D]; [|destruct (K0 m D) as (j & _ & Hj); eauto].
      destruct (K0 (match_pair k h hit_error)) as (j & _ & j' & Hq & Hj); [apply in_or_app; left; apply in_elt|].
      exists j, j'. split; [|exact Hj]. unfold has_query in *. cbn in *. exact Hq. }
    exists ((x ++ y) ++ map make_fn (p ++ k :: q)), log0, g0. split.
    - exists r1, (a1 ++ b1), (u ++ v), taken0, (x ++ y), (p ++ k :: q). split; [exact Sr|]. split; [now apply selects_app|]. split; [exact Rk'|].
      split; [exact Mt0|]. split; [exact So0|]. split; [|auto].
      intros z. assert (K := Mi z). assert (K' := T z). rewrite in_app_iff in *. cbn [In].
      destruct (ref_dec cr Hr k z) as [<-|Ne]; [split; [auto|intros _; right; now left]|]. assert (z <> k) by congruence. tauto.
    - left. split; [exact Kh|]. exists r1, x, y, p, q, k. split; [exact Sr|]. split; [exact Ff|]. split; [now rewrite <- app_assoc|]. split; [reflexivity|].
      split; [exact (matching_found R scorer _ _ _ _ _ Mt0)|]. rewrite in_app_iff in Nm. tauto.
  Qed.

  Lemma equal_missed (l l' : list RE) : Forall2 (@equal_matches RE E) (map make_fn l) (map make_fn l') -> l = l'.
  Proof.
    revert l'. induction l as [|r l IH]; intros [|r' l'] F; inversion F as [|? ? ? ? K F1]; subst; [reflexivity|]. rewrite (IH _ F1).
    destruct K as [K _]. cbn in K. congruence.
  Qed.

  Lemma equal_some (m m' : M) : equal_matches m m' -> (m_hyp m <> None <-> m_hyp m' <> None).
  Proof. intros (_ & _ & K). destruct (m_hyp m), (m_hyp m'); split; intros; congruence || contradiction. Qed.

  (** All matches before and after the change. *)
  Lemma eval_rescored crit f refs a h h' b (ms log : list M) groups ms' log' groups' :
    (forall x, In x (a ++ b) -> is_finite (sc_score x) = true) -> sc_base h = sc_base h' ->
    (exists r, In r refs /\ acceptable scorer r h) -> ~ contested refs h (a ++ b) ->
    eval crit f refs (a ++ h :: b) ms log groups -> eval crit f refs (a ++ h' :: b) ms' log' groups' ->
    (exists r x y x' y', ms = x ++ match_pair r h hit_error :: y /\ ms' = x' ++ match_pair r h' hit_error :: y' /\
      rq r = hq (sc_base h) /\ Forall2 equal_matches (x ++ y) (x' ++ y')) \/
    Forall2 equal_matches ms ms'.
  Proof.
    intros Fi Eb Ac Nc Ev Ev'.
    assert (Q : forall r, acceptable scorer r h' -> acceptable scorer r h) by (intros r; unfold acceptable; now rewrite (Hsc r h h' Eb)).
    assert (Q' : forall r, acceptable scorer r h -> acceptable scorer r h') by (intros r; unfold acceptable; now rewrite (Hsc r h h' Eb)).
    assert (Ac' : exists r, In r refs /\ acceptable scorer r h') by (destruct Ac as (r & I & A); eauto).
    assert (Nc' : ~ contested refs h' (a ++ b)) by (intros (r & z & I1 & I2 & A & A'); apply Nc; exists r, z; auto).
    destruct (eval_drop _ _ _ _ _ _ _ _ _ Ac Nc Ev) as (ms0 & lg0 & gs0 & Ev0 & C).
    destruct (eval_drop _ _ _ _ _ _ _ _ _ Ac' Nc' Ev') as (ms0' & lg0' & gs0' & Ev0' & C').
    assert (Em := evaluation_same ce He cr Hr rq hq S R HS scorer HR Hsc _ _ _ _ _ _ _ _ _ _ Fi Ev0 Ev0').
    destruct C as [(Kh & r1 & x & y & p & q & r & Sr & Ff & -> & -> & Hx & Np & Nq)|(Kh & ->)];
      destruct C' as [(Kh' & r1' & x' & y' & p' & q' & r' & Sr' & Ff' & -> & -> & Hx' & Np' & Nq')|(Kh' & ->)];
      try (rewrite Eb in Kh; contradiction); [left|now right].
    rewrite (selects_fun _ _ _ _ Sr' Sr) in Ff'. rewrite <- (first_found_unique _ _ _ _ _ Eb Ff Ff') in *.
    destruct (Forall2_where _ (fun m : M => m_hyp m <> None) _ _ _ _ equal_some Em Hx Hx') as [F1 F2].
    { intros m I K. apply in_map_iff in I as (z & <- & _). now apply K. }
    { intros m I K. apply in_map_iff in I as (z & <- & _). now apply K. }
    apply equal_missed in F2. destruct (split_at _ _ _ _ _ F2 Np Np') as [<- <-].
    exists r, x, (y ++ map make_fn (p ++ q)), x', (y' ++ map make_fn (p ++ q)). split; [reflexivity|]. split; [reflexivity|]. split.
    - destruct Ff as (be & af & Rl & _). apply (Parts.lo_query _ _ _ Lo _ _ _ _ Rl), in_elt.
    - rewrite !app_assoc. apply Forall2_app; [exact F1|]. clear. induction (p ++ q) as [|z l IH]; constructor; [|exact IH]. repeat split.
  Qed.

  (** The matches of some queries. *)
  Lemma part_found (P : bytes -> Prop) crit f refs a h h' b (ms log : list M) groups g ms' log' groups' g' :
    (forall x, In x (a ++ b) -> is_finite (sc_score x) = true) -> sc_base h = sc_base h' ->
    (exists r, In r refs /\ acceptable scorer r h) -> ~ contested refs h (a ++ b) ->
    eval crit f refs (a ++ h :: b) ms log groups -> selects (Parts.about rq hq P) ms g ->
    eval crit f refs (a ++ h' :: b) ms' log' groups' -> selects (Parts.about rq hq P) ms' g' ->
    (exists r x y x' y', g = x ++ match_pair r h hit_error :: y /\ g' = x' ++ match_pair r h' hit_error :: y' /\ Forall2 equal_matches (x ++ y) (x' ++ y')) \/
    Forall2 equal_matches g g'.
  Proof.
    intros Fi Eb Ac Nc Ev Sg Ev' Sg'.
    destruct (eval_rescored _ _ _ _ _ _ _ _ _ _ _ _ _ Fi Eb Ac Nc Ev Ev') as [(r & x & y & x' & y' & -> & -> & Qr & Em)|Em];
      [|right; exact (selects_equal rq hq P _ _ Em _ _ Sg Sg')].
    destruct (Parts.selects_split _ _ _ _ Sg) as (x1 & hy & -> & Sx & Sy).
    destruct (Parts.selects_split _ _ _ _ Sg') as (x1' & hy' & -> & Sx' & Sy').
    assert (Ab : Parts.about rq hq P (match_pair r h hit_error) <-> Parts.about rq hq P (match_pair r h' hit_error)).
    { unfold Parts.about, has_query. cbn [m_ref m_hyp match_pair]. reflexivity. }
    inversion Sy as [|? ? y1 Ph Sy1|? ? y1 Ph Sy1]; inversion Sy' as [|? ? y1' Ph' Sy1'|? ? y1' Ph' Sy1']; subst; try tauto.
    + left. exists r, x1, y1, x1', y1'. split; [reflexivity|]. split; [reflexivity|].
      exact (selects_equal rq hq P _ _ Em _ _ (selects_app _ _ _ _ _ Sx Sy1) (selects_app _ _ _ _ _ Sx' Sy1')).
    + right. exact (selects_equal rq hq P _ _ Em _ _ (selects_app _ _ _ _ _ Sx Sy1) (selects_app _ _ _ _ _ Sx' Sy1')).
  Qed.

  (** The hit moves up with decreasing scores and down with increasing ones. *)
  Lemma part_better_hit (P : bytes -> Prop) crit f refs a h h' b (ms log : list M) groups g ms' log' groups' g' :
    (forall x, In x (a ++ h :: b) -> is_finite (sc_score x) = true) -> (forall x, In x (a ++ h' :: b) -> is_finite (sc_score x) = true) ->
    sc_base h = sc_base h' -> f32_lt (sc_score h) (sc_score h') = true -> (exists r, In r refs /\ acceptable scorer r h) -> ~ contested refs h (a ++ b) ->
    eval crit f refs (a ++ h :: b) ms log groups -> selects (Parts.about rq hq P) ms g ->
    eval crit f refs (a ++ h' :: b) ms' log' groups' -> selects (Parts.about rq hq P) ms' g' ->
    (crit = lit "desc" -> better (errors g) (errors g')) /\ (crit = lit "asc" -> better (errors g') (errors g)) /\
    Lifted.lifted hit_error (map Hoist.norm (pairs g)) (map Hoist.norm (pairs g')).
  Proof.
    intros Fi Fi' Eb Lt Ac Nc Ev Sg Ev' Sg'.
    assert (Fi0 : forall x, In x (a ++ b) -> is_finite (sc_score x) = true).
    { intros x I. apply Fi. apply in_app_or in I as [I|I]; apply in_or_app; simpl; auto. }
    assert (Fh : is_finite (sc_score h) = true) by (apply Fi, in_elt). assert (Fh' : is_finite (sc_score h') = true) by (apply Fi', in_elt).
    assert (Nu := eval_numbers ce cr rq hq R scorer _ _ _ _ _ _ _ Fi Ev). assert (Nu' := eval_numbers ce cr rq hq R scorer _ _ _ _ _ _ _ Fi' Ev').
    destruct (part_found P crit f refs a h h' b ms log groups g ms' log' groups' g' Fi0 Eb Ac Nc Ev Sg Ev' Sg') as [(r & x & y & x' & y' & -> & -> & F)|F].
    2: { rewrite (equal_errors _ _ F), (equal_pairs _ _ F). split; [constructor|]. split; [constructor|]. left. apply Permutation_refl. }
    assert (I1 : forall z k, In z (x ++ y) -> m_hyp z = Some k -> is_finite (sc_score k) = true).
    { intros z k I K. apply (Nu z k); [|exact K]. apply (Grouping.selects_in _ _ _ Sg). apply in_app_or in I as [I|I]; apply in_or_app; simpl; auto. }
    assert (I2 : forall z k, In z (x' ++ y') -> m_hyp z = Some k -> is_finite (sc_score k) = true).
    { intros z k I K. apply (Nu' z k); [|exact K]. apply (Grouping.selects_in _ _ _ Sg'). apply in_app_or in I as [I|I]; apply in_or_app; simpl; auto. }
    destruct (eval_around ce cr rq hq R scorer _ _ _ _ _ _ _ _ x (match_pair r h hit_error) y h Ev Sg eq_refl) as [B1 B2].
    destruct (eval_around ce cr rq hq R scorer _ _ _ _ _ _ _ _ x' (match_pair r h' hit_error) y' h' Ev' Sg' eq_refl) as [B1' B2'].
    assert (Ee := equal_errors _ _ F). rewrite !map_app in Ee.
    assert (Px : forall e, In e (errors x) -> e = hit_error \/ e = alarm_error).
    { intros e I. apply in_map_iff in I as (z & <- & I). destruct (B1 z I) as (k & Ek & _). apply (eval_plain ce cr rq hq R scorer Hac _ _ _ _ _ _ _ Ev z k); [|exact Ek].
      apply (Grouping.selects_in _ _ _ Sg). apply in_or_app. auto. }
    assert (Px' : forall e, In e (errors x') -> e = hit_error \/ e = alarm_error).
    { intros e I. apply in_map_iff in I as (z & <- & I). destruct (B1' z I) as (k & Ek & _). apply (eval_plain ce cr rq hq R scorer Hac _ _ _ _ _ _ _ Ev' z k); [|exact Ek].
      apply (Grouping.selects_in _ _ _ Sg'). apply in_or_app. auto. }
    split; [|split].
    - intros C. assert (L : (List.length x' <= List.length x)%nat).
      { destruct (Nat.le_gt_cases (List.length x') (List.length x)) as [L|L]; [exact L|exfalso].
        destruct (Forall2_place _ _ _ _ _ F L) as (z & z' & Iz & Iz' & Q). destruct (B1' z' Iz') as (k' & Ek' & K' & _).
        destruct (equal_hyp z z' k' Q Ek') as (k & Ek & Qk). destruct (B2 z k Iz Ek) as [K _].
        apply (no_cycle (sc_score h) (sc_score h') (sc_score k) (sc_score k')); auto.
        - apply (I1 z); [apply in_or_app; auto|exact Ek].
        - apply (I2 z'); [apply in_or_app; auto|exact Ek']. }
      destruct (two_places _ _ _ _ Ee) as (d & E1 & E2); [rewrite !map_length; exact L|].
      rewrite !map_app. cbn [map]. rewrite E1, E2. change (m_err (match_pair r h hit_error)) with hit_error. change (m_err (match_pair r h' hit_error)) with hit_error.
      replace ((errors x' ++ d) ++ hit_error :: errors y) with (errors x' ++ (d ++ [hit_error]) ++ errors y) by (rewrite <- !app_assoc; reflexivity).
      apply (Better.better_in (d ++ [hit_error]) (hit_error :: d)), better_front. intros e I. apply Px. rewrite E1. apply in_or_app. auto.
    - intros C. assert (L : (List.length x <= List.length x')%nat).
      { destruct (Nat.le_gt_cases (List.length x) (List.length x')) as [L|L]; [exact L|exfalso].
        assert (F' : Forall2 (fun u v => equal_matches v u) (x' ++ y') (x ++ y)) by (clear - F; induction F; constructor; auto).
        destruct (Forall2_place _ _ _ _ _ F' L) as (z' & z & Iz' & Iz & Q). destruct (B1 z Iz) as (k & Ek & _ & K).
        assert (Q' := equal_matches_sym _ _ Q). destruct (equal_hyp z' z k Q' Ek) as (k' & Ek' & Qk).
        destruct (B2' z' k' Iz' Ek') as [_ K'].
        apply (no_cycle (sc_score h) (sc_score h') (sc_score k) (sc_score k')); auto.
        - apply (I1 z); [apply in_or_app; auto|exact Ek].
        - apply (I2 z'); [apply in_or_app; auto|exact Ek'].
        - now rewrite Order.f32_eq_sym. }
      destruct (two_places _ _ _ _ (eq_sym Ee)) as (d & E1 & E2); [rewrite !map_length; exact L|].
      rewrite !map_app. cbn [map]. rewrite E1, E2. change (m_err (match_pair r h hit_error)) with hit_error. change (m_err (match_pair r h' hit_error)) with hit_error.
      replace ((errors x ++ d) ++ hit_error :: errors y') with (errors x ++ (d ++ [hit_error]) ++ errors y') by (rewrite <- !app_assoc; reflexivity).
      apply (Better.better_in (d ++ [hit_error]) (hit_error :: d)), better_front. intros e I. apply Px'. rewrite E1. apply in_or_app. auto.
    - right. exists (Ties.unsigned (sc_score h)), (Ties.unsigned (sc_score h')), (map Hoist.norm (pairs (x ++ y))).
      split; [rewrite Hoist.unsigned_nan; now apply Rescore.finite_not_nan|]. split; [now rewrite Ties.unsigned_lt|]. split.
      + rewrite !map_app. cbn [map]. apply Permutation_sym, (Permutation_middle _ _ (Ties.unsigned (sc_score h), hit_error)).
      + rewrite (equal_pairs _ _ F), !map_app. cbn [map]. apply Permutation_sym, (Permutation_middle _ _ (Ties.unsigned (sc_score h'), hit_error)).
  Qed.

  Lemma raised_found crit f refs a h h' b (ms log : list M) gs ms' log' gs' :
    (forall x, In x (a ++ h :: b) -> is_finite (sc_score x) = true) -> (forall x, In x (a ++ h' :: b) -> is_finite (sc_score x) = true) ->
    sc_base h = sc_base h' -> f32_lt (sc_score h) (sc_score h') = true -> (exists r, In r refs /\ acceptable scorer r h) -> ~ contested refs h (a ++ b) ->
    eval crit f refs (a ++ h :: b) ms log gs -> eval crit f refs (a ++ h' :: b) ms' log' gs' ->
    (forall v : list match_error -> Rdefinitions.R, (forall es es', better es es' -> (forall e, In e es -> zero_one e) -> v es <= v es')%R ->
      (crit = lit "desc" -> v (errors ms) <= v (errors ms') /\
        average (A := RArith) (map (fun g => v (errors g)) gs) <= average (A := RArith) (map (fun g => v (errors g)) gs'))%R /\
      (crit = lit "asc" -> v (errors ms') <= v (errors ms) /\
        average (A := RArith) (map (fun g => v (errors g)) gs') <= average (A := RArith) (map (fun g => v (errors g)) gs))%R) /\
    (crit = lit "desc" -> forall t,
      Lifted.tvalue true t (pairs ms) <= Lifted.tvalue true t (pairs ms') /\
      average (A := RArith) (map (fun g => Lifted.tvalue true t (pairs g)) gs) <= average (A := RArith) (map (fun g => Lifted.tvalue true t (pairs g)) gs'))%R.
  Proof.
    intros Fi Fi' Eb Lt Ac Nc Ev Ev'.
    assert (Z1 : forall m, In m ms -> zero_one (m_err m)) by exact (Evaluation.eval_zero_one _ cr _ _ _ _ _ _ _ _ _ _ _ Ev Zo).
    assert (Z1' : forall m, In m ms' -> zero_one (m_err m)) by exact (Evaluation.eval_zero_one _ cr _ _ _ _ _ _ _ _ _ _ _ Ev' Zo).
    destruct (Parts.evaluation_keys (c_lt ce) cr Hr rq hq S R HS scorer Lo _ _ _ _ _ _ _ Ev) as (keys & Nk & Fk & Hm & Ik).
    destruct (Parts.evaluation_keys (c_lt ce) cr Hr rq hq S R HS scorer Lo _ _ _ _ _ _ _ Ev') as (keys' & Nk' & Fk' & Hm' & Ik').
    assert (Kk : forall k, In k keys <-> In k keys').
    { intros k. rewrite Ik, Ik'. assert (B : forall q, (exists z, In z (a ++ h :: b) /\ hq (sc_base z) = q) <-> (exists z, In z (a ++ h' :: b) /\ hq (sc_base z) = q)).
      { intros q. split; intros (z & J & K); apply in_app_or in J as [J|[<-|J]];
          [exists z|exists h'|exists z|exists z|exists h|exists z]; (split; [apply in_or_app; simpl; auto|congruence]). }
      split; intros (q & A1 & A2 & A3); exists q; (split; [exact A1|]); (split; [exact A2|]); (destruct A3 as [A3|A3]; [now left|right]); now apply B. }
    assert (Hp : forall P g g', selects (Parts.about rq hq P) ms g -> selects (Parts.about rq hq P) ms' g' ->
      (forall v : list match_error -> Rdefinitions.R, (forall es es', better es es' -> (forall e, In e es -> zero_one e) -> v es <= v es')%R ->
        (crit = lit "desc" -> v (errors g) <= v (errors g'))%R /\ (crit = lit "asc" -> v (errors g') <= v (errors g))%R) /\
      (crit = lit "desc" -> forall t, Lifted.tvalue true t (pairs g) <= Lifted.tvalue true t (pairs g'))%R).
    { intros P g g' Sg Sg'.
      destruct (part_better_hit P crit f refs a h h' b ms log gs g ms' log' gs' g' Fi Fi' Eb Lt Ac Nc Ev Sg Ev' Sg') as (B1 & B2 & B3).
      assert (Zg : forall e, In e (errors g) -> zero_one e).
      { intros e I. apply in_map_iff in I as (m & <- & I). apply Z1. now apply (Grouping.selects_in _ _ _ Sg) in I. }
      assert (Zg' : forall e, In e (errors g') -> zero_one e).
      { intros e I. apply in_map_iff in I as (m & <- & I). apply Z1'. now apply (Grouping.selects_in _ _ _ Sg') in I. }
      split.
      - intros v Hv. split; intros C; apply Hv; auto.
      - intros C t. subst crit. apply Lifted.lifted_hit; auto.
        + exact (eval_good ce cr rq hq R scorer _ _ _ _ _ _ _ _ Fi Zo Ev Sg).
        + exact (eval_good ce cr rq hq R scorer _ _ _ _ _ _ _ _ Fi' Zo Ev' Sg'). }
    assert (Ha : forall m, In m ms -> Parts.about rq hq (fun _ => True) m).
    { intros m J. destruct (Hm m J) as (k & _ & q & A & _). exists q. auto. }
    assert (Ha' : forall m, In m ms' -> Parts.about rq hq (fun _ => True) m).
    { intros m J. destruct (Hm' m J) as (k & _ & q & A & _). exists q. auto. }
    destruct (Hp (fun _ => True) ms ms' (selects_all _ _ Ha) (selects_all _ _ Ha')) as [G1 G2].
    split.
    - intros v Hv. destruct (G1 v Hv) as [G3 G4]. split; intros C; (split; [auto|]).
      + apply (Lifted.means_le _ _ _ _ keys keys' gs gs' Nk Nk' Kk Fk Fk').
        intros k g g' _ Sg Sg'. exact (proj1 (proj1 (Hp (fun q => group_is f q k) g g' Sg Sg') v Hv) C).
      + apply (Lifted.means_le _ _ _ _ keys' keys gs' gs Nk' Nk (fun k => iff_sym (Kk k)) Fk' Fk).
        intros k g' g _ Sg' Sg. exact (proj2 (proj1 (Hp (fun q => group_is f q k) g g' Sg Sg') v Hv) C).
    - intros C t. split; [now apply G2|].
      apply (Lifted.means_le _ _ _ _ keys keys' gs gs' Nk Nk' Kk Fk Fk').
      intros k g g' _ Sg Sg'. exact (proj2 (Hp (fun q => group_is f q k) g g' Sg Sg') C t).
  Qed.
End Raise.

Section Runs.
  Variables (srt : sort_fn) (Hs : sort_contract srt).
  Variables (rngs : Z -> rng) (show_int : Z -> bytes) (show_f64 : f64 -> bytes).
  Notation icdar := (icdar17 RArith RTrans srt rngs show_int show_f64).

  Lemma icdar_uncontested w w' pn args c refs a b f e s s' : command args c -> no_bootstrap c ->
    inputs shaped_text scored_shaped_text w c refs (a ++ Scored e s :: b) f ->
    inputs shaped_text scored_shaped_text w' c refs (a ++ Scored e s' :: b) f -> f32_lt s s' = true ->
    (exists r, In r refs /\ Scorers.accepted (ioh_scorer cmp_str f32_half r e)) ->
    (forall r h, In r refs -> In h (a ++ b) -> Scorers.accepted (ioh_scorer cmp_str f32_half r e) ->
      ~ Scorers.accepted (ioh_scorer cmp_str f32_half r (sc_base h))) ->
    exists gap vap gndcg vndcg gap' vap' gndcg' vndcg' : R,
      prints (A := RArith) (fst (icdar w pn args)) gap vap gndcg vndcg /\
      prints (A := RArith) (fst (icdar w' pn args)) gap' vap' gndcg' vndcg' /\
      (cf_collapse c = false -> cf_sort c = lit "desc" -> gap <= gap' /\ vap <= vap' /\ gndcg <= gndcg' /\ vndcg <= vndcg')%R /\
      (cf_collapse c = false -> cf_sort c = lit "asc" -> gap' <= gap /\ vap' <= vap /\ gndcg' <= gndcg /\ vndcg' <= vndcg)%R /\
      (cf_collapse c = true -> cf_interp c = true -> cf_sort c = lit "desc" -> gap <= gap' /\ vap <= vap')%R.
  Proof.
    intros Cm NB I I' Lt (r0 & I0 & A0) Un.
    destruct (icdar w pn args) as [l r] eqn:Et. destruct (icdar w' pn args) as [l' r'] eqn:Et'. cbn [fst].
    destruct (Instances.icdar_run RTrans srt Hs rngs show_int show_f64 w pn args c refs _ f l r Cm NB I Et) as (ms & log & gs & Fi & Ev & Rp).
    destruct (Instances.icdar_run RTrans srt Hs rngs show_int show_f64 w' pn args c refs _ f l' r' Cm NB I' Et') as (ms' & log' & gs' & Fi' & Ev' & Rp').
    destruct (reported_values srt _ _ _ _ _ _ _ Rp) as (v1 & v2 & v3 & v4 & Pr & Vf & Vt).
    destruct (reported_values srt _ _ _ _ _ _ _ Rp') as (v1' & v2' & v3' & v4' & Pr' & Vf' & Vt').
    exists v1, v2, v3, v4, v1', v2', v3', v4'. split; [exact Pr|]. split; [exact Pr'|].
    assert (Nc : ~ Added.contested (fun r h => ioh_scorer cmp_str f32_half r (sc_base h)) refs (Scored e s) (a ++ b)).
    { intros (x & z & Ix & Iz & Ax & Az). exact (Un x z Ix Iz (proj1 (ioh_acceptable x (Scored e s)) Ax) (proj1 (ioh_acceptable x z) Az)). }
    destruct (raised_found cmp_shaped Order.total_order_shaped cmp_shaped Order.total_order_shaped ev_query ev_query
      (evset_docbox srt cmp_str) (box_search cmp_str) (Matching.finds_docbox srt cmp_str Hs Order.total_order_str)
      (fun r h => ioh_scorer cmp_str f32_half r (sc_base h)) Runs.box_search_base
      (fun r h h' B => f_equal (fun x => ioh_scorer cmp_str f32_half r x) B) (Parts.box_local cmp_str)
      (fun r h => Instances.zero_one_ioh r (sc_base h)) (fun r h => proj1 (ioh_acceptable r h)) box_find
      _ _ _ _ (Scored e s) (Scored e s') _ _ _ _ _ _ _ Fi Fi' eq_refl Lt
      (ex_intro _ r0 (conj I0 (proj2 (ioh_acceptable r0 (Scored e s)) A0))) Nc Ev Ev') as (A1 & A2).
    destruct (A1 (Raised.ap_value (cf_interp c) (cf_trapezoid c)) (fun es es' => Raised.better_ap_value _ _ es es')) as [A3 A4].
    destruct (A1 Better.raw_ndcg (fun es es' B _ => Better.better_ndcg es es' B)) as [A5 A6].
    split; [|split].
    - intros Cc Cs. destruct (Vf Cc) as (-> & -> & -> & ->). destruct (Vf' Cc) as (-> & -> & -> & ->). destruct (A3 Cs), (A5 Cs). auto.
    - intros Cc Cs. destruct (Vf Cc) as (-> & -> & -> & ->). destruct (Vf' Cc) as (-> & -> & -> & ->). destruct (A4 Cs), (A6 Cs). auto.
    - intros Cc Ci Cs. destruct (Vt Cc) as (-> & ->). destruct (Vt' Cc) as (-> & ->). rewrite Ci. now apply A2.
  Qed.

  Notation simple := (simple_kws RArith RTrans srt rngs show_int show_f64).

  Lemma simple_uncontested qf w w' pn args c refs a b f e s s' : command args c -> no_bootstrap c -> cf_sort c = lit "asc" -> cf_collapse c = false ->
    inputs str_event_text scored_str_event_text w c refs (a ++ Scored e s :: b) f ->
    inputs str_event_text scored_str_event_text w' c refs (a ++ Scored e s' :: b) f ->
    (Z.of_nat (strings refs (a ++ Scored e s :: b) f) <= 2147483648)%Z -> f32_lt s s' = true -> In e refs -> (forall h, In h (a ++ b) -> sc_base h <> e) ->
    exists gap vap gndcg vndcg gap' vap' gndcg' vndcg' : R,
      prints (A := RArith) (fst (simple qf w pn args)) gap vap gndcg vndcg /\
      prints (A := RArith) (fst (simple qf w' pn args)) gap' vap' gndcg' vndcg' /\
      (gap' <= gap /\ vap' <= vap /\ gndcg' <= gndcg /\ vndcg' <= vndcg)%R.
  Proof.
    intros Cm NB Cs Cc I I' Ls Lt Ie Un.
    assert (Ra : raised e (a ++ Scored e s :: b) (a ++ Scored e s' :: b)) by (exists a, s, s', b; auto).
    set (hyps := a ++ Scored e s :: b) in *. set (hyps' := a ++ Scored e s' :: b) in *.
    assert (Ls' : (Z.of_nat (strings refs hyps' f) <= 2147483648)%Z).
    { revert Ls. assert (K := f_equal (@List.length _) (Raised.raised_bases e hyps hyps' Ra)). rewrite !map_length in K. unfold strings. now rewrite K. }
    destruct (simple qf w pn args) as [l r] eqn:Et. rewrite Instances.simple_tool in Et.
    destruct (simple qf w' pn args) as [l' r'] eqn:Et'. rewrite Instances.simple_tool in Et'. cbn [fst].
    destruct (Instances.simple_run_ids RTrans srt Hs rngs show_int show_f64 w qf pn args c refs hyps f l r Cm NB I Et Ls)
      as (id & ms & log & gs & Id & Inj & Fi & Ev & Rp).
    destruct (Instances.simple_run_ids RTrans srt Hs rngs show_int show_f64 w' qf pn args c refs hyps' f l' r' Cm NB I' Et' Ls')
      as (id' & ms' & log' & gs' & Id' & Inj' & Fi' & Ev' & Rp').
    destruct (Raised.ids_bases qf refs hyps hyps' id id' (Raised.raised_bases _ _ _ Ra) Id Id') as [Ar Ah].
    apply (Parts.evaluation_orders _ (c_lt (Results.by_id id)) _ (c_lt (Results.by_id id))) in Ev';
      [|intros h h' Ih Ih'; unfold Results.by_id; cbn [c_lt]; now rewrite (Ah h Ih), (Ah h' Ih')
       |intros x x' Ix Ix'; unfold Results.by_id; cbn [c_lt]; now rewrite (Ar x Ix), (Ar x' Ix')].
    destruct (reported_values srt _ _ _ _ _ _ _ Rp) as (v1 & v2 & v3 & v4 & Pr & V). apply renamed_values in V.
    destruct (reported_values srt _ _ _ _ _ _ _ Rp') as (v1' & v2' & v3' & v4' & Pr' & V'). apply renamed_values in V'.
    exists v1, v2, v3, v4, v1', v2', v3', v4'. split; [exact Pr|]. split; [exact Pr'|].
    unfold hyps, hyps' in *.
    assert (Ac : exists r, In r refs /\ acceptable (fun r h => trivial_scorer cmp_str cmp_str r (sc_base h)) r (Scored e s)).
    { exists e. split; [exact Ie|]. unfold acceptable. cbn [sc_base]. now rewrite trivial_same. }
    assert (Nc : ~ Added.contested (fun r h => trivial_scorer cmp_str cmp_str r (sc_base h)) refs (Scored e s) (a ++ b)).
    { intros (x & z & Ix & Iz & Ax & Az). apply (Un z Iz). apply trivial_acceptable in Ax, Az. cbn [sc_base] in Ax. congruence. }
    destruct (raised_found (Results.by_id id) (Results.by_id_total id Inj) (Results.by_id id) (Results.by_id_total id Inj) ev_query ev_query
      (evset_generic (Results.by_id id)) exact_search (Matching.finds_generic _ (Results.by_id_total id Inj))
      (fun r h => trivial_scorer cmp_str cmp_str r (sc_base h)) Parts.exact_base
      (fun r h h' B => f_equal (fun x => trivial_scorer cmp_str cmp_str r x) B) Parts.exact_local
      (fun r h => Instances.zero_one_trivial _ _ r (sc_base h))
      (fun r h A => eq_trans (f_equal (fun x => trivial_scorer cmp_str cmp_str x (sc_base h)) (trivial_acceptable r h A)) (trivial_same (sc_base h))) exact_find
      _ _ _ _ (Scored e s) (Scored e s') _ _ _ _ _ _ _ Fi Fi' eq_refl Lt Ac Nc Ev Ev') as (A1 & _).
    destruct (A1 (Raised.ap_value (cf_interp c) (cf_trapezoid c)) (fun es es' => Raised.better_ap_value _ _ es es')) as [_ A4].
    destruct (A1 Better.raw_ndcg (fun es es' B _ => Better.better_ndcg es es' B)) as [_ A6].
    destruct (proj1 V Cc) as (-> & -> & -> & ->). destruct (proj1 V' Cc) as (-> & -> & -> & ->). destruct (A4 Cs), (A6 Cs). auto.
  Qed.
End Runs.
