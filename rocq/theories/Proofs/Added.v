(** Proofs about runs with one more hypothesis. *)
From Coq Require Import String List Bool ZArith Sorted Reals Lra Lia Permutation.
From Flocq Require Import Core BinarySingleNaN.
From Verif.Model Require Import Cpp Floats Box Events EventSets Matches Matcher Scorers Assessment Bootstrap Mapper Stream Reader Options Tool.
From Verif.Spec Require Import Order Objects Sets Matching Scorers Grouping Collapse Metrics Reader Options Tool Parts Better Added.
From Verif.Proofs Require Import Queries Insert.
From Verif.Proofs Require Ndcg Curves Matching Grouping Evaluation Runs Ties Parts Raised Renumber Lifted Hoist Better Order Rescore Instances Results Metrics Collapse Mapper Sets Errors Geometry Ids Tool Scorers.
Import ListNotations.
Local Open Scope string_scope.
Local Open Scope list_scope.

Lemma selects_app {X} (P : X -> Prop) a b s s' : selects P a s -> selects P b s' -> selects P (a ++ b) (s ++ s').
Proof. induction 1; intros K; cbn [app]; auto; constructor; auto. Qed.

(** ** A hypothesis that matches nothing *)

Section Remove.
  Context {Q RE E : Type}.
  Notation HE := (scored E).
  Notation M := (match_t RE HE).
  Variable QDec : forall x y : Q, {x = y} + {x <> y}.
  Variables (ce : Cmp E) (He : total_order ce) (cr : Cmp RE) (Hr : total_order cr).
  Variables (rq : RE -> Q) (hq : E -> Q).
  Variables (S : EvSet RE HE) (R : list RE -> HE -> list RE -> Prop) (HS : finds S R).
  Variable scorer : RE -> HE -> match_error.
  Hypothesis HR : forall refs h h' l, sc_base h = sc_base h' -> R refs h l -> R refs h' l.
  Hypothesis Hsc : forall r h h', sc_base h = sc_base h' -> scorer r h = scorer r h'.

  Definition hopeless (refs : list RE) (h : HE) : Prop := forall r, In r refs -> ~ acceptable scorer r h.

  Notation eval := (evaluation (c_lt ce) (c_lt cr) rq hq R scorer).
  Notation pairs := (map (Hoist.scored_error (@sc_score E))).

  Lemma hopeless_decided taken h l t (m g : list M) : (forall r, In r l -> ~ acceptable scorer r h) -> decided scorer taken h l t m g ->
    t = [] /\ m = [make_fp h] /\ g = [].
  Proof.
    intros N D. destruct D as [before r after ms El A _ _ _|_|ms (x & I & A) _ _]; auto.
    - exfalso. apply (N r); auto. rewrite El. apply in_elt.
    - exfalso. exact (N x I A).
  Qed.

  Lemma matching_snoc refs hyps h taken (ms log : list M) : matching R scorer refs (hyps ++ [h]) taken ms log ->
    exists taken0 ms0 log0 l t m g, matching R scorer refs hyps taken0 ms0 log0 /\ R refs h l /\ decided scorer taken0 h l t m g /\
      taken = taken0 ++ t /\ ms = ms0 ++ m /\ log = log0 ++ g.
  Proof.
    intros Mt. remember (hyps ++ [h]) as hs eqn:Eh. destruct Mt as [|hs0 taken0 ms0 log0 h0 l t m g Mt Rl D]; [destruct hyps; discriminate|].
    apply app_inj_tail in Eh as [-> ->]. do 7 eexists. eauto 10.
  Qed.

  Lemma matching_remove refs a h : hopeless refs h -> forall b taken (ms log : list M), matching R scorer refs (a ++ h :: b) taken ms log ->
    exists x y, ms = x ++ make_fp h :: y /\ matching R scorer refs (a ++ b) taken (x ++ y) log.
  Proof.
    intros N b. induction b as [|z b IH] using rev_ind; intros taken ms log Mt.
    - destruct (matching_snoc _ _ _ _ _ _ Mt) as (t0 & ms0 & log0 & l & t & m & g & Mt0 & Rl & D & -> & -> & ->).
      destruct (hopeless_decided _ _ _ _ _ _ (fun r I => N r (fi_incl _ _ HS _ _ _ Rl r I)) D) as (-> & -> & ->).
      exists ms0, []. rewrite !app_nil_r. auto.
    - change (a ++ h :: b ++ [z]) with (a ++ (h :: b) ++ [z]) in Mt. rewrite app_assoc in Mt.
      destruct (matching_snoc _ _ _ _ _ _ Mt) as (t0 & ms0 & log0 & l & t & m & g & Mt0 & Rl & D & -> & -> & ->).
      destruct (IH _ _ _ Mt0) as (x & y & -> & Mt1). exists x, (y ++ m). rewrite <- app_assoc. split; [reflexivity|].
      rewrite !app_assoc. apply (next_hyp _ _ _ _ _ _ _ _ l); auto.
  Qed.

  Lemma decided_hyp taken h l t (m g : list M) : decided scorer taken h l t m g -> forall x, In x m -> m_hyp x = Some h.
  Proof. intros [before r after ms _ _ _ _ _|_|ms _ _ _] x I; [destruct I as [<-|[]]; reflexivity|destruct I as [<-|[]]; reflexivity|destruct I]. Qed.

  Lemma matching_sorted (P : HE -> HE -> Prop) refs rank taken (ms log : list M) : matching R scorer refs rank taken ms log -> StronglySorted P rank ->
    StronglySorted (fun x y => forall h h', m_hyp x = Some h -> m_hyp y = Some h' -> P h h') ms /\
    forall m, In m ms -> exists h, m_hyp m = Some h /\ In h rank.
  Proof.
    induction 1 as [|rank taken ms log h l t m g Mt IH Rl D]; intros So; [split; [constructor|intros ? []]|].
    apply Ties.sorted_app_inv in So as (S1 & _ & S2). destruct (IH S1) as [A B]. assert (Hm := decided_hyp _ _ _ _ _ _ D). split.
    - apply Ties.sorted_app; auto.
      + destruct D; repeat constructor.
      + intros x y Ix Iy h1 h2 E1 E2. destruct (B x Ix) as (h' & E' & I'). rewrite (Hm y Iy) in E2. injection E2 as <-.
        rewrite E' in E1. injection E1 as <-. apply S2; simpl; auto.
    - intros x I. apply in_app_or in I as [I|I]; [destruct (B x I) as (h' & E' & I'); exists h'|exists h]; (split; [auto|]); apply in_or_app; simpl; auto.
  Qed.

  Lemma eval_good f refs hyps (ms log : list M) groups g (P : M -> Prop) : (forall h, In h hyps -> is_finite (sc_score h) = true) ->
    (forall r h, zero_one (scorer r h)) -> eval (lit "desc") f refs hyps ms log groups -> selects P ms g ->
    Lifted.good (pairs g).
  Proof.
    intros Fi Zo Ev Sg.
    assert (Z1 : forall m, In m ms -> zero_one (m_err m)) by exact (Evaluation.eval_zero_one _ cr _ _ _ _ _ _ _ _ _ _ _ Ev Zo).
    destruct Ev as (r1 & h1 & rk & taken & found & missed & Sr & Sh & Rk & Mt & So & Mi & -> & G).
    assert (Fr : forall h, In h rk -> is_finite (sc_score h) = true).
    { intros h I. apply Fi. destruct (Evaluation.ranking_in (c_lt ce) _ _ _ Rk) as [K _]. apply K in I. now apply (Grouping.selects_in _ _ _ Sh) in I. }
    destruct Rk as [(_ & Pm & So1)|[(C & _)|(C & _)]]; [|discriminate|congruence].
    destruct (matching_sorted _ _ _ _ _ _ Mt So1) as [A B]. split.
    - apply Ties.sorted_map. apply (Ties.selects_sorted _ _ _ _ Sg). apply Ties.sorted_app.
      + revert A. apply Ties.sorted_weaken. intros x y Ix Iy K. destruct (B x Ix) as (h & E1 & _), (B y Iy) as (h' & E2 & _).
        unfold Hoist.scored_error, rank. cbn [fst]. rewrite E1, E2. exact (proj1 (K h h' E1 E2)).
      + clear. induction missed as [|m l IH]; [constructor|]. cbn [map]. constructor; [exact IH|]. apply Forall_forall. intros y I. apply in_map_iff in I as (z & <- & _). reflexivity.
      + intros x y Ix Iy. apply in_map_iff in Iy as (z & <- & _). destruct (B x Ix) as (h & E1 & I).
        unfold Hoist.scored_error, rank. cbn [fst]. rewrite E1. specialize (Fr h I). cbn. destruct (sc_score h); try discriminate; reflexivity.
    - intros p I. apply in_map_iff in I as (m & <- & I). apply (Grouping.selects_in _ _ _ Sg) in I as [I _]. split; [|exact (Z1 m I)].
      unfold Hoist.scored_error, rank. cbn [fst]. apply in_app_or in I as [I|I].
      + destruct (B m I) as (h & -> & J). apply Rescore.finite_not_nan. auto.
      + apply in_map_iff in I as (z & <- & _). reflexivity.
  Qed.

  Lemma evaluation_remove crit f refs a h b (ms log : list M) groups : hopeless refs h -> eval crit f refs (a ++ h :: b) ms log groups ->
    exists ms0 groups0, eval crit f refs (a ++ b) ms0 log groups0 /\
      ((kept f (hq (sc_base h)) /\ exists x y, ms = x ++ make_fp h :: y /\ ms0 = x ++ y) \/ (~ kept f (hq (sc_base h)) /\ ms0 = ms)).
  Proof.
    intros N (r1 & h1 & rank & taken & found & missed & Sr & Sh & Rk & Mt & So & Mi & -> & G).
    destruct (Parts.selects_split _ _ _ _ Sh) as (a1 & hb & -> & Sa & Sb).
    inversion Sb as [|? ? b1 Kh Sb1|? ? b1 Kh Sb1]; subst.
    - assert (exists u v, rank = u ++ h :: v /\ ranking (c_lt ce) crit (a1 ++ b1) (u ++ v)) as (u & v & -> & Rk').
      { destruct Rk as [(C & P & K)|[(C & P & K)|(C & C' & ->)]].
        - destruct (in_split h rank) as (u & v & ->); [apply (Permutation_in _ P), in_elt|]. exists u, v. split; [reflexivity|]. left.
          split; [exact C|]. split; [exact (Permutation_app_inv _ _ _ _ _ P)|]. exact (proj1 (Raised.sorted_remove _ _ _ _ K)).
        - destruct (in_split h rank) as (u & v & ->); [apply (Permutation_in _ P), in_elt|]. exists u, v. split; [reflexivity|]. right; left.
          split; [exact C|]. split; [exact (Permutation_app_inv _ _ _ _ _ P)|]. exact (proj1 (Raised.sorted_remove _ _ _ _ K)).
        - exists a1, b1. split; [reflexivity|]. right; right. auto. }
      destruct (matching_remove r1 u h (fun r I => N r (proj1 (proj1 (Grouping.selects_in _ _ _ Sr r) I))) v _ _ _ Mt) as (x & y & -> & Mt').
      destruct (Parts.grouping_exists QDec rq hq f ((x ++ y) ++ map make_fn missed)) as [g0 G0].
      { intros m I. destruct G as (ks & keys & F1 & _). destruct (Evaluation.Forall2_in _ _ _ F1) as [K _].
        destruct (K m) as (k & _ & Hk); [|exists k; exact Hk]. apply in_app_or in I as [I|I]; apply in_or_app; [left|now right].
        apply in_app_or in I as [I|I]; apply in_or_app; simpl; auto. }
      exists ((x ++ y) ++ map make_fn missed), g0. split; [|left; split; [exact Kh|]; exists x, (y ++ map make_fn missed); rewrite <- !app_assoc; auto].
      exists r1, (a1 ++ b1), (u ++ v), taken, (x ++ y), missed. split; [exact Sr|]. split; [now apply selects_app|]. auto 10.
    - exists (found ++ map make_fn missed), groups. split; [|right; auto].
      exists r1, (a1 ++ hb), rank, taken, found, missed. split; [exact Sr|]. split; [now apply selects_app|]. auto 10.
  Qed.

  Lemma equal_matches_refl (l : list M) : (forall m h, In m l -> m_hyp m = Some h -> is_nan (sc_score h) = false) -> Forall2 equal_matches l l.
  Proof.
    induction l as [|m l IH]; intros N; constructor; [|apply IH; intros; apply (N m0); simpl; auto].
    split; [reflexivity|]. split; [reflexivity|]. destruct (m_hyp m) as [h|] eqn:Eh; [|exact Logic.I]. split; [reflexivity|].
    apply Order.f32_eq_refl. exact (N m h (or_introl eq_refl) Eh).
  Qed.

  Lemma eval_numbers crit f refs hyps (ms log : list M) groups : (forall h, In h hyps -> is_finite (sc_score h) = true) ->
    eval crit f refs hyps ms log groups -> forall m h, In m ms -> m_hyp m = Some h -> is_finite (sc_score h) = true.
  Proof.
    intros Fi (r1 & h1 & rank & taken & found & missed & Sr & Sh & Rk & Mt & So & Mi & -> & G) m h I E1. apply Fi.
    destruct (matching_sorted (fun _ _ => True) _ _ _ _ _ Mt) as [_ B].
    { clear. induction rank; constructor; auto. apply Forall_forall. auto. }
    apply in_app_or in I as [I|I].
    - destruct (B m I) as (h' & E2 & J). rewrite E1 in E2. injection E2 as <-.
      destruct (Evaluation.ranking_in (c_lt ce) _ _ _ Rk) as [K _]. apply K in J. now apply (Grouping.selects_in _ _ _ Sh) in J.
    - apply in_map_iff in I as (z & <- & _). discriminate.
  Qed.

  (** Two evaluations of the same events. *)
  Lemma evaluation_same crit f refs hyps (ms log : list M) groups ms' log' groups' : (forall h, In h hyps -> is_finite (sc_score h) = true) ->
    eval crit f refs hyps ms log groups -> eval crit f refs hyps ms' log' groups' -> Forall2 equal_matches ms ms'.
  Proof.
    intros Fi Ev Ev'.
    assert (D : crit = lit "desc" \/ crit = lit "asc" -> Forall2 equal_matches ms ms').
    { intros C. apply (Runs.evaluations_equal ce He cr Hr rq hq S R HS scorer HR Hsc crit f refs refs hyps hyps ms log groups ms' log' groups'
        C (fun x => iff_refl _) (Permutation_refl _)); auto.
      intros h Ih. apply Rescore.finite_not_nan. now apply Fi. }
    destruct (Parts.bytes_dec crit (lit "desc")) as [C|C1]; [auto|]. destruct (Parts.bytes_dec crit (lit "asc")) as [C|C2]; [auto|]. clear D.
    assert (Nu := eval_numbers _ _ _ _ _ _ _ Fi Ev).
    enough (ms' = ms) as -> by (apply equal_matches_refl; intros m h I E1; apply Rescore.finite_not_nan; eauto). clear Nu.
    destruct Ev as (r1 & h1 & rank & taken & found & missed & Sr & Sh & Rk & Mt & So & Mi & -> & _).
    destruct Ev' as (r2 & h2 & rank' & taken' & found' & missed' & Sr' & Sh' & Rk' & Mt' & So' & Mi' & -> & _).
    rewrite (selects_fun _ _ _ _ Sr' Sr) in *. rewrite (selects_fun _ _ _ _ Sh' Sh) in *.
    destruct Rk as [(C & _)|[(C & _)|(_ & _ & ->)]]; try contradiction.
    destruct Rk' as [(C & _)|[(C & _)|(_ & _ & ->)]]; try contradiction.
    destruct (Matching.matching_unique S R HS scorer r1 r1 h1 (fun x => iff_refl _) _ _ _ _ _ _ Mt Mt') as (<- & <- & _).
    assert (missed' = missed) as ->.
    { apply (Sets.ssorted_unique (c_lt cr) (to_irrefl _ Hr)); auto.
      - intros x y z. apply (to_trans _ Hr).
      - intros x. rewrite Mi, Mi'. reflexivity. }
    reflexivity.
  Qed.

  Lemma about_equal (P : Q -> Prop) (m m' : M) : equal_matches m m' -> Parts.about rq hq P m -> Parts.about rq hq P m'.
  Proof.
    intros (E1 & E2 & E3) (q & A & B). exists q. split; [|exact B]. revert A. unfold has_query. rewrite E1.
    destruct (m_hyp m) as [h|], (m_hyp m') as [h'|]; try contradiction; auto. destruct E3 as [-> _]. auto.
  Qed.

  Lemma equal_matches_sym (m m' : M) : equal_matches m m' -> equal_matches m' m.
  Proof.
    intros (E1 & E2 & E3). split; [auto|]. split; [auto|]. destruct (m_hyp m) as [h|], (m_hyp m') as [h'|]; try contradiction; auto.
    destruct E3 as [A B]. split; [auto|]. unfold same_number in *. now rewrite Order.f32_eq_sym.
  Qed.

  Lemma selects_equal (P : Q -> Prop) (l l' : list M) : Forall2 equal_matches l l' -> forall g g',
    selects (Parts.about rq hq P) l g -> selects (Parts.about rq hq P) l' g' -> Forall2 equal_matches g g'.
  Proof.
    induction 1 as [|m m' l l' Em F IH]; intros g g' K K'; inversion K as [|? ? t Pm T|? ? t Pm T]; inversion K' as [|? ? t' Pm' T'|? ? t' Pm' T']; subst; auto.
    - exfalso. apply Pm'. exact (about_equal P m m' Em Pm).
    - exfalso. apply Pm. exact (about_equal P m' m (equal_matches_sym _ _ Em) Pm').
  Qed.

  (** The matches of some queries with and without the hypothesis. *)
  Lemma part_remove (P : Q -> Prop) crit f refs a h b (ms log : list M) groups g ms' log' groups' g' : (forall q, kept f q -> P q \/ ~ P q) ->
    (forall x, In x (a ++ b) -> is_finite (sc_score x) = true) -> hopeless refs h ->
    eval crit f refs (a ++ b) ms log groups -> selects (Parts.about rq hq P) ms g ->
    eval crit f refs (a ++ h :: b) ms' log' groups' -> selects (Parts.about rq hq P) ms' g' ->
    (exists x y, g' = x ++ make_fp h :: y /\ Forall2 equal_matches (x ++ y) g) \/ Forall2 equal_matches g' g.
  Proof.
    intros DP Fi N Ev Sg Ev' Sg'.
    destruct (evaluation_remove _ _ _ _ _ _ _ _ _ N Ev') as (ms0 & groups0 & Ev0 & C).
    assert (Em := evaluation_same _ _ _ _ _ _ _ _ _ _ Fi Ev0 Ev).
    destruct C as [(Kh & x & y & -> & ->)|(Kh & ->)]; [|right; exact (selects_equal P _ _ Em _ _ Sg' Sg)].
    destruct (Parts.selects_split _ _ _ _ Sg') as (x1 & hy & -> & Sx & Sy).
    inversion Sy as [|? ? y1 Ph Sy1|? ? y1 Ph Sy1]; subst.
    - left. exists x1, y1. split; [reflexivity|]. exact (selects_equal P _ _ Em _ _ (selects_app _ _ _ _ _ Sx Sy1) Sg).
    - right. exact (selects_equal P _ _ Em _ _ (selects_app _ _ _ _ _ Sx Sy1) Sg).
  Qed.
End Remove.

Lemma equal_errors {RE E} (l l' : list (match_t RE (scored E))) : Forall2 equal_matches l l' -> map m_err l = map m_err l'.
Proof. induction 1 as [|m m' l l' (_ & K & _) F IH]; [reflexivity|]. cbn [map]. now rewrite IH, K. Qed.

Lemma equal_pairs {RE E} (l l' : list (match_t RE (scored E))) : Forall2 equal_matches l l' ->
  map Hoist.norm (map (Hoist.scored_error sc_score) l) = map Hoist.norm (map (Hoist.scored_error sc_score) l').
Proof.
  induction 1 as [|m m' l l' (E1 & E2 & E3) F IH]; [reflexivity|]. cbn [map]. rewrite IH. f_equal. unfold Hoist.scored_error, Hoist.norm. cbn [fst snd].
  rewrite E2. f_equal. unfold rank. destruct (m_hyp m) as [h|], (m_hyp m') as [h'|]; try contradiction; [|reflexivity].
  destruct E3 as [_ K]. apply Errors.f32_eq_same in K as (_ & _ & [->|(s & s' & -> & ->)]); reflexivity.
Qed.

(** ** Means *)

Lemma means_dilute {K X X'} (Dec : forall x y : K, {x = y} + {x <> y}) (P : K -> X -> Prop) (P' : K -> X' -> Prop) (v : X -> R) (v' : X' -> R) keys keys' gs gs' :
  NoDup keys -> NoDup keys' -> incl keys keys' -> Forall2 P keys gs -> Forall2 P' keys' gs' ->
  (forall k g g', In k keys -> P k g -> P' k g' -> (v' g' <= v g)%R) ->
  (forall k g', In k keys' -> ~ In k keys -> P' k g' -> (v' g' <= 0)%R) ->
  (forall k g, In k keys -> P k g -> (0 <= v g)%R) ->
  (average (A := RArith) (map v' gs') <= average (A := RArith) (map v gs))%R.
Proof.
  intros N N' I F F' Hv Hn Hp.
  set (extra := filter (fun k => if in_dec Dec k keys then false else true) keys').
  assert (Pm : Permutation keys' (keys ++ extra)).
  { apply NoDup_Permutation; auto.
    - apply Geometry.nodup_app; auto; [now apply NoDup_filter|]. intros k A B. unfold extra in B. apply filter_In in B as [_ B]. destruct (in_dec Dec k keys); [discriminate|contradiction].
    - intros k. unfold extra. rewrite in_app_iff, filter_In. destruct (in_dec Dec k keys) as [J|J]; split; intros H; auto.
      + destruct H as [H|[H _]]; auto. }
  destruct (Ties.Forall2_perm _ _ _ Pm _ F') as (gs2 & Pg & F2).
  rewrite (Raised.average_perm _ _ (Permutation_map v' Pg)).
  apply Forall2_app_inv_l in F2 as (g1 & g2 & F1 & F2 & ->). rewrite map_app, !Raised.average_R.
  assert (L1 : List.length g1 = List.length gs) by (rewrite <- (Curves.Forall2_len _ _ _ F1); exact (Curves.Forall2_len _ _ _ F)).
  assert (S1 : (sum_of (fun x => x) (map v' g1) <= sum_of (fun x => x) (map v gs) /\ 0 <= sum_of (fun x => x) (map v gs))%R).
  { clear - F F1 Hv Hp. revert g1 F1. induction F as [|k g keys gs Hk F IH]; intros g1 F1; inversion F1 as [|? g' ? l Hk' F2]; subst; [unfold sum_of; cbn; lra|].
    destruct (IH (fun k g g' J => Hv k g g' (or_intror J)) (fun k g J => Hp k g (or_intror J)) l F2) as [A B].
    assert (C := Hv k g g' (or_introl eq_refl) Hk Hk'). assert (D := Hp k g (or_introl eq_refl) Hk).
    unfold sum_of in *. cbn [map fold_right]. lra. }
  assert (S2 : (sum_of (fun x => x) (map v' g2) <= 0)%R).
  { assert (J : forall k, In k extra -> In k keys' /\ ~ In k keys).
    { intros k J. unfold extra in J. apply filter_In in J as [J1 J2]. destruct (in_dec Dec k keys); [discriminate|auto]. }
    clear - F2 Hn J. induction F2 as [|k g l gs Hk F IH]; [unfold sum_of; cbn; lra|].
    specialize (IH (fun k I => J k (or_intror I))). destruct (J k (or_introl eq_refl)) as [J1 J2]. assert (C := Hn k g J1 J2 Hk).
    unfold sum_of in *. cbn [map fold_right]. lra. }
  assert (Ea : forall a b : list R, sum_of (fun x => x) (a ++ b) = (sum_of (fun x => x) a + sum_of (fun x => x) b)%R).
  { clear. intros a b. unfold sum_of. induction a as [|x a IH]; cbn [app fold_right]; [lra|]. rewrite IH. lra. }
  rewrite Ea, app_length, !map_length, L1, plus_INR.
  assert (Pn := pos_INR (List.length gs)). assert (Pe := pos_INR (List.length g2)).
  set (n := INR (List.length gs)) in *. set (m := INR (List.length g2)) in *. set (B := sum_of (fun x => x) (map v gs)) in *.
  set (s1 := sum_of (fun x => x) (map v' g1)) in *. set (s2 := sum_of (fun x => x) (map v' g2)) in *. clearbody s1 s2.
  assert (B0 : n = 0%R -> B = 0%R).
  { intros E0. change 0%R with (INR 0) in E0. apply INR_eq in E0. unfold B. destruct gs; [reflexivity|discriminate]. }
  clearbody n m B. destruct S1 as [A1 A2].
  assert (Cn : n = 0%R \/ (0 < n)%R) by lra. destruct Cn as [E0|Cn].
  - rewrite (B0 E0) in *. rewrite E0, Rplus_0_l. unfold Rdiv at 2. rewrite Rmult_0_l. assert (Cm : m = 0%R \/ (0 < m)%R) by lra. destruct Cm as [->|Cm].
    + unfold Rdiv. rewrite Rinv_0. lra.
    + unfold Rdiv. assert (0 < / m)%R by now apply Rinv_0_lt_compat. nra.
  - apply (Rle_trans _ (B / (n + m))).
    + unfold Rdiv. apply Rmult_le_compat_r; [|lra]. left. apply Rinv_0_lt_compat. lra.
    + unfold Rdiv. apply Rmult_le_compat_l; [lra|]. apply Rinv_le_contravar; lra.
Qed.

(** ** The statistics of no match and of any *)

Lemma value_nonneg i t cs : (forall c, In c cs -> bounded c) -> (0 <= Hoist.value i t cs)%R.
Proof.
  intros B. unfold Hoist.value, Hoist.curve. apply area_nonneg; [discriminate| |now apply recalls]. apply inter_nonneg. now apply precisions.
Qed.

Lemma ap_value_nonneg i t es : (forall e, In e es -> zero_one e) -> (0 <= Raised.ap_value i t es)%R.
Proof. intros Z1. rewrite ap_value_counts. apply value_nonneg. now apply Better.raw_bounded. Qed.

Lemma ap_value_none i t : Raised.ap_value i t [] = 0%R.
Proof. rewrite ap_value_counts. unfold Hoist.value. cbn. destruct i; reflexivity. Qed.

Lemma tvalue_nonneg i t ps : Lifted.good ps -> (0 <= Lifted.tvalue i t ps)%R.
Proof.
  intros G. apply value_nonneg. apply Hoist.collapse_bounded. intros m I. apply in_map_iff in I as (p & <- & I). apply G, I.
Qed.

Lemma tvalue_none i t : Lifted.tvalue i t [] = 0%R.
Proof. unfold Lifted.tvalue, Hoist.value. cbn. destruct i; reflexivity. Qed.

Lemma raw_ndcg_nonneg es : (forall e, In e es -> zero_one e) -> (0 <= Better.raw_ndcg es)%R.
Proof.
  intros Z1. unfold Better.raw_ndcg. rewrite Ndcg.ndcg_sum. destruct (Nat.ltb_spec 0 (references (map counts_of es))) as [P|P]; [|apply Rle_refl].
  apply Rmult_le_pos; [apply Ndcg.dsum_nonneg; [lia|now apply raw_gains]|]. left. now apply Rinv_0_lt_compat, Ndcg.z_pos.
Qed.

Lemma raw_ndcg_none : Better.raw_ndcg [] = 0%R.
Proof. reflexivity. Qed.

(** ** The statistics with a false alarm more *)

Section Alarm.
  Context {RE E : Type}.
  Notation HE := (scored E).
  Notation M := (match_t RE HE).
  Variables (ce : Cmp E) (He : total_order ce) (cr : Cmp RE) (Hr : total_order cr).
  Variables (rq : RE -> bytes) (hq : E -> bytes).
  Variables (S : EvSet RE HE) (R : list RE -> HE -> list RE -> Prop) (HS : finds S R).
  Variable scorer : RE -> HE -> match_error.
  Hypothesis HR : forall refs h h' l, sc_base h = sc_base h' -> R refs h l -> R refs h' l.
  Hypothesis Hsc : forall r h h', sc_base h = sc_base h' -> scorer r h = scorer r h'.
  Hypothesis Lo : Parts.local rq hq R.
  Hypothesis Zo : forall r h, zero_one (scorer r h).

  Notation eval := (evaluation (c_lt ce) (c_lt cr) rq hq R scorer).
  Notation pairs := (map (Hoist.scored_error (@sc_score E))).
  Notation errors := (map (@m_err RE HE)).

  Lemma matching_length refs rank taken (ms log : list M) : matching R scorer refs rank taken ms log -> (List.length ms <= List.length rank)%nat.
  Proof.
    induction 1 as [|rank taken ms log h l t m g Mt IH Rl D]; [auto|]. rewrite !app_length.
    assert (List.length m <= 1)%nat by (destruct D; cbn; lia). cbn [List.length]. lia.
  Qed.

  Lemma eval_length crit f refs hyps (ms log : list M) groups : eval crit f refs hyps ms log groups ->
    (List.length ms <= List.length refs + List.length hyps)%nat.
  Proof.
    intros (r1 & h1 & rk & taken & found & missed & Sr & Sh & Rk & Mt & So & Mi & -> & G). rewrite app_length, map_length.
    assert (L1 := matching_length _ _ _ _ _ Mt). assert (L2 := Lifted.selects_length _ _ _ Sr). assert (L3 := Lifted.selects_length _ _ _ Sh).
    assert (L4 : List.length rk = List.length h1) by (destruct Rk as [(_ & P & _)|[(_ & P & _)|(_ & _ & ->)]]; auto using Permutation_length, Permutation_sym).
    assert (L5 : (List.length missed <= List.length r1)%nat).
    { apply NoDup_incl_length; [|intros r I; now apply Mi]. apply (Ties.sorted_nodup (c_lt cr)); [apply (to_irrefl _ Hr)|exact So]. }
    lia.
  Qed.

  Lemma added_alarm crit f refs a h b (ms log : list M) gs ms' log' gs' :
    (forall x, In x (a ++ h :: b) -> is_finite (sc_score x) = true) -> hopeless scorer refs h ->
    eval crit f refs (a ++ b) ms log gs -> eval crit f refs (a ++ h :: b) ms' log' gs' ->
    (forall i t, Raised.ap_value i t (errors ms') <= Raised.ap_value i t (errors ms) /\
       average (A := RArith) (map (fun g => Raised.ap_value i t (errors g)) gs') <= average (A := RArith) (map (fun g => Raised.ap_value i t (errors g)) gs))%R /\
    (Better.raw_ndcg (errors ms') <= Better.raw_ndcg (errors ms) /\
     average (A := RArith) (map (fun g => Better.raw_ndcg (errors g)) gs') <= average (A := RArith) (map (fun g => Better.raw_ndcg (errors g)) gs))%R /\
    (crit = lit "desc" -> (Z.of_nat (List.length refs + List.length (a ++ b)) < 2 ^ 24)%Z -> forall i t,
      Lifted.tvalue i t (pairs ms') <= Lifted.tvalue i t (pairs ms) /\
      average (A := RArith) (map (fun g => Lifted.tvalue i t (pairs g)) gs') <= average (A := RArith) (map (fun g => Lifted.tvalue i t (pairs g)) gs))%R.
  Proof.
    intros Fi N Ev Ev'.
    assert (Fi0 : forall x, In x (a ++ b) -> is_finite (sc_score x) = true).
    { intros x I. apply Fi. apply in_app_or in I as [I|I]; apply in_or_app; simpl; auto. }
    assert (Z1 : forall m, In m ms -> zero_one (m_err m)) by exact (Evaluation.eval_zero_one _ cr _ _ _ _ _ _ _ _ _ _ _ Ev Zo).
    assert (Z1' : forall m, In m ms' -> zero_one (m_err m)) by exact (Evaluation.eval_zero_one _ cr _ _ _ _ _ _ _ _ _ _ _ Ev' Zo).
    destruct (Parts.evaluation_keys (c_lt ce) cr Hr rq hq S R HS scorer Lo _ _ _ _ _ _ _ Ev) as (keys & Nk & Fk & Hm & Ik).
    destruct (Parts.evaluation_keys (c_lt ce) cr Hr rq hq S R HS scorer Lo _ _ _ _ _ _ _ Ev') as (keys' & Nk' & Fk' & Hm' & Ik').
    assert (Kk : incl keys keys').
    { intros k I. apply Ik'. apply Ik in I as (q & A1 & A2 & A3). exists q. split; [auto|]. split; [auto|]. destruct A3 as [A3|(x & J & A3)]; [auto|].
      right. exists x. split; [|auto]. apply in_app_or in J as [J|J]; apply in_or_app; simpl; auto. }
    assert (Hp : forall P g g', (forall q, kept f q -> P q \/ ~ P q) -> selects (Parts.about rq hq P) ms g -> selects (Parts.about rq hq P) ms' g' ->
      (forall i t, Raised.ap_value i t (errors g') <= Raised.ap_value i t (errors g))%R /\
      (Better.raw_ndcg (errors g') <= Better.raw_ndcg (errors g))%R /\
      (crit = lit "desc" -> (Z.of_nat (List.length refs + List.length (a ++ b)) < 2 ^ 24)%Z -> forall i t,
         Lifted.tvalue i t (pairs g') <= Lifted.tvalue i t (pairs g))%R).
    { intros P g g' DP Sg Sg'.
      assert (Zg : forall e, In e (errors g) -> zero_one e).
      { intros e I. apply in_map_iff in I as (m & <- & I). apply Z1. now apply (Grouping.selects_in _ _ _ Sg) in I. }
      assert (Lg : (List.length g <= List.length refs + List.length (a ++ b))%nat).
      { assert (K := Lifted.selects_length _ _ _ Sg). assert (K' := eval_length _ _ _ _ _ _ _ Ev). lia. }
      assert (Gd : crit = lit "desc" -> Lifted.good (pairs g) /\ Lifted.good (pairs g')).
      { intros ->. split; [exact (eval_good ce cr rq hq R scorer _ _ _ _ _ _ _ _ Fi0 Zo Ev Sg)|exact (eval_good ce cr rq hq R scorer _ _ _ _ _ _ _ _ Fi Zo Ev' Sg')]. }
      destruct (part_remove Parts.bytes_dec ce He cr Hr rq hq S R HS scorer HR Hsc P crit f refs a h b ms log gs g ms' log' gs' g' DP Fi0 N Ev Sg Ev' Sg')
        as [(x & y & -> & F)|F].
      - assert (Ee := equal_errors _ _ F). rewrite map_app in Ee.
        split; [|split].
        + intros i t. rewrite <- Ee, map_app. apply alarm_ap. rewrite Ee. exact Zg.
        + rewrite <- Ee, map_app. apply alarm_ndcg. rewrite Ee. exact Zg.
        + intros C Ln i t. destruct (Gd C) as [G1 G2]. apply (more_alarm_pairs i t _ _ (Ties.unsigned (sc_score h)) G1 G2); [rewrite map_length; lia|].
          rewrite <- (equal_pairs _ _ F), !map_app. cbn [map]. symmetry. apply (Permutation_middle _ _ (Ties.unsigned (sc_score h), alarm_error)).
      - rewrite (equal_errors _ _ F). split; [intros; apply Rle_refl|]. split; [apply Rle_refl|].
        intros C Ln i t. destruct (Gd C) as [G1 G2]. right. apply Lifted.tvalue_perm; auto. now rewrite (equal_pairs _ _ F). }
    assert (Ha : forall m, In m ms -> Parts.about rq hq (fun _ => True) m).
    { intros m J. destruct (Hm m J) as (k & _ & q & A & _). exists q. auto. }
    assert (Ha' : forall m, In m ms' -> Parts.about rq hq (fun _ => True) m).
    { intros m J. destruct (Hm' m J) as (k & _ & q & A & _). exists q. auto. }
    destruct (Hp (fun _ => True) ms ms' (fun _ _ => or_introl Logic.I) (selects_all _ _ Ha) (selects_all _ _ Ha')) as (G1 & G2 & G3).
    assert (Hk : forall k g g', In k keys -> selects (fun m => match_group rq hq f m k) ms g -> selects (fun m => match_group rq hq f m k) ms' g' ->
      (forall i t, Raised.ap_value i t (errors g') <= Raised.ap_value i t (errors g))%R /\
      (Better.raw_ndcg (errors g') <= Better.raw_ndcg (errors g))%R /\
      (crit = lit "desc" -> (Z.of_nat (List.length refs + List.length (a ++ b)) < 2 ^ 24)%Z -> forall i t,
         Lifted.tvalue i t (pairs g') <= Lifted.tvalue i t (pairs g))%R).
    { intros k g g' _ Sg Sg'. exact (Hp (fun q => group_is f q k) g g' (Raised.group_dec f k) Sg Sg'). }
    assert (Hn : forall k g', In k keys' -> ~ In k keys -> selects (fun m => match_group rq hq f m k) ms' g' ->
      (forall i t, Raised.ap_value i t (errors g') <= 0)%R /\ (Better.raw_ndcg (errors g') <= 0)%R /\
      (crit = lit "desc" -> (Z.of_nat (List.length refs + List.length (a ++ b)) < 2 ^ 24)%Z -> forall i t, Lifted.tvalue i t (pairs g') <= 0)%R).
    { intros k g' _ J Sg'. assert (Sg : selects (fun m => match_group rq hq f m k) ms []).
      { apply Grouping.selects_none. intros m Im Gm. destruct (Hm m Im) as (k' & I' & Gm'). apply J.
        now rewrite (Evaluation.match_group_fun rq hq f m k k' Gm Gm'). }
      destruct (Hp (fun q => group_is f q k) [] g' (Raised.group_dec f k) Sg Sg') as (A & B & C).
      split; [intros i t; rewrite <- (ap_value_none i t); apply A|]. split; [rewrite <- raw_ndcg_none; exact B|].
      intros D Ln i t. rewrite <- (tvalue_none i t). now apply C. }
    assert (Hg : forall k g e, selects (fun m => match_group rq hq f m k) ms g -> In e (errors g) -> zero_one e).
    { intros k g e Sg I. apply in_map_iff in I as (m & <- & I). apply Z1. now apply (Grouping.selects_in _ _ _ Sg) in I. }
    split; [|split].
    - intros i t. split; [apply G1|].
      apply (means_dilute Parts.bytes_dec _ _ (fun g => Raised.ap_value i t (errors g)) (fun g => Raised.ap_value i t (errors g)) keys keys' gs gs' Nk Nk' Kk Fk Fk').
      + intros k g g' I Sg Sg'. now apply (Hk k).
      + intros k g' I J Sg'. now apply (Hn k).
      + intros k g I Sg. apply ap_value_nonneg. intros e. exact (Hg k g e Sg).
    - split; [exact G2|].
      apply (means_dilute Parts.bytes_dec _ _ (fun g => Better.raw_ndcg (errors g)) (fun g => Better.raw_ndcg (errors g)) keys keys' gs gs' Nk Nk' Kk Fk Fk').
      + intros k g g' I Sg Sg'. now apply (Hk k).
      + intros k g' I J Sg'. now apply (Hn k).
      + intros k g I Sg. apply raw_ndcg_nonneg. intros e. exact (Hg k g e Sg).
    - intros C Ln i t. split; [now apply G3|].
      apply (means_dilute Parts.bytes_dec _ _ (fun g => Lifted.tvalue i t (pairs g)) (fun g => Lifted.tvalue i t (pairs g)) keys keys' gs gs' Nk Nk' Kk Fk Fk').
      + intros k g g' I Sg Sg'. now apply (Hk k).
      + intros k g' I J Sg'. now apply (Hn k).
      + intros k g I Sg. apply tvalue_nonneg. subst crit. exact (eval_good ce cr rq hq R scorer _ _ _ _ _ _ _ _ Fi0 Zo Ev Sg).
  Qed.
End Alarm.

(** ** A hypothesis that is a reference *)

Lemma f32_tri (x y : f32) : is_finite x = true -> is_finite y = true -> f32_lt x y = false -> f32_lt y x = false -> f32_eq x y = true.
Proof.
  intros Fx Fy. unfold f32_lt, f32_eq. rewrite !Bltb_correct, Beqb_correct by assumption. intros A B.
  destruct (Rlt_bool_spec (B2R x) (B2R y)) as [C|C]; [discriminate|]. destruct (Rlt_bool_spec (B2R y) (B2R x)) as [D|D]; [discriminate|].
  apply Req_bool_true. lra.
Qed.

Section Accept.
  Context {RE E : Type}.
  Notation HE := (scored E).
  Notation M := (match_t RE HE).
  Variables (ce : Cmp E) (He : total_order ce) (cr : Cmp RE) (Hr : total_order cr).
  Variables (rq : RE -> bytes) (hq : E -> bytes).
  Variables (S : EvSet RE HE) (R : list RE -> HE -> list RE -> Prop) (HS : finds S R).
  Variable scorer : RE -> HE -> match_error.
  Hypothesis HR : forall refs h h' l, sc_base h = sc_base h' -> R refs h l -> R refs h' l.
  Hypothesis Hsc : forall r h h', sc_base h = sc_base h' -> scorer r h = scorer r h'.
  Hypothesis Lo : Parts.local rq hq R.
  Hypothesis Zo : forall r h, zero_one (scorer r h).
  Hypothesis Hac : forall r h, acceptable scorer r h -> scorer r h = hit_error.
  Hypothesis Hfind : forall refs h l r, R refs h l -> In r refs -> acceptable scorer r h -> In r l.

  Notation eval := (evaluation (c_lt ce) (c_lt cr) rq hq R scorer).
  Notation pairs := (map (Hoist.scored_error (@sc_score E))).
  Notation errors := (map (@m_err RE HE)).
  Notation query := (has_query rq (fun h : HE => hq (sc_base h))).

  Lemma ref_dec (x y : RE) : {x = y} + {x <> y}.
  Proof. destruct (c_eq cr x y) eqn:Exy; [left; now apply (to_eq _ Hr)|right; intros ->]. rewrite (proj2 (to_eq _ Hr y y) eq_refl) in Exy. discriminate. Qed.

  Lemma accept_dec r h : {acceptable scorer r h} + {~ acceptable scorer r h}.
  Proof. unfold acceptable. destruct (f32_lt (me_fp (scorer r h)) f32_1); [now left|right; discriminate]. Qed.

  Lemma logged_exists h l : exists ms, logged scorer h l ms.
  Proof. induction l as [|r l [ms K]]; [exists []; constructor|]. destruct (accept_dec r h); eexists; [apply log_yes|apply log_no]; eauto. Qed.

  Lemma first_split (x : RE) l : In x l -> exists b a, l = b ++ x :: a /\ ~ In x b.
  Proof.
    induction l as [|y l IH]; intros I; [destruct I|]. destruct (ref_dec y x) as [->|N]; [exists [], l; split; [reflexivity|intros []]|].
    destruct IH as (b & a & -> & K); [destruct I; [contradiction|assumption]|]. exists (y :: b), a. split; [reflexivity|]. intros [C|C]; contradiction.
  Qed.

  Lemma query_fun (m : M) q q' : query m q -> query m q' -> q = q'.
  Proof. unfold has_query. destruct (m_ref m), (m_hyp m); congruence || contradiction. Qed.

  (** The same hypothesis and errors, and references of one query. *)
  Definition sim (m m' : M) : Prop := m_hyp m = m_hyp m' /\ m_err m = m_err m' /\ exists q, query m q /\ query m' q.

  Definition plain (m : M) : Prop := m_err m = hit_error \/ m_err m = alarm_error.

  (** Another hypothesis is accepted by a reference that accepts this one. *)
  Definition contested (refs : list RE) (h : HE) (others : list HE) : Prop :=
    exists r z, In r refs /\ In z others /\ acceptable scorer r h /\ acceptable scorer r z.

  Lemma contested_more refs refs' h l l' : contested refs h l -> (forall r, In r refs -> In r refs') -> (forall z, In z l -> In z l') -> contested refs' h l'.
  Proof. intros (r & z & A & B & C) H H'. exists r, z. auto. Qed.

  (** What one more hypothesis does: nothing, one more reference is taken, or
      a later hypothesis has lost its reference. *)
  Inductive shifted (refs : list RE) (h : HE) (later : list HE) (taken taken' : list RE) (ms ms' : list M) : Prop :=
  | sh_none : same_elements taken taken' -> ms' = ms -> shifted refs h later taken taken' ms ms'
  | sh_open x hm u m m' : In x refs -> ~ In x taken -> same_elements taken' (x :: taken) -> rq x = hq (sc_base h) ->
      ms = u ++ m -> ms' = u ++ hm :: m' -> Forall2 sim m m' -> (forall y, In y m -> plain y) ->
      m_hyp hm = Some h -> m_err hm = hit_error -> query hm (hq (sc_base h)) -> (acceptable scorer x h \/ contested refs h later) -> shifted refs h later taken taken' ms ms'
  | sh_closed hm u m m' d w z : same_elements taken taken' ->
      ms = u ++ m ++ d :: w -> ms' = u ++ hm :: m' ++ w -> Forall2 sim m m' -> (forall y, In y m -> plain y) ->
      m_hyp hm = Some h -> m_err hm = hit_error -> query hm (hq (sc_base h)) ->
      m_hyp d = Some z -> In z later -> m_err d = hit_error -> query d (hq (sc_base h)) -> contested refs h later -> shifted refs h later taken taken' ms ms'.

  Lemma pair_query refs h l r e : R refs h l -> In r l -> query (match_pair r h e) (hq (sc_base h)).
  Proof. intros Rl I. unfold has_query. cbn. symmetry. exact (Parts.lo_query _ _ _ Lo _ _ _ _ Rl I). Qed.

  Lemma matching_shifted refs a h : (exists r, In r refs /\ acceptable scorer r h) -> forall b taken' (ms' log' : list M),
    matching R scorer refs (a ++ h :: b) taken' ms' log' ->
    exists taken ms log, matching R scorer refs (a ++ b) taken ms log /\ shifted refs h b taken taken' ms ms'.
  Proof.
    intros (r0 & I0 & A0) b. induction b as [|z b IH] using rev_ind; intros taken' ms' log' Mt.
    - destruct (matching_snoc R scorer _ _ _ _ _ _ Mt) as (t0 & ms0 & log0 & l & t & m & g & Mt0 & Rl & D & -> & -> & ->).
      exists t0, ms0, log0. rewrite app_nil_r. split; [exact Mt0|]. destruct D as [bf r af lg -> A N Bf Lg|Fa|lg Ex Al Lg].
      + assert (Ir : In r (bf ++ r :: af)) by apply in_elt.
        apply (sh_open _ _ _ _ _ _ _ r (match_pair r h (scorer r h)) ms0 [] []); auto.
        * exact (fi_incl _ _ HS _ _ _ Rl r Ir).
        * intros y. rewrite in_app_iff. cbn [In]. tauto.
        * exact (Parts.lo_query _ _ _ Lo _ _ _ _ Rl Ir).
        * now rewrite app_nil_r.
        * intros y [].
        * cbn. auto.
        * exact (pair_query _ _ _ _ _ Rl Ir).
      + exfalso. exact (Fa r0 (Hfind _ _ _ _ Rl I0 A0) A0).
      + apply sh_none; [intros y; now rewrite app_nil_r|now rewrite app_nil_r].
    - change (a ++ h :: b ++ [z]) with (a ++ (h :: b) ++ [z]) in Mt. rewrite app_assoc in Mt.
      destruct (matching_snoc R scorer _ _ _ _ _ _ Mt) as (t0 & ms0 & log0 & l & t & m & g & Mt0 & Rl & D & -> & -> & ->).
      destruct (IH _ _ _ Mt0) as (taken & ms & log & Mt1 & Sh). rewrite (app_assoc a b [z]). clear IH Mt Mt0.
      assert (More : contested refs h b -> contested refs h (b ++ [z])) by (intros C; apply (contested_more _ _ _ _ _ C); auto; intros y Iy; apply in_or_app; auto).
      assert (Here : forall y, In y refs -> acceptable scorer y z -> acceptable scorer y h \/ contested refs h b -> contested refs h (b ++ [z])).
      { intros y Iy Ay [Ah|C]; [|auto]. exists y, z. split; [exact Iy|]. split; [apply in_or_app; simpl; auto|auto]. }
      destruct Sh as [Se ->|x hm u p p' Jx Nx Se Qx -> -> Fp Pp Hh Hm Hq Ct|hm u p p' d w y Se -> -> Fp Pp Hh Hm Hq Hd Iy Ed Qd Ct].
      + exists (taken ++ t), (ms ++ m), (log ++ g). split.
        * apply (next_hyp _ _ _ _ _ _ _ _ l); auto. apply (Parts.decided_part scorer t0); [intros q _; symmetry; apply Se|exact D].
        * apply sh_none; [|reflexivity]. intros q. rewrite !in_app_iff, (Se q). reflexivity.
      + assert (Ct' : acceptable scorer x h \/ contested refs h (b ++ [z])) by (destruct Ct; auto).
        destruct D as [bf r af lg -> A N Bf Lg|Fa|lg Ex Al Lg].
        * assert (Ir : In r (bf ++ r :: af)) by apply in_elt.
          destruct (in_dec ref_dec x bf) as [Ix|Ix]; [destruct (accept_dec x z) as [Ax|Ax]|].
          -- (* the reference that was taken *)
            destruct (first_split x bf Ix) as (b1 & b2 & -> & N1). destruct (logged_exists z b1) as [lg1 Lg1].
            assert (Ixl : In x ((b1 ++ x :: b2) ++ r :: af)) by (rewrite <- app_assoc; apply in_elt).
            exists (taken ++ [x]), ((u ++ p) ++ [match_pair x z (scorer x z)]), (log ++ lg1). split.
            ++ apply (next_hyp _ _ _ _ _ _ _ _ ((b1 ++ x :: b2) ++ r :: af)); auto.
               apply (Spec.Matching.hit _ _ _ _ b1 x (b2 ++ r :: af)); auto; [now rewrite <- app_assoc|].
               intros y Iy Ay. destruct (proj1 (Se y) (Bf y (in_or_app _ _ _ (or_introl Iy)) Ay)) as [->|K]; [contradiction|exact K].
            ++ assert (Er := eq_trans (Parts.lo_query _ _ _ Lo _ _ _ _ Rl Ir) (eq_sym (Parts.lo_query _ _ _ Lo _ _ _ _ Rl Ixl))).
               apply (sh_open _ _ _ _ _ _ _ r hm u (p ++ [match_pair x z (scorer x z)]) (p' ++ [match_pair r z (scorer r z)])); auto.
               ** exact (fi_incl _ _ HS _ _ _ Rl r Ir).
               ** rewrite in_app_iff. intros [K|[K|[]]]; apply N, Se; simpl; auto.
               ** intros y. rewrite !in_app_iff, (Se y). cbn [In]. rewrite in_app_iff. cbn [In]. tauto.
               ** congruence.
               ** now rewrite <- app_assoc.
               ** now rewrite <- app_assoc.
               ** apply Forall2_app; [exact Fp|]. constructor; [|constructor]. split; [reflexivity|]. split; [cbn; now rewrite (Hac _ _ A), (Hac _ _ Ax)|].
                  exists (hq (sc_base z)). split; eapply pair_query; eauto.
               ** intros y Iy. apply in_app_or in Iy as [Iy|[<-|[]]]; [auto|]. left. exact (Hac _ _ Ax).
               ** right. exact (Here x Jx Ax Ct).
          -- exists (taken ++ [r]), ((u ++ p) ++ [match_pair r z (scorer r z)]), (log ++ lg). split.
            ++ apply (next_hyp _ _ _ _ _ _ _ _ (bf ++ r :: af)); auto.
               apply (Spec.Matching.hit _ _ _ _ bf r af); auto; [intros K; apply N, Se; now right|].
               intros y Iy Ay. destruct (proj1 (Se y) (Bf y Iy Ay)) as [<-|K]; [contradiction|exact K].
            ++ apply (sh_open _ _ _ _ _ _ _ x hm u (p ++ [match_pair r z (scorer r z)]) (p' ++ [match_pair r z (scorer r z)])); auto.
               ** rewrite in_app_iff. intros [K|[K|[]]]; [contradiction|]. apply N, Se. now left.
               ** intros y. rewrite !in_app_iff, (Se y). cbn [In]. rewrite in_app_iff. cbn [In]. tauto.
               ** now rewrite <- app_assoc.
               ** now rewrite <- app_assoc.
               ** apply Forall2_app; [exact Fp|]. constructor; [|constructor]. split; [reflexivity|]. split; [reflexivity|].
                  exists (hq (sc_base z)). split; eapply pair_query; eauto.
               ** intros y Iy. apply in_app_or in Iy as [Iy|[<-|[]]]; [auto|]. left. exact (Hac _ _ A).
          -- exists (taken ++ [r]), ((u ++ p) ++ [match_pair r z (scorer r z)]), (log ++ lg). split.
            ++ apply (next_hyp _ _ _ _ _ _ _ _ (bf ++ r :: af)); auto.
               apply (Spec.Matching.hit _ _ _ _ bf r af); auto; [intros K; apply N, Se; now right|].
               intros y Iy Ay. destruct (proj1 (Se y) (Bf y Iy Ay)) as [<-|K]; [contradiction|exact K].
            ++ apply (sh_open _ _ _ _ _ _ _ x hm u (p ++ [match_pair r z (scorer r z)]) (p' ++ [match_pair r z (scorer r z)])); auto.
               ** rewrite in_app_iff. intros [K|[K|[]]]; [contradiction|]. apply N, Se. now left.
               ** intros y. rewrite !in_app_iff, (Se y). cbn [In]. rewrite in_app_iff. cbn [In]. tauto.
               ** now rewrite <- app_assoc.
               ** now rewrite <- app_assoc.
               ** apply Forall2_app; [exact Fp|]. constructor; [|constructor]. split; [reflexivity|]. split; [reflexivity|].
                  exists (hq (sc_base z)). split; eapply pair_query; eauto.
               ** intros y Iy. apply in_app_or in Iy as [Iy|[<-|[]]]; [auto|]. left. exact (Hac _ _ A).
        * exists (taken ++ []), ((u ++ p) ++ [make_fp z]), (log ++ []). split; [apply (next_hyp _ _ _ _ _ _ _ _ l); auto; now apply false_alarm|].
          apply (sh_open _ _ _ _ _ _ _ x hm u (p ++ [make_fp z]) (p' ++ [make_fp z])); auto; rewrite ?app_nil_r; auto.
          -- now rewrite <- app_assoc.
          -- now rewrite <- app_assoc.
          -- apply Forall2_app; [exact Fp|]. constructor; [|constructor]. split; [reflexivity|]. split; [reflexivity|]. exists (hq (sc_base z)). split; reflexivity.
          -- intros y Iy. apply in_app_or in Iy as [Iy|[<-|[]]]; [auto|]. right. reflexivity.
        * destruct (in_dec ref_dec x l) as [Ix|Ix]; [destruct (accept_dec x z) as [Ax|Ax]|].
          -- destruct (first_split x l Ix) as (b1 & b2 & -> & N1). destruct (logged_exists z b1) as [lg1 Lg1].
            exists (taken ++ [x]), ((u ++ p) ++ [match_pair x z (scorer x z)]), (log ++ lg1). split.
            ++ apply (next_hyp _ _ _ _ _ _ _ _ (b1 ++ x :: b2)); auto. apply (Spec.Matching.hit _ _ _ _ b1 x b2); auto.
               intros y Iy Ay. destruct (proj1 (Se y) (Al y (in_or_app _ _ _ (or_introl Iy)) Ay)) as [->|K]; [contradiction|exact K].
            ++ rewrite !app_nil_r. apply (sh_closed _ _ _ _ _ _ _ hm u p p' (match_pair x z (scorer x z)) [] z); auto.
               ** intros y. rewrite in_app_iff, (Se y). cbn [In]. tauto.
               ** now rewrite <- app_assoc.
               ** now rewrite app_nil_r.
               ** apply in_or_app. simpl; auto.
               ** exact (Hac _ _ Ax).
               ** rewrite <- Qx. unfold has_query. reflexivity.
               ** exact (Here x Jx Ax Ct).
          -- exists (taken ++ []), ((u ++ p) ++ []), (log ++ lg). split.
            ++ apply (next_hyp _ _ _ _ _ _ _ _ l); auto. apply repeated; auto.
               intros y Iy Ay. destruct (proj1 (Se y) (Al y Iy Ay)) as [<-|K]; [contradiction|exact K].
            ++ rewrite !app_nil_r. exact (sh_open _ _ _ _ _ _ _ x hm u p p' Jx Nx Se Qx eq_refl eq_refl Fp Pp Hh Hm Hq Ct').
          -- exists (taken ++ []), ((u ++ p) ++ []), (log ++ lg). split.
            ++ apply (next_hyp _ _ _ _ _ _ _ _ l); auto. apply repeated; auto.
               intros y Iy Ay. destruct (proj1 (Se y) (Al y Iy Ay)) as [<-|K]; [contradiction|exact K].
            ++ rewrite !app_nil_r. exact (sh_open _ _ _ _ _ _ _ x hm u p p' Jx Nx Se Qx eq_refl eq_refl Fp Pp Hh Hm Hq Ct').
      + exists (taken ++ t), ((u ++ p ++ d :: w) ++ m), (log ++ g). split.
        * apply (next_hyp _ _ _ _ _ _ _ _ l); auto. apply (Parts.decided_part scorer t0); [intros q _; symmetry; apply Se|exact D].
        * apply (sh_closed _ _ _ _ _ _ _ hm u p p' d (w ++ m) y); auto.
          -- intros q. rewrite !in_app_iff, (Se q). reflexivity.
          -- now rewrite <- !app_assoc.
          -- rewrite <- app_assoc. cbn [app]. now rewrite <- app_assoc.
          -- apply in_or_app; auto.
  Qed.

  Lemma sorted_insert x l : StronglySorted (fun a b => c_lt cr a b = true) l -> ~ In x l ->
    exists p q, l = p ++ q /\ StronglySorted (fun a b => c_lt cr a b = true) (p ++ x :: q).
  Proof.
    induction 1 as [|y l So IH F]; intros N; [exists [], []; split; [reflexivity|]; repeat constructor|].
    rewrite Forall_forall in F. destruct (to_total _ Hr x y) as [L|[->|L]]; [|exfalso; apply N; now left|].
    - exists [], (y :: l). split; [reflexivity|]. constructor; [constructor; [exact So|now apply Forall_forall]|]. constructor; [exact L|].
      apply Forall_forall. intros z I. exact (to_trans _ Hr _ _ _ L (F z I)).
    - destruct IH as (p & q & -> & K); [intros C; apply N; now right|]. exists (y :: p), q. split; [reflexivity|]. cbn [app]. constructor; [exact K|].
      apply Forall_forall. intros z I. apply in_app_or in I as [I|[<-|I]]; [|exact L|]; apply F, in_or_app; auto.
  Qed.

  (** The matches without and with the hypothesis. *)
  Inductive extended (crit : bytes) (K : Prop) (h : HE) (ms ms' : list M) : Prop :=
  | ex_none : ms' = ms -> extended crit K h ms ms'
  | ex_missed hm u m m' p x q : ms = u ++ m ++ map make_fn (p ++ x :: q) -> ms' = u ++ hm :: m' ++ map make_fn (p ++ q) ->
      Forall2 sim m m' -> (forall y, In y m -> plain y) -> m_hyp hm = Some h -> m_err hm = hit_error -> query hm (hq (sc_base h)) ->
      rq x = hq (sc_base h) -> (forall y, In y (u ++ m) -> m_hyp y <> None) -> extended crit K h ms ms'
  | ex_later hm u m m' d w z : ms = u ++ m ++ d :: w -> ms' = u ++ hm :: m' ++ w ->
      Forall2 sim m m' -> (forall y, In y m -> plain y) -> m_hyp hm = Some h -> m_err hm = hit_error -> query hm (hq (sc_base h)) ->
      m_hyp d = Some z -> m_err d = hit_error -> query d (hq (sc_base h)) -> (crit = lit "desc" -> f32_lt (sc_score h) (sc_score z) = false) -> K ->
      extended crit K h ms ms'.

  Lemma matching_found refs rank taken (ms log : list M) : matching R scorer refs rank taken ms log -> forall m, In m ms -> m_hyp m <> None.
  Proof.
    intros Mt m I. destruct (matching_sorted R scorer (fun _ _ => True) _ _ _ _ _ Mt) as [_ B].
    { clear. induction rank; constructor; auto. apply Forall_forall. auto. }
    destruct (B m I) as (h & E1 & _). congruence.
  Qed.

  Lemma sim_group f (m m' : M) k : sim m m' -> match_group rq hq f m' k -> match_group rq hq f m k.
  Proof. intros (_ & _ & q & A & B) (q' & A' & G). exists q. split; [exact A|]. now rewrite (query_fun _ _ _ B A'). Qed.

  Lemma evaluation_extended crit f refs a h b (ms' log' : list M) groups' : (exists r, In r refs /\ acceptable scorer r h) ->
    eval crit f refs (a ++ h :: b) ms' log' groups' ->
    exists ms log groups, eval crit f refs (a ++ b) ms log groups /\ extended crit (contested refs h (a ++ b)) h ms ms'.
  Proof.
    intros (r & Ir & Ar) (r1 & h1 & rank & taken' & found' & missed' & Sr & Sh & Rk & Mt' & So' & Mi' & -> & G').
    destruct (Parts.selects_split _ _ _ _ Sh) as (a1 & hb & -> & Sa & Sb).
    inversion Sb as [|? ? b1 Kh Sb1|? ? b1 Kh Sb1]; subst.
    2:{ exists (found' ++ map make_fn missed'), log', groups'. split; [|now apply ex_none].
      exists r1, (a1 ++ hb), rank, taken', found', missed'. split; [exact Sr|]. split; [now apply selects_app|]. auto 10. }
    assert (Qr : rq r = hq (sc_base h)).
    { destruct (fi_run _ _ HS (es_new S) refs) as (set & _ & K). destruct (K h) as (l & _ & Rl).
      exact (Parts.lo_query _ _ _ Lo _ _ _ _ Rl (Hfind _ _ _ _ Rl Ir Ar)). }
    assert (Ir1 : In r r1) by (apply (Grouping.selects_in _ _ _ Sr); rewrite Qr; auto).
    assert (exists u v, rank = u ++ h :: v /\ ranking (c_lt ce) crit (a1 ++ b1) (u ++ v) /\
      (crit = lit "desc" -> forall z, In z v -> f32_lt (sc_score h) (sc_score z) = false)) as (u & v & -> & Rk' & Hv).
    { destruct Rk as [(C & P & K)|[(C & P & K)|(C & C' & ->)]].
      - destruct (in_split h rank) as (u & v & ->); [apply (Permutation_in _ P), in_elt|]. exists u, v. split; [reflexivity|].
        destruct (Raised.sorted_remove _ _ _ _ K) as (K1 & _ & K2). split; [|intros _ z I; apply (K2 z I)].
        left. split; [exact C|]. split; [exact (Permutation_app_inv _ _ _ _ _ P)|exact K1].
      - destruct (in_split h rank) as (u & v & ->); [apply (Permutation_in _ P), in_elt|]. exists u, v. split; [reflexivity|].
        split; [|intros C'; rewrite C in C'; discriminate]. right; left.
        split; [exact C|]. split; [exact (Permutation_app_inv _ _ _ _ _ P)|]. exact (proj1 (Raised.sorted_remove _ _ _ _ K)).
      - exists a1, b1. split; [reflexivity|]. split; [right; right; auto|]. intros C''; contradiction. }
    destruct (matching_shifted r1 u h (ex_intro _ r (conj Ir1 Ar)) v _ _ _ Mt') as (taken & found & log & Mt & Shf).
    assert (exists missed, StronglySorted (fun x y => c_lt cr x y = true) missed /\ (forall x, In x missed <-> In x r1 /\ ~ In x taken) /\
      extended crit (contested refs h (a ++ b)) h (found ++ map make_fn missed) (found' ++ map make_fn missed')) as (missed & So & Mi & Ex).
    { destruct Shf as [Se ->|x hm p m m' Jx Nx Se Qx -> -> Fp Pp Hh Hm Hq _|hm p m m' d w z Se -> -> Fp Pp Hh Hm Hq Hd Iz Ed Qd Ct].
      - exists missed'. split; [exact So'|]. split; [|now apply ex_none]. intros x. now rewrite Mi', (Se x).
      - destruct (sorted_insert x missed' So') as (p0 & q0 & -> & So); [rewrite Mi'; intros [_ C]; apply C, Se; now left|].
        exists (p0 ++ x :: q0). split; [exact So|]. split.
        + intros y. assert (K := Mi' y). rewrite in_app_iff in *. cbn [In]. rewrite (Se y) in K. cbn [In] in K.
          destruct (ref_dec x y) as [<-|Ne]; [split; [auto|intros _; right; now left]|]. tauto.
        + apply (ex_missed _ _ _ _ _ hm p m m' p0 x q0); auto; [now rewrite <- app_assoc|rewrite <- app_assoc; reflexivity|].
          exact (matching_found _ _ _ _ _ Mt).
      - exists missed'. split; [exact So'|]. split; [intros x; now rewrite Mi', (Se x)|].
        apply (ex_later _ _ _ _ _ hm p m m' d (w ++ map make_fn missed') z); auto.
        + now rewrite <- !app_assoc.
        + rewrite <- app_assoc. cbn [app]. now rewrite <- app_assoc.
        + apply (contested_more _ _ _ _ _ Ct).
          * intros y Iy. now apply (Grouping.selects_in _ _ _ Sr) in Iy.
          * intros y Iy. assert (Iy' : In y (a1 ++ b1)) by (apply (proj1 (Evaluation.ranking_in (c_lt ce) _ _ _ Rk')), in_or_app; auto).
            apply in_app_or in Iy' as [Iy'|Iy']; apply in_or_app; [left; now apply (Grouping.selects_in _ _ _ Sa) in Iy'|right; now apply (Grouping.selects_in _ _ _ Sb1) in Iy']. }
    destruct (Parts.grouping_exists Parts.bytes_dec rq hq f (found ++ map make_fn missed)) as [groups G].
    { destruct G' as (ks & keys & F1 & _). destruct (Evaluation.Forall2_in _ _ _ F1) as [K0 _].
      assert (K : forall m, In m (found' ++ map make_fn missed') -> exists k, match_group rq hq f m k) by (intros m I; destruct (K0 m I) as (k & _ & Hk); eauto).
      clear K0. intros y Iy.
      assert (Hd : forall x, In x (found' ++ map make_fn missed') -> query x (hq (sc_base h)) -> forall d, query d (hq (sc_base h)) -> exists k, match_group rq hq f d k).
      { intros x Ix Qx d Qd. destruct (K x Ix) as (k & q & Qx' & Gk). exists k, q. split; [|exact Gk]. now rewrite (query_fun _ _ _ Qx' Qx). }
      assert (Hs : forall m m', Forall2 sim m m' -> (forall x, In x m' -> In x (found' ++ map make_fn missed')) -> In y m -> exists k, match_group rq hq f y k).
      { intros m m' Fm Im Ym. destruct (Evaluation.Forall2_in _ _ _ Fm) as [J _]. destruct (J y Ym) as (y' & Iy' & Sy). destruct (K y' (Im y' Iy')) as (k & Gk).
        exists k. exact (sim_group f y y' k Sy Gk). }
      destruct Ex as [Es|hm p m m' p0 x q0 Es Es' Fp _ _ _ Hq Qx _|hm p m m' d w z Es Es' Fp _ _ _ Hq _ _ Qd _ _]; [apply K; now rewrite Es| |]; rewrite Es in Iy.
      - assert (Ih : In hm (found' ++ map make_fn missed')) by (rewrite Es'; apply in_elt).
        rewrite !in_app_iff, map_app, in_app_iff in Iy. cbn [map In] in Iy. destruct Iy as [Iy|[Iy|[Iy|[<-|Iy]]]].
        + apply K. rewrite Es'. apply in_or_app; auto.
        + apply (Hs m m' Fp); [|exact Iy]. intros z Iz. rewrite Es'. apply in_or_app. right. right. apply in_or_app; auto.
        + apply K. rewrite Es', map_app. apply in_or_app. right. right. apply in_or_app. right. apply in_or_app; auto.
        + apply (Hd hm Ih Hq). unfold has_query. cbn. now rewrite Qx.
        + apply K. rewrite Es', map_app. apply in_or_app. right. right. apply in_or_app. right. apply in_or_app; auto.
      - assert (Ih : In hm (found' ++ map make_fn missed')) by (rewrite Es'; apply in_elt).
        rewrite !in_app_iff in Iy. cbn [In] in Iy. destruct Iy as [Iy|[Iy|[<-|Iy]]].
        + apply K. rewrite Es'. apply in_or_app; auto.
        + apply (Hs m m' Fp); [|exact Iy]. intros x Ix. rewrite Es'. apply in_or_app. right. right. apply in_or_app; auto.
        + exact (Hd hm Ih Hq d Qd).
        + apply K. rewrite Es'. apply in_or_app. right. right. apply in_or_app; auto. }
    exists (found ++ map make_fn missed), log, groups. split; [|exact Ex].
    exists r1, (a1 ++ b1), (u ++ v), taken, found, missed. split; [exact Sr|]. split; [now apply selects_app|]. auto 10.
  Qed.

  Notation about P := (Parts.about rq hq P).

  Lemma sim_about (P : bytes -> Prop) (m m' : M) : sim m m' -> about P m <-> about P m'.
  Proof.
    intros (_ & _ & q & A & B). split; intros (q' & A' & K); exists q.
    - split; [exact B|]. now rewrite (query_fun _ _ _ A A').
    - split; [exact A|]. now rewrite (query_fun _ _ _ B A').
  Qed.

  Lemma selects_sim (P : bytes -> Prop) (l l' : list M) : Forall2 sim l l' -> forall g g', selects (about P) l g -> selects (about P) l' g' -> Forall2 sim g g'.
  Proof.
    induction 1 as [|m m' l l' Sm F IH]; intros g g' K K'; inversion K as [|? ? t Pm T|? ? t Pm T]; inversion K' as [|? ? t' Pm' T'|? ? t' Pm' T']; subst; auto.
    - exfalso. apply Pm'. now apply (sim_about P _ _ Sm).
    - exfalso. apply Pm. now apply (sim_about P _ _ Sm).
  Qed.

  Lemma sim_pairs (l l' : list M) : Forall2 sim l l' -> pairs l = pairs l'.
  Proof. induction 1 as [|m m' l l' (E1 & E2 & _) F IH]; [reflexivity|]. cbn [map]. rewrite IH. f_equal. unfold Hoist.scored_error, rank. now rewrite E1, E2. Qed.

  Lemma pairs_errors (l : list M) : errors l = map snd (pairs l).
  Proof. rewrite map_map. reflexivity. Qed.

  Lemma sim_errors (l l' : list M) : Forall2 sim l l' -> errors l = errors l'.
  Proof. intros F. now rewrite !pairs_errors, (sim_pairs _ _ F). Qed.

  Lemma query_about (P : bytes -> Prop) (m m' : M) q : query m q -> query m' q -> about P m -> about P m'.
  Proof. intros A B (q' & A' & K). exists q. split; [exact B|]. now rewrite (query_fun _ _ _ A A'). Qed.

  Lemma selects_transport (P : bytes -> Prop) (l l' : list M) : Forall2 equal_matches l l' -> forall g', selects (about P) l' g' -> exists g, selects (about P) l g.
  Proof.
    induction 1 as [|m m' l l' Em F IH]; intros g' K; [exists []; constructor|].
    inversion K as [|? ? t Pm T|? ? t Pm T]; subst; destruct (IH _ T) as [g Sg].
    - exists (m :: g). constructor; [|exact Sg]. exact (about_equal rq hq P m' m (equal_matches_sym _ _ Em) Pm).
    - exists g. constructor; [|exact Sg]. intros C. apply Pm. exact (about_equal rq hq P m m' Em C).
  Qed.

  Lemma part_extended (P : bytes -> Prop) crit f refs a h b ms log gs (g : list M) ms' log' gs' (g' : list M) :
    (forall x, In x (a ++ h :: b) -> is_finite (sc_score x) = true) -> (exists r, In r refs /\ acceptable scorer r h) ->
    eval crit f refs (a ++ b) ms log gs -> selects (about P) ms g ->
    eval crit f refs (a ++ h :: b) ms' log' gs' -> selects (about P) ms' g' ->
    exists g0, Forall2 equal_matches g0 g /\ (pairs g' = pairs g0 \/ extended crit (contested refs h (a ++ b)) h g0 g').
  Proof.
    intros Fi Ac V Sg V' Sg'.
    assert (Fi0 : forall x, In x (a ++ b) -> is_finite (sc_score x) = true).
    { intros x I. apply Fi. apply in_app_or in I as [I|I]; apply in_or_app; simpl; auto. }
    destruct (evaluation_extended _ _ _ _ _ _ _ _ _ Ac V') as (ms0 & log0 & gs0 & V0 & Ex).
    assert (Em := evaluation_same ce He cr Hr rq hq S R HS scorer HR Hsc _ _ _ _ _ _ _ _ _ _ Fi0 V0 V).
    destruct (selects_transport P _ _ Em _ Sg) as [g0 Sg0]. exists g0. split; [exact (selects_equal rq hq P _ _ Em _ _ Sg0 Sg)|].
    clear Em V V' V0 Sg.
    destruct Ex as [->|hm u m m' p x q -> -> Fp Pp Hh Hm Hq Qx Nf|hm u m m' d w z -> -> Fp Pp Hh Hm Hq Hd Ed Qd Lt Ct].
    - left. now rewrite (selects_fun _ _ _ _ Sg' Sg0).
    - destruct (Parts.selects_split _ _ _ _ Sg0) as (gu & s1 & -> & Su & S1). destruct (Parts.selects_split _ _ _ _ S1) as (gm & s2 & -> & Sm & S2).
      destruct (Parts.selects_split _ _ _ _ Sg') as (gu' & s1' & -> & Su' & S1'). assert (Eu := selects_fun _ _ _ _ Su' Su). subst gu'. clear Su'.
      rewrite map_app in S2. cbn [map] in S2. destruct (Parts.selects_split _ _ _ _ S2) as (gp & s3 & -> & Sp & S3).
      assert (Ix : query (make_fn x) (hq (sc_base h))) by (unfold has_query; cbn; now rewrite Qx).
      assert (Shape : forall l t, selects (about P) (map make_fn l) t -> exists l', t = map make_fn l').
      { intros l. induction l as [|y l IH]; intros t K; inversion K as [|? ? t' Py T|? ? t' Py T]; subst; [exists []; reflexivity| |auto].
        destruct (IH _ T) as [l' ->]. exists (y :: l'). reflexivity. }
      destruct (Shape _ _ Sp) as [p1 ->].
      inversion S3 as [|? ? gq Px Sq|? ? gq Px Sq]; subst;
        inversion S1' as [|? ? s2' Ph S2'|? ? s2' Ph S2']; subst.
      + destruct (Shape _ _ Sq) as [q1 ->]. destruct (Parts.selects_split _ _ _ _ S2') as (gm' & s3' & -> & Sm' & S3').
        rewrite map_app in S3'. assert (E3 := selects_fun _ _ _ _ S3' (selects_app _ _ _ _ _ Sp Sq)). subst s3'.
        right. apply (ex_missed _ _ _ _ _ hm gu gm gm' p1 x q1); auto.
        * now rewrite map_app.
        * now rewrite map_app.
        * exact (selects_sim P _ _ Fp _ _ Sm Sm').
        * intros y I. apply Pp. now apply (Grouping.selects_in _ _ _ Sm) in I.
        * intros y I. apply Nf. apply in_app_or in I as [I|I]; apply in_or_app; [left; now apply (Grouping.selects_in _ _ _ Su) in I|right; now apply (Grouping.selects_in _ _ _ Sm) in I].
      + exfalso. apply Ph. exact (query_about P _ _ _ Ix Hq Px).
      + exfalso. apply Px. exact (query_about P _ _ _ Hq Ix Ph).
      + left. destruct (Parts.selects_split _ _ _ _ S2') as (gm' & s3' & -> & Sm' & S3').
        rewrite map_app in S3'. assert (E3 := selects_fun _ _ _ _ S3' (selects_app _ _ _ _ _ Sp Sq)). subst s3'.
        rewrite !map_app, (sim_pairs _ _ (selects_sim P _ _ Fp _ _ Sm Sm')). reflexivity.
    - destruct (Parts.selects_split _ _ _ _ Sg0) as (gu & s1 & -> & Su & S1). destruct (Parts.selects_split _ _ _ _ S1) as (gm & s2 & -> & Sm & S2).
      destruct (Parts.selects_split _ _ _ _ Sg') as (gu' & s1' & -> & Su' & S1'). assert (Eu := selects_fun _ _ _ _ Su' Su). subst gu'. clear Su'.
      inversion S2 as [|? ? gq Px Sq|? ? gq Px Sq]; subst;
        inversion S1' as [|? ? s2' Ph S2'|? ? s2' Ph S2']; subst.
      + destruct (Parts.selects_split _ _ _ _ S2') as (gm' & s3' & -> & Sm' & S3').
        assert (E3 := selects_fun _ _ _ _ S3' Sq). subst s3'.
        right. apply (ex_later _ _ _ _ _ hm gu gm gm' d gq z); auto.
        * exact (selects_sim P _ _ Fp _ _ Sm Sm').
        * intros y I. apply Pp. now apply (Grouping.selects_in _ _ _ Sm) in I.
      + exfalso. apply Ph. exact (query_about P _ _ _ Qd Hq Px).
      + exfalso. apply Px. exact (query_about P _ _ _ Hq Qd Ph).
      + left. destruct (Parts.selects_split _ _ _ _ S2') as (gm' & s3' & -> & Sm' & S3').
        assert (E3 := selects_fun _ _ _ _ S3' Sq). subst s3'.
        rewrite !map_app, (sim_pairs _ _ (selects_sim P _ _ Fp _ _ Sm Sm')). reflexivity.
  Qed.

  Lemma plain_errors (m : list M) : (forall y, In y m -> plain y) -> forall e, In e (errors m) -> e = hit_error \/ e = alarm_error.
  Proof. intros Pm e I. apply in_map_iff in I as (y & <- & I). exact (Pm y I). Qed.

  Lemma extended_errors crit K h (g g' : list M) : (forall e, In e (errors g) -> zero_one e) -> extended crit K h g g' ->
    (forall i t, Raised.ap_value i t (errors g) <= Raised.ap_value i t (errors g'))%R /\ (Better.raw_ndcg (errors g) <= Better.raw_ndcg (errors g'))%R.
  Proof.
    intros Zg [->|hm u m m' p x q -> -> Fp Pp Hh Hm Hq Qx Nf|hm u m m' d w z -> -> Fp Pp Hh Hm Hq Hd Ed Qd Lt Ct].
    - split; [intros; apply Rle_refl|apply Rle_refl].
    - assert (Me : forall l : list RE, missing (map (@m_err RE HE) (map make_fn l))).
      { intros l e I. rewrite map_map in I. apply in_map_iff in I as (y & <- & _). reflexivity. }
      assert (E1 : errors (u ++ m ++ map make_fn (p ++ x :: q)) = errors u ++ errors m ++ miss_error :: errors (map make_fn (p ++ q))).
      { rewrite !map_app. do 2 f_equal. cbn [map]. clear. induction p as [|y p IH]; [reflexivity|]. cbn [map app]. rewrite IH. reflexivity. }
      assert (E2 : errors (u ++ hm :: m' ++ map make_fn (p ++ q)) = errors u ++ hit_error :: errors m ++ errors (map make_fn (p ++ q))).
      { rewrite map_app. cbn [map]. rewrite map_app, Hm, (sim_errors _ _ Fp). reflexivity. }
      rewrite E1 in *. rewrite E2. apply new_hit; [now apply plain_errors|apply Me|]. intros e I. apply Zg, in_or_app; auto.
    - assert (E1 : errors (u ++ m ++ d :: w) = errors u ++ [] ++ (errors m ++ [hit_error]) ++ errors w).
      { rewrite !map_app. cbn [map app]. rewrite Ed, <- app_assoc. reflexivity. }
      assert (E2 : errors (u ++ hm :: m' ++ w) = errors u ++ [] ++ (hit_error :: errors m) ++ errors w).
      { rewrite map_app. cbn [map app]. rewrite map_app, Hm, (sim_errors _ _ Fp). reflexivity. }
      assert (Bt : better (errors (u ++ m ++ d :: w)) (errors (u ++ hm :: m' ++ w))).
      { rewrite E1, E2. apply Better.better_app. exact (Better.better_in _ _ (better_front (errors m) (plain_errors _ Pp)) [] _). }
      split; [intros i t; now apply Raised.better_ap_value|now apply Better.better_ndcg].
  Qed.

  Lemma extended_pairs Kc h (g0 g g' : list M) : is_finite (sc_score h) = true -> (forall m x, In m g0 -> m_hyp m = Some x -> is_finite (sc_score x) = true) ->
    Forall2 equal_matches g0 g -> Lifted.good (pairs g) -> Lifted.good (pairs g') -> (Z.of_nat (List.length g) <= 2 ^ 24)%Z -> extended (lit "desc") Kc h g0 g' ->
    forall i t, i = true \/ ~ Kc -> (Lifted.tvalue i t (pairs g) <= Lifted.tvalue i t (pairs g'))%R.
  Proof.
    intros Fh Fi Em G G' Ln Ex i t Hi. assert (En := equal_pairs _ _ Em).
    destruct Ex as [->|hm u m m' p x q -> -> Fp Pp Hh Hm Hq Qx Nf|hm u m m' d w z -> -> Fp Pp Hh Hm Hq Hd Ed Qd Lt Ct].
    - right. apply Lifted.tvalue_perm; auto. now rewrite En.
    - apply (new_hit_pairs i t _ _ (Ties.unsigned (sc_score h)) (map Hoist.norm (pairs (u ++ m ++ map make_fn (p ++ q)))) G G').
      + rewrite map_length. exact Ln.
      + rewrite <- En, !map_app. cbn [map]. rewrite !app_assoc. symmetry. exact (Permutation_middle _ _ (Hoist.norm (Hoist.scored_error sc_score (make_fn x)))).
      + repeat (progress (rewrite ?map_app; cbn [map])). rewrite (sim_pairs _ _ Fp). symmetry.
        assert (Eh : Hoist.norm (Hoist.scored_error sc_score hm) = (Ties.unsigned (sc_score h), hit_error)) by (unfold Hoist.scored_error, Hoist.norm, rank; cbn [fst snd]; now rewrite Hh, Hm).
        rewrite Eh. apply Permutation_middle.
      + intros y I Ey. rewrite map_map in I. apply in_map_iff in I as (k & <- & I). rewrite app_assoc in I. apply in_app_or in I as [I|I].
        * exfalso. destruct (m_hyp k) as [z|] eqn:Ek; [|now apply (Nf k I)].
          assert (Fz : is_finite (sc_score z) = true) by (apply (Fi k z); [rewrite app_assoc; apply in_or_app; auto|exact Ek]).
          unfold Hoist.scored_error, Hoist.norm, rank in Ey. cbn [fst snd] in Ey. rewrite Ek in Ey.
          assert (Fu := Ties.fl_finite _ _ Ties.flattens_desc _ Fz). rewrite Ey in Fu. discriminate.
        * apply in_map_iff in I as (r & <- & _). reflexivity.
    - destruct Hi as [->|Hi]; [|contradiction]. apply Lifted.lifted_hit; auto. rewrite <- En.
      assert (Fz : is_finite (sc_score z) = true) by (apply (Fi d z); [apply in_or_app; right; apply in_elt|exact Hd]).
      set (s' := Ties.unsigned (sc_score h)). set (t0 := Ties.unsigned (sc_score z)).
      assert (Eh : Hoist.norm (Hoist.scored_error sc_score hm) = (s', hit_error)) by (unfold Hoist.scored_error, Hoist.norm, rank; cbn [fst snd]; now rewrite Hh, Hm).
      assert (Edd : Hoist.norm (Hoist.scored_error sc_score d) = (t0, hit_error)) by (unfold Hoist.scored_error, Hoist.norm, rank; cbn [fst snd]; now rewrite Hd, Ed).
      set (K := map Hoist.norm (pairs (u ++ m ++ w))).
      assert (Ps : Permutation (map Hoist.norm (pairs (u ++ m ++ d :: w))) ((t0, hit_error) :: K)).
      { unfold K. rewrite !map_app. cbn [map]. rewrite Edd, !app_assoc. symmetry. apply Permutation_middle. }
      assert (Ps' : Permutation (map Hoist.norm (pairs (u ++ hm :: m' ++ w))) ((s', hit_error) :: K)).
      { unfold K. repeat (progress (rewrite ?map_app; cbn [map])). rewrite Eh, (sim_pairs _ _ Fp). symmetry. apply Permutation_middle. }
      assert (Ft : is_finite t0 = true) by exact (Ties.fl_finite _ _ Ties.flattens_desc _ Fz).
      assert (Fs : is_finite s' = true) by exact (Ties.fl_finite _ _ Ties.flattens_desc _ Fh).
      assert (L1 : f32_lt s' t0 = false) by (unfold s', t0; rewrite Ties.unsigned_lt; now apply Lt).
      destruct (f32_lt t0 s') eqn:L2.
      + right. exists t0, s', K. split; [now apply Rescore.finite_not_nan|]. auto.
      + left. assert (Eq : t0 = s').
        { assert (Et := Ties.unsigned_same _ _ Ft Fs (f32_tri _ _ Ft Fs L2 L1)). unfold t0, s' in *. revert Et. generalize (sc_score z) (sc_score h). intros [] []; cbn; auto. }
        rewrite Ps, Ps', Eq. reflexivity.
  Qed.

  Lemma added_accepted crit f refs a h b (ms log : list M) gs ms' log' gs' :
    (forall x, In x (a ++ h :: b) -> is_finite (sc_score x) = true) -> (exists r, In r refs /\ acceptable scorer r h) ->
    eval crit f refs (a ++ b) ms log gs -> eval crit f refs (a ++ h :: b) ms' log' gs' ->
    (forall i t, Raised.ap_value i t (errors ms) <= Raised.ap_value i t (errors ms') /\
       average (A := RArith) (map (fun g => Raised.ap_value i t (errors g)) gs) <= average (A := RArith) (map (fun g => Raised.ap_value i t (errors g)) gs'))%R /\
    (Better.raw_ndcg (errors ms) <= Better.raw_ndcg (errors ms') /\
     average (A := RArith) (map (fun g => Better.raw_ndcg (errors g)) gs) <= average (A := RArith) (map (fun g => Better.raw_ndcg (errors g)) gs'))%R /\
    (crit = lit "desc" -> (Z.of_nat (List.length refs + List.length (a ++ b)) <= 2 ^ 24)%Z -> forall i t, i = true \/ ~ contested refs h (a ++ b) ->
      Lifted.tvalue i t (pairs ms) <= Lifted.tvalue i t (pairs ms') /\
      average (A := RArith) (map (fun g => Lifted.tvalue i t (pairs g)) gs) <= average (A := RArith) (map (fun g => Lifted.tvalue i t (pairs g)) gs'))%R.
  Proof.
    intros Fi Ac V V'.
    assert (Fi0 : forall x, In x (a ++ b) -> is_finite (sc_score x) = true).
    { intros x I. apply Fi. apply in_app_or in I as [I|I]; apply in_or_app; simpl; auto. }
    assert (Z1 : forall m, In m ms -> zero_one (m_err m)) by exact (Evaluation.eval_zero_one _ cr _ _ _ _ _ _ _ _ _ _ _ V Zo).
    destruct (Parts.evaluation_keys (c_lt ce) cr Hr rq hq S R HS scorer Lo _ _ _ _ _ _ _ V) as (keys & Nk & Fk & Hm & Ik).
    destruct (Parts.evaluation_keys (c_lt ce) cr Hr rq hq S R HS scorer Lo _ _ _ _ _ _ _ V') as (keys' & Nk' & Fk' & Hm' & Ik').
    assert (Kk : forall k, In k keys <-> In k keys').
    { intros k. rewrite Ik, Ik'. split; intros (q & A1 & A2 & A3); exists q; (split; [exact A1|]); (split; [exact A2|]); (destruct A3 as [A3|(x & J & A3)]; [now left|]).
      - right. exists x. split; [|exact A3]. apply in_app_or in J as [J|J]; apply in_or_app; simpl; auto.
      - apply in_app_or in J as [J|[J|J]].
        + right. exists x. split; [apply in_or_app; auto|exact A3].
        + left. destruct Ac as (r & Ir & Ar). exists r. split; [exact Ir|]. subst x.
          destruct (fi_run _ _ HS (es_new S) refs) as (set & _ & K). destruct (K h) as (l & _ & Rl).
          rewrite (Parts.lo_query _ _ _ Lo _ _ _ _ Rl (Hfind _ _ _ _ Rl Ir Ar)). exact A3.
        + right. exists x. split; [apply in_or_app; auto|exact A3]. }
    assert (Hp : forall P g g', selects (about P) ms g -> selects (about P) ms' g' ->
      (forall i t, Raised.ap_value i t (errors g) <= Raised.ap_value i t (errors g'))%R /\
      (Better.raw_ndcg (errors g) <= Better.raw_ndcg (errors g'))%R /\
      (crit = lit "desc" -> (Z.of_nat (List.length refs + List.length (a ++ b)) <= 2 ^ 24)%Z -> forall i t, i = true \/ ~ contested refs h (a ++ b) ->
         Lifted.tvalue i t (pairs g) <= Lifted.tvalue i t (pairs g'))%R).
    { intros P g g' Sg Sg'.
      destruct (part_extended P crit f refs a h b ms log gs g ms' log' gs' g' Fi Ac V Sg V' Sg') as (g0 & Em & C).
      assert (Ee := equal_errors _ _ Em).
      assert (Gd : crit = lit "desc" -> Lifted.good (pairs g) /\ Lifted.good (pairs g')).
      { intros ->. split; [exact (eval_good ce cr rq hq R scorer _ _ _ _ _ _ _ _ Fi0 Zo V Sg)|exact (eval_good ce cr rq hq R scorer _ _ _ _ _ _ _ _ Fi Zo V' Sg')]. }
      destruct C as [C|C].
      - assert (Ee' : errors g = errors g') by (rewrite <- Ee, !pairs_errors, C; reflexivity). rewrite Ee'.
        split; [intros; apply Rle_refl|]. split; [apply Rle_refl|]. intros D _ i t _. destruct (Gd D) as [G1 G2]. right. apply Lifted.tvalue_perm; auto.
        now rewrite C, (equal_pairs _ _ Em).
      - destruct (extended_errors crit (contested refs h (a ++ b)) h g0 g') as [A1 A2]; [|exact C|].
        { intros e I. rewrite Ee in I. apply in_map_iff in I as (m & <- & I). apply Z1. now apply (Grouping.selects_in _ _ _ Sg) in I. }
        rewrite Ee in A1, A2. split; [exact A1|]. split; [exact A2|].
        intros D Ln i t Hi. destruct (Gd D) as [G1 G2]. subst crit. apply (extended_pairs (contested refs h (a ++ b)) h g0 g g'); auto.
        + apply Fi, in_elt.
        + intros m x I Ex. destruct (Evaluation.Forall2_in _ _ _ Em) as [J _]. destruct (J m I) as (m2 & I2 & _ & _ & E3). rewrite Ex in E3.
          destruct (m_hyp m2) as [y|] eqn:E2; [|destruct E3]. destruct E3 as [_ E3].
          apply (Grouping.selects_in _ _ _ Sg) in I2 as [I2 _].
          assert (Fy := eval_numbers ce cr rq hq R scorer _ _ _ _ _ _ _ Fi0 V _ _ I2 E2).
          apply Errors.f32_eq_same in E3 as (_ & _ & [->|(s1 & s2 & -> & Es)]); [exact Fy|reflexivity].
        + assert (K := Lifted.selects_length _ _ _ Sg). assert (K' := eval_length ce cr Hr rq hq R scorer _ _ _ _ _ _ _ V). lia. }
    assert (Ha : forall m, In m ms -> about (fun _ => True) m).
    { intros m J. destruct (Hm m J) as (k & _ & q & A & _). exists q. auto. }
    assert (Ha' : forall m, In m ms' -> about (fun _ => True) m).
    { intros m J. destruct (Hm' m J) as (k & _ & q & A & _). exists q. auto. }
    destruct (Hp (fun _ => True) ms ms' (selects_all _ _ Ha) (selects_all _ _ Ha')) as (G1 & G2 & G3).
    split; [|split].
    - intros i t. split; [apply G1|].
      apply (Lifted.means_le _ _ (fun g => Raised.ap_value i t (errors g)) (fun g => Raised.ap_value i t (errors g)) keys keys' gs gs' Nk Nk' Kk Fk Fk').
      intros k g g' _ Sg Sg'. now apply (Hp (fun q => group_is f q k) g g').
    - split; [exact G2|].
      apply (Lifted.means_le _ _ (fun g => Better.raw_ndcg (errors g)) (fun g => Better.raw_ndcg (errors g)) keys keys' gs gs' Nk Nk' Kk Fk Fk').
      intros k g g' _ Sg Sg'. now apply (Hp (fun q => group_is f q k) g g').
    - intros C Ln i t Hi. split; [now apply G3|].
      apply (Lifted.means_le _ _ (fun g => Lifted.tvalue i t (pairs g)) (fun g => Lifted.tvalue i t (pairs g)) keys keys' gs gs' Nk Nk' Kk Fk Fk').
      intros k g g' _ Sg Sg'. now apply (Hp (fun q => group_is f q k) g g').
  Qed.
End Accept.

(** ** Ids *)

Lemma map_all_app {X Y S} (m : S -> X -> outcome (Y * S)) a : forall b t r t2, map_all m t (a ++ b) = Ok (r, t2) ->
  exists ra rb t1, map_all m t a = Ok (ra, t1) /\ map_all m t1 b = Ok (rb, t2) /\ r = ra ++ rb.
Proof.
  induction a as [|x a IH]; intros b t r t2 E; cbn [map_all app] in *; [exists [], r, t; auto|].
  destruct (m t x) as [[y s]| |] eqn:Em; cbn [obind] in E |- *; try discriminate.
  destruct (map_all m s (a ++ b)) as [[r' s']| |] eqn:Ea; cbn [obind] in E; try discriminate. injection E as <- <-.
  destruct (IH b s r' s' Ea) as (ra & rb & t1 & A & B & ->). exists (y :: ra), rb, t1. rewrite A. cbn [obind]. auto.
Qed.

Lemma call_known m (t : id_table) s v t' : (exists w, In (s, w) t) -> string_to_int m t s = Ok (v, t') -> t' = t.
Proof.
  intros (w & I) E. destruct (Mapper.call_table _ _ _ _ _ E) as (_ & _ & [K|(_ & N & _)]); [exact K|].
  exfalso. apply N. apply in_map_iff. now exists (s, w).
Qed.

Lemma event_known qf m t e r t' : (forall s, spells e s -> exists w, In (s, w) t) -> event_to_int qf m t e = Ok (r, t') -> t' = t.
Proof.
  intros K. assert (Kq := K _ (or_introl eq_refl)). assert (Kl := K _ (or_intror eq_refl)). unfold event_to_int. destruct qf.
  - destruct (string_to_int m t (ev_query e)) as [[q t1]| |] eqn:E1; cbn [obind]; try discriminate. apply (call_known _ _ _ _ _ Kq) in E1. subst t1.
    destruct (string_to_int m t (ev_loc e)) as [[l t2]| |] eqn:E2; cbn [obind]; try discriminate. apply (call_known _ _ _ _ _ Kl) in E2. subst t2.
    intros H. now injection H as _ <-.
  - destruct (string_to_int m t (ev_loc e)) as [[l t2]| |] eqn:E2; cbn [obind]; try discriminate. apply (call_known _ _ _ _ _ Kl) in E2. subst t2.
    destruct (string_to_int m t (ev_query e)) as [[q t1]| |] eqn:E1; cbn [obind]; try discriminate. apply (call_known _ _ _ _ _ Kq) in E1. subst t1.
    intros H. now injection H as _ <-.
Qed.

Lemma events_known qf m t l l' t' : Mapper.sound_table t -> map_all (event_to_int qf m) t l = Ok (l', t') ->
  Mapper.sound_table t' /\ incl t t' /\ forall e s, In e l -> spells e s -> exists w, In (s, w) t'.
Proof.
  intros So E. apply Ids.map_all_mapped in E. destruct (Mapper.events_table _ _ _ _ _ _ So E) as (So' & In1 & F). split; [exact So'|]. split; [exact In1|].
  clear - F. induction F as [|x x' l l' [A B] F IH]; intros e s I Sp; [destruct I|].
  destruct I as [<-|I]; [destruct Sp as [->| ->]; eauto|eauto].
Qed.

Lemma maps_equal X Y (f g : X -> Y) l : map f l = map g l -> forall x, In x l -> f x = g x.
Proof. induction l as [|a l IH]; intros E x I; [destruct I|]. injection E as E1 E2. destruct I as [<-|I]; auto. Qed.

Lemma ids_added qf refs a h b id id' :
  b = [] \/ (forall s, spells (sc_base h) s -> exists e, (In e refs \/ In e (map sc_base a)) /\ spells e s) ->
  Instances.ids_of qf refs (a ++ b) id -> Instances.ids_of qf refs (a ++ h :: b) id' ->
  (forall r, In r refs -> renamed id r = renamed id' r) /\ (forall x, In x (a ++ b) -> renamed id (sc_base x) = renamed id' (sc_base x)).
Proof.
  intros Se (t1 & t2 & M1 & M2) (t1' & t2' & M1' & M2'). rewrite M1 in M1'. injection M1' as E1 <-.
  apply Raised.map_all_scored in M2, M2'. rewrite !map_map in M2, M2'. cbn [sc_base map_scored] in M2, M2'.
  rewrite !map_app in M2, M2'. split; [exact (maps_equal _ _ _ _ _ E1)|].
  apply map_all_app in M2 as (ra & rb & ta & Ma & Mb & Er). apply map_all_app in M2' as (ra' & rb' & ta' & Ma' & Mb' & Er').
  rewrite Ma in Ma'. injection Ma' as <- <-.
  assert (La := Tool.map_all_length _ _ _ _ Ma). cbn [fst] in La. rewrite map_length in La.
  assert (Sp : forall (u u' v v' : list (event Z Z)), u ++ v = u' ++ v' -> List.length u = List.length u' -> u = u' /\ v = v').
  { clear. induction u as [|x u IH]; intros [|x' u'] v v' E L; try discriminate; [auto|]. injection E as <- E. injection L as L. destruct (IH _ _ _ E L) as [-> ->]. auto. }
  apply Sp in Er as [Ea Eb]; [|now rewrite map_length, La]. apply Sp in Er' as [Ea' Eb']; [|now rewrite map_length, La]. clear Sp.
  assert (Eab : map (fun x : scored (event bytes bytes) => renamed id (sc_base x)) a = map (fun x => renamed id' (sc_base x)) a) by congruence.
  intros x I. apply in_app_or in I as [I|I]; [exact (maps_equal _ _ _ _ _ Eab x I)|].
  destruct Se as [->|Se]; [destruct I|].
  destruct (events_known _ _ _ _ _ _ Mapper.sound_nil M1) as (S1 & _ & K1). destruct (events_known _ _ _ _ _ _ S1 Ma) as (_ & I2 & K2).
  cbn [map map_all] in Mb'. destruct (event_to_int qf Instances.int_max ta (sc_base h)) as [[y t3]| |] eqn:Eh; cbn [obind] in Mb'; try discriminate.
  apply event_known in Eh.
  2:{ intros s Sp. destruct (Se s Sp) as (e & [J|J] & Sp'); [|exact (K2 e s J Sp')]. destruct (K1 e s J Sp') as (w & J'). exists w. auto. }
  subst t3. rewrite Mb in Mb'. cbn [obind] in Mb'. injection Mb' as Mb' _. rewrite <- Mb' in Eb'. cbn [map] in Eb'. injection Eb' as _ Eb'.
  assert (Ebb : map (fun x : scored (event bytes bytes) => renamed id (sc_base x)) b = map (fun x => renamed id' (sc_base x)) b) by congruence.
  exact (maps_equal _ _ _ _ _ Ebb x I).
Qed.

(** ** Statistics *)

Section Values.
  Variable srt : sort_fn.

  (** The statistics without and with collapsing. *)
  Definition values {RE E} (c : config) (ms : list (match_t RE (scored E))) (gs : list (list (match_t RE (scored E)))) (gap vap gndcg vndcg : R) : Prop :=
    (cf_collapse c = false ->
      gap = Raised.ap_value (cf_interp c) (cf_trapezoid c) (map m_err ms) /\
      vap = average (A := RArith) (map (fun g => Raised.ap_value (cf_interp c) (cf_trapezoid c) (map m_err g)) gs) /\
      gndcg = Better.raw_ndcg (map m_err ms) /\ vndcg = average (A := RArith) (map (fun g => Better.raw_ndcg (map m_err g)) gs)) /\
    (cf_collapse c = true ->
      gap = Lifted.tvalue (cf_interp c) (cf_trapezoid c) (map (Hoist.scored_error sc_score) ms) /\
      vap = average (A := RArith) (map (fun g => Lifted.tvalue (cf_interp c) (cf_trapezoid c) (map (Hoist.scored_error sc_score) g)) gs)).

  Lemma reported_values {RE E} w c (ms log : list (match_t RE (scored E))) gs l r : Instances.reported RTrans srt w c ms log gs l r ->
    exists gap vap gndcg vndcg : R, prints (A := RArith) l gap vap gndcg vndcg /\ values c ms gs gap vap gndcg vndcg.
  Proof.
    intros Rp. destruct (Parts.reported_prints RTrans srt _ _ _ _ _ _ _ Rp) as (v1 & v2 & v4 & Pr & H1 & H2 & H4).
    do 4 eexists. split; [exact Pr|]. split; intros Cc; rewrite Cc in *.
    - rewrite Better.raw_ap_ok, Raised.ap_value_ok in H1. injection H1 as <-. rewrite Better.raw_ndcg_ok.
      apply Raised.mean_value in H2. apply Raised.mean_ndcg_value in H4. auto.
    - rewrite Lifted.ap_tvalue in H1. injection H1 as <-. apply Lifted.mean_tvalue in H2. auto.
  Qed.

  Lemma renamed_values (id : bytes -> Z) c ms gs gap vap gndcg vndcg : values c (map (renamed_match id) ms) (map (map (renamed_match id)) gs) gap vap gndcg vndcg ->
    values c ms gs gap vap gndcg vndcg.
  Proof.
    intros [Vf Vt].
    assert (En : forall x : list (match_t (event bytes bytes) (scored (event bytes bytes))), map m_err (map (renamed_match id) x) = map m_err x)
      by (intros x; rewrite map_map; reflexivity).
    assert (Ep : forall x : list (match_t (event bytes bytes) (scored (event bytes bytes))),
      map (Hoist.scored_error sc_score) (map (renamed_match id) x) = map (Hoist.scored_error sc_score) x).
    { intros x. rewrite map_map. apply map_ext. intros [y h z]. destruct h; reflexivity. }
    split; intros Cc.
    - destruct (Vf Cc) as (-> & -> & -> & ->). rewrite !En, !map_map. repeat split; f_equal; apply map_ext; intros g; now rewrite En.
    - destruct (Vt Cc) as (-> & ->). rewrite !Ep, !map_map. repeat split; f_equal; apply map_ext; intros g; now rewrite Ep.
  Qed.

  Lemma same_points_tvalue {RE HE} (score : HE -> f32) (x y : list (match_t RE HE)) i t : Ties.same_points score true x y ->
    Lifted.tvalue i t (map (Hoist.scored_error score) x) = Lifted.tvalue i t (map (Hoist.scored_error score) y).
  Proof.
    intros Sp. assert (K := Ties.same_global_ap (A := RArith) score true x y i t Sp). rewrite !Lifted.ap_tvalue in K. now injection K.
  Qed.
End Values.

(** ** The runs *)

Section Runs.
  Variables (srt : sort_fn) (Hs : sort_contract srt).
  Variables (rngs : Z -> rng) (show_int : Z -> bytes) (show_f64 : f64 -> bytes).
  Notation icdar := (icdar17 RArith RTrans srt rngs show_int show_f64).
  Notation simple := (simple_kws RArith RTrans srt rngs show_int show_f64).

  Lemma icdar_alarm w w' pn args c refs hyps hyps' f h : command args c -> no_bootstrap c ->
    inputs shaped_text scored_shaped_text w c refs hyps f -> inputs shaped_text scored_shaped_text w' c refs hyps' f ->
    added h hyps hyps' -> (forall r, In r refs -> Scorers.rejected (ioh_scorer cmp_str f32_half r (sc_base h))) ->
    exists gap vap gndcg vndcg gap' vap' gndcg' vndcg' : R,
      prints (A := RArith) (fst (icdar w pn args)) gap vap gndcg vndcg /\
      prints (A := RArith) (fst (icdar w' pn args)) gap' vap' gndcg' vndcg' /\
      (cf_collapse c = false -> gap' <= gap /\ vap' <= vap /\ gndcg' <= gndcg /\ vndcg' <= vndcg)%R /\
      (cf_collapse c = true -> cf_sort c = lit "desc" -> (Z.of_nat (List.length refs + List.length hyps) < 2 ^ 24)%Z -> gap' <= gap /\ vap' <= vap)%R.
  Proof.
    intros Cm NB I I' (a & b & -> & ->) Rj.
    destruct (icdar w pn args) as [l r] eqn:Et. destruct (icdar w' pn args) as [l' r'] eqn:Et'. cbn [fst].
    destruct (Instances.icdar_run RTrans srt Hs rngs show_int show_f64 w pn args c refs _ f l r Cm NB I Et) as (ms & log & gs & Fi & Ev & Rp).
    destruct (Instances.icdar_run RTrans srt Hs rngs show_int show_f64 w' pn args c refs _ f l' r' Cm NB I' Et') as (ms' & log' & gs' & Fi' & Ev' & Rp').
    destruct (reported_values srt _ _ _ _ _ _ _ Rp) as (v1 & v2 & v3 & v4 & Pr & Vf & Vt).
    destruct (reported_values srt _ _ _ _ _ _ _ Rp') as (v1' & v2' & v3' & v4' & Pr' & Vf' & Vt').
    exists v1, v2, v3, v4, v1', v2', v3', v4'. split; [exact Pr|]. split; [exact Pr'|].
    assert (Ho : hopeless (fun r h => ioh_scorer cmp_str f32_half r (sc_base h)) refs h).
    { intros x Ix A. unfold acceptable in A. assert (K := f_equal (fun e => f32_lt (me_fp e) f32_1) (Rj x Ix)). discriminate (eq_trans (eq_sym A) K). }
    destruct (added_alarm cmp_shaped Order.total_order_shaped cmp_shaped Order.total_order_shaped ev_query ev_query
      (evset_docbox srt cmp_str) (box_search cmp_str) (Matching.finds_docbox srt cmp_str Hs Order.total_order_str)
      (fun r h => ioh_scorer cmp_str f32_half r (sc_base h)) Runs.box_search_base
      (fun r h h' B => f_equal (fun x => ioh_scorer cmp_str f32_half r x) B) (Parts.box_local cmp_str)
      (fun r h => Instances.zero_one_ioh r (sc_base h)) _ _ _ _ _ _ _ _ _ _ _ _ Fi' Ho Ev Ev') as (A1 & A2 & A3).
    split.
    - intros Cc. destruct (Vf Cc) as (-> & -> & -> & ->). destruct (Vf' Cc) as (-> & -> & -> & ->). destruct A2. destruct (A1 (cf_interp c) (cf_trapezoid c)). auto.
    - intros Cc Cs Ln. destruct (Vt Cc) as (-> & ->). destruct (Vt' Cc) as (-> & ->). now apply A3.
  Qed.

  Lemma ioh_cases r (h : scored (event bytes docbox)) : accepted (ioh_scorer cmp_str f32_half r (sc_base h)) \/ Scorers.rejected (ioh_scorer cmp_str f32_half r (sc_base h)).
  Proof. unfold ioh_scorer. cbv zeta. destruct (_ && _); [destruct (f32_ge _ _)|]; [left|right|right]; reflexivity. Qed.

  Lemma ioh_acceptable r (h : scored (event bytes docbox)) :
    acceptable (fun r h => ioh_scorer cmp_str f32_half r (sc_base h)) r h <-> accepted (ioh_scorer cmp_str f32_half r (sc_base h)).
  Proof.
    unfold acceptable. cbv beta. split; intros A.
    - destruct (ioh_cases r h) as [K|K]; [exact K|]. assert (K' := f_equal (fun e => f32_lt (me_fp e) f32_1) K). discriminate (eq_trans (eq_sym A) K').
    - rewrite A. reflexivity.
  Qed.

  Lemma div_zero y : f32_ge (f32_div (f32_of_Z 0) y) f32_half = false.
  Proof. change (f32_of_Z 0) with (B754_zero false : f32). destruct y as [b|[]| |[] m e B]; reflexivity. Qed.

  Lemma inter_nonneg a b : (0 <= docbox_inter a b)%Z.
  Proof.
    unfold docbox_inter. destruct (str_eq _ _); [|lia]. unfold box_inter. cbv zeta. destruct (_ || _); [lia|]. unfold u32_mul, u32_wrap.
    apply Z.mod_pos_bound. reflexivity.
  Qed.

  Lemma box_find refs (h : scored (event bytes docbox)) l r : box_search cmp_str refs h l -> In r refs ->
    acceptable (fun r h => ioh_scorer cmp_str f32_half r (sc_base h)) r h -> In r l.
  Proof.
    intros (_ & K & _) Ir A. apply K. split; [exact Ir|]. apply ioh_acceptable in A. unfold accepted, ioh_scorer in A. cbv zeta in A.
    destruct (c_eq cmp_str (ev_query r) (ev_query (sc_base h)) && _) eqn:E; [|discriminate A]. apply andb_true_iff in E as [E _].
    apply (to_eq _ Order.total_order_str) in E. split; [exact E|].
    destruct (f32_ge _ _) eqn:G; [|discriminate A].
    assert (N : docbox_inter (ev_loc r) (ev_loc (sc_base h)) <> 0%Z).
    { intros C. unfold shaped_inter in G. rewrite C, div_zero in G. discriminate G. }
    unfold overlap. split; [|exact (proj2 (Z.le_neq _ _) (conj (inter_nonneg _ _) (not_eq_sym N)))].
    unfold docbox_inter in N. destruct (str_eq (db_doc (ev_loc r)) (db_doc (ev_loc (sc_base h)))) eqn:D; [|congruence].
    now apply (to_eq _ Order.total_order_str) in D.
  Qed.

  Lemma icdar_hit w w' pn args c refs hyps hyps' f h : command args c -> no_bootstrap c ->
    inputs shaped_text scored_shaped_text w c refs hyps f -> inputs shaped_text scored_shaped_text w' c refs hyps' f ->
    added h hyps hyps' -> (exists r, In r refs /\ accepted (ioh_scorer cmp_str f32_half r (sc_base h))) ->
    exists gap vap gndcg vndcg gap' vap' gndcg' vndcg' : R,
      prints (A := RArith) (fst (icdar w pn args)) gap vap gndcg vndcg /\
      prints (A := RArith) (fst (icdar w' pn args)) gap' vap' gndcg' vndcg' /\
      (cf_collapse c = false -> gap <= gap' /\ vap <= vap' /\ gndcg <= gndcg' /\ vndcg <= vndcg')%R /\
      (cf_collapse c = true -> cf_sort c = lit "desc" -> (Z.of_nat (List.length refs + List.length hyps) <= 2 ^ 24)%Z ->
        (cf_interp c = true \/ (forall r h', In r refs -> In h' hyps -> accepted (ioh_scorer cmp_str f32_half r (sc_base h)) -> ~ accepted (ioh_scorer cmp_str f32_half r (sc_base h')))) ->
        gap <= gap' /\ vap <= vap')%R.
  Proof.
    intros Cm NB I I' (a & b & -> & ->) (r0 & I0 & A0).
    destruct (icdar w pn args) as [l r] eqn:Et. destruct (icdar w' pn args) as [l' r'] eqn:Et'. cbn [fst].
    destruct (Instances.icdar_run RTrans srt Hs rngs show_int show_f64 w pn args c refs _ f l r Cm NB I Et) as (ms & log & gs & Fi & Ev & Rp).
    destruct (Instances.icdar_run RTrans srt Hs rngs show_int show_f64 w' pn args c refs _ f l' r' Cm NB I' Et') as (ms' & log' & gs' & Fi' & Ev' & Rp').
    destruct (reported_values srt _ _ _ _ _ _ _ Rp) as (v1 & v2 & v3 & v4 & Pr & Vf & Vt).
    destruct (reported_values srt _ _ _ _ _ _ _ Rp') as (v1' & v2' & v3' & v4' & Pr' & Vf' & Vt').
    exists v1, v2, v3, v4, v1', v2', v3', v4'. split; [exact Pr|]. split; [exact Pr'|].
    destruct (added_accepted cmp_shaped Order.total_order_shaped cmp_shaped Order.total_order_shaped ev_query ev_query
      (evset_docbox srt cmp_str) (box_search cmp_str) (Matching.finds_docbox srt cmp_str Hs Order.total_order_str)
      (fun r h => ioh_scorer cmp_str f32_half r (sc_base h)) Runs.box_search_base
      (fun r h h' B => f_equal (fun x => ioh_scorer cmp_str f32_half r x) B) (Parts.box_local cmp_str)
      (fun r h => Instances.zero_one_ioh r (sc_base h)) (fun r h => proj1 (ioh_acceptable r h)) box_find
      _ _ _ _ _ _ _ _ _ _ _ _ Fi' (ex_intro _ r0 (conj I0 (proj2 (ioh_acceptable r0 h) A0))) Ev Ev') as (A1 & A2 & A3).
    split.
    - intros Cc. destruct (Vf Cc) as (-> & -> & -> & ->). destruct (Vf' Cc) as (-> & -> & -> & ->). destruct A2. destruct (A1 (cf_interp c) (cf_trapezoid c)). auto.
    - intros Cc Cs Ln Ci. destruct (Vt Cc) as (-> & ->). destruct (Vt' Cc) as (-> & ->). apply A3; auto. destruct Ci as [Ci|Ci]; [now left|right].
      intros (r1 & z & J1 & J2 & J3 & J4). apply (Ci r1 z J1 J2); now apply ioh_acceptable.
  Qed.

  Lemma trivial_acceptable r (h : scored (event bytes bytes)) :
    acceptable (fun r h => trivial_scorer cmp_str cmp_str r (sc_base h)) r h -> r = sc_base h.
  Proof.
    intros A. unfold acceptable in A. cbv beta in A. destruct r as [q l], (sc_base h) as [q' l'] eqn:Eb. unfold trivial_scorer in A. cbn [ev_query ev_loc] in A.
    destruct (c_eq cmp_str l l' && c_eq cmp_str q q') eqn:E; [|discriminate A].
    apply andb_true_iff in E as [E1 E2]. apply (to_eq _ Order.total_order_str) in E1, E2. now subst.
  Qed.

  Lemma trivial_same (e : event bytes bytes) : trivial_scorer cmp_str cmp_str e e = hit_error.
  Proof.
    unfold trivial_scorer. rewrite !(proj2 (to_eq _ Order.total_order_str _ _) eq_refl). reflexivity.
  Qed.

  Lemma exact_find refs (h : scored (event bytes bytes)) l r : exact_search refs h l -> In r refs ->
    acceptable (fun r h => trivial_scorer cmp_str cmp_str r (sc_base h)) r h -> In r l.
  Proof. intros K Ir A. apply trivial_acceptable in A. subst r. destruct K as [[_ ->]|[N _]]; [now left|contradiction]. Qed.

  Lemma trivial_hopeless refs (h : scored (event bytes bytes)) : ~ In (sc_base h) refs ->
    hopeless (fun r h => trivial_scorer cmp_str cmp_str r (sc_base h)) refs h.
  Proof.
    intros N r Ir A. apply trivial_acceptable in A. now subst r.
  Qed.

  Lemma orders_agree (id id' : bytes -> Z) refs hyps crit f ms log gs :
    (forall r, In r refs -> renamed id r = renamed id' r) -> (forall x, In x hyps -> renamed id (sc_base x) = renamed id' (sc_base x)) ->
    simple_evaluation id crit f refs hyps ms log gs -> simple_evaluation id' crit f refs hyps ms log gs.
  Proof.
    intros Ar Ah. apply Parts.evaluation_orders.
    - intros x x' Ix Ix'. now rewrite (Ah x Ix), (Ah x' Ix').
    - intros x x' Ix Ix'. now rewrite (Ar x Ix), (Ar x' Ix').
  Qed.

  Lemma strings_added refs (a b : list (scored (event bytes bytes))) h (f : query_file bytes) :
    (strings refs (a ++ b) f <= strings (X := event bytes bytes) refs (a ++ h :: b) f)%nat.
  Proof. unfold strings. rewrite !app_length. cbn [List.length]. lia. Qed.

  Lemma simple_added qf w w' pn args c refs a h b f : command args c -> no_bootstrap c ->
    inputs str_event_text scored_str_event_text w c refs (a ++ b) f -> inputs str_event_text scored_str_event_text w' c refs (a ++ h :: b) f ->
    (Z.of_nat (strings refs (a ++ h :: b) f) <= 2147483648)%Z ->
    exists id id' ms log gs ms' log' gs' (gap vap gndcg vndcg gap' vap' gndcg' vndcg' : R),
      prints (A := RArith) (fst (simple qf w pn args)) gap vap gndcg vndcg /\
      prints (A := RArith) (fst (simple qf w' pn args)) gap' vap' gndcg' vndcg' /\
      values c ms gs gap vap gndcg vndcg /\ values c ms' gs' gap' vap' gndcg' vndcg' /\
      (forall s s', id s = id s' -> s = s') /\ (forall s s', id' s = id' s' -> s = s') /\
      Instances.ids_of qf refs (a ++ b) id /\ Instances.ids_of qf refs (a ++ h :: b) id' /\
      (forall x, In x (a ++ h :: b) -> is_finite (sc_score x) = true) /\
      simple_evaluation id (cf_sort c) f refs (a ++ b) ms log gs /\ simple_evaluation id' (cf_sort c) f refs (a ++ h :: b) ms' log' gs'.
  Proof.
    intros Cm NB I I' Ls'. assert (Ls : (Z.of_nat (strings refs (a ++ b) f) <= 2147483648)%Z) by (assert (K := strings_added refs a b h f); lia).
    destruct (simple qf w pn args) as [l r] eqn:Et. rewrite Instances.simple_tool in Et.
    destruct (simple qf w' pn args) as [l' r'] eqn:Et'. rewrite Instances.simple_tool in Et'. cbn [fst].
    destruct (Instances.simple_run_ids RTrans srt Hs rngs show_int show_f64 w qf pn args c refs _ f l r Cm NB I Et Ls)
      as (id & ms & log & gs & Id & Inj & Fi & Ev & Rp).
    destruct (Instances.simple_run_ids RTrans srt Hs rngs show_int show_f64 w' qf pn args c refs _ f l' r' Cm NB I' Et' Ls')
      as (id' & ms' & log' & gs' & Id' & Inj' & Fi' & Ev' & Rp').
    destruct (reported_values srt _ _ _ _ _ _ _ Rp) as (v1 & v2 & v3 & v4 & Pr & V). apply renamed_values in V.
    destruct (reported_values srt _ _ _ _ _ _ _ Rp') as (v1' & v2' & v3' & v4' & Pr' & V'). apply renamed_values in V'.
    exists id, id', ms, log, gs, ms', log', gs', v1, v2, v3, v4, v1', v2', v3', v4'. repeat (split; [assumption|]). assumption.
  Qed.

  Lemma simple_alarm qf w w' pn args c refs hyps hyps' f h : command args c -> no_bootstrap c ->
    inputs str_event_text scored_str_event_text w c refs hyps f -> inputs str_event_text scored_str_event_text w' c refs hyps' f ->
    (Z.of_nat (strings refs hyps' f) <= 2147483648)%Z -> added h hyps hyps' -> ~ In (sc_base h) refs ->
    exists gap vap gndcg vndcg gap' vap' gndcg' vndcg' : R,
      prints (A := RArith) (fst (simple qf w pn args)) gap vap gndcg vndcg /\
      prints (A := RArith) (fst (simple qf w' pn args)) gap' vap' gndcg' vndcg' /\
      (cf_collapse c = false -> gap' <= gap /\ vap' <= vap /\ gndcg' <= gndcg /\ vndcg' <= vndcg)%R /\
      (cf_collapse c = true -> cf_sort c = lit "desc" -> (Z.of_nat (List.length refs + List.length hyps) < 2 ^ 24)%Z -> gap' <= gap /\ vap' <= vap)%R.
  Proof.
    intros Cm NB I I' Ls (a & b & -> & ->) N.
    destruct (simple_added qf w w' pn args c refs a h b f Cm NB I I' Ls)
      as (id & id' & ms & log & gs & ms' & log' & gs' & v1 & v2 & v3 & v4 & v1' & v2' & v3' & v4' & Pr & Pr' & V & V' & Inj & Inj' & Id & Id' & Fi & Ev & Ev').
    assert (Fi0 : forall x, In x (a ++ b) -> is_finite (sc_score x) = true).
    { intros x J. apply Fi. apply in_app_or in J as [J|J]; apply in_or_app; simpl; auto. }
    exists v1, v2, v3, v4, v1', v2', v3', v4'. split; [exact Pr|]. split; [exact Pr'|].
    assert (Ho := trivial_hopeless _ _ N).
    destruct (evaluation_remove Parts.bytes_dec (Results.by_id id') (Results.by_id id') ev_query ev_query (evset_generic (Results.by_id id')) exact_search
      (Matching.finds_generic _ (Results.by_id_total id' Inj')) (fun r h => trivial_scorer cmp_str cmp_str r (sc_base h)) _ _ _ _ _ _ _ _ _ Ho Ev') as (ms0 & gs0 & Ev0 & _).
    destruct (added_alarm (Results.by_id id') (Results.by_id_total id' Inj') (Results.by_id id') (Results.by_id_total id' Inj') ev_query ev_query
      (evset_generic (Results.by_id id')) exact_search (Matching.finds_generic _ (Results.by_id_total id' Inj'))
      (fun r h => trivial_scorer cmp_str cmp_str r (sc_base h)) Parts.exact_base
      (fun r h h' B => f_equal (fun x => trivial_scorer cmp_str cmp_str r x) B) Parts.exact_local
      (fun r h => Instances.zero_one_trivial _ _ r (sc_base h)) _ _ _ _ _ _ _ _ _ _ _ _ Fi Ho Ev0 Ev') as (A1 & A2 & A3).
    split.
    - intros Cc. destruct (Renumber.ids_clip qf refs _ _ id id' Id Id') as (n & Kr & Kh).
      destruct (Renumber.evaluations_renumbered id id' Inj Inj' n (cf_sort c) f refs (a ++ b) (a ++ b) ms log gs ms0 log' gs0 Fi0
        (fun r s J Sp => proj1 (Kr r s J Sp))) as (Es & gp & Pg & Fg); [|now right|exact Ev|exact Ev0|].
      { intros x s J Sp. assert (J' : In x (a ++ h :: b)) by (apply in_app_or in J as [J|J]; apply in_or_app; simpl; auto). exact (Kh x x s J Sp J' Sp). }
      destruct (proj1 V Cc) as (-> & -> & -> & ->). destruct (proj1 V' Cc) as (-> & -> & -> & ->).
      destruct A2 as [B3 B4]. destruct (A1 (cf_interp c) (cf_trapezoid c)) as [B1 B2].
      assert (Av : forall v : list match_error -> R, average (A := RArith) (map (fun g => v (map m_err g)) gs) = average (A := RArith) (map (fun g => v (map m_err g)) gs0)).
      { intros v. rewrite (Raised.average_perm _ _ (Permutation_map (fun g => v (map m_err g)) Pg)). f_equal.
        clear - Fg. induction Fg as [|g g' gp gs0 E F IH]; [reflexivity|]. cbn [map]. rewrite E. f_equal. exact IH. }
      rewrite Es, !Av. auto.
    - intros Cc Cs Ln. destruct (A3 Cs Ln (cf_interp c) (cf_trapezoid c)) as [B1 B2].
      destruct (Ties.evaluations_ties id id' _ _ refs refs _ (a ++ b) ms log gs ms0 log' gs0 (or_introl Cs) Inj Inj' (fun x => iff_refl _)
        (Permutation_refl _) Fi0 Ev Ev0) as (Sp & gp & Pg & Fg).
      destruct (proj2 V Cc) as (-> & ->). destruct (proj2 V' Cc) as (-> & ->).
      rewrite (same_points_tvalue sc_score ms ms0 _ _ Sp). split; [exact B1|].
      eapply Rle_trans; [exact B2|]. right. rewrite (Raised.average_perm _ _ (Permutation_map _ Pg)). f_equal.
      clear - Fg. induction Fg as [|g g' gp gs0 E F IH]; [reflexivity|]. cbn [map]. f_equal; [|exact IH]. symmetry. exact (same_points_tvalue sc_score g g' _ _ E).
  Qed.

  Lemma simple_hit qf w w' pn args c refs hyps hyps' f h : command args c -> no_bootstrap c ->
    inputs str_event_text scored_str_event_text w c refs hyps f -> inputs str_event_text scored_str_event_text w' c refs hyps' f ->
    (Z.of_nat (strings refs hyps' f) <= 2147483648)%Z -> added h hyps hyps' -> In (sc_base h) refs ->
    exists gap vap gndcg vndcg gap' vap' gndcg' vndcg' : R,
      prints (A := RArith) (fst (simple qf w pn args)) gap vap gndcg vndcg /\
      prints (A := RArith) (fst (simple qf w' pn args)) gap' vap' gndcg' vndcg' /\
      (cf_collapse c = false -> gap <= gap' /\ vap <= vap' /\ gndcg <= gndcg' /\ vndcg <= vndcg')%R /\
      (cf_collapse c = true -> cf_sort c = lit "desc" -> (Z.of_nat (List.length refs + List.length hyps) <= 2 ^ 24)%Z ->
        (cf_interp c = true \/ ~ In (sc_base h) (map sc_base hyps)) -> gap <= gap' /\ vap <= vap')%R.
  Proof.
    intros Cm NB I I' Ls (a & b & -> & ->) N.
    destruct (simple_added qf w w' pn args c refs a h b f Cm NB I I' Ls)
      as (id & id' & ms & log & gs & ms' & log' & gs' & v1 & v2 & v3 & v4 & v1' & v2' & v3' & v4' & Pr & Pr' & V & V' & Inj & Inj' & Id & Id' & Fi & Ev & Ev').
    destruct (ids_added qf refs a h b id id') as [Ar Ah]; auto.
    { right. intros s Sp. exists (sc_base h). auto. }
    apply (orders_agree id id') in Ev; auto.
    exists v1, v2, v3, v4, v1', v2', v3', v4'. split; [exact Pr|]. split; [exact Pr'|].
    destruct (added_accepted (Results.by_id id') (Results.by_id_total id' Inj') (Results.by_id id') (Results.by_id_total id' Inj') ev_query ev_query
      (evset_generic (Results.by_id id')) exact_search (Matching.finds_generic (Results.by_id id') (Results.by_id_total id' Inj'))
      (fun r h => trivial_scorer cmp_str cmp_str r (sc_base h)) Parts.exact_base
      (fun r h h' B => f_equal (fun x => trivial_scorer cmp_str cmp_str r x) B) Parts.exact_local
      (fun r h => Instances.zero_one_trivial cmp_str cmp_str r (sc_base h))
      (fun r h A => eq_trans (f_equal (fun x => trivial_scorer cmp_str cmp_str x (sc_base h)) (trivial_acceptable r h A)) (trivial_same (sc_base h))) exact_find
      _ _ _ _ _ _ _ _ _ _ _ _ Fi (ex_intro _ (sc_base h) (conj N (f_equal (fun e => f32_lt (me_fp e) f32_1) (trivial_same (sc_base h))))) Ev Ev') as (A1 & A2 & A3).
    split.
    - intros Cc. destruct (proj1 V Cc) as (-> & -> & -> & ->). destruct (proj1 V' Cc) as (-> & -> & -> & ->).
      destruct A2. destruct (A1 (cf_interp c) (cf_trapezoid c)). auto.
    - intros Cc Cs Ln Ci. destruct (proj2 V Cc) as (-> & ->). destruct (proj2 V' Cc) as (-> & ->). apply A3; auto. destruct Ci as [Ci|Ci]; [now left|right].
      intros (r1 & z & _ & J2 & J3 & J4). apply trivial_acceptable in J3, J4. apply Ci. rewrite <- J3, J4. now apply in_map.
  Qed.
End Runs.
