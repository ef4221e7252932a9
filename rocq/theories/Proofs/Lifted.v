(** Runs with collapsing in which one hypothesis has a higher score. *)
From Coq Require Import Ascii String List Bool ZArith Reals Lia Lra Permutation Sorted.
From Flocq Require Import Core BinarySingleNaN.
From Verif.Model Require Import Cpp Floats Events EventSets Matches Matcher Scorers Assessment Bootstrap Mapper Stream
  Reader Options Tool.
From Verif.Spec Require Import Order Sets Matching Grouping Collapse Metrics Curves Reader Options Tool Parts Better.
From Verif.Proofs Require Import Queries.
From Verif.Proofs Require Order Sets Matching Grouping Evaluation Finish Instances Runs Ties Rescore Results Curves Parts Collapse Better Hoist Raised.
Import ListNotations.
Local Open Scope string_scope.
Local Open Scope list_scope.

Notation SE := (f32 * match_error)%type.

(** ** Scores and errors of a ranking *)

(** Equal, or one match has a higher score. *)
Definition lifted (x : match_error) (ps ps' : list SE) : Prop :=
  Permutation ps ps' \/ exists s s' rest, is_nan s' = false /\ f32_lt s s' = true /\ Permutation ps ((s, x) :: rest) /\ Permutation ps' ((s', x) :: rest).

Lemma lifted_app x a b c d : lifted x b c -> lifted x (a ++ b ++ d) (a ++ c ++ d).
Proof.
  intros [H|(s & s' & r & N & L & H & H')]; [left; now rewrite H|right]. exists s, s', (a ++ r ++ d). split; [exact N|]. split; [exact L|].
  rewrite H, H'. cbn [app]. split; apply Permutation_sym, Permutation_middle.
Qed.

Section Errors.
  Context {E : Type} (Dec : forall x y : E, {x = y} + {x <> y}).
  Variable refs : list E.
  Notation H := (scored E).
  Notation err1 := (Raised.err1 Dec refs).

  Definition serr1 (seen : list E) (h : H) : list SE := map (fun e => (sc_score h, e)) (err1 seen (sc_base h)).

  Fixpoint serrs (seen : list E) (l : list H) : list SE :=
    match l with [] => [] | h :: t => serr1 seen h ++ serrs (sc_base h :: seen) t end.

  Lemma serr1_seen s s' h : (In (sc_base h) s <-> In (sc_base h) s') -> serr1 s h = serr1 s' h.
  Proof. intros K. unfold serr1. now rewrite (Raised.err1_seen Dec refs s s'). Qed.

  Lemma serrs_seen l : forall s s', (forall h, In h l -> In (sc_base h) s <-> In (sc_base h) s') -> serrs s l = serrs s' l.
  Proof.
    induction l as [|h l IH]; intros s s' K; [reflexivity|]. cbn [serrs]. rewrite (serr1_seen s s' h) by (apply K; now left). f_equal.
    apply IH. intros x I. cbn [In]. now rewrite (K x) by now right.
  Qed.

  Lemma serrs_app a : forall s b, serrs s (a ++ b) = serrs s a ++ serrs (rev (map sc_base a) ++ s) b.
  Proof.
    induction a as [|x a IH]; intros s b; [reflexivity|]. cbn [app serrs rev map]. rewrite IH, <- !app_assoc. reflexivity.
  Qed.

  Definition nrm (h : H) : H := Scored (sc_base h) (Ties.unsigned (sc_score h)).

  Lemma serrs_norm l : forall s, map Hoist.norm (serrs s l) = serrs s (map nrm l).
  Proof.
    induction l as [|h l IH]; intros s; [reflexivity|]. cbn [serrs map]. rewrite map_app, IH. f_equal. unfold serr1. rewrite map_map. reflexivity.
  Qed.

  Lemma rules_serrs (rank : list H) ms log : first_rules refs rank ms log -> map (Hoist.scored_error sc_score) ms = serrs [] rank.
  Proof.
    induction 1 as [|rank ms log h m g _ IH K]; [reflexivity|]. rewrite map_app, IH, serrs_app. f_equal. cbn [map serrs]. rewrite !app_nil_r.
    assert (Q : In (sc_base h) (rev (map sc_base rank)) <-> exists h', In h' rank /\ sc_base h' = sc_base h).
    { rewrite <- in_rev, in_map_iff. split; intros (x & A & B); eauto. }
    unfold serr1, Raised.err1. destruct K as [A B|A B|A]; destruct (in_dec Dec (sc_base h) refs) as [I|I]; try contradiction;
      try destruct (in_dec Dec (sc_base h) (rev (map sc_base rank))) as [J|J]; try reflexivity.
    - apply Q in J as (h' & J & L). destruct (B h' J L).
    - destruct (J (proj2 Q B)).
  Qed.

  Definition sfalls (l : list H) : Prop := StronglySorted (fun a b => f32_lt (sc_score a) (sc_score b) = false) l.
  Definition pfalls (l : list SE) : Prop := StronglySorted (fun a b => f32_lt (fst a) (fst b) = false) l.

  Lemma serrs_in l : forall s p, In p (serrs s l) -> exists h, In h l /\ fst p = sc_score h.
  Proof.
    induction l as [|h l IH]; intros s p I; [destruct I|]. cbn [serrs] in I. apply in_app_or in I as [I|I].
    - apply in_map_iff in I as (e & <- & _). exists h. split; [now left|reflexivity].
    - destruct (IH _ _ I) as (x & J & K). exists x. split; [now right|exact K].
  Qed.

  Lemma serrs_falls l : sfalls l -> forall s, pfalls (serrs s l).
  Proof.
    induction 1 as [|h l S IH F]; intros s; [constructor|]. cbn [serrs]. apply Ties.sorted_app; [|apply IH|].
    - unfold serr1, Raised.err1. destruct (in_dec Dec (sc_base h) refs); try destruct (in_dec Dec (sc_base h) s); repeat constructor.
    - intros p q I J. apply in_map_iff in I as (e & <- & _). destruct (serrs_in _ _ _ J) as (x & K & ->). rewrite Forall_forall in F. apply F, K.
  Qed.

  Lemma serrs_length l : forall s, (List.length (serrs s l) <= List.length l)%nat.
  Proof.
    induction l as [|h l IH]; intros s; [cbn; lia|]. cbn [serrs]. rewrite app_length. specialize (IH (sc_base h :: s)). unfold serr1, Raised.err1.
    destruct (in_dec Dec (sc_base h) refs); try destruct (in_dec Dec (sc_base h) s); cbn; lia.
  Qed.

  (** A hypothesis moves up. *)
  Lemma move_hit e s s' D K seen : In e refs -> is_nan s' = false -> f32_lt s s' = true ->
    (forall h, In h D -> sc_score h = s' \/ f32_lt (sc_score h) s' = true) ->
    lifted hit_error (serrs seen (D ++ Scored e s :: K)) (serrs seen (Scored e s' :: D ++ K)).
  Proof.
    intros Ie N Lt HD. rewrite serrs_app. change (Scored e s' :: D ++ K) with ([Scored e s'] ++ D ++ K). rewrite !serrs_app.
    cbn [serrs map rev app sc_base]. rewrite app_nil_r. unfold serr1 at 1 2. unfold Raised.err1. cbn [sc_base sc_score].
    destruct (in_dec Dec e refs); [|contradiction].
    set (sD := rev (map sc_base D)).
    assert (InD : forall z, In z sD <-> In z (map sc_base D)) by (intros z; unfold sD; now rewrite <- in_rev).
    assert (EK : serrs (e :: sD ++ seen) K = serrs (sD ++ e :: seen) K).
    { apply serrs_seen. intros h _. cbn [In]. rewrite !in_app_iff. cbn [In]. tauto. }
    rewrite EK. destruct (in_dec Dec e seen) as [Is|Is].
    - destruct (in_dec Dec e (sD ++ seen)) as [J|J]; [|destruct J; apply in_or_app; auto]. cbn [map app].
      left. rewrite (serrs_seen D (e :: seen) seen); [apply Permutation_refl|]. intros h _. cbn [In]. split; [intros [<-|I]; auto|auto].
    - destruct (in_dec Dec e (map sc_base D)) as [Id|Id].
      + destruct (in_dec Dec e (sD ++ seen)) as [J|J]; [|destruct J; apply in_or_app; left; now apply InD]. cbn [map app].
        assert (exists D1 t D2, D = D1 ++ Scored e t :: D2 /\ ~ In e (map sc_base D1)) as (D1 & t & D2 & -> & N1).
        { clear - Dec Id. induction D as [|h D IH]; [destruct Id|]. cbn [map In] in Id. destruct (Dec (sc_base h) e) as [B|B].
          - exists [], (sc_score h), D. split; [destruct h; cbn in *; now subst|intros []].
          - destruct IH as (D1 & t & D2 & -> & N); [destruct Id; [contradiction|assumption]|]. exists (h :: D1), t, D2. split; [reflexivity|].
            cbn [map In]. tauto. }
        assert (Ht : t = s' \/ f32_lt t s' = true) by (apply (HD (Scored e t)), in_elt).
        rewrite !serrs_app. cbn [serrs sc_base]. unfold serr1. unfold Raised.err1 at 1 2. cbn [sc_base sc_score].
        destruct (in_dec Dec e refs); [|contradiction].
        destruct (in_dec Dec e (rev (map sc_base D1) ++ seen)) as [Q|Q].
        { exfalso. apply in_app_or in Q as [Q|Q]; [apply N1; now apply in_rev|auto]. }
        destruct (in_dec Dec e (rev (map sc_base D1) ++ e :: seen)) as [Q'|Q']; [|destruct Q'; apply in_elt]. cbn [map app].
        assert (E1 : serrs (e :: seen) D1 = serrs seen D1).
        { apply serrs_seen. intros h I. cbn [In]. split; [intros [W|K1]; [destruct N1; rewrite W; now apply in_map|exact K1]|auto]. }
        assert (E2 : serrs (e :: rev (map sc_base D1) ++ seen) D2 = serrs (e :: rev (map sc_base D1) ++ e :: seen) D2).
        { apply serrs_seen. intros h _. cbn [In]. rewrite !in_app_iff. cbn [In]. tauto. }
        rewrite E1, E2. clear E1 E2. generalize (serrs seen D1) as A, (serrs (e :: rev (map sc_base D1) ++ e :: seen) D2) as B, (serrs (sD ++ e :: seen) K) as C.
        intros A B C. rewrite <- app_assoc. cbn [app]. destruct Ht as [->|Ht]; [left; rewrite <- !app_assoc; apply Permutation_sym, Permutation_middle|right].
        exists t, s', (A ++ B ++ C). split; [exact N|]. split; [exact Ht|]. split; [apply Permutation_sym, Permutation_middle|]. rewrite <- !app_assoc. apply Permutation_refl.
      + destruct (in_dec Dec e (sD ++ seen)) as [J|J]; [exfalso; apply in_app_or in J as [J|J]; [now apply Id, InD|auto]|]. cbn [map app].
        rewrite (serrs_seen D (e :: seen) seen).
        2:{ intros h I. cbn [In]. split; [intros [W|K1]; [destruct Id; rewrite W; now apply in_map|exact K1]|auto]. }
        right. exists s, s', (serrs seen D ++ serrs (sD ++ e :: seen) K). split; [exact N|]. split; [exact Lt|].
        split; [apply Permutation_sym, Permutation_middle|apply Permutation_refl].
  Qed.

  Lemma move_alarm e s s' D K seen : ~ In e refs -> is_nan s' = false -> f32_lt s s' = true ->
    lifted alarm_error (serrs seen (D ++ Scored e s :: K)) (serrs seen (Scored e s' :: D ++ K)).
  Proof.
    intros Ie N Lt. rewrite serrs_app. change (Scored e s' :: D ++ K) with ([Scored e s'] ++ D ++ K). rewrite !serrs_app.
    cbn [serrs map rev app sc_base]. rewrite app_nil_r. unfold serr1 at 1 2. unfold Raised.err1. cbn [sc_base sc_score].
    destruct (in_dec Dec e refs); [contradiction|]. cbn [map app].
    assert (Un : forall l x y, (forall z, In z refs -> In z x <-> In z y) -> serrs x l = serrs y l).
    { clear. induction l as [|h l IH]; intros x y K; [reflexivity|]. cbn [serrs]. f_equal; [|apply IH; intros z Iz; cbn [In]; now rewrite (K z Iz)].
      unfold serr1, Raised.err1. destruct (in_dec Dec (sc_base h) refs) as [I|I]; [|reflexivity]. specialize (K _ I).
      destruct (in_dec Dec (sc_base h) x), (in_dec Dec (sc_base h) y); tauto. }
    rewrite (Un D (e :: seen) seen) by (intros z Iz; cbn [In]; split; [intros [<-|Q]; [contradiction|exact Q]|auto]).
    rewrite (Un K (rev (map sc_base D) ++ e :: seen) (e :: rev (map sc_base D) ++ seen)) by (intros z Iz; cbn [In]; rewrite !in_app_iff; cbn [In]; tauto).
    right. eexists s, s', _. split; [exact N|]. split; [exact Lt|]. split; [apply Permutation_sym, Permutation_middle|apply Permutation_refl].
  Qed.


  Context (ce : Cmp E) (He : total_order ce).

  Lemma equal_nrm (l l' : list H) : (forall h, In h (l ++ l') -> is_finite (sc_score h) = true) -> Forall2 equal_hyps l l' -> map nrm l = map nrm l'.
  Proof.
    intros Fi F. induction F as [|x y l l' [Eb Es] F IH]; [reflexivity|]. cbn [map]. f_equal.
    - unfold nrm. rewrite Eb. f_equal. apply Ties.unsigned_same; [apply Fi; now left|apply Fi; rewrite in_app_iff; right; now left|exact Es].
    - apply IH. intros h I. apply Fi. rewrite in_app_iff in *. cbn [In]. tauto.
  Qed.

  Lemma rank_lifted a e s s' b rank rank' : (forall h, In h (a ++ b) -> is_finite (sc_score h) = true) ->
    is_finite s = true -> is_finite s' = true -> f32_lt s s' = true ->
    ranking (c_lt ce) (lit "desc") (a ++ Scored e s :: b) rank -> ranking (c_lt ce) (lit "desc") (a ++ Scored e s' :: b) rank' ->
    exists K1 D K2, map nrm rank = K1 ++ D ++ Scored e (Ties.unsigned s) :: K2 /\ map nrm rank' = K1 ++ Scored e (Ties.unsigned s') :: D ++ K2 /\
      forall h, In h D -> sc_score h = Ties.unsigned s' \/ f32_lt (sc_score h) (Ties.unsigned s') = true.
  Proof.
    intros Fi Fs Fs' Lt [(_ & P & S)|[(K & _)|(K & _)]] [(_ & P' & S')|[(K' & _)|(K' & _)]]; try discriminate; try congruence.
    destruct (in_split (Scored e s) rank) as (r1 & r2 & ->); [eapply Permutation_in; [exact P|apply in_elt]|].
    destruct (in_split (Scored e s') rank') as (r1' & r2' & ->); [eapply Permutation_in; [exact P'|apply in_elt]|].
    apply Permutation_app_inv in P. apply Permutation_app_inv in P'.
    apply Raised.sorted_remove in S as (S & Sa & Sb). apply Raised.sorted_remove in S' as (S' & Sa' & Sb').
    assert (F : Forall2 equal_hyps (r1 ++ r2) (r1' ++ r2')).
    { apply (Runs.ranks_equal ce He (lit "desc") (a ++ b) (a ++ b)); auto.
      - intros h I. apply Rescore.finite_not_nan. auto.
      - left. split; [reflexivity|]. split; assumption.
      - left. split; [reflexivity|]. split; assumption. }
    assert (Ff : forall h, In h (r1 ++ r2) -> is_finite (sc_score h) = true).
    { intros h I. apply Fi. eapply Permutation_in; [apply Permutation_sym; exact P|exact I]. }
    assert (Ff' : forall h, In h (r1' ++ r2') -> is_finite (sc_score h) = true).
    { intros h I. apply Fi. eapply Permutation_in; [apply Permutation_sym; exact P'|exact I]. }
    assert (Eb : map nrm (r1 ++ r2) = map nrm (r1' ++ r2')).
    { apply equal_nrm; [|exact F]. intros h I. apply in_app_or in I as [I|I]; auto. }
    assert (L : (List.length r1' <= List.length r1)%nat).
    { destruct (Nat.le_gt_cases (List.length r1') (List.length r1)) as [L|L]; [exact L|exfalso].
      assert (exists x y, In x r2 /\ In y r1' /\ equal_hyps x y) as (x & y & Ix & Iy & [_ Q]).
      { clear - F L. revert r1' L F. induction r1 as [|z r1 IH]; intros r1' L F; cbn [app] in F.
        - destruct r1' as [|y r1']; [cbn in L; lia|]. inversion F as [|x ? ? ? Q]; subst. exists x, y. simpl. auto.
        - destruct r1' as [|y r1']; [cbn in L; lia|]. inversion F as [|? ? ? ? Q F']; subst.
          destruct (IH r1' ltac:(cbn in L; lia) F') as (x & w & A & B & C). exists x, w. simpl. auto. }
      destruct (Sb x Ix) as [A _]. destruct (Sa' y Iy) as [B _]. cbn [sc_score] in A, B.
      assert (Fx : is_finite (sc_score x) = true) by (apply Ff, in_or_app; auto).
      assert (Fy : is_finite (sc_score y) = true) by (apply Ff', in_or_app; auto).
      unfold same_number, f32_eq in Q. unfold f32_lt in *.
      rewrite Beqb_correct in Q by assumption. rewrite Bltb_correct in A, B, Lt by assumption.
      destruct (Req_bool_spec (B2R (sc_score x)) (B2R (sc_score y))) as [Q'|]; [|discriminate].
      destruct (Rlt_bool_spec (B2R s) (B2R (sc_score x))) as [|A1]; [discriminate|].
      destruct (Rlt_bool_spec (B2R (sc_score y)) (B2R s')) as [|B1]; [discriminate|].
      destruct (Rlt_bool_spec (B2R s) (B2R s')) as [C1|]; [|discriminate]. lra. }
    rewrite !map_app in Eb.
    exists (map nrm r1'), (skipn (List.length r1') (map nrm r1)), (map nrm r2).
    rewrite !map_app. cbn [map].
    assert (H1 : map nrm r1 = map nrm r1' ++ skipn (List.length r1') (map nrm r1)).
    { rewrite <- (firstn_skipn (List.length r1') (map nrm r1)) at 1. f_equal.
      assert (K := f_equal (firstn (List.length r1')) Eb).
      rewrite <- (map_length nrm r1') in K at 2. rewrite firstn_app, firstn_app, firstn_all, Nat.sub_diag in K.
      cbn [firstn] in K. rewrite app_nil_r in K. rewrite <- K, map_length.
      replace (List.length r1' - List.length r1)%nat with 0%nat by lia. cbn [firstn]. now rewrite app_nil_r. }
    assert (H2 : map nrm r2' = skipn (List.length r1') (map nrm r1) ++ map nrm r2).
    { rewrite H1, <- app_assoc in Eb. apply app_inv_head in Eb. now rewrite Eb. }
    split; [now rewrite H1 at 1; rewrite <- !app_assoc|]. split; [now rewrite H2|].
    intros h I. assert (J : In h (map nrm r2')) by (rewrite H2; apply in_or_app; auto).
    apply in_map_iff in J as (y & <- & J). destruct (Sb' y J) as [A _]. cbn [sc_score nrm] in *.
    assert (Fy : is_finite (sc_score y) = true) by (apply Ff', in_or_app; auto).
    destruct (Order.f32_total (sc_score y) s') as [T|[T|T]]; try now apply Rescore.finite_not_nan.
    - right. now rewrite Ties.unsigned_lt.
    - left. now apply Ties.unsigned_same.
    - rewrite A in T. discriminate.
  Qed.
End Errors.

(** ** Values *)

Definition tvalue (i t : bool) (ps : list SE) : R := Hoist.value i t (collapse_matches Hoist.sc (map Hoist.item ps)).

Lemma item_scored ps : map (Hoist.scored_error Hoist.sc) (map Hoist.item ps) = ps.
Proof. rewrite map_map. rewrite <- (map_id ps) at 2. apply map_ext. intros [a b]. reflexivity. Qed.

Lemma tvalue_matches {RE HE} (score : HE -> f32) i t (l : list (match_t RE HE)) :
  Hoist.value i t (collapse_matches score l) = tvalue i t (map (Hoist.scored_error score) l).
Proof.
  unfold tvalue. rewrite (Hoist.collapse_items score l), (Hoist.collapse_items Hoist.sc (map Hoist.item (map (Hoist.scored_error score) l))), item_scored. reflexivity.
Qed.

Lemma ap_tvalue {RE HE} (score : HE -> f32) i t (l : list (match_t RE HE)) :
  global_ap RArith score l true i t = Ok (tvalue i t (map (Hoist.scored_error score) l)).
Proof. rewrite <- tvalue_matches. apply Hoist.value_ok. Qed.

Lemma falls_items ps : pfalls ps -> descending Hoist.sc (map Hoist.item ps).
Proof.
  induction 1 as [|p ps S IH F]; [constructor|]. constructor; [exact IH|]. apply Forall_forall. intros m I. apply in_map_iff in I as (q & <- & I).
  rewrite Forall_forall in F. exact (F q I).
Qed.

Lemma falls_norm ps : pfalls ps -> pfalls (map Hoist.norm ps).
Proof.
  induction 1 as [|p ps S IH F]; [constructor|]. constructor; [exact IH|]. apply Forall_forall. intros m I. apply in_map_iff in I as (q & <- & I).
  rewrite Forall_forall in F. cbn [Hoist.norm fst]. unfold Hoist.norm. cbn. rewrite Ties.unsigned_lt. exact (F q I).
Qed.

Definition good (ps : list SE) : Prop := pfalls ps /\ forall p, In p ps -> is_nan (fst p) = false /\ zero_one (snd p).

Lemma good_ranked ps : good ps -> ranked Hoist.sc (map Hoist.item ps).
Proof. intros [_ G] m I. apply in_map_iff in I as (p & <- & I). apply G, I. Qed.

Lemma good_zero_one ps : good ps -> forall m, In m (map Hoist.item ps) -> zero_one (m_err m).
Proof. intros [_ G] m I. apply in_map_iff in I as (p & <- & I). apply G, I. Qed.

Lemma good_norm ps : good ps -> good (map Hoist.norm ps).
Proof.
  intros [F G]. split; [now apply falls_norm|]. intros p I. apply in_map_iff in I as (q & <- & I). destruct (G q I) as [A B].
  split; [|exact B]. unfold Hoist.norm. cbn. now rewrite Hoist.unsigned_nan.
Qed.

Lemma tvalue_perm i t ps ps' : good ps -> good ps' -> Permutation (map Hoist.norm ps) (map Hoist.norm ps') -> tvalue i t ps = tvalue i t ps'.
Proof.
  intros G G' P. unfold tvalue. f_equal. rewrite (Hoist.collapse_items Hoist.sc (map Hoist.item ps)), (Hoist.collapse_items Hoist.sc (map Hoist.item ps')), !item_scored.
  apply good_norm in G, G'. apply Collapse.collapse_ties.
  - now apply good_ranked.
  - apply falls_items, G.
  - apply falls_items, G'.
  - now apply good_zero_one.
  - now apply Permutation_map.
Qed.

Lemma lifted_hit t ps ps' : good ps -> good ps' -> lifted hit_error (map Hoist.norm ps) (map Hoist.norm ps') -> (tvalue true t ps <= tvalue true t ps')%R.
Proof.
  intros G G' [P|(s & s' & r & N & L & P & P')]; [right; now apply tvalue_perm|].
  unfold tvalue. apply (Hoist.raise_hit Hoist.sc Hoist.sc _ _ s s' r); rewrite ?item_scored; auto.
  - now apply good_ranked.
  - apply falls_items, G.
  - apply falls_items, G'.
  - now apply good_zero_one.
Qed.

Lemma lifted_alarm i t ps ps' : good ps -> good ps' -> (Z.of_nat (List.length ps) <= 2 ^ 24)%Z -> lifted alarm_error (map Hoist.norm ps) (map Hoist.norm ps') ->
  (tvalue i t ps' <= tvalue i t ps)%R.
Proof.
  intros G G' Ln [P|(s & s' & r & N & L & P & P')]; [right; symmetry; now apply tvalue_perm|].
  unfold tvalue. apply (Hoist.raise_alarm Hoist.sc Hoist.sc _ _ s s' r); rewrite ?item_scored, ?map_length; auto.
  - now apply good_ranked.
  - apply falls_items, G.
  - apply falls_items, G'.
  - now apply good_zero_one.
Qed.

(** ** Parts of two evaluations *)

Section Evaluations.
  Context {Q L : Type} (cq : Cmp Q) (Hq : total_order cq) (cl : Cmp L) (Hl : total_order cl).
  Notation Ev := (event Q L).
  Notation H := (scored Ev).
  Notation M := (match_t Ev H).
  Variables (ce : Cmp Ev) (He : total_order ce) (Dec : forall x y : Ev, {x = y} + {x <> y}).
  Notation eval := (evaluation (c_lt ce) (c_lt ce) ev_query ev_query exact_search (fun r h => trivial_scorer cq cl r (sc_base h))).
  Notation pairs := (map (Hoist.scored_error (@sc_score Ev))).

  Definition miss_pair : SE := (B754_infinity true, MatchError f32_0 f32_1).

  Lemma part_pairs (P : Q -> Prop) f refs hyps ms log groups (g : list M) : (forall q, kept f q -> P q \/ ~ P q) ->
    eval (lit "desc") f refs hyps ms log groups -> selects (Parts.about ev_query ev_query P) ms g ->
    exists r1 h1 rank n, selects (fun r => kept f (ev_query r) /\ P (ev_query r)) refs r1 /\
      selects (fun h => kept f (ev_query (sc_base h)) /\ P (ev_query (sc_base h))) hyps h1 /\
      ranking (c_lt ce) (lit "desc") h1 rank /\ pairs g = serrs Dec r1 [] rank ++ repeat miss_pair n /\
      exists missed, NoDup missed /\ n = List.length missed /\
        forall r, In r missed <-> In r r1 /\ ~ exists h, In h rank /\ sc_base h = r.
  Proof.
    intros DP (r1 & h1 & rank & taken & found & missed & Sr & Sh & Rk & Mt & So & Mi & -> & _) Sg.
    destruct (Parts.selects_exists (fun r => P (ev_query r)) r1) as [r2 Sr2].
    { intros r I. apply DP. now apply (Grouping.selects_in _ _ _ Sr) in I. }
    destruct (Parts.selects_exists (fun h => P (ev_query (sc_base h))) h1) as [h2 Sh2].
    { intros h I. apply DP. now apply (Grouping.selects_in _ _ _ Sh) in I. }
    destruct (Parts.ranking_part (c_lt ce) (lit "desc") _ h1 rank h2 Rk Sh2) as (rank2 & Srk & Rk2).
    destruct (Parts.matching_part ev_query ev_query exact_search _ Parts.exact_local P r1 r2 rank taken found log Mt Sr2 rank2 Srk)
      as (taken2 & found2 & log2 & Mt2 & Tk & Sf).
    destruct (Parts.selects_split _ _ _ _ Sg) as (g1 & g2 & -> & S1 & S2).
    rewrite (selects_fun _ _ _ _ S1 Sf) in *. clear g1 S1.
    destruct (Parts.selects_unmap _ _ _ _ S2) as (missed2 & -> & Sm).
    assert (Sm' : selects (fun r => P (ev_query r)) missed missed2).
    { revert Sm. apply Parts.selects_in_iff. intros r _. apply Parts.about_query. reflexivity. }
    destruct (Runs.first_rules_spec cq Hq cl Hl _ _ _ _ _ Mt2) as [Fr Tk2].
    exists r2, h2, rank2, (List.length missed2). split; [exact (Raised.selects_compose _ _ _ _ _ Sr Sr2)|].
    split; [exact (Raised.selects_compose _ _ _ _ _ Sh Sh2)|]. split; [exact Rk2|]. split.
    - rewrite map_app, (rules_serrs Dec _ _ _ _ Fr). f_equal. clear. induction missed2 as [|m l IH]; [reflexivity|]. cbn. now rewrite IH.
    - exists missed2. assert (So2 := Ties.selects_sorted _ _ _ _ Sm' So). split; [|split; [reflexivity|]].
      + clear - So2 He. induction So2 as [|x l S IH F]; constructor; auto. intros I. rewrite Forall_forall in F. specialize (F x I).
        rewrite (to_irrefl _ He) in F. discriminate.
      + intros r. rewrite (Grouping.selects_in _ _ _ Sm'), Mi. assert (T1 := Tk r). assert (T2 := Tk2 r).
        rewrite (Grouping.selects_in _ _ _ Sr2) in *. tauto.
  Qed.

  Lemma ranking_falls (h1 rank : list H) : ranking (c_lt ce) (lit "desc") h1 rank -> Permutation h1 rank /\ sfalls rank.
  Proof.
    intros [(_ & P & S)|[(K & _)|(K & _)]]; try discriminate; try congruence. split; [exact P|]. revert S. apply Ties.sorted_weaken. intros a b _ _ [K _]. exact K.
  Qed.

  Lemma serr1_zero_one refs seen (h : H) p : In p (serr1 Dec refs seen h) -> zero_one (snd p).
  Proof.
    unfold serr1, Raised.err1. destruct (in_dec Dec (sc_base h) refs); try destruct (in_dec Dec (sc_base h) seen); cbn; intros [<-|[]] || intros [];
      split; cbn; auto.
  Qed.

  Lemma serrs_zero_one refs (l : list H) : forall seen p, In p (serrs Dec refs seen l) -> zero_one (snd p).
  Proof.
    induction l as [|h l IH]; intros seen p I; [destruct I|]. cbn [serrs] in I. apply in_app_or in I as [I|I]; [exact (serr1_zero_one _ _ _ _ I)|eauto].
  Qed.

  Lemma pairs_good r1 (rank : list H) n : sfalls rank -> (forall h, In h rank -> is_finite (sc_score h) = true) ->
    good (serrs Dec r1 [] rank ++ repeat miss_pair n).
  Proof.
    intros S Fi. split.
    - apply Ties.sorted_app; [now apply serrs_falls| |].
      + induction n as [|n IH]; [constructor|]. cbn [repeat]. constructor; [exact IH|]. apply Forall_forall. intros p I. apply repeat_spec in I as ->. reflexivity.
      + intros p q I J. apply repeat_spec in J as ->. destruct (serrs_in _ _ _ _ _ I) as (h & K & ->). specialize (Fi h K). cbn [fst miss_pair].
        destruct (sc_score h); try discriminate; reflexivity.
    - intros p I. apply in_app_or in I as [I|I].
      + split; [|exact (serrs_zero_one _ _ _ _ I)]. destruct (serrs_in _ _ _ _ _ I) as (h & K & ->). apply Rescore.finite_not_nan, Fi, K.
      + apply repeat_spec in I as ->. split; [reflexivity|]. split; cbn; auto.
  Qed.

  Lemma selects_length {X} (P : X -> Prop) l k : selects P l k -> (List.length k <= List.length l)%nat.
  Proof. induction 1; cbn; lia. Qed.

  Lemma part_lifted (P : Q -> Prop) f refs hyps hyps' e ms log groups (g : list M) ms' log' groups' (g' : list M) : (forall q, kept f q -> P q \/ ~ P q) ->
    (forall h, In h hyps -> is_finite (sc_score h) = true) -> (forall h, In h hyps' -> is_finite (sc_score h) = true) ->
    raised e hyps hyps' ->
    eval (lit "desc") f refs hyps ms log groups -> selects (Parts.about ev_query ev_query P) ms g ->
    eval (lit "desc") f refs hyps' ms' log' groups' -> selects (Parts.about ev_query ev_query P) ms' g' ->
    good (pairs g) /\ good (pairs g') /\ (List.length g <= List.length refs + List.length hyps)%nat /\
    (In e refs -> lifted hit_error (map Hoist.norm (pairs g)) (map Hoist.norm (pairs g'))) /\
    (~ In e refs -> lifted alarm_error (map Hoist.norm (pairs g)) (map Hoist.norm (pairs g'))).
  Proof.
    intros DP Fi Fi' (a & s & s' & b & -> & -> & Lt) Ev Sg Ev' Sg'.
    destruct (part_pairs P f refs _ ms log groups g DP Ev Sg) as (r1 & h1 & rank & n & Sr & Sh & Rk & Eg & missed & Nm & -> & Im).
    destruct (part_pairs P f refs _ ms' log' groups' g' DP Ev' Sg') as (r2 & h2 & rank' & n' & Sr' & Sh' & Rk' & Eg' & missed' & Nm' & -> & Im').
    rewrite (selects_fun _ _ _ _ Sr' Sr) in *. clear r2 Sr'.
    destruct (ranking_falls _ _ Rk) as [Pk Sk]. destruct (ranking_falls _ _ Rk') as [Pk' Sk'].
    assert (Lg : (List.length g <= List.length refs + List.length (a ++ Scored e s :: b))%nat).
    { rewrite <- (map_length (Hoist.scored_error sc_score) g), Eg, app_length, repeat_length.
      assert (K1 := serrs_length Dec r1 rank []). rewrite <- (Permutation_length Pk) in K1. assert (K2 := selects_length _ _ _ Sh).
      assert (K3 : (List.length missed <= List.length r1)%nat) by (apply NoDup_incl_length; [exact Nm|intros r I; now apply Im in I]).
      assert (K4 := selects_length _ _ _ Sr). lia. }
    assert (Fk : forall h, In h rank -> is_finite (sc_score h) = true).
    { intros h I. apply Fi. apply (Permutation_in _ (Permutation_sym Pk)) in I. now apply (Grouping.selects_in _ _ _ Sh) in I. }
    assert (Fk' : forall h, In h rank' -> is_finite (sc_score h) = true).
    { intros h I. apply Fi'. apply (Permutation_in _ (Permutation_sym Pk')) in I. now apply (Grouping.selects_in _ _ _ Sh') in I. }
    rewrite Eg, Eg'. split; [now apply pairs_good|]. split; [now apply pairs_good|]. split; [exact Lg|].
    destruct (Parts.selects_split _ _ _ _ Sh) as (a1 & k & -> & Sa & Sk1). destruct (Parts.selects_split _ _ _ _ Sh') as (a2 & k' & -> & Sa' & Sk1').
    rewrite (selects_fun _ _ _ _ Sa' Sa) in *. clear a2 Sa'.
    assert ((exists K1 D K2, map nrm rank = K1 ++ D ++ Scored e (Ties.unsigned s) :: K2 /\ map nrm rank' = K1 ++ Scored e (Ties.unsigned s') :: D ++ K2 /\
        (forall h, In h D -> sc_score h = Ties.unsigned s' \/ f32_lt (sc_score h) (Ties.unsigned s') = true) /\ (In e r1 <-> In e refs)) \/
      (map nrm rank = map nrm rank')) as HB.
    { inversion Sk1 as [|? ? b1 Pe Sb|? ? b1 Pe Sb]; inversion Sk1' as [|? ? b2 Pe' Sb'|? ? b2 Pe' Sb']; subst; cbn [sc_base] in *; try contradiction;
        rewrite (selects_fun _ _ _ _ Sb' Sb) in *.
      - left. destruct (rank_lifted ce He a1 e s s' b1 rank rank') as (B1 & B2 & B3 & E1 & E2 & E3); auto.
        + intros h I. apply Fi. assert (J := Grouping.selects_in _ _ _ Sa h). assert (J' := Grouping.selects_in _ _ _ Sb h).
          rewrite in_app_iff in *. cbn [In]. tauto.
        + apply (Fi (Scored e s)), in_elt.
        + apply (Fi' (Scored e s')), in_elt.
        + exists B1, B2, B3. split; [exact E1|]. split; [exact E2|]. split; [exact E3|]. rewrite (Grouping.selects_in _ _ _ Sr). tauto.
      - right. apply equal_nrm.
        + intros h I. apply in_app_or in I as [I|I]; auto.
        + refine (Runs.ranks_equal ce He (lit "desc") _ _ rank rank' (or_introl eq_refl) _ (Permutation_refl _) Rk Rk'). intros h I. apply Rescore.finite_not_nan.
          apply Fi. assert (J := Grouping.selects_in _ _ _ Sa h). assert (J' := Grouping.selects_in _ _ _ Sb h).
          rewrite in_app_iff in *. cbn [In]. tauto. }
    assert (Es : forall r, (exists h, In h rank /\ sc_base h = r) <-> (exists h, In h rank' /\ sc_base h = r)).
    { intros r. assert (K : In r (map sc_base (map nrm rank)) <-> In r (map sc_base (map nrm rank'))).
      { destruct HB as [(K1 & D & K2 & -> & -> & _)| ->]; [|reflexivity]. rewrite !map_app. cbn [map sc_base]. rewrite map_app, !in_app_iff. cbn [In]. rewrite in_app_iff. tauto. }
      rewrite !map_map in K. cbn [sc_base nrm] in K. rewrite !in_map_iff in K.
      split; intros (h & I & J); [destruct (proj1 K) as (x & A & B)|destruct (proj2 K) as (x & A & B)]; eauto. }
    assert (En : List.length missed' = List.length missed).
    { apply Permutation_length, NoDup_Permutation; auto. intros r. rewrite Im, Im', Es. reflexivity. }
    rewrite En, !map_app, !serrs_norm.
    destruct HB as [(K1 & D & K2 & -> & -> & HD & Hr)| ->]; [|split; intros _; left; apply Permutation_refl].
    rewrite !(serrs_app Dec r1 K1), <- !app_assoc. rewrite <- Hr.
    assert (Ns : is_nan (Ties.unsigned s') = false).
    { rewrite Hoist.unsigned_nan. apply Rescore.finite_not_nan, (Fi' (Scored e s')), in_elt. }
    split; intros I; apply lifted_app.
    - apply move_hit; auto. now rewrite Ties.unsigned_lt.
    - apply move_alarm; auto. now rewrite Ties.unsigned_lt.
  Qed.
End Evaluations.

(** ** Means *)

Lemma mean_tvalue {RE HE} (score : HE -> f32) srt (gs : list (list (match_t RE HE))) i t v : mean_ap RArith score srt gs true i t false = Ok v ->
  v = average (A := RArith) (map (fun g => tvalue i t (map (Hoist.scored_error score) g)) gs).
Proof.
  intros H. apply (Parts.mean_ap_average score srt gs true i t v _ H). clear. induction gs as [|g gs IH]; constructor; [|exact IH].
  apply ap_tvalue.
Qed.

(** Groups that are no worse one by one have no worse means. *)
Lemma means_le {K X X'} (P : K -> X -> Prop) (P' : K -> X' -> Prop) (v : X -> R) (v' : X' -> R) keys keys' gs gs' :
  NoDup keys -> NoDup keys' -> (forall k, In k keys <-> In k keys') -> Forall2 P keys gs -> Forall2 P' keys' gs' ->
  (forall k g g', In k keys -> P k g -> P' k g' -> (v g <= v' g')%R) ->
  (average (A := RArith) (map v gs) <= average (A := RArith) (map v' gs'))%R.
Proof.
  intros N N' I F F' Hr.
  assert (Pm : Permutation keys' keys) by (apply NoDup_Permutation; auto; intros k; now rewrite I).
  destruct (Ties.Forall2_perm _ _ _ Pm _ F') as (gs2 & Pg & F2).
  rewrite (Raised.average_perm _ _ (Permutation_map v' Pg)). apply Raised.average_le.
  clear - F F2 Hr. revert gs2 F2. induction F as [|k g keys gs Hk F IH]; intros gs2 F2; inversion F2 as [|? g2 ? l Hk2 F3]; subst; constructor.
  - apply (Hr k); auto. now left.
  - apply IH; auto; intros; apply (Hr k0); auto; now right.
Qed.

(** ** The runs *)

Section Runs.
  Variables (srt : sort_fn) (Hs : sort_contract srt).
  Variables (rngs : Z -> rng) (show_int : Z -> bytes) (show_f64 : f64 -> bytes).
  Notation simple := (simple_kws RArith RTrans srt rngs show_int show_f64).
  Notation Mt := (match_t (event bytes bytes) (scored (event bytes bytes))).

  Lemma simple_lifted qf w w' pn args c refs hyps hyps' f e : command args c -> no_bootstrap c -> cf_sort c = lit "desc" ->
    cf_collapse c = true ->
    inputs str_event_text scored_str_event_text w c refs hyps f -> inputs str_event_text scored_str_event_text w' c refs hyps' f ->
    (Z.of_nat (strings refs hyps f) <= 2147483648)%Z -> raised e hyps hyps' ->
    exists gap vap gndcg vndcg gap' vap' gndcg' vndcg' : R,
      prints (A := RArith) (fst (simple qf w pn args)) gap vap gndcg vndcg /\
      prints (A := RArith) (fst (simple qf w' pn args)) gap' vap' gndcg' vndcg' /\
      (In e refs -> cf_interp c = true -> gap <= gap' /\ vap <= vap')%R /\
      (~ In e refs -> (Z.of_nat (List.length refs + List.length hyps) <= 2 ^ 24)%Z -> gap' <= gap /\ vap' <= vap)%R.
  Proof.
    intros Cm NB Cs Cc I I' Ls Ra.
    assert (Ls' : (Z.of_nat (strings refs hyps' f) <= 2147483648)%Z).
    { revert Ls. assert (K := f_equal (@List.length _) (Raised.raised_bases e hyps hyps' Ra)). rewrite !map_length in K. unfold strings. now rewrite K. }
    destruct (simple qf w pn args) as [l r] eqn:Et. rewrite Instances.simple_tool in Et.
    destruct (simple qf w' pn args) as [l' r'] eqn:Et'. rewrite Instances.simple_tool in Et'. cbn [fst].
    destruct (Instances.simple_run_ids RTrans srt Hs rngs show_int show_f64 w qf pn args c refs hyps f l r Cm NB I Et Ls)
      as (id & ms & log & gs & Id & Inj & Fi & Ev & Rp).
    destruct (Instances.simple_run_ids RTrans srt Hs rngs show_int show_f64 w' qf pn args c refs hyps' f l' r' Cm NB I' Et' Ls')
      as (id' & ms' & log' & gs' & Id' & Inj' & Fi' & Ev' & Rp').
    rewrite Cs in Ev, Ev'.
    destruct (Raised.ids_bases qf refs hyps hyps' id id' (Raised.raised_bases _ _ _ Ra) Id Id') as [Ar Ah].
    apply (Parts.evaluation_orders _ (c_lt (Results.by_id id)) _ (c_lt (Results.by_id id))) in Ev';
      [|intros h h' Ih Ih'; unfold Results.by_id; cbn [c_lt]; now rewrite (Ah h Ih), (Ah h' Ih')
       |intros x x' Ix Ix'; unfold Results.by_id; cbn [c_lt]; now rewrite (Ar x Ix), (Ar x' Ix')].
    set (ce := Results.by_id id) in *. assert (He : total_order ce) by exact (Results.by_id_total id Inj).
    destruct (Parts.evaluation_keys (c_lt ce) ce He ev_query ev_query (evset_generic ce) exact_search
      (Matching.finds_generic ce He) (fun r h => trivial_scorer cmp_str cmp_str r (sc_base h)) Parts.exact_local _ _ _ _ _ _ _ Ev) as (keys & Nk & Fk & Hm & Ik).
    destruct (Parts.evaluation_keys (c_lt ce) ce He ev_query ev_query (evset_generic ce) exact_search
      (Matching.finds_generic ce He) (fun r h => trivial_scorer cmp_str cmp_str r (sc_base h)) Parts.exact_local _ _ _ _ _ _ _ Ev') as (keys' & Nk' & Fk' & Hm' & Ik').
    assert (Kk : forall k, In k keys <-> In k keys').
    { intros k. rewrite Ik, Ik'. assert (B : forall q, (exists h, In h hyps /\ ev_query (sc_base h) = q) <-> (exists h, In h hyps' /\ ev_query (sc_base h) = q)).
      { intros q. assert (K : map (fun h => ev_query (sc_base h)) hyps = map (fun h => ev_query (sc_base h)) hyps').
        { rewrite <- (map_map sc_base ev_query hyps), <- (map_map sc_base ev_query hyps'). now rewrite (Raised.raised_bases _ _ _ Ra). }
        split; intros (h & J & E); apply (in_map (fun h => ev_query (sc_base h))) in J; cbv beta in J; rewrite E in J;
          [rewrite K in J|rewrite <- K in J]; apply in_map_iff in J as (x & A & B); eauto. }
      split; intros (q & A1 & A2 & A3); exists q; (split; [exact A1|]); (split; [exact A2|]); (destruct A3 as [A3|A3]; [now left|right]); now apply B. }
    assert (Hp : forall P g g', (forall q, kept f q -> P q \/ ~ P q) -> selects (Parts.about ev_query ev_query P) ms g ->
      selects (Parts.about ev_query ev_query P) ms' g' ->
      (In e refs -> forall t, tvalue true t (map (Hoist.scored_error sc_score) g) <= tvalue true t (map (Hoist.scored_error sc_score) g'))%R /\
      (~ In e refs -> (Z.of_nat (List.length refs + List.length hyps) <= 2 ^ 24)%Z ->
        forall i t, tvalue i t (map (Hoist.scored_error sc_score) g') <= tvalue i t (map (Hoist.scored_error sc_score) g))%R).
    { intros P g g' DP Sg Sg'. destruct (part_lifted cmp_str Order.total_order_str cmp_str Order.total_order_str ce He Raised.event_dec P f refs hyps hyps' e
        ms log gs g ms' log' gs' g' DP Fi Fi' Ra Ev Sg Ev' Sg') as (G & G' & Lg & Lh & La).
      split; [intros J t; apply lifted_hit; auto|intros J Ln i t; apply lifted_alarm; auto]. rewrite map_length. lia. }
    assert (Ha : forall m, In m ms -> Parts.about ev_query ev_query (fun _ => True) m).
    { intros m J. destruct (Hm m J) as (k & _ & q & A & _). exists q. auto. }
    assert (Ha' : forall m, In m ms' -> Parts.about ev_query ev_query (fun _ => True) m).
    { intros m J. destruct (Hm' m J) as (k & _ & q & A & _). exists q. auto. }
    destruct (Hp (fun _ => True) ms ms' (fun _ _ => or_introl Logic.I) (selects_all _ _ Ha) (selects_all _ _ Ha')) as [G1 G2].
    destruct (Parts.reported_prints RTrans srt _ _ _ _ _ _ _ Rp) as (v1 & v2 & v4 & Pr & H1 & H2 & _).
    destruct (Parts.reported_prints RTrans srt _ _ _ _ _ _ _ Rp') as (v1' & v2' & v4' & Pr' & H1' & H2' & _).
    rewrite Cc in *.
    assert (En : forall (j : bytes -> Z) (x : list Mt), map (Hoist.scored_error sc_score) (map (renamed_match j) x) = map (Hoist.scored_error sc_score) x).
    { intros j x. rewrite map_map. apply map_ext. intros [y h z]. destruct h; reflexivity. }
    rewrite ap_tvalue, En in H1, H1'. injection H1 as <-. injection H1' as <-.
    apply mean_tvalue in H2, H2'. rewrite map_map in H2, H2'.
    erewrite map_ext in H2 by (intros g; rewrite En; reflexivity). erewrite map_ext in H2' by (intros g; rewrite En; reflexivity).
    subst v2 v2'.
    do 8 eexists. split; [exact Pr|]. split; [exact Pr'|]. split; [intros J Ci|intros J Ln].
    - rewrite Ci. split; [now apply G1|]. apply (means_le _ _ _ _ keys keys' gs gs' Nk Nk' Kk Fk Fk').
      intros k g g' _ Sg Sg'. exact (proj1 (Hp (fun q => group_is f q k) g g' (Raised.group_dec f k) Sg Sg') J _).
    - split; [now apply G2|]. apply (means_le _ _ _ _ keys' keys gs' gs Nk' Nk (fun k => iff_sym (Kk k)) Fk' Fk).
      intros k g' g _ Sg' Sg. exact (proj2 (Hp (fun q => group_is f q k) g g' (Raised.group_dec f k) Sg Sg') J Ln _ _).
  Qed.
End Runs.
