(** Runs in which one hypothesis has a higher score. *)
From Coq Require Import Ascii String List Bool ZArith Reals Lia Lra Permutation Sorted.
From Flocq Require Import Core BinarySingleNaN.
From Verif.Model Require Import Cpp Floats Events EventSets Matches Matcher Scorers Assessment Bootstrap Mapper Stream
  Reader Options Tool.
From Verif.Spec Require Import Order Sets Matching Grouping Collapse Metrics Curves Reader Options Tool Parts Better.
From Verif.Proofs Require Import Queries.
From Verif.Proofs Require Order Sets Matching Grouping Evaluation Finish Instances Runs Ties Rescore Results Curves Parts Better.
Import ListNotations.
Local Open Scope string_scope.
Local Open Scope list_scope.

(** ** The errors of a ranking *)

Section Errors.
  Context {E : Type} (Dec : forall x y : E, {x = y} + {x <> y}).
  Variable refs : list E.

  Definition err1 (seen : list E) (b : E) : list match_error :=
    if in_dec Dec b refs then if in_dec Dec b seen then [] else [hit_error] else [alarm_error].

  Fixpoint errs (seen bs : list E) : list match_error :=
    match bs with [] => [] | b :: t => err1 seen b ++ errs (b :: seen) t end.

  Lemma err1_seen s s' b : (In b s <-> In b s') -> err1 s b = err1 s' b.
  Proof. intros H. unfold err1. destruct (in_dec Dec b refs), (in_dec Dec b s), (in_dec Dec b s'); tauto. Qed.

  Lemma errs_seen bs : forall s s', (forall x, In x s <-> In x s') -> errs s bs = errs s' bs.
  Proof.
    induction bs as [|b bs IH]; intros s s' H; [reflexivity|]. cbn [errs]. rewrite (err1_seen s s' b (H b)). f_equal.
    apply IH. intros x. cbn [In]. now rewrite H.
  Qed.

  Lemma errs_app a : forall s b, errs s (a ++ b) = errs s a ++ errs (rev a ++ s) b.
  Proof.
    induction a as [|x a IH]; intros s b; [reflexivity|]. cbn [app errs rev]. rewrite IH, <- !app_assoc. reflexivity.
  Qed.

  Lemma err1_swap s b e : In e refs -> better (err1 s b ++ err1 (b :: s) e) (err1 s e ++ err1 (e :: s) b).
  Proof.
    intros He. destruct (Dec b e) as [->|N]; [constructor|].
    rewrite (err1_seen (b :: s) s e), (err1_seen (e :: s) s b) by (cbn [In]; intuition congruence).
    unfold err1. destruct (in_dec Dec e refs); [|contradiction].
    destruct (in_dec Dec e s), (in_dec Dec b refs); try destruct (in_dec Dec b s); cbn [app]; try apply better_same;
    apply (better_swap [] []).
  Qed.

  Lemma err1_swap' s b e : ~ In e refs -> better (err1 s e ++ err1 (e :: s) b) (err1 s b ++ err1 (b :: s) e).
  Proof.
    intros He. destruct (Dec b e) as [->|N]; [constructor|].
    rewrite (err1_seen (b :: s) s e), (err1_seen (e :: s) s b) by (cbn [In]; intuition congruence).
    unfold err1. destruct (in_dec Dec e refs); [contradiction|].
    destruct (in_dec Dec b refs); try destruct (in_dec Dec b s); cbn [app]; try apply better_same;
    apply (better_swap [] []).
  Qed.

  Lemma move_up e B C : In e refs -> forall s, better (errs s (B ++ e :: C)) (errs s (e :: B ++ C)).
  Proof.
    intros He. induction B as [|b B IH]; intros s; [constructor|]. cbn [app].
    change (better (err1 s b ++ errs (b :: s) (B ++ e :: C)) (err1 s e ++ err1 (e :: s) b ++ errs (b :: e :: s) (B ++ C))).
    eapply better_trans; [apply Better.better_app, IH|]. cbn [errs]. rewrite !app_assoc.
    rewrite (errs_seen (B ++ C) (e :: b :: s) (b :: e :: s)) by (intros x; cbn [In]; tauto).
    exact (Better.better_in _ _ (err1_swap s b e He) [] _).
  Qed.

  Lemma move_up' e B C : ~ In e refs -> forall s, better (errs s (e :: B ++ C)) (errs s (B ++ e :: C)).
  Proof.
    intros He. induction B as [|b B IH]; intros s; [constructor|]. cbn [app].
    change (better (err1 s e ++ err1 (e :: s) b ++ errs (b :: e :: s) (B ++ C)) (err1 s b ++ errs (b :: s) (B ++ e :: C))).
    eapply better_trans; [|apply Better.better_app, IH]. cbn [errs]. rewrite !app_assoc.
    rewrite (errs_seen (B ++ C) (e :: b :: s) (b :: e :: s)) by (intros x; cbn [In]; tauto).
    exact (Better.better_in _ _ (err1_swap' s b e He) [] _).
  Qed.

  Lemma rules_errs (rank : list (scored E)) ms log : first_rules refs rank ms log -> map m_err ms = errs [] (map sc_base rank).
  Proof.
    induction 1 as [|rank ms log h m g _ IH H]; [reflexivity|]. rewrite !map_app, IH, errs_app. f_equal. cbn [map errs]. rewrite !app_nil_r.
    assert (K : In (sc_base h) (rev (map sc_base rank)) <-> exists h', In h' rank /\ sc_base h' = sc_base h).
    { rewrite <- in_rev, in_map_iff. split; intros (x & A & B); eauto. }
    unfold err1. destruct H as [A B|A B|A]; destruct (in_dec Dec (sc_base h) refs) as [I|I]; try contradiction;
      try destruct (in_dec Dec (sc_base h) (rev (map sc_base rank))) as [J|J]; try reflexivity.
    - apply K in J as (h' & J & L). destruct (B h' J L).
    - destruct (J (proj2 K B)).
  Qed.
End Errors.

(** ** The ranking *)

Section Rank.
  Context {E : Type} (ce : Cmp E) (He : total_order ce).

  Lemma sorted_remove {X} (P : X -> X -> Prop) a x b : StronglySorted P (a ++ x :: b) ->
    StronglySorted P (a ++ b) /\ (forall y, In y a -> P y x) /\ (forall y, In y b -> P x y).
  Proof.
    induction a as [|y a IH]; cbn [app]; intros S; inversion S as [|? ? S' F]; subst.
    - split; [exact S'|]. split; [intros ? []|]. now apply Forall_forall.
    - destruct (IH S') as (A & B & C). rewrite Forall_forall in F. split; [|split; [|exact C]].
      + constructor; [exact A|]. apply Forall_forall. intros z I. apply F. apply in_app_or in I. apply in_or_app. simpl. tauto.
      + intros z [<-|I]; [|auto]. apply F, in_elt.
  Qed.

  Lemma rank_raised a e s s' b rank rank' : (forall h, In h (a ++ b) -> is_finite (sc_score h) = true) ->
    is_finite s = true -> is_finite s' = true -> f32_lt s s' = true ->
    ranking (c_lt ce) (lit "desc") (a ++ Scored e s :: b) rank -> ranking (c_lt ce) (lit "desc") (a ++ Scored e s' :: b) rank' ->
    exists B1 B2 B3, map sc_base rank = B1 ++ B2 ++ e :: B3 /\ map sc_base rank' = B1 ++ e :: B2 ++ B3.
  Proof.
    intros Fi Fs Fs' Lt [(_ & P & S)|[(K & _)|(K & _)]] [(_ & P' & S')|[(K' & _)|(K' & _)]]; try discriminate; try congruence.
    destruct (in_split (Scored e s) rank) as (r1 & r2 & ->); [eapply Permutation_in; [exact P|apply in_elt]|].
    destruct (in_split (Scored e s') rank') as (r1' & r2' & ->); [eapply Permutation_in; [exact P'|apply in_elt]|].
    apply Permutation_app_inv in P. apply Permutation_app_inv in P'.
    apply sorted_remove in S as (S & Sa & Sb). apply sorted_remove in S' as (S' & Sa' & Sb').
    assert (F : Forall2 equal_hyps (r1 ++ r2) (r1' ++ r2')).
    { apply (Runs.ranks_equal ce He (lit "desc") (a ++ b) (a ++ b)); auto.
      - intros h I. apply Rescore.finite_not_nan. auto.
      - left. split; [reflexivity|]. split; assumption.
      - left. split; [reflexivity|]. split; assumption. }
    assert (Eb : map sc_base (r1 ++ r2) = map sc_base (r1' ++ r2')).
    { clear - F. induction F as [|x y l l' [H _] F IH]; [reflexivity|]. cbn. now rewrite H, IH. }
    assert (L : (List.length r1' <= List.length r1)%nat).
    { destruct (Nat.le_gt_cases (List.length r1') (List.length r1)) as [L|L]; [exact L|exfalso].
      assert (exists x y, In x r2 /\ In y r1' /\ equal_hyps x y) as (x & y & Ix & Iy & [_ Q]).
      { clear - F L. revert r1' L F. induction r1 as [|z r1 IH]; intros r1' L F; cbn [app] in F.
        - destruct r1' as [|y r1']; [cbn in L; lia|]. inversion F as [|x ? ? ? Q]; subst. exists x, y. simpl. auto.
        - destruct r1' as [|y r1']; [cbn in L; lia|]. inversion F as [|? ? ? ? Q F']; subst.
          destruct (IH r1' ltac:(cbn in L; lia) F') as (x & w & A & B & C). exists x, w. simpl. auto. }
      destruct (Sb x Ix) as [A _]. destruct (Sa' y Iy) as [B _]. cbn [sc_score] in A, B.
      assert (Fx : is_finite (sc_score x) = true).
      { apply Fi. eapply Permutation_in; [apply Permutation_sym; exact P|]. apply in_or_app. auto. }
      assert (Fy : is_finite (sc_score y) = true).
      { apply Fi. eapply Permutation_in; [apply Permutation_sym; exact P'|]. apply in_or_app. auto. }
      unfold same_number, f32_eq in Q. unfold f32_lt in *.
      rewrite Beqb_correct in Q by assumption. rewrite Bltb_correct in A, B, Lt by assumption.
      apply Req_bool_true in Q || (destruct (Req_bool_spec (B2R (sc_score x)) (B2R (sc_score y))) as [Q'|]; [|discriminate]).
      destruct (Rlt_bool_spec (B2R s) (B2R (sc_score x))) as [|A1]; [discriminate|].
      destruct (Rlt_bool_spec (B2R (sc_score y)) (B2R s')) as [|B1]; [discriminate|].
      destruct (Rlt_bool_spec (B2R s) (B2R s')) as [C1|]; [|discriminate]. lra. }
    rewrite !map_app in Eb.
    exists (map sc_base r1'), (skipn (List.length r1') (map sc_base r1)), (map sc_base r2).
    rewrite !map_app. cbn [map sc_base].
    assert (H1 : map sc_base r1 = map sc_base r1' ++ skipn (List.length r1') (map sc_base r1)).
    { rewrite <- (firstn_skipn (List.length r1') (map sc_base r1)) at 1. f_equal.
      assert (K := f_equal (firstn (List.length r1')) Eb).
      rewrite <- (map_length sc_base r1') in K at 2. rewrite firstn_app, firstn_app, firstn_all, Nat.sub_diag in K.
      cbn [firstn] in K. rewrite app_nil_r in K. rewrite <- K, map_length.
      replace (List.length r1' - List.length r1)%nat with 0%nat by lia. cbn [firstn]. now rewrite app_nil_r. }
    split; [now rewrite H1 at 1; rewrite <- !app_assoc|]. f_equal. f_equal.
    rewrite H1, <- app_assoc in Eb. apply app_inv_head in Eb. now rewrite Eb.
  Qed.
End Rank.

(** ** Parts of two evaluations *)

Lemma selects_compose {X} (P P' : X -> Prop) l s s' : selects P l s -> selects P' s s' -> selects (fun x => P x /\ P' x) l s'.
Proof.
  intros S. revert s'. induction S as [|x l s Px S IH|x l s Px S IH]; intros s' S'.
  - inversion S'. constructor.
  - inversion S' as [|? ? t Q T|? ? t Q T]; subst; [apply sel_yes|apply sel_no]; auto. tauto.
  - apply sel_no; [tauto|auto].
Qed.

Section Evaluations.
  Context {Q L : Type} (cq : Cmp Q) (Hq : total_order cq) (cl : Cmp L) (Hl : total_order cl).
  Notation Ev := (event Q L).
  Notation H := (scored Ev).
  Notation M := (match_t Ev H).
  Variables (ce : Cmp Ev) (He : total_order ce) (Dec : forall x y : Ev, {x = y} + {x <> y}).
  Notation eval := (evaluation (c_lt ce) (c_lt ce) ev_query ev_query exact_search (fun r h => trivial_scorer cq cl r (sc_base h))).

  Lemma part_errors (P : Q -> Prop) crit f refs hyps ms log groups g : (forall q, kept f q -> P q \/ ~ P q) ->
    eval crit f refs hyps ms log groups -> selects (Parts.about ev_query ev_query P) ms g ->
    exists r1 h1 rank n, selects (fun r => kept f (ev_query r) /\ P (ev_query r)) refs r1 /\
      selects (fun h => kept f (ev_query (sc_base h)) /\ P (ev_query (sc_base h))) hyps h1 /\
      ranking (c_lt ce) crit h1 rank /\ map m_err g = errs Dec r1 [] (map sc_base rank) ++ repeat (MatchError f32_0 f32_1) n /\
      exists missed, NoDup missed /\ n = List.length missed /\
        forall r, In r missed <-> In r r1 /\ ~ exists h, In h rank /\ sc_base h = r.
  Proof.
    intros DP (r1 & h1 & rank & taken & found & missed & Sr & Sh & Rk & Mt & So & Mi & -> & _) Sg.
    destruct (Parts.selects_exists (fun r => P (ev_query r)) r1) as [r2 Sr2].
    { intros r I. apply DP. now apply (Grouping.selects_in _ _ _ Sr) in I. }
    destruct (Parts.selects_exists (fun h => P (ev_query (sc_base h))) h1) as [h2 Sh2].
    { intros h I. apply DP. now apply (Grouping.selects_in _ _ _ Sh) in I. }
    destruct (Parts.ranking_part (c_lt ce) crit _ h1 rank h2 Rk Sh2) as (rank2 & Srk & Rk2).
    destruct (Parts.matching_part ev_query ev_query exact_search _ Parts.exact_local P r1 r2 rank taken found log Mt Sr2 rank2 Srk)
      as (taken2 & found2 & log2 & Mt2 & Tk & Sf).
    destruct (Parts.selects_split _ _ _ _ Sg) as (g1 & g2 & -> & S1 & S2).
    rewrite (selects_fun _ _ _ _ S1 Sf) in *. clear g1 S1.
    destruct (Parts.selects_unmap _ _ _ _ S2) as (missed2 & -> & Sm).
    assert (Sm' : selects (fun r => P (ev_query r)) missed missed2).
    { revert Sm. apply Parts.selects_in_iff. intros r _. apply Parts.about_query. reflexivity. }
    destruct (Runs.first_rules_spec cq Hq cl Hl _ _ _ _ _ Mt2) as [Fr Tk2].
    exists r2, h2, rank2, (List.length missed2). split; [exact (selects_compose _ _ _ _ _ Sr Sr2)|].
    split; [exact (selects_compose _ _ _ _ _ Sh Sh2)|]. split; [exact Rk2|]. split.
    - rewrite map_app, (rules_errs Dec _ _ _ _ Fr). f_equal. clear. induction missed2 as [|m l IH]; [reflexivity|]. cbn. now rewrite IH.
    - exists missed2. assert (So2 := Ties.selects_sorted _ _ _ _ Sm' So). split; [|split; [reflexivity|]].
      + clear - So2 He. induction So2 as [|x l S IH F]; constructor; auto. intros I. rewrite Forall_forall in F. specialize (F x I).
        rewrite (to_irrefl _ He) in F. discriminate.
      + intros r. rewrite (Grouping.selects_in _ _ _ Sm'), Mi. assert (T1 := Tk r). assert (T2 := Tk2 r).
        rewrite (Grouping.selects_in _ _ _ Sr2) in *. tauto.
  Qed.

  Lemma part_raised (P : Q -> Prop) f refs hyps hyps' e ms log groups g ms' log' groups' g' : (forall q, kept f q -> P q \/ ~ P q) ->
    (forall h, In h hyps -> is_finite (sc_score h) = true) -> (forall h, In h hyps' -> is_finite (sc_score h) = true) ->
    raised e hyps hyps' ->
    eval (lit "desc") f refs hyps ms log groups -> selects (Parts.about ev_query ev_query P) ms g ->
    eval (lit "desc") f refs hyps' ms' log' groups' -> selects (Parts.about ev_query ev_query P) ms' g' ->
    (In e refs -> better (map m_err g) (map m_err g')) /\ (~ In e refs -> better (map m_err g') (map m_err g)).
  Proof.
    intros DP Fi Fi' (a & s & s' & b & -> & -> & Lt) Ev Sg Ev' Sg'.
    destruct (part_errors P (lit "desc") f refs _ ms log groups g DP Ev Sg) as (r1 & h1 & rank & n & Sr & Sh & Rk & -> & missed & Nm & -> & Im).
    destruct (part_errors P (lit "desc") f refs _ ms' log' groups' g' DP Ev' Sg') as (r2 & h2 & rank' & n' & Sr' & Sh' & Rk' & -> & missed' & Nm' & -> & Im').
    rewrite (selects_fun _ _ _ _ Sr' Sr) in *. clear r2 Sr'.
    destruct (Parts.selects_split _ _ _ _ Sh) as (a1 & k & -> & Sa & Sk). destruct (Parts.selects_split _ _ _ _ Sh') as (a2 & k' & -> & Sa' & Sk').
    rewrite (selects_fun _ _ _ _ Sa' Sa) in *. clear a2 Sa'.
    assert (exists B1 B2 B3, (map sc_base rank = B1 ++ B2 ++ e :: B3 /\ map sc_base rank' = B1 ++ e :: B2 ++ B3 /\ (In e r1 <-> In e refs)) \/
      (map sc_base rank = map sc_base rank')) as (B1 & B2 & B3 & HB).
    { inversion Sk as [|? ? b1 Pe Sb|? ? b1 Pe Sb]; inversion Sk' as [|? ? b2 Pe' Sb'|? ? b2 Pe' Sb']; subst; cbn [sc_base] in *; try contradiction;
        rewrite (selects_fun _ _ _ _ Sb' Sb) in *.
      - destruct (rank_raised ce He a1 e s s' b1 rank rank') as (B1 & B2 & B3 & E1 & E2); auto.
        + intros h I. apply Fi. assert (J := Grouping.selects_in _ _ _ Sa h). assert (J' := Grouping.selects_in _ _ _ Sb h).
          rewrite in_app_iff in *. cbn [In]. tauto.
        + apply (Fi (Scored e s)), in_elt.
        + apply (Fi' (Scored e s')), in_elt.
        + exists B1, B2, B3. left. split; [exact E1|]. split; [exact E2|]. rewrite (Grouping.selects_in _ _ _ Sr). tauto.
      - exists [], [], []. right.
        assert (F : Forall2 equal_hyps rank rank').
        { refine (Runs.ranks_equal ce He (lit "desc") _ _ rank rank' (or_introl eq_refl) _ (Permutation_refl _) Rk Rk'). intros h I. apply Rescore.finite_not_nan.
          apply Fi. assert (J := Grouping.selects_in _ _ _ Sa h). assert (J' := Grouping.selects_in _ _ _ Sb h).
          rewrite in_app_iff in *. cbn [In]. tauto. }
        clear - F. induction F as [|x y l l' [E _] F IH]; [reflexivity|]. cbn. now rewrite E, IH. }
    assert (Es : forall r, (exists h, In h rank /\ sc_base h = r) <-> (exists h, In h rank' /\ sc_base h = r)).
    { intros r. assert (K : In r (map sc_base rank) <-> In r (map sc_base rank')).
      { destruct HB as [(-> & -> & _)| ->]; [|reflexivity]. rewrite !in_app_iff. cbn [In]. rewrite in_app_iff. tauto. }
      rewrite !in_map_iff in K. split; intros (h & I & J); [destruct (proj1 K) as (x & A & B)|destruct (proj2 K) as (x & A & B)]; eauto. }
    assert (En : List.length missed' = List.length missed).
    { apply Permutation_length, NoDup_Permutation; auto. intros r. rewrite Im, Im', Es. reflexivity. }
    rewrite En. destruct HB as [(-> & -> & Hr)| ->]; [|split; intros _; constructor].
    rewrite !(errs_app Dec r1 B1). rewrite <- !app_assoc, <- Hr. split; intros I.
    - apply Better.better_app. exact (Better.better_in _ _ (move_up Dec r1 e B2 B3 I _) [] _).
    - apply Better.better_app. exact (Better.better_in _ _ (move_up' Dec r1 e B2 B3 I _) [] _).
  Qed.
End Evaluations.

(** ** Means *)

Lemma average_R (vs : list R) : average (A := RArith) vs = (sum_of (fun v => v) vs / INR (List.length vs))%R.
Proof.
  destruct (Parts.average_mean vs) as [[-> ->]|[N E]]; [unfold sum_of; cbn; unfold Rdiv; now rewrite Rmult_0_l|].
  rewrite <- E. change (@eq R (average (A := RArith) vs) (average (A := RArith) vs * INR (List.length vs) / INR (List.length vs))%R).
  assert (K : INR (List.length vs) <> 0%R) by (apply not_0_INR; destruct vs; [congruence|discriminate]).
  generalize dependent (average (A := RArith) vs). change (num RArith) with R. intros x _. now field.
Qed.

Lemma average_le (vs ws : list R) : Forall2 Rle vs ws -> (average (A := RArith) vs <= average (A := RArith) ws)%R.
Proof.
  intros F. rewrite !average_R, (Curves.Forall2_len _ _ _ F).
  assert (S : (sum_of (fun v => v) vs <= sum_of (fun v => v) ws)%R) by (induction F; unfold sum_of in *; cbn; lra).
  destruct ws as [|w ws]; [inversion F; subst; lra|].
  apply Rmult_le_compat_r; [|exact S]. left. apply Rinv_0_lt_compat, lt_0_INR. cbn. lia.
Qed.

Lemma average_perm (vs ws : list R) : Permutation vs ws -> average (A := RArith) vs = average (A := RArith) ws.
Proof. intros P. now rewrite !average_R, (Permutation_length P), (Curves.sum_of_perm _ _ _ P). Qed.

Definition ap_value (i t : bool) (es : list match_error) : R := match Better.raw_ap es i t with Ok a => a | _ => 0%R end.

Lemma ap_value_ok i t es : Better.raw_ap es i t = Ok (ap_value i t es).
Proof. unfold ap_value. destruct (Better.raw_ap_defined es i t) as [a ->]. reflexivity. Qed.

Lemma better_ap_value i t es es' : better es es' -> (forall e, In e es -> zero_one e) -> (ap_value i t es <= ap_value i t es')%R.
Proof.
  intros H Z. destruct (Better.better_ap es es' i t H Z) as (a & b & E & E' & L). unfold ap_value. now rewrite E, E'.
Qed.

Lemma mean_value {RE HE} (score : HE -> f32) srt (gs : list (list (match_t RE HE))) i t v : mean_ap RArith score srt gs false i t false = Ok v ->
  v = average (A := RArith) (map (fun g => ap_value i t (map m_err g)) gs).
Proof.
  intros H. apply (Parts.mean_ap_average score srt gs false i t v _ H). clear. induction gs as [|g gs IH]; constructor; [|exact IH].
  rewrite Better.raw_ap_ok. apply ap_value_ok.
Qed.

Lemma mean_ndcg_value {RE HE} (score : HE -> f32) srt (gs : list (list (match_t RE HE))) v : mean_ndcg RArith RTrans score srt gs false false = Ok v ->
  v = average (A := RArith) (map (fun g => Better.raw_ndcg (map m_err g)) gs).
Proof.
  intros H. apply (Parts.mean_ndcg_average score RTrans srt) in H. subst v. f_equal. apply map_ext. intros g. apply Better.raw_ndcg_ok.
Qed.

(** Groups that are no worse one by one have no worse means. *)
Lemma means_le {K RE HE RE' HE'} (P : K -> list (match_t RE HE) -> Prop) (P' : K -> list (match_t RE' HE') -> Prop) (v : list match_error -> R)
  (r : list match_error -> list match_error -> Prop) keys keys' gs gs' :
  NoDup keys -> NoDup keys' -> (forall k, In k keys <-> In k keys') -> Forall2 P keys gs -> Forall2 P' keys' gs' ->
  (forall k g g', In k keys -> P k g -> P' k g' -> r (map m_err g) (map m_err g')) ->
  (forall g es', In g gs -> r (map m_err g) es' -> (v (map m_err g) <= v es')%R) ->
  (average (A := RArith) (map (fun g => v (map m_err g)) gs) <= average (A := RArith) (map (fun g => v (map m_err g)) gs'))%R.
Proof.
  intros N N' I F F' Hr Hv.
  assert (Pm : Permutation keys' keys) by (apply NoDup_Permutation; auto; intros k; now rewrite I).
  destruct (Ties.Forall2_perm _ _ _ Pm _ F') as (gs2 & Pg & F2).
  rewrite (average_perm _ _ (Permutation_map (fun g => v (map m_err g)) Pg)). apply average_le.
  clear - F F2 Hr Hv. revert gs2 F2. induction F as [|k g keys gs Hk F IH]; intros gs2 F2; inversion F2 as [|? g2 ? l Hk2 F3]; subst; constructor.
  - apply Hv; [now left|]. apply (Hr k); auto. now left.
  - apply IH; auto; intros; [apply (Hr k0)|apply Hv]; auto; now right.
Qed.

(** ** Ids *)

Lemma map_all_scored {E1 E2 S} (m : S -> E1 -> outcome (E2 * S)) hyps : forall t r t', map_all (scored_mapper m) t hyps = Ok (r, t') ->
  map_all m t (map sc_base hyps) = Ok (map sc_base r, t').
Proof.
  induction hyps as [|h hyps IH]; intros t r t' E; cbn [map_all map] in *.
  - injection E as <- <-. reflexivity.
  - unfold scored_mapper in E at 1. destruct (m t (sc_base h)) as [[b s]| |]; cbn [obind] in E; try discriminate. cbn [obind].
    destruct (map_all (scored_mapper m) s hyps) as [[r' t'']| |] eqn:F; cbn [obind] in E; try discriminate.
    injection E as <- <-. rewrite (IH _ _ _ F). reflexivity.
Qed.

Lemma ids_bases qf refs hyps hyps' id id' : map sc_base hyps = map sc_base hyps' ->
  Instances.ids_of qf refs hyps id -> Instances.ids_of qf refs hyps' id' ->
  (forall r, In r refs -> renamed id r = renamed id' r) /\ (forall h, In h hyps' -> renamed id (sc_base h) = renamed id' (sc_base h)).
Proof.
  intros Eb (t1 & t2 & M1 & M2) (t1' & t2' & M1' & M2'). rewrite M1 in M1'. injection M1' as E1 <-.
  apply map_all_scored in M2, M2'. rewrite Eb, M2' in M2. injection M2 as E2 _. rewrite !map_map in E2. cbn [sc_base map_scored] in E2.
  rewrite <- (map_map sc_base (renamed id) hyps), Eb, map_map in E2.
  assert (K : forall X Y (f g : X -> Y) l, map f l = map g l -> forall x, In x l -> f x = g x).
  { clear. intros X Y f g. induction l as [|a l IH]; intros E x I; [destruct I|]. injection E as E1 E2. destruct I as [<-|I]; auto. }
  split; [exact (K _ _ _ _ _ E1)|]. intros h I. symmetry. exact (K _ _ _ _ _ E2 h I).
Qed.

Lemma raised_bases {E} (e : E) hyps hyps' : raised e hyps hyps' -> map sc_base hyps = map sc_base hyps'.
Proof. intros (a & s & s' & b & -> & -> & _). rewrite !map_app. reflexivity. Qed.

Lemma event_dec (x y : event bytes bytes) : {x = y} + {x <> y}.
Proof. decide equality; apply Parts.bytes_dec. Qed.

(** ** The runs *)

Section Runs.
  Variables (srt : sort_fn) (Hs : sort_contract srt).
  Variables (rngs : Z -> rng) (show_int : Z -> bytes) (show_f64 : f64 -> bytes).
  Notation simple := (simple_kws RArith RTrans srt rngs show_int show_f64).

  Lemma group_dec f k (q : bytes) : kept f q -> group_is f q k \/ ~ group_is f q k.
  Proof.
    assert (K : kept f q -> exists j, group_is f q j).
    { intros [[j Kj]|N]; [exists j; now left|exists q; right; split; [intros j; apply N|reflexivity]]. }
    intros Kq. destruct (K Kq) as [j Kj]. destruct (Parts.bytes_dec j k) as [<-|N]; [now left|right].
    intros Kk. exact (N (Evaluation.group_is_fun f q j k Kj Kk)).
  Qed.

  Lemma simple_raised qf w w' pn args c refs hyps hyps' f e : command args c -> no_bootstrap c -> cf_sort c = lit "desc" -> cf_collapse c = false ->
    inputs str_event_text scored_str_event_text w c refs hyps f -> inputs str_event_text scored_str_event_text w' c refs hyps' f ->
    (Z.of_nat (strings refs hyps f) <= 2147483648)%Z -> raised e hyps hyps' ->
    exists gap vap gndcg vndcg gap' vap' gndcg' vndcg' : R,
      prints (A := RArith) (fst (simple qf w pn args)) gap vap gndcg vndcg /\
      prints (A := RArith) (fst (simple qf w' pn args)) gap' vap' gndcg' vndcg' /\
      (In e refs -> gap <= gap' /\ vap <= vap' /\ gndcg <= gndcg' /\ vndcg <= vndcg')%R /\
      (~ In e refs -> gap' <= gap /\ vap' <= vap /\ gndcg' <= gndcg /\ vndcg' <= vndcg)%R.
  Proof.
    intros Cm NB Cs Cc I I' Ls Ra.
    assert (Ls' : (Z.of_nat (strings refs hyps' f) <= 2147483648)%Z).
    { revert Ls. assert (K := f_equal (@List.length _) (raised_bases e hyps hyps' Ra)). rewrite !map_length in K. unfold strings. now rewrite K. }
    destruct (simple qf w pn args) as [l r] eqn:Et. rewrite Instances.simple_tool in Et.
    destruct (simple qf w' pn args) as [l' r'] eqn:Et'. rewrite Instances.simple_tool in Et'. cbn [fst].
    destruct (Instances.simple_run_ids RTrans srt Hs rngs show_int show_f64 w qf pn args c refs hyps f l r Cm NB I Et Ls)
      as (id & ms & log & gs & Id & Inj & Fi & Ev & Rp).
    destruct (Instances.simple_run_ids RTrans srt Hs rngs show_int show_f64 w' qf pn args c refs hyps' f l' r' Cm NB I' Et' Ls')
      as (id' & ms' & log' & gs' & Id' & Inj' & Fi' & Ev' & Rp').
    rewrite Cs in Ev, Ev'.
    destruct (ids_bases qf refs hyps hyps' id id' (raised_bases _ _ _ Ra) Id Id') as [Ar Ah].
    apply (Parts.evaluation_orders _ (c_lt (Results.by_id id)) _ (c_lt (Results.by_id id))) in Ev';
      [|intros h h' Ih Ih'; unfold Results.by_id; cbn [c_lt]; now rewrite (Ah h Ih), (Ah h' Ih')
       |intros x x' Ix Ix'; unfold Results.by_id; cbn [c_lt]; now rewrite (Ar x Ix), (Ar x' Ix')].
    set (ce := Results.by_id id) in *. assert (He : total_order ce) by exact (Results.by_id_total id Inj).
    destruct (Parts.evaluation_keys (c_lt ce) ce He ev_query ev_query (evset_generic ce) exact_search
      (Matching.finds_generic ce He) (fun r h => trivial_scorer cmp_str cmp_str r (sc_base h)) Parts.exact_local _ _ _ _ _ _ _ Ev) as (keys & Nk & Fk & Hm & Ik).
    destruct (Parts.evaluation_keys (c_lt ce) ce He ev_query ev_query (evset_generic ce) exact_search
      (Matching.finds_generic ce He) (fun r h => trivial_scorer cmp_str cmp_str r (sc_base h)) Parts.exact_local _ _ _ _ _ _ _ Ev') as (keys' & Nk' & Fk' & Hm' & Ik').
    assert (Zo : forall m, In m ms -> zero_one (m_err m)).
    { apply (Evaluation.eval_zero_one _ ce _ _ _ _ _ _ _ _ _ _ _ Ev). intros x h. apply Instances.zero_one_trivial. }
    assert (Zo' : forall m, In m ms' -> zero_one (m_err m)).
    { apply (Evaluation.eval_zero_one _ ce _ _ _ _ _ _ _ _ _ _ _ Ev'). intros x h. apply Instances.zero_one_trivial. }
    assert (Kk : forall k, In k keys <-> In k keys').
    { intros k. rewrite Ik, Ik'. assert (B : forall q, (exists h, In h hyps /\ ev_query (sc_base h) = q) <-> (exists h, In h hyps' /\ ev_query (sc_base h) = q)).
      { intros q. assert (K : map (fun h => ev_query (sc_base h)) hyps = map (fun h => ev_query (sc_base h)) hyps').
        { rewrite <- (map_map sc_base ev_query hyps), <- (map_map sc_base ev_query hyps'). now rewrite (raised_bases _ _ _ Ra). }
        split; intros (h & J & E); apply (in_map (fun h => ev_query (sc_base h))) in J; cbv beta in J; rewrite E in J;
          [rewrite K in J|rewrite <- K in J]; apply in_map_iff in J as (x & A & B); eauto. }
      split; intros (q & A1 & A2 & A3); exists q; (split; [exact A1|]); (split; [exact A2|]); (destruct A3 as [A3|A3]; [now left|right]); now apply B. }
    assert (Hp : forall P g g', (forall q, kept f q -> P q \/ ~ P q) -> selects (Parts.about ev_query ev_query P) ms g ->
      selects (Parts.about ev_query ev_query P) ms' g' ->
      (In e refs -> better (map m_err g) (map m_err g')) /\ (~ In e refs -> better (map m_err g') (map m_err g))).
    { intros P g g' DP Sg Sg'. exact (part_raised cmp_str Order.total_order_str cmp_str Order.total_order_str ce He event_dec P f refs hyps hyps' e
        ms log gs g ms' log' gs' g' DP Fi Fi' Ra Ev Sg Ev' Sg'). }
    assert (Ha : forall m, In m ms -> Parts.about ev_query ev_query (fun _ => True) m).
    { intros m J. destruct (Hm m J) as (k & _ & q & A & _). exists q. auto. }
    assert (Ha' : forall m, In m ms' -> Parts.about ev_query ev_query (fun _ => True) m).
    { intros m J. destruct (Hm' m J) as (k & _ & q & A & _). exists q. auto. }
    destruct (Hp (fun _ => True) ms ms' (fun _ _ => or_introl Logic.I) (selects_all _ _ Ha) (selects_all _ _ Ha')) as [G1 G2].
    destruct (Parts.reported_prints RTrans srt _ _ _ _ _ _ _ Rp) as (v1 & v2 & v4 & Pr & H1 & H2 & H4).
    destruct (Parts.reported_prints RTrans srt _ _ _ _ _ _ _ Rp') as (v1' & v2' & v4' & Pr' & H1' & H2' & H4').
    rewrite Cc in *.
    assert (En : forall (j : bytes -> Z) (x : list (match_t (event bytes bytes) (scored (event bytes bytes)))), map m_err (map (renamed_match j) x) = map m_err x) by (intros j x; rewrite map_map; reflexivity).
    rewrite Better.raw_ap_ok, En, ap_value_ok in H1, H1'. injection H1 as <-. injection H1' as <-.
    rewrite Better.raw_ndcg_ok, En in Pr, Pr'.
    apply mean_value in H2, H2'. apply mean_ndcg_value in H4, H4'. rewrite map_map in H2, H2', H4, H4'.
    erewrite map_ext in H2 by (intros g; rewrite En; reflexivity). erewrite map_ext in H2' by (intros g; rewrite En; reflexivity).
    erewrite map_ext in H4 by (intros g; rewrite En; reflexivity). erewrite map_ext in H4' by (intros g; rewrite En; reflexivity).
    subst v2 v2' v4 v4'.
    assert (Fz : forall g x, In g gs -> In x (map m_err g) -> zero_one x).
    { intros g x J K. apply in_map_iff in K as (m & <- & K). apply Zo. destruct (Evaluation.Forall2_in _ _ _ Fk) as [_ F].
      destruct (F g J) as (k & _ & S). now apply (Grouping.selects_in _ _ _ S) in K. }
    assert (Fz' : forall g x, In g gs' -> In x (map m_err g) -> zero_one x).
    { intros g x J K. apply in_map_iff in K as (m & <- & K). apply Zo'. destruct (Evaluation.Forall2_in _ _ _ Fk') as [_ F].
      destruct (F g J) as (k & _ & S). now apply (Grouping.selects_in _ _ _ S) in K. }
    assert (Zm : forall x, In x (map m_err ms) -> zero_one x) by (intros x K; apply in_map_iff in K as (m & <- & K); auto).
    assert (Zm' : forall x, In x (map m_err ms') -> zero_one x) by (intros x K; apply in_map_iff in K as (m & <- & K); auto).
    do 8 eexists. split; [exact Pr|]. split; [exact Pr'|]. split; intros J.
    - split; [apply better_ap_value; auto|]. split; [|split; [apply Better.better_ndcg; auto|]].
      + apply (means_le _ _ (ap_value (cf_interp c) (cf_trapezoid c)) better keys keys' gs gs' Nk Nk' Kk Fk Fk').
        * intros k g g' _ Sg Sg'. exact (proj1 (Hp (fun q => group_is f q k) g g' (group_dec f k) Sg Sg') J).
        * intros g es Jg Hb. apply better_ap_value; [exact Hb|]. intros x. now apply Fz.
      + apply (means_le _ _ Better.raw_ndcg better keys keys' gs gs' Nk Nk' Kk Fk Fk').
        * intros k g g' _ Sg Sg'. exact (proj1 (Hp (fun q => group_is f q k) g g' (group_dec f k) Sg Sg') J).
        * intros g es Jg Hb. now apply Better.better_ndcg.
    - split; [apply better_ap_value; auto|]. split; [|split; [apply Better.better_ndcg; auto|]].
      + apply (means_le _ _ (ap_value (cf_interp c) (cf_trapezoid c)) better keys' keys gs' gs Nk' Nk (fun k => iff_sym (Kk k)) Fk' Fk).
        * intros k g g' _ Sg Sg'. exact (proj2 (Hp (fun q => group_is f q k) g' g (group_dec f k) Sg' Sg) J).
        * intros g es Jg Hb. apply better_ap_value; [exact Hb|]. intros x. now apply Fz'.
      + apply (means_le _ _ Better.raw_ndcg better keys' keys gs' gs Nk' Nk (fun k => iff_sym (Kk k)) Fk' Fk).
        * intros k g g' _ Sg Sg'. exact (proj2 (Hp (fun q => group_is f q k) g' g (group_dec f k) Sg' Sg) J).
        * intros g es Jg Hb. now apply Better.better_ndcg.
  Qed.
End Runs.
