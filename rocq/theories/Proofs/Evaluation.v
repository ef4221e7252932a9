(** Consequences of an evaluation, and average precision. *)
From Coq Require Import Ascii String List Bool ZArith Lia Reals Lra Permutation Sorted.
From Flocq Require Import BinarySingleNaN.
From Verif.Model Require Import Cpp Floats Events EventSets Matches Matcher Assessment.
From Verif.Spec Require Import Order Matching Grouping Collapse Metrics Curves Reader Tool.
From Verif.Proofs Require Matching Grouping Collapse Metrics Curves Rescore.
Import ListNotations.

(** ** Evaluations *)

Section Evaluation.
  Context {Q RE E : Type}.
  Notation HE := (scored E).
  Notation M := (match_t RE HE).
  Variables (lte : E -> E -> bool) (cr : Cmp RE) (Hr : total_order cr).
  Variables (rq : RE -> Q) (hq : E -> Q).
  Variables (S : EvSet RE HE) (R : list RE -> HE -> list RE -> Prop) (HS : finds S R).
  Variable scorer : RE -> HE -> match_error.
  Variables (crit : bytes) (f : query_file Q) (refs : list RE) (hyps : list HE).
  Variables (ms log : list M) (groups : list (list M)).
  Hypothesis Ev : evaluation lte (c_lt cr) rq hq R scorer crit f refs hyps ms log groups.

  Lemma ranking_in hyps' rank : ranking lte crit hyps' rank -> (forall h, In h rank <-> In h hyps') /\ List.length rank = List.length hyps'.
  Proof.
    intros [(_ & P & _)|[(_ & P & _)|(_ & _ & ->)]].
    - split; [|symmetry; now apply Permutation_length].
      intros h. split; apply Permutation_in; auto using Permutation_sym.
    - split; [|symmetry; now apply Permutation_length].
      intros h. split; apply Permutation_in; auto using Permutation_sym.
    - tauto.
  Qed.

  (** The references of the matches are the selected ones, each once. *)
  Lemma eval_refs : NoDup (refs_of ms) /\ forall r, In r (refs_of ms) <-> In r refs /\ kept f (rq r).
  Proof.
    destruct Ev as (refs' & hyps' & rank & taken & found & missed & Sr & _ & _ & Mt & So & Im & -> & _).
    destruct (Matching.matching_taken S R HS scorer _ _ _ _ _ Mt) as (T1 & T2 & T3).
    rewrite Matching.refs_app, Matching.refs_fn, T3. split.
    - apply Geometry.nodup_app; [exact T2| |].
      + clear - So Hr. induction So as [|x l So IH F]; constructor; [|exact IH].
        intros I. rewrite Forall_forall in F. specialize (F x I). rewrite (to_irrefl _ Hr) in F. discriminate.
      + intros x K L. apply Im in L. tauto.
    - intros r. rewrite in_app_iff, Im, <- (Grouping.selects_in _ _ _ Sr). split.
      + intros [K|[K _]]; auto.
      + intros K. destruct (in_dec (fun x y => ltac:(destruct (c_eq cr x y) eqn:Ee;
          [left; apply (to_eq _ Hr), Ee|right; intros C; apply (to_eq _ Hr) in C; congruence])) r taken); auto.
  Qed.

  (** The hypotheses of the matches and the log are the selected ones. *)
  Lemma eval_hyps : (forall h, In h (hyps_of ms) \/ In h (hyps_of log) <-> In h hyps /\ kept f (hq (sc_base h))) /\
    exists rank hyps', selects (fun h => kept f (hq (sc_base h))) hyps hyps' /\ ranking lte crit hyps' rank /\
      sublist (hyps_of ms) rank.
  Proof.
    destruct Ev as (refs' & hyps' & rank & taken & found & missed & _ & Sh & Rk & Mt & So & Im & -> & _).
    rewrite Matching.hyps_app, Matching.hyps_fn, app_nil_r.
    destruct (ranking_in _ _ Rk) as [Ri _].
    assert (Sub := Matching.matching_hyps R scorer _ _ _ _ _ Mt).
    split; [|exists rank, hyps'; auto].
    assert (SI : forall {X} (a b : list X), sublist a b -> incl a b).
    { clear. intros X a b K. induction K; intros z I; simpl in *; tauto || (destruct I; auto) || auto. }
    intros h. rewrite <- (Grouping.selects_in _ _ _ Sh), <- Ri. split.
    - intros [K|K]; [exact (SI _ _ _ Sub h K)|].
      unfold hyps_of in K. apply in_flat_map in K as (m & Im' & K).
      destruct (Matching.matching_log R scorer _ _ _ _ _ Mt m Im') as (r & h' & -> & I & _).
      simpl in K. destruct K as [<-|[]]. exact I.
    - intros K. exact (Matching.matching_cover R scorer _ _ _ _ _ Mt h K).
  Qed.

  Lemma eval_members m : In m ms ->
    (exists r h, m = match_pair r h (scorer r h) /\ In h hyps) \/ (exists h, m = make_fp h /\ In h hyps) \/ (exists r, m = make_fn r).
  Proof.
    destruct Ev as (refs' & hyps' & rank & taken & found & missed & _ & Sh & Rk & Mt & So & Im & -> & _).
    destruct (ranking_in _ _ Rk) as [Ri _].
    assert (Hh : forall h, In h rank -> In h hyps).
    { intros h K. apply Ri in K. now apply (Grouping.selects_in _ _ _ Sh) in K. }
    intros K. apply in_app_or in K as [K|K].
    - destruct (Matching.matching_members R scorer _ _ _ _ _ Mt m K) as (h & I & [(r & l & -> & _)|(l & -> & _)]); eauto 6.
    - apply in_map_iff in K as (r & <- & _). eauto.
  Qed.

  Lemma eval_zero_one : (forall r h, zero_one (scorer r h)) -> forall m, In m ms -> zero_one (m_err m).
  Proof.
    intros Z m I. destruct (eval_members m I) as [(r & h & -> & _)|[(h & -> & _)|(r & ->)]]; [apply Z| |];
      split; simpl; auto.
  Qed.

  Lemma eval_ranked : (forall h, In h hyps -> is_finite (sc_score h) = true) -> ranked sc_score ms.
  Proof.
    intros F m I. destruct (eval_members m I) as [(r & h & -> & K)|[(h & -> & K)|(r & ->)]]; unfold rank; simpl;
      try reflexivity; apply Rescore.finite_not_nan; auto.
  Qed.

  Lemma eval_length : (List.length ms <= List.length refs + List.length hyps)%nat.
  Proof.
    assert (ER := eval_refs). destruct Ev as (refs' & hyps' & rank & taken & found & missed & Sr & Sh & Rk & Mt & So & Im & E1 & _).
    rewrite E1 in *. rewrite app_length, map_length.
    assert (L1 := Matching.matching_length R scorer _ _ _ _ _ Mt).
    destruct (ranking_in _ _ Rk) as [_ L2].
    assert (L3 := Matching.sub_length _ _ (Grouping.selects_sub _ _ _ Sh)).
    assert (L4 : (List.length missed <= List.length refs)%nat).
    { apply NoDup_incl_length.
      - destruct ER as [N _]. rewrite Matching.refs_app, Matching.refs_fn in N. clear - N.
        induction (refs_of found) as [|x l IH]; [exact N|]. inversion N. auto.
      - intros r I. apply Im in I as [I _]. now apply (Grouping.selects_in _ _ _ Sr) in I. }
    lia.
  Qed.

  (** Two matches of the result are in the same group exactly if the file
      gives their queries the same group. *)
  Lemma eval_query m : In m ms -> exists q, has_query rq (fun h => hq (sc_base h)) m q.
  Proof.
    intros I. destruct (eval_members m I) as [(r & h & -> & _)|[(h & -> & _)|(r & ->)]]; unfold has_query; simpl; eauto.
  Qed.

  Lemma eval_grouping : grouping rq hq f ms groups.
  Proof. destruct Ev as (? & ? & ? & ? & ? & ? & _ & _ & _ & _ & _ & _ & _ & G). exact G. Qed.

  Lemma Forall2_in {X Y} (P : X -> Y -> Prop) l l' : Forall2 P l l' ->
    (forall x, In x l -> exists y, In y l' /\ P x y) /\ (forall y, In y l' -> exists x, In x l /\ P x y).
  Proof.
    induction 1 as [|x y l l' H F [I1 I2]]; [split; intros ? []|]. split.
    - intros z [<-|K]; [exists y; simpl; auto|]. destruct (I1 z K) as (y' & ? & ?). exists y'. simpl; auto.
    - intros z [<-|K]; [exists x; simpl; auto|]. destruct (I2 z K) as (y' & ? & ?). exists y'. simpl; auto.
  Qed.

  Lemma eval_group_in g : In g groups -> g <> [] /\ sublist g ms.
  Proof.
    intros I. destruct eval_grouping as (ks & keys & _ & _ & F). destruct (Forall2_in _ _ _ F) as [_ K].
    destruct (K g I) as (k & _ & N & Sg). split; [exact N|]. exact (Grouping.selects_sub _ _ _ Sg).
  Qed.

  Lemma eval_cover m : In m ms -> exists g, In g groups /\ In m g.
  Proof.
    intros I. destruct eval_grouping as (ks & keys & F1 & FS & F2).
    destruct (Forall2_in _ _ _ F1) as [K1 _]. destruct (K1 m I) as (k & Ik & Gk).
    apply (Grouping.first_seen_in _ _ FS) in Ik.
    destruct (Forall2_in _ _ _ F2) as [K2 _]. destruct (K2 k Ik) as (g & Ig & _ & Sg).
    exists g. split; [exact Ig|]. now apply (Grouping.selects_in _ _ _ Sg).
  Qed.
End Evaluation.

Lemma assigns_fun {Q} (f : query_file Q) q g g' : assigns f q g -> assigns f q g' -> g = g'.
Proof.
  destruct f as [|qs|ls]; simpl; [easy|intros [_ ->] [_ ->]; reflexivity|].
  intros (l1 & qs & l2 & -> & I & N) (l1' & qs' & l2' & E & I' & N').
  revert l1' E. induction l1 as [|x l1 IH]; intros [|y l1'] E; simpl in E.
  - congruence.
  - injection E as E1 E2. subst. exfalso. eapply N; [|exact I']. apply in_or_app. right. left. reflexivity.
  - injection E as E1 E2. subst. exfalso. eapply N'; [|exact I]. apply in_or_app. right. left. reflexivity.
  - injection E as E1 E2. eauto.
Qed.

Lemma group_is_fun {Q} (f : query_file Q) q g g' : group_is f q g -> group_is f q g' -> g = g'.
Proof.
  intros [H|[H ->]] [K|[K ->]]; auto.
  - now apply (assigns_fun f q).
  - destruct (K _ H).
  - destruct (H _ K).
Qed.

Lemma match_group_fun {Q RE E} (rq : RE -> Q) (hq : E -> Q) f (m : match_t RE (scored E)) g g' :
  match_group rq hq f m g -> match_group rq hq f m g' -> g = g'.
Proof.
  intros (q & H & K) (q' & H' & K'). rewrite (Grouping.has_query_unique rq (fun h => hq (sc_base h)) m q' q H' H) in K'.
  exact (group_is_fun f q g g' K K').
Qed.

Lemma grouping_same {Q RE E} (rq : RE -> Q) (hq : E -> Q) f ms (groups : list (list (match_t RE (scored E)))) :
  grouping rq hq f ms groups -> forall m m', In m ms -> In m' ms ->
  (exists g, In g groups /\ In m g /\ In m' g) <-> (exists k, match_group rq hq f m k /\ match_group rq hq f m' k).
Proof.
  intros (ks & keys & F1 & FS & F2) m m' I I'. split.
  - intros (g & Ig & J & J'). destruct (Forall2_in _ _ _ F2) as [_ K]. destruct (K g Ig) as (k & _ & _ & Sg).
    exists k. split; [now apply (Grouping.selects_in _ _ _ Sg) in J|now apply (Grouping.selects_in _ _ _ Sg) in J'].
  - intros (k & G & G'). destruct (Forall2_in _ _ _ F1) as [K1 _]. destruct (K1 m I) as (k' & Ik & Gk).
    rewrite (match_group_fun rq hq f m k' k Gk G) in Ik. apply (Grouping.first_seen_in _ _ FS) in Ik.
    destruct (Forall2_in _ _ _ F2) as [K2 _]. destruct (K2 k Ik) as (g & Ig & _ & Sg).
    exists g. split; [exact Ig|]. split; apply (Grouping.selects_in _ _ _ Sg); auto.
Qed.

(** ** Average precision *)

Section AveragePrecision.
  Context {RE HE : Type} (score : HE -> f32).
  Notation M := (match_t RE HE).

  Lemma points_spec collapse (l : list M) : (forall m, In m l -> zero_one (m_err m)) ->
    (collapse = true -> ranked score l /\ (Z.of_nat (List.length l) <= 2 ^ 24)%Z) ->
    exists rs, (if collapse then are_runs score l rs else rs = map (fun m => [m]) l) /\
      Forall2 counted_as rs (points score collapse l) /\ Forall2 summed_as rs (points score collapse l).
  Proof.
    intros Z H. destruct collapse.
    - destruct (H eq_refl) as [Rk L]. destruct (Collapse.collapse_spec score l Rk) as (rs & A & F).
      exists rs. split; [exact A|]. cbn [points].
      assert (B : forall r, In r rs -> (List.length r <= List.length l)%nat /\ forall m, In m r -> zero_one (m_err m)).
      { intros r I. destruct A as [A1 _ _ _]. split.
        - rewrite <- A1. clear -I. induction rs as [|s rs IH]; [destruct I|]. simpl. rewrite app_length.
          destruct I as [->|I]; [lia|]. specialize (IH I). lia.
        - intros m Hm. apply Z. rewrite <- A1. apply in_concat. eauto. }
      clear A. induction F as [|r c rs cs (F1 & _ & F2) F IH]; [split; constructor|].
      destruct IH as [I1 I2]; [intros; apply B; now right|].
      destruct (B r (or_introl eq_refl)) as [B1 B2].
      split; constructor; auto. apply F2; [exact B2|lia].
    - eexists. split; [reflexivity|]. cbn [points]. unfold get_match_errors. clear Z H.
      split; induction l as [|m l IH]; simpl; constructor; auto.
      + unfold counted_as, total. simpl. rewrite !Nat.add_0_r. split; reflexivity.
      + unfold summed_as. simpl. split; lra.
  Qed.

  Lemma curve_of_spec collapse interpolate (l : list M) : (forall m, In m l -> zero_one (m_err m)) ->
    (collapse = true -> ranked score l /\ (Z.of_nat (List.length l) <= 2 ^ 24)%Z) ->
    forall pr rc, precision_recall_matches RArith score l collapse interpolate = (pr, rc) ->
    curve_of score collapse interpolate l pr rc.
  Proof.
    intros Z H pr rc E. destruct (points_spec collapse l Z H) as (rs & A & F1 & F2).
    unfold precision_recall_matches in E. set (pts := points score collapse l) in *.
    destruct (Metrics.curve_spec pts) as (raw & rc' & Er & L1 & L2 & P & Rc).
    exists rs, pts, raw. split; [exact A|]. split; [exact F1|]. split; [exact F2|].
    destruct interpolate.
    - destruct (Metrics.interpolated' pts) as (raw' & rc'' & pri & Er' & Ei & Li & Mx & _).
      change (num RArith) with R in *.
      rewrite Er in Er'. injection Er' as <- <-. rewrite E in Ei. injection Ei as -> ->. repeat (split; [congruence || assumption|]). assumption.
    - change (num RArith) with R in *. rewrite E in Er. injection Er as -> ->. repeat (split; [congruence || assumption|]). reflexivity.
  Qed.

  Lemma ap_spec collapse interpolate trapezoid (l : list M) v : (forall m, In m l -> zero_one (m_err m)) ->
    (collapse = true -> ranked score l /\ (Z.of_nat (List.length l) <= 2 ^ 24)%Z) ->
    global_ap RArith score l collapse interpolate trapezoid = Ok v ->
    average_precision score collapse interpolate trapezoid l v.
  Proof.
    intros Z H E. unfold global_ap in E.
    destruct (precision_recall_matches RArith score l collapse interpolate) as [pr rc] eqn:Ep.
    assert (C := curve_of_spec collapse interpolate l Z H pr rc Ep).
    exists pr, rc. split; [exact C|]. destruct C as (rs & pts & raw & _ & _ & _ & _ & L1 & L2 & _).
    change (num RArith) with R in *. rewrite (Metrics.ap_area trapezoid pr rc (eq_trans L2 (eq_sym L1))) in E. injection E. auto.
  Qed.
End AveragePrecision.

Lemma sublist_in {X} (a b : list X) : sublist a b -> forall x, In x a -> In x b.
Proof. intros K. induction K; intros z I; simpl in *; [tauto|destruct I; auto|auto]. Qed.

Lemma mean_ap_means {RE HE} (score : HE -> f32) srt (groups : list (list (match_t RE HE))) c i t v :
  (forall g, In g groups -> (forall m, In m g -> zero_one (m_err m)) /\
     (c = true -> ranked score g /\ (Z.of_nat (List.length g) <= 2 ^ 24)%Z)) ->
  mean_ap RArith score srt groups c i t false = Ok v ->
  exists vs, Forall2 (average_precision score c i t) groups vs /\ is_mean vs v.
Proof.
  intros H E.
  assert (exists vs, Forall2 (fun g v => global_ap RArith score g c i t = Ok v) groups vs) as [vs F].
  { clear E. induction groups as [|g groups IH]; [exists []; constructor|].
    destruct IH as [vs F]; [intros; apply H; now right|].
    assert (exists v, global_ap RArith score g c i t = Ok v) as [x X].
    { unfold global_ap. destruct (precision_recall_matches RArith score g c i) as [pr rc] eqn:Ep.
      destruct (H g (or_introl eq_refl)) as [H1 H2].
      destruct (curve_of_spec score c i g H1 H2 pr rc Ep) as (rs & pts & raw & _ & _ & _ & _ & L1 & L2 & _).
      change (num RArith) with R in *. rewrite (Metrics.ap_area t pr rc (eq_trans L2 (eq_sym L1))). eauto. }
    exists (x :: vs). constructor; assumption. }
  exists vs. split.
  - clear E. induction F as [|g x gs vs X F IH]; constructor.
    + destruct (H g (or_introl eq_refl)). now apply ap_spec.
    + apply IH. intros; apply H; now right.
  - destruct (Curves.mean_ap_spec score srt groups c i t false vs) as (m & Em & Mm).
    { clear - F. induction F as [|g x gs vs X F IH]; constructor; [|exact IH]. exists g. split; [reflexivity|exact X]. }
    rewrite E in Em. injection Em as ->. exact Mm.
Qed.
