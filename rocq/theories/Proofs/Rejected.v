(** Runs in which the score of a hypothesis that no reference accepts is raised. *)
From Coq Require Import String List Bool ZArith Sorted Reals Lra Lia Permutation.
From Flocq Require Import Core BinarySingleNaN.
From Verif.Model Require Import Cpp Floats Box Events EventSets Matches Matcher Scorers Assessment Bootstrap Mapper Stream Reader Options Tool.
From Verif.Spec Require Import Order Objects Sets Matching Scorers Grouping Collapse Metrics Reader Options Tool Parts Better Added.
From Verif.Proofs Require Import Queries Insert Added FloatFacts.
From Verif.Proofs Require Curves Matching Grouping Evaluation Runs Ties Parts Raised Lifted Hoist Better Order Rescore Instances Results Sets Scorers.
Import ListNotations.
Local Open Scope string_scope.
Local Open Scope list_scope.

Lemma better_alarm v : (forall e, In e v -> e = hit_error \/ e = alarm_error) -> better (alarm_error :: v) (v ++ [alarm_error]).
Proof.
  induction v as [|e v IH]; intros H; [constructor|]. cbn [app].
  eapply better_trans; [|apply (Better.better_app [e]); apply IH; intros x I; apply H; now right].
  cbn [app]. destruct (H e (or_introl eq_refl)) as [-> | ->]; [apply (better_swap [])|constructor].
Qed.

(** A list with one more element at two places. *)
Lemma two_places {X} (x y x' y' : list X) : x ++ y = x' ++ y' -> (List.length x' <= List.length x)%nat ->
  exists d, x = x' ++ d /\ y' = d ++ y.
Proof.
  revert x'. induction x as [|e x IH]; intros x' E L.
  - destruct x'; [|simpl in L; lia]. exists []. auto.
  - destruct x' as [|e' x']; [exists (e :: x); auto|]. simpl in E, L. injection E as <- E. destruct (IH x' E ltac:(lia)) as (d & -> & ->). exists d. auto.
Qed.

Lemma Forall2_place {X} (P : X -> X -> Prop) (x y x' y' : list X) : Forall2 P (x ++ y) (x' ++ y') -> (List.length x < List.length x')%nat ->
  exists z z', In z y /\ In z' x' /\ P z z'.
Proof.
  revert x'. induction x as [|e x IH]; intros x' F L.
  - destruct x' as [|z' x']; [simpl in L; lia|]. cbn [app] in F. inversion F as [|z ? y1 ? Pz F1]; subst. exists z, z'. simpl. auto.
  - destruct x' as [|e' x']; [simpl in L; lia|]. cbn [app] in F. inversion F as [|? ? ? ? _ F1]; subst. destruct (IH x' F1) as (z & z' & A & B & C); [simpl in L; lia|].
    exists z, z'. simpl. auto.
Qed.

Section Raise.
  Context {RE E : Type}.
  Notation HE := (scored E).
  Notation M := (match_t RE HE).
  Variables (ce : Cmp E) (He : total_order ce) (cr : Cmp RE) (Hr : total_order cr).
  Variables (rq : RE -> bytes) (hq : E -> bytes).
  Variables (S : EvSet RE HE) (R : list RE -> HE -> list RE -> Prop) (HS : finds S R).
  Variable scorer : RE -> HE -> match_error.
  Hypothesis HR : forall refs h h' l, sc_base h = sc_base h' -> R refs h l -> R refs h' l.
  Hypothesis Hsc : forall r h h', sc_base h = sc_base h' -> scorer r h = scorer r h'.
  Hypothesis Lo : Parts.local rq hq R.
  Hypothesis Zo : forall r h, zero_one (scorer r h).
  Hypothesis Hac : forall r h, acceptable scorer r h -> scorer r h = hit_error.

  Notation eval := (evaluation (c_lt ce) (c_lt cr) rq hq R scorer).
  Notation pairs := (map (Hoist.scored_error (@sc_score E))).
  Notation errors := (map (@m_err RE HE)).

  Lemma matching_plain refs rk taken (ms log : list M) : matching R scorer refs rk taken ms log ->
    forall m, In m ms -> m_err m = hit_error \/ m_err m = alarm_error.
  Proof.
    induction 1 as [|rk taken ms log h l t m g Mt IH Rl D]; intros x I; [destruct I|].
    apply in_app_or in I as [I|I]; [auto|]. destruct D as [before r after ms0 El A _ _ _|_|ms0 _ _ _]; [| |destruct I].
    - destruct I as [<-|[]]. left. exact (Hac r h A).
    - destruct I as [<-|[]]. right. reflexivity.
  Qed.

  Lemma eval_plain crit f refs hyps (ms log : list M) groups : eval crit f refs hyps ms log groups ->
    forall m k, In m ms -> m_hyp m = Some k -> m_err m = hit_error \/ m_err m = alarm_error.
  Proof.
    intros (r1 & h1 & rk & taken & found & missed & Sr & Sh & Rk & Mt & So & Mi & -> & G) m k I K.
    apply in_app_or in I as [I|I]; [exact (matching_plain _ _ _ _ _ Mt m I)|]. apply in_map_iff in I as (z & <- & _). discriminate.
  Qed.

  (** The matches before and after one with a hypothesis. *)
  Lemma eval_around crit f refs hyps (ms log : list M) groups (P : M -> Prop) x (m : M) y h : eval crit f refs hyps ms log groups ->
    selects P ms (x ++ m :: y) -> m_hyp m = Some h ->
    (forall z, In z x -> exists k, m_hyp z = Some k /\
      (crit = lit "desc" -> f32_lt (sc_score k) (sc_score h) = false) /\ (crit = lit "asc" -> f32_lt (sc_score h) (sc_score k) = false)) /\
    (forall z k, In z y -> m_hyp z = Some k ->
      (crit = lit "desc" -> f32_lt (sc_score h) (sc_score k) = false) /\ (crit = lit "asc" -> f32_lt (sc_score k) (sc_score h) = false)).
  Proof.
    intros (r1 & h1 & rk & taken & found & missed & Sr & Sh & Rk & Mt & So & Mi & -> & G) Sg Em.
    set (T := fun a b : HE => (crit = lit "desc" -> f32_lt (sc_score a) (sc_score b) = false) /\ (crit = lit "asc" -> f32_lt (sc_score b) (sc_score a) = false)).
    assert (Sk : StronglySorted T rk).
    { destruct Rk as [(C & _ & K)|[(C & _ & K)|(C & C' & _)]].
      - revert K. apply Ties.sorted_weaken. intros a b _ _ [K _]. split; [auto|intros Q; rewrite C in Q; discriminate].
      - revert K. apply Ties.sorted_weaken. intros a b _ _ [K _]. split; [intros Q; rewrite C in Q; discriminate|auto].
      - clear - C C'. induction rk as [|k rk IH]; constructor; auto. apply Forall_forall. intros z _. split; intros Q; contradiction. }
    destruct (matching_sorted R scorer T _ _ _ _ _ Mt Sk) as [A B].
    assert (Q : StronglySorted (fun a b : M => forall k, m_hyp b = Some k -> exists j, m_hyp a = Some j /\ T j k) (found ++ map make_fn missed)).
    { apply Ties.sorted_app.
      - revert A. apply Ties.sorted_weaken. intros a b Ia _ K k Ek. destruct (B a Ia) as (j & Ej & _). exists j. split; [exact Ej|]. now apply K.
      - clear. induction missed as [|r l IH]; [constructor|]. cbn [map]. constructor; [exact IH|]. apply Forall_forall. intros b I k K.
        apply in_map_iff in I as (z & <- & _). discriminate.
      - intros a b _ I k K. apply in_map_iff in I as (z & <- & _). discriminate. }
    apply (Ties.selects_sorted _ _ _ _ Sg) in Q. apply Ties.sorted_app_inv in Q as (_ & Q2 & Q3). split.
    - intros z I. exact (Q3 z m I (or_introl eq_refl) h Em).
    - intros z k I K. inversion Q2 as [|? ? _ F]; subst. rewrite Forall_forall in F. destruct (F z I k K) as (j & Ej & Tj).
      rewrite Em in Ej. injection Ej as <-. exact Tj.
  Qed.

  (** The matches of some queries before and after the change. *)
  Lemma part_rescored (P : bytes -> Prop) crit f refs a h h' b (ms log : list M) groups g ms' log' groups' g' :
    (forall x, In x (a ++ b) -> is_finite (sc_score x) = true) -> sc_base h = sc_base h' -> hopeless scorer refs h ->
    eval crit f refs (a ++ h :: b) ms log groups -> selects (Parts.about rq hq P) ms g ->
    eval crit f refs (a ++ h' :: b) ms' log' groups' -> selects (Parts.about rq hq P) ms' g' ->
    (exists x y x' y', g = x ++ make_fp h :: y /\ g' = x' ++ make_fp h' :: y' /\ Forall2 equal_matches (x ++ y) (x' ++ y')) \/
    Forall2 equal_matches g g'.
  Proof.
    intros Fi Eb N Ev Sg Ev' Sg'.
    assert (N' : hopeless scorer refs h').
    { intros r I A. apply (N r I). unfold acceptable in *. now rewrite (Hsc r h h' Eb). }
    destruct (evaluation_remove Parts.bytes_dec ce cr rq hq S R HS scorer _ _ _ _ _ _ _ _ _ N Ev) as (ms0 & gs0 & Ev0 & C).
    destruct (evaluation_remove Parts.bytes_dec ce cr rq hq S R HS scorer _ _ _ _ _ _ _ _ _ N' Ev') as (ms0' & gs0' & Ev0' & C').
    assert (Em := evaluation_same ce He cr Hr rq hq S R HS scorer HR Hsc _ _ _ _ _ _ _ _ _ _ Fi Ev0 Ev0').
    destruct C as [(Kh & x & y & -> & ->)|(Kh & ->)]; destruct C' as [(Kh' & x' & y' & -> & ->)|(Kh' & ->)];
      try (rewrite Eb in Kh; contradiction).
    - destruct (Parts.selects_split _ _ _ _ Sg) as (x1 & hy & -> & Sx & Sy).
      destruct (Parts.selects_split _ _ _ _ Sg') as (x1' & hy' & -> & Sx' & Sy').
      assert (Ab : Parts.about rq hq P (make_fp h) <-> Parts.about rq hq P (make_fp h')).
      { unfold Parts.about, has_query. cbn [m_ref m_hyp make_fp]. now rewrite Eb. }
      inversion Sy as [|? ? y1 Ph Sy1|? ? y1 Ph Sy1]; inversion Sy' as [|? ? y1' Ph' Sy1'|? ? y1' Ph' Sy1']; subst; try tauto.
      + left. exists x1, y1, x1', y1'. split; [reflexivity|]. split; [reflexivity|].
        exact (selects_equal rq hq P _ _ Em _ _ (selects_app _ _ _ _ _ Sx Sy1) (selects_app _ _ _ _ _ Sx' Sy1')).
      + right. exact (selects_equal rq hq P _ _ Em _ _ (selects_app _ _ _ _ _ Sx Sy1) (selects_app _ _ _ _ _ Sx' Sy1')).
    - right. exact (selects_equal rq hq P _ _ Em _ _ Sg Sg').
  Qed.

  Lemma equal_hyp (m m' : M) k' : equal_matches m m' -> m_hyp m' = Some k' -> exists k, m_hyp m = Some k /\ f32_eq (sc_score k) (sc_score k') = true.
  Proof. intros (_ & _ & K) E'. rewrite E' in K. destruct (m_hyp m) as [k|]; [|contradiction]. destruct K as [_ K]. eauto. Qed.

  Lemma no_cycle (s s' u u' : f32) : is_finite s = true -> is_finite s' = true -> is_finite u = true -> is_finite u' = true ->
    f32_lt s s' = true -> f32_eq u u' = true -> f32_lt s u = false -> f32_lt u' s' = false -> False.
  Proof.
    intros A B C D L Q L1 L2. apply (ltb_R 24 128) in L; auto. apply (eqb_R 24 128) in Q; auto.
    assert (~ (B2R s < B2R u)%R) by (intros K; apply (ltb_R 24 128) in K; auto; unfold f32_lt in L1; congruence).
    assert (~ (B2R u' < B2R s')%R) by (intros K; apply (ltb_R 24 128) in K; auto; unfold f32_lt in L2; congruence). lra.
  Qed.

  (** The false alarm moves up with decreasing scores and down with increasing
      ones. *)
  Lemma part_better (P : bytes -> Prop) crit f refs a h h' b (ms log : list M) groups g ms' log' groups' g' :
    (forall x, In x (a ++ h :: b) -> is_finite (sc_score x) = true) -> (forall x, In x (a ++ h' :: b) -> is_finite (sc_score x) = true) ->
    sc_base h = sc_base h' -> f32_lt (sc_score h) (sc_score h') = true -> hopeless scorer refs h ->
    eval crit f refs (a ++ h :: b) ms log groups -> selects (Parts.about rq hq P) ms g ->
    eval crit f refs (a ++ h' :: b) ms' log' groups' -> selects (Parts.about rq hq P) ms' g' ->
    (crit = lit "desc" -> better (errors g') (errors g)) /\ (crit = lit "asc" -> better (errors g) (errors g')) /\
    Lifted.lifted alarm_error (map Hoist.norm (pairs g)) (map Hoist.norm (pairs g')).
  Proof.
    intros Fi Fi' Eb Lt N Ev Sg Ev' Sg'.
    assert (Fi0 : forall x, In x (a ++ b) -> is_finite (sc_score x) = true).
    { intros x I. apply Fi. apply in_app_or in I as [I|I]; apply in_or_app; simpl; auto. }
    assert (Fh : is_finite (sc_score h) = true) by (apply Fi, in_elt). assert (Fh' : is_finite (sc_score h') = true) by (apply Fi', in_elt).
    assert (Nu := eval_numbers ce cr rq hq R scorer _ _ _ _ _ _ _ Fi Ev). assert (Nu' := eval_numbers ce cr rq hq R scorer _ _ _ _ _ _ _ Fi' Ev').
    destruct (part_rescored P crit f refs a h h' b ms log groups g ms' log' groups' g' Fi0 Eb N Ev Sg Ev' Sg') as [(x & y & x' & y' & -> & -> & F)|F].
    2: { rewrite (equal_errors _ _ F), (equal_pairs _ _ F). split; [constructor|]. split; [constructor|]. left. apply Permutation_refl. }
    assert (I1 : forall z k, In z (x ++ y) -> m_hyp z = Some k -> is_finite (sc_score k) = true).
    { intros z k I K. apply (Nu z k); [|exact K]. apply (Grouping.selects_in _ _ _ Sg). apply in_app_or in I as [I|I]; apply in_or_app; simpl; auto. }
    assert (I2 : forall z k, In z (x' ++ y') -> m_hyp z = Some k -> is_finite (sc_score k) = true).
    { intros z k I K. apply (Nu' z k); [|exact K]. apply (Grouping.selects_in _ _ _ Sg'). apply in_app_or in I as [I|I]; apply in_or_app; simpl; auto. }
    destruct (eval_around _ _ _ _ _ _ _ _ x (make_fp h) y h Ev Sg eq_refl) as [B1 B2].
    destruct (eval_around _ _ _ _ _ _ _ _ x' (make_fp h') y' h' Ev' Sg' eq_refl) as [B1' B2'].
    assert (Ee := equal_errors _ _ F). rewrite !map_app in Ee.
    assert (Px : forall e, In e (errors x) -> e = hit_error \/ e = alarm_error).
    { intros e I. apply in_map_iff in I as (z & <- & I). destruct (B1 z I) as (k & Ek & _). apply (eval_plain _ _ _ _ _ _ _ Ev z k); [|exact Ek].
      apply (Grouping.selects_in _ _ _ Sg). apply in_or_app. auto. }
    assert (Px' : forall e, In e (errors x') -> e = hit_error \/ e = alarm_error).
    { intros e I. apply in_map_iff in I as (z & <- & I). destruct (B1' z I) as (k & Ek & _). apply (eval_plain _ _ _ _ _ _ _ Ev' z k); [|exact Ek].
      apply (Grouping.selects_in _ _ _ Sg'). apply in_or_app. auto. }
    split; [|split].
    - intros C. assert (L : (List.length x' <= List.length x)%nat).
      { destruct (Nat.le_gt_cases (List.length x') (List.length x)) as [L|L]; [exact L|exfalso].
        destruct (Forall2_place _ _ _ _ _ F L) as (z & z' & Iz & Iz' & Q). destruct (B1' z' Iz') as (k' & Ek' & K' & _).
        destruct (equal_hyp z z' k' Q Ek') as (k & Ek & Qk). destruct (B2 z k Iz Ek) as [K _].
        apply (no_cycle (sc_score h) (sc_score h') (sc_score k) (sc_score k')); auto.
        - apply (I1 z); [apply in_or_app; auto|exact Ek].
        - apply (I2 z'); [apply in_or_app; auto|exact Ek']. }
      destruct (two_places _ _ _ _ Ee) as (d & E1 & E2); [rewrite !map_length; exact L|].
      rewrite !map_app. cbn [map]. rewrite E1, E2. change (m_err (make_fp h)) with alarm_error. change (m_err (make_fp h')) with alarm_error.
      replace ((errors x' ++ d) ++ alarm_error :: errors y) with (errors x' ++ (d ++ [alarm_error]) ++ errors y) by (rewrite <- !app_assoc; reflexivity).
      apply (Better.better_in (alarm_error :: d)), better_alarm. intros e I. apply Px. rewrite E1. apply in_or_app. auto.
    - intros C. assert (L : (List.length x <= List.length x')%nat).
      { destruct (Nat.le_gt_cases (List.length x) (List.length x')) as [L|L]; [exact L|exfalso].
        assert (F' : Forall2 (fun u v => equal_matches v u) (x' ++ y') (x ++ y)) by (clear - F; induction F; constructor; auto).
        destruct (Forall2_place _ _ _ _ _ F' L) as (z' & z & Iz' & Iz & Q). destruct (B1 z Iz) as (k & Ek & _ & K).
        assert (Q' := equal_matches_sym _ _ Q). destruct (equal_hyp z' z k Q' Ek) as (k' & Ek' & Qk).
        destruct (B2' z' k' Iz' Ek') as [_ K'].
        apply (no_cycle (sc_score h) (sc_score h') (sc_score k) (sc_score k')); auto.
        - apply (I1 z); [apply in_or_app; auto|exact Ek].
        - apply (I2 z'); [apply in_or_app; auto|exact Ek'].
        - now rewrite Order.f32_eq_sym. }
      destruct (two_places _ _ _ _ (eq_sym Ee)) as (d & E1 & E2); [rewrite !map_length; exact L|].
      rewrite !map_app. cbn [map]. rewrite E1, E2. change (m_err (make_fp h)) with alarm_error. change (m_err (make_fp h')) with alarm_error.
      replace ((errors x ++ d) ++ alarm_error :: errors y') with (errors x ++ (d ++ [alarm_error]) ++ errors y') by (rewrite <- !app_assoc; reflexivity).
      apply (Better.better_in (alarm_error :: d)), better_alarm. intros e I. apply Px'. rewrite E1. apply in_or_app. auto.
    - right. exists (Ties.unsigned (sc_score h)), (Ties.unsigned (sc_score h')), (map Hoist.norm (pairs (x ++ y))).
      split; [rewrite Hoist.unsigned_nan; now apply Rescore.finite_not_nan|]. split; [now rewrite Ties.unsigned_lt|]. split.
      + rewrite !map_app. cbn [map]. apply Permutation_sym, (Permutation_middle _ _ (Ties.unsigned (sc_score h), alarm_error)).
      + rewrite (equal_pairs _ _ F), !map_app. cbn [map]. apply Permutation_sym, (Permutation_middle _ _ (Ties.unsigned (sc_score h'), alarm_error)).
  Qed.

  Lemma raised_alarm crit f refs a h h' b (ms log : list M) gs ms' log' gs' :
    (forall x, In x (a ++ h :: b) -> is_finite (sc_score x) = true) -> (forall x, In x (a ++ h' :: b) -> is_finite (sc_score x) = true) ->
    sc_base h = sc_base h' -> f32_lt (sc_score h) (sc_score h') = true -> hopeless scorer refs h ->
    eval crit f refs (a ++ h :: b) ms log gs -> eval crit f refs (a ++ h' :: b) ms' log' gs' ->
    (forall v : list match_error -> Rdefinitions.R, (forall es es', better es es' -> (forall e, In e es -> zero_one e) -> v es <= v es')%R ->
      (crit = lit "desc" -> v (errors ms') <= v (errors ms) /\
        average (A := RArith) (map (fun g => v (errors g)) gs') <= average (A := RArith) (map (fun g => v (errors g)) gs))%R /\
      (crit = lit "asc" -> v (errors ms) <= v (errors ms') /\
        average (A := RArith) (map (fun g => v (errors g)) gs) <= average (A := RArith) (map (fun g => v (errors g)) gs'))%R) /\
    (crit = lit "desc" -> (Z.of_nat (List.length refs + List.length (a ++ h :: b)) <= 2 ^ 24)%Z -> forall i t,
      Lifted.tvalue i t (pairs ms') <= Lifted.tvalue i t (pairs ms) /\
      average (A := RArith) (map (fun g => Lifted.tvalue i t (pairs g)) gs') <= average (A := RArith) (map (fun g => Lifted.tvalue i t (pairs g)) gs))%R.
  Proof.
    intros Fi Fi' Eb Lt N Ev Ev'.
    assert (Z1 : forall m, In m ms -> zero_one (m_err m)) by exact (Evaluation.eval_zero_one _ cr _ _ _ _ _ _ _ _ _ _ _ Ev Zo).
    assert (Z1' : forall m, In m ms' -> zero_one (m_err m)) by exact (Evaluation.eval_zero_one _ cr _ _ _ _ _ _ _ _ _ _ _ Ev' Zo).
    destruct (Parts.evaluation_keys (c_lt ce) cr Hr rq hq S R HS scorer Lo _ _ _ _ _ _ _ Ev) as (keys & Nk & Fk & Hm & Ik).
    destruct (Parts.evaluation_keys (c_lt ce) cr Hr rq hq S R HS scorer Lo _ _ _ _ _ _ _ Ev') as (keys' & Nk' & Fk' & Hm' & Ik').
    assert (Kk : forall k, In k keys <-> In k keys').
    { intros k. rewrite Ik, Ik'. assert (B : forall q, (exists z, In z (a ++ h :: b) /\ hq (sc_base z) = q) <-> (exists z, In z (a ++ h' :: b) /\ hq (sc_base z) = q)).
      { intros q. split; intros (z & J & K); apply in_app_or in J as [J|[<-|J]];
          [exists z|exists h'|exists z|exists z|exists h|exists z]; (split; [apply in_or_app; simpl; auto|congruence]). }
      split; intros (q & A1 & A2 & A3); exists q; (split; [exact A1|]); (split; [exact A2|]); (destruct A3 as [A3|A3]; [now left|right]); now apply B. }
    assert (Hp : forall P g g', selects (Parts.about rq hq P) ms g -> selects (Parts.about rq hq P) ms' g' ->
      (forall v : list match_error -> Rdefinitions.R, (forall es es', better es es' -> (forall e, In e es -> zero_one e) -> v es <= v es')%R ->
        (crit = lit "desc" -> v (errors g') <= v (errors g))%R /\ (crit = lit "asc" -> v (errors g) <= v (errors g'))%R) /\
      (crit = lit "desc" -> (Z.of_nat (List.length refs + List.length (a ++ h :: b)) <= 2 ^ 24)%Z -> forall i t,
        Lifted.tvalue i t (pairs g') <= Lifted.tvalue i t (pairs g))%R).
    { intros P g g' Sg Sg'.
      destruct (part_better P crit f refs a h h' b ms log gs g ms' log' gs' g' Fi Fi' Eb Lt N Ev Sg Ev' Sg') as (B1 & B2 & B3).
      assert (Zg : forall e, In e (errors g) -> zero_one e).
      { intros e I. apply in_map_iff in I as (m & <- & I). apply Z1. now apply (Grouping.selects_in _ _ _ Sg) in I. }
      assert (Zg' : forall e, In e (errors g') -> zero_one e).
      { intros e I. apply in_map_iff in I as (m & <- & I). apply Z1'. now apply (Grouping.selects_in _ _ _ Sg') in I. }
      split.
      - intros v Hv. split; intros C; apply Hv; auto.
      - intros C Ln i t. subst crit. apply Lifted.lifted_alarm; auto.
        + exact (eval_good ce cr rq hq R scorer _ _ _ _ _ _ _ _ Fi Zo Ev Sg).
        + exact (eval_good ce cr rq hq R scorer _ _ _ _ _ _ _ _ Fi' Zo Ev' Sg').
        + rewrite map_length. assert (K := Lifted.selects_length _ _ _ Sg). assert (K' := eval_length ce cr Hr rq hq R scorer _ _ _ _ _ _ _ Ev). lia. }
    assert (Ha : forall m, In m ms -> Parts.about rq hq (fun _ => True) m).
    { intros m J. destruct (Hm m J) as (k & _ & q & A & _). exists q. auto. }
    assert (Ha' : forall m, In m ms' -> Parts.about rq hq (fun _ => True) m).
    { intros m J. destruct (Hm' m J) as (k & _ & q & A & _). exists q. auto. }
    destruct (Hp (fun _ => True) ms ms' (selects_all _ _ Ha) (selects_all _ _ Ha')) as [G1 G2].
    split.
    - intros v Hv. destruct (G1 v Hv) as [G3 G4]. split; intros C; (split; [auto|]).
      + apply (Lifted.means_le _ _ _ _ keys' keys gs' gs Nk' Nk (fun k => iff_sym (Kk k)) Fk' Fk).
        intros k g' g _ Sg' Sg. exact (proj1 (proj1 (Hp (fun q => group_is f q k) g g' Sg Sg') v Hv) C).
      + apply (Lifted.means_le _ _ _ _ keys keys' gs gs' Nk Nk' Kk Fk Fk').
        intros k g g' _ Sg Sg'. exact (proj2 (proj1 (Hp (fun q => group_is f q k) g g' Sg Sg') v Hv) C).
    - intros C Ln i t. split; [now apply G2|].
      apply (Lifted.means_le _ _ _ _ keys' keys gs' gs Nk' Nk (fun k => iff_sym (Kk k)) Fk' Fk).
      intros k g' g _ Sg' Sg. exact (proj2 (Hp (fun q => group_is f q k) g g' Sg Sg') C Ln i t).
  Qed.
End Raise.

Section Runs.
  Variables (srt : sort_fn) (Hs : sort_contract srt).
  Variables (rngs : Z -> rng) (show_int : Z -> bytes) (show_f64 : f64 -> bytes).
  Notation icdar := (icdar17 RArith RTrans srt rngs show_int show_f64).

  Lemma icdar_raised w w' pn args c refs hyps hyps' f e : command args c -> no_bootstrap c ->
    inputs shaped_text scored_shaped_text w c refs hyps f -> inputs shaped_text scored_shaped_text w' c refs hyps' f ->
    raised e hyps hyps' -> (forall r, In r refs -> Scorers.rejected (ioh_scorer cmp_str f32_half r e)) ->
    exists gap vap gndcg vndcg gap' vap' gndcg' vndcg' : R,
      prints (A := RArith) (fst (icdar w pn args)) gap vap gndcg vndcg /\
      prints (A := RArith) (fst (icdar w' pn args)) gap' vap' gndcg' vndcg' /\
      (cf_collapse c = false -> cf_sort c = lit "desc" -> gap' <= gap /\ vap' <= vap /\ gndcg' <= gndcg /\ vndcg' <= vndcg)%R /\
      (cf_collapse c = false -> cf_sort c = lit "asc" -> gap <= gap' /\ vap <= vap' /\ gndcg <= gndcg' /\ vndcg <= vndcg')%R /\
      (cf_collapse c = true -> cf_sort c = lit "desc" -> (Z.of_nat (List.length refs + List.length hyps) <= 2 ^ 24)%Z -> gap' <= gap /\ vap' <= vap)%R.
  Proof.
    intros Cm NB I I' (a & s & s' & b & -> & -> & Lt) Rj.
    destruct (icdar w pn args) as [l r] eqn:Et. destruct (icdar w' pn args) as [l' r'] eqn:Et'. cbn [fst].
    destruct (Instances.icdar_run RTrans srt Hs rngs show_int show_f64 w pn args c refs _ f l r Cm NB I Et) as (ms & log & gs & Fi & Ev & Rp).
    destruct (Instances.icdar_run RTrans srt Hs rngs show_int show_f64 w' pn args c refs _ f l' r' Cm NB I' Et') as (ms' & log' & gs' & Fi' & Ev' & Rp').
    destruct (reported_values srt _ _ _ _ _ _ _ Rp) as (v1 & v2 & v3 & v4 & Pr & Vf & Vt).
    destruct (reported_values srt _ _ _ _ _ _ _ Rp') as (v1' & v2' & v3' & v4' & Pr' & Vf' & Vt').
    exists v1, v2, v3, v4, v1', v2', v3', v4'. split; [exact Pr|]. split; [exact Pr'|].
    assert (Ho : hopeless (fun r h => ioh_scorer cmp_str f32_half r (sc_base h)) refs (Scored e s)).
    { intros x Ix A. unfold acceptable in A. assert (K := f_equal (fun e => f32_lt (me_fp e) f32_1) (Rj x Ix)). discriminate (eq_trans (eq_sym A) K). }
    destruct (raised_alarm cmp_shaped Order.total_order_shaped cmp_shaped Order.total_order_shaped ev_query ev_query
      (evset_docbox srt cmp_str) (box_search cmp_str) (Matching.finds_docbox srt cmp_str Hs Order.total_order_str)
      (fun r h => ioh_scorer cmp_str f32_half r (sc_base h)) Runs.box_search_base
      (fun r h h' B => f_equal (fun x => ioh_scorer cmp_str f32_half r x) B) (Parts.box_local cmp_str)
      (fun r h => Instances.zero_one_ioh r (sc_base h)) (fun r h => proj1 (ioh_acceptable r h))
      _ _ _ _ (Scored e s) (Scored e s') _ _ _ _ _ _ _ Fi Fi' eq_refl Lt Ho Ev Ev') as (A1 & A2).
    destruct (A1 (Raised.ap_value (cf_interp c) (cf_trapezoid c)) (fun es es' => Raised.better_ap_value _ _ es es')) as [A3 A4].
    destruct (A1 Better.raw_ndcg (fun es es' B _ => Better.better_ndcg es es' B)) as [A5 A6].
    split; [|split].
    - intros Cc Cs. destruct (Vf Cc) as (-> & -> & -> & ->). destruct (Vf' Cc) as (-> & -> & -> & ->). destruct (A3 Cs), (A5 Cs). auto.
    - intros Cc Cs. destruct (Vf Cc) as (-> & -> & -> & ->). destruct (Vf' Cc) as (-> & -> & -> & ->). destruct (A4 Cs), (A6 Cs). auto.
    - intros Cc Cs Ln. destruct (Vt Cc) as (-> & ->). destruct (Vt' Cc) as (-> & ->). now apply A2.
  Qed.

  Notation simple := (simple_kws RArith RTrans srt rngs show_int show_f64).

  Lemma simple_ascending qf w w' pn args c refs hyps hyps' f e : command args c -> no_bootstrap c -> cf_sort c = lit "asc" -> cf_collapse c = false ->
    inputs str_event_text scored_str_event_text w c refs hyps f -> inputs str_event_text scored_str_event_text w' c refs hyps' f ->
    (Z.of_nat (strings refs hyps f) <= 2147483648)%Z -> raised e hyps hyps' -> ~ In e refs ->
    exists gap vap gndcg vndcg gap' vap' gndcg' vndcg' : R,
      prints (A := RArith) (fst (simple qf w pn args)) gap vap gndcg vndcg /\
      prints (A := RArith) (fst (simple qf w' pn args)) gap' vap' gndcg' vndcg' /\
      (gap <= gap' /\ vap <= vap' /\ gndcg <= gndcg' /\ vndcg <= vndcg')%R.
  Proof.
    intros Cm NB Cs Cc I I' Ls Ra Ne.
    assert (Ls' : (Z.of_nat (strings refs hyps' f) <= 2147483648)%Z).
    { revert Ls. assert (K := f_equal (@List.length _) (Raised.raised_bases e hyps hyps' Ra)). rewrite !map_length in K. unfold strings. now rewrite K. }
    destruct (simple qf w pn args) as [l r] eqn:Et. rewrite Instances.simple_tool in Et.
    destruct (simple qf w' pn args) as [l' r'] eqn:Et'. rewrite Instances.simple_tool in Et'. cbn [fst].
    destruct (Instances.simple_run_ids RTrans srt Hs rngs show_int show_f64 w qf pn args c refs hyps f l r Cm NB I Et Ls)
      as (id & ms & log & gs & Id & Inj & Fi & Ev & Rp).
    destruct (Instances.simple_run_ids RTrans srt Hs rngs show_int show_f64 w' qf pn args c refs hyps' f l' r' Cm NB I' Et' Ls')
      as (id' & ms' & log' & gs' & Id' & Inj' & Fi' & Ev' & Rp').
    destruct (Raised.ids_bases qf refs hyps hyps' id id' (Raised.raised_bases _ _ _ Ra) Id Id') as [Ar Ah].
    apply (Parts.evaluation_orders _ (c_lt (Results.by_id id)) _ (c_lt (Results.by_id id))) in Ev';
      [|intros h h' Ih Ih'; unfold Results.by_id; cbn [c_lt]; now rewrite (Ah h Ih), (Ah h' Ih')
       |intros x x' Ix Ix'; unfold Results.by_id; cbn [c_lt]; now rewrite (Ar x Ix), (Ar x' Ix')].
    destruct (reported_values srt _ _ _ _ _ _ _ Rp) as (v1 & v2 & v3 & v4 & Pr & V). apply renamed_values in V.
    destruct (reported_values srt _ _ _ _ _ _ _ Rp') as (v1' & v2' & v3' & v4' & Pr' & V'). apply renamed_values in V'.
    exists v1, v2, v3, v4, v1', v2', v3', v4'. split; [exact Pr|]. split; [exact Pr'|].
    destruct Ra as (a & s & s' & b & -> & -> & Lt).
    assert (Ho := trivial_hopeless refs (Scored e s) Ne).
    destruct (raised_alarm (Results.by_id id) (Results.by_id_total id Inj) (Results.by_id id) (Results.by_id_total id Inj) ev_query ev_query
      (evset_generic (Results.by_id id)) exact_search (Matching.finds_generic _ (Results.by_id_total id Inj))
      (fun r h => trivial_scorer cmp_str cmp_str r (sc_base h)) Parts.exact_base
      (fun r h h' B => f_equal (fun x => trivial_scorer cmp_str cmp_str r x) B) Parts.exact_local
      (fun r h => Instances.zero_one_trivial _ _ r (sc_base h))
      (fun r h A => eq_trans (f_equal (fun x => trivial_scorer cmp_str cmp_str x (sc_base h)) (trivial_acceptable r h A)) (trivial_same (sc_base h)))
      _ _ _ _ (Scored e s) (Scored e s') _ _ _ _ _ _ _ Fi Fi' eq_refl Lt Ho Ev Ev') as (A1 & _).
    destruct (A1 (Raised.ap_value (cf_interp c) (cf_trapezoid c)) (fun es es' => Raised.better_ap_value _ _ es es')) as [_ A4].
    destruct (A1 Better.raw_ndcg (fun es es' B _ => Better.better_ndcg es es' B)) as [_ A6].
    destruct (proj1 V Cc) as (-> & -> & -> & ->). destruct (proj1 V' Cc) as (-> & -> & -> & ->). destruct (A4 Cs), (A6 Cs). auto.
  Qed.
End Runs.
