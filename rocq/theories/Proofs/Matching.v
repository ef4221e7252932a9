(** Proofs about the matcher. *)
From Coq Require Import List Bool ZArith Sorted Lia Permutation.
Import ListNotations.
From Verif.Model Require Import Cpp Floats Box Events EventSets Matches Matcher.
From Verif.Spec Require Import Order Sets Matching.
From Verif.Proofs Require Import Order Sets.
From Verif.Proofs Require Objects.
Local Open Scope cpp_scope.

(** ** The two searches *)

Lemma holds_inserts {E} (refs : list E) e : holds (rev (map SInsert refs)) e <-> In e refs.
Proof.
  rewrite <- map_rev, (in_rev refs). induction (rev refs) as [|x l IH]; simpl; [tauto|].
  rewrite IH. tauto.
Qed.

Lemma generic_insert_run {E} (ce : Cmp E) refs s :
  ofold (fun t r => es_insert (evset_generic ce) r t) refs s =
  Ok (fold_left (gset_op ce) (map SInsert refs) s).
Proof.
  revert s. induction refs as [|r refs IH]; intros s; [reflexivity|].
  simpl ofold. simpl obind. rewrite IH. reflexivity.
Qed.

Lemma finds_generic {E} (ce : Cmp E) : total_order ce -> finds (evset_generic ce) exact_search.
Proof.
  intros Hc. constructor.
  - intros s refs. exists (gset_run ce (map SInsert refs)). split; [apply generic_insert_run|].
    intros h. eexists. split; [reflexivity|].
    destruct (gset_find_spec ce Hc (map SInsert refs) (sc_base h)) as [[H1 H2]|[H1 H2]];
      rewrite holds_inserts in H1; [left|right]; auto.
  - intros refs h l l' [[A ->]|[A ->]] [[B ->]|[B ->]]; tauto.
  - intros refs h l [[A ->]|[A ->]] x K; [destruct K as [<-|[]]; auto|destruct K].
  - intros refs refs' h l He [[A ->]|[A ->]]; [left|right]; rewrite <- (He _); auto.
  - reflexivity.
Qed.

Lemma docbox_insert_run srt {Q} (cq : Cmp Q) refs s :
  ofold (fun t r => es_insert (evset_docbox srt cq) r t) refs s =
  ofold (dset_op cq) (map SInsert refs) s.
Proof.
  revert s. induction refs as [|r refs IH]; intros s; [reflexivity|].
  simpl. destruct (dset_insert cq r s); simpl; auto.
Qed.

Lemma finds_docbox srt {Q} (cq : Cmp Q) : sort_contract srt -> total_order cq ->
  finds (evset_docbox srt cq) (box_search cq).
Proof.
  intros Hs Hq. constructor.
  - intros s refs.
    destruct (dset_run_spec cq Hq (map SInsert refs)) as [t [T1 [T2 [T3 T4]]]].
    exists t. split.
    + rewrite docbox_insert_run. exact T1.
    + intros h. destruct (dset_find_spec cq Hq srt t (sc_base h) Hs T2) as [l [L1 [L2 [L3 L4]]]].
      exists l. split; [exact L1|]. split; auto. split; auto.
      intros r. rewrite L3, T4, holds_inserts. tauto.
  - intros refs h l l' [A1 [A2 A3]] [B1 [B2 B3]].
    apply (overlap_order_unique cq Hq (sc_base h)); auto. intros x. rewrite A2, B2. tauto.
  - intros refs h l [A1 [A2 A3]] x K. apply A2 in K. tauto.
  - intros refs refs' h l He [A1 [A2 A3]]. split; auto. split; auto. intros r. rewrite A2, (He r). tauto.
  - reflexivity.
Qed.

(** ** Lists *)

Lemma refs_app {RE HE} (a b : list (match_t RE HE)) : refs_of (a ++ b) = refs_of a ++ refs_of b.
Proof. apply flat_map_app. Qed.

Lemma hyps_app {RE HE} (a b : list (match_t RE HE)) : hyps_of (a ++ b) = hyps_of a ++ hyps_of b.
Proof. apply flat_map_app. Qed.

Lemma refs_fn {RE HE} (l : list RE) : refs_of (map (@make_fn RE HE) l) = l.
Proof. induction l; simpl; congruence. Qed.

Lemma hyps_fn {RE HE} (l : list RE) : hyps_of (map (@make_fn RE HE) l) = [].
Proof. induction l; simpl; congruence. Qed.

Lemma sub_app {A} (a b c d : list A) : sublist a b -> sublist c d -> sublist (a ++ c) (b ++ d).
Proof. intros H K. induction H; simpl; auto; constructor; auto. Qed.

Lemma sub_refl {A} (l : list A) : sublist l l.
Proof. induction l; constructor; auto. Qed.

Lemma sub_none {A} (l : list A) : sublist [] l.
Proof. induction l; constructor; auto. Qed.

Lemma sub_length {A} (a b : list A) : sublist a b -> length a <= length b.
Proof. induction 1; simpl; lia. Qed.

Lemma total_app {A} (f : A -> nat) a b : total f (a ++ b) = total f a + total f b.
Proof. unfold total. rewrite map_app, list_sum_app. reflexivity. Qed.

(** ** The loop *)

Section Run.
  Context {RE HE : Type} (cr : Cmp RE) (Hr : total_order cr).
  Variable S : EvSet RE HE.
  Variable R : list RE -> HE -> list RE -> Prop.
  Hypothesis HS : finds S R.
  Variable scorer : RE -> HE -> match_error.
  Notation lt := (c_lt cr).
  Notation accept := (acceptable scorer).
  Notation mtch := (match_t RE HE).

  Let irr := to_irrefl _ Hr.
  Let trn := to_trans _ Hr.
  Let tot := to_total _ Hr.

  (** The unmatched references are those of [refs] that are not taken. *)
  Definition rest (refs taken un : list RE) : Prop :=
    ssorted lt un /\ forall r, In r un <-> In r refs /\ ~ In r taken.

  Lemma rest_taken refs taken un r : rest refs taken un -> In r refs ->
    ~ In r un -> In r taken.
  Proof.
    intros [_ H] Hi N. destruct (in_dec (fun x y => ltac:(
      destruct (c_eq cr x y) eqn:E; [left; apply (to_eq _ Hr), E|
        right; intros K; apply (to_eq _ Hr) in K; congruence]) : {x = y} + {x <> y}) r taken); auto.
    exfalso. apply N, H. auto.
  Qed.

  Lemma logged_app h l1 l2 m1 m2 : logged scorer h l1 m1 -> logged scorer h l2 m2 ->
    logged scorer h (l1 ++ l2) (m1 ++ m2).
  Proof. intros K L. induction K; simpl; auto; constructor; auto. Qed.

  (** The inner loop after the references [seen] have been examined. *)
  Lemma match_refs_spec h refs taken un : rest refs taken un ->
    forall l seen g lg rs flag,
      incl (seen ++ l) refs ->
      (forall x, In x seen -> accept x h -> In x taken) ->
      logged scorer h seen g ->
      (flag = true <-> exists x, In x seen /\ accept x h) ->
      exists m1 un' lg' rs', match_refs lt scorer h l flag (LoopSt un lg rs) = (m1, LoopSt un' lg' rs') /\
        exists t g' m2, rest refs (taken ++ t) un' /\ lg' ++ [] = (lg ++ g') /\
          decided scorer taken h (seen ++ l) t m2 (g ++ g') /\
          (if m1 then rs' = rs ++ m2 else rs' = rs /\ m2 = [make_fp h]).
  Proof.
    intros Hun. induction l as [|r l IH]; intros seen g lg rs flag Hi Hseen Hg Hf.
    - simpl. exists flag, un, lg, rs. split; auto. destruct flag.
      + exists [], [], []. rewrite !app_nil_r. split; auto. split; auto. split; auto.
        apply repeated; auto. apply Hf. reflexivity.
      + exists [], [], [make_fp h]. rewrite !app_nil_r. split; auto. split; auto. split; auto.
        assert (N : forall x, In x seen -> ~ accept x h).
        { intros x K1 K2. enough (false = true) by discriminate. apply Hf. eauto. }
        assert (g = []) as ->.
        { clear - Hg N. induction Hg; auto.
          - exfalso. apply (N r); simpl; auto.
          - apply IHHg. intros x K. apply N. right. exact K. }
        apply false_alarm. exact N.
    - simpl. destruct (f32_lt (me_fp (scorer r h)) f32_1) eqn:E.
      + assert (Hin : In r refs) by (apply Hi, in_or_app; right; left; reflexivity).
        destruct (set_find_spec lt irr trn tot r un (proj1 Hun)) as [[K1 K2]|[K1 K2]]; rewrite K2.
        * exists true, (fst (set_erase lt r un)), lg, (rs ++ [match_pair r h (scorer r h)]).
          split; auto. exists [r], [], [match_pair r h (scorer r h)]. rewrite !app_nil_r.
          split; [|split; auto; split; auto].
          -- destruct Hun as [U1 U2]. split; [apply ssorted_erase; auto|]. intros x.
             rewrite in_set_erase by auto. rewrite U2, in_app_iff. simpl.
             split; [intros [A [B C]]; split; auto; intros [D|[D|[]]]; auto|].
             intros [A B]. split; [intros ->; tauto|]. tauto.
          -- eapply hit; eauto. apply Hun in K1. tauto.
        * assert (Ht : In r taken) by (eapply rest_taken; eauto).
          assert (Hg' : logged scorer h (seen ++ [r]) (g ++ [match_pair r h (scorer r h)])).
          { apply logged_app; auto. apply log_yes; [exact E|constructor]. }
          destruct (IH (seen ++ [r]) (g ++ [match_pair r h (scorer r h)])
                      (lg ++ [match_pair r h (scorer r h)]) rs true) as
            [m1 [un' [lg' [rs' [Q1 [t [g' [m2 [Q2 [Q3 [Q4 Q5]]]]]]]]]]].
          -- rewrite <- app_assoc. exact Hi.
          -- intros x K. apply in_app_or in K. destruct K as [K|[<-|[]]]; auto.
          -- exact Hg'.
          -- split; auto. intros _. exists r. split; [apply in_or_app; right; left; auto|exact E].
          -- exists m1, un', lg', rs'. split; auto.
             exists t, ([match_pair r h (scorer r h)] ++ g'), m2.
             rewrite <- app_assoc in Q3. rewrite <- !app_assoc in Q4. auto.
      + assert (Na : ~ accept r h) by (unfold acceptable; congruence).
        assert (Hg' : logged scorer h (seen ++ [r]) (g ++ [])).
        { apply logged_app; auto. apply log_no; [exact Na|constructor]. }
        rewrite app_nil_r in Hg'.
        destruct (IH (seen ++ [r]) g lg rs flag) as
          [m1 [un' [lg' [rs' [Q1 [t [g' [m2 [Q2 [Q3 [Q4 Q5]]]]]]]]]]].
        * rewrite <- app_assoc. exact Hi.
        * intros x K. apply in_app_or in K. destruct K as [K|[<-|[]]]; auto. tauto.
        * exact Hg'.
        * rewrite Hf. split.
          -- intros [x [A B]]. exists x. split; auto. apply in_or_app; auto.
          -- intros [x [A B]]. apply in_app_or in A. destruct A as [A|[<-|[]]]; [eauto|tauto].
        * exists m1, un', lg', rs'. split; auto. exists t, g', m2.
          rewrite <- !app_assoc in Q4. auto.
  Qed.

  Lemma match_hyp_spec refs set taken un lg rs h l :
    rest refs taken un -> es_find S h set = Ok l -> R refs h l ->
    exists t g m un', match_hyp lt S scorer set (LoopSt un lg rs) h =
        Ok (LoopSt un' (lg ++ g) (rs ++ m)) /\
      rest refs (taken ++ t) un' /\ decided scorer taken h l t m g.
  Proof.
    intros Hun Hf HR. unfold match_hyp. rewrite Hf. simpl.
    destruct (match_refs_spec h refs taken un Hun l [] [] lg rs false) as
      [m1 [un' [lg' [rs' [Q1 [t [g' [m2 [Q2 [Q3 [Q4 Q5]]]]]]]]]]].
    - simpl. apply (fi_incl _ _ HS _ _ _ HR).
    - intros x [].
    - constructor.
    - split; [discriminate|]. intros [x [[] _]].
    - rewrite Q1. rewrite app_nil_r in Q3. subst lg'. simpl in Q4.
      exists t, g', m2, un'. destruct m1.
      + subst rs'. auto.
      + destruct Q5 as [-> ->]. auto.
  Qed.

  Lemma loop_spec refs set : (forall h, exists l, es_find S h set = Ok l /\ R refs h l) ->
    forall hyps un0, rest refs [] un0 ->
    exists taken ms lg un, ofold (match_hyp lt S scorer set) hyps (LoopSt un0 [] []) =
        Ok (LoopSt un lg ms) /\
      matching R scorer refs hyps taken ms lg /\ rest refs taken un.
  Proof.
    intros Hf hyps un0 H0. induction hyps as [|h hyps IH] using rev_ind.
    - exists [], [], [], un0. split; auto. split; auto. constructor.
    - destruct IH as [taken [ms [lg [un [Q1 [Q2 Q3]]]]]]. destruct (Hf h) as [l [L1 L2]].
      destruct (match_hyp_spec refs set taken un lg ms h l Q3 L1 L2) as
        [t [g [m [un' [P1 [P2 P3]]]]]].
      exists (taken ++ t), (ms ++ m), (lg ++ g), un'.
      rewrite ofold_app, Q1. cbn [obind]. unfold ofold. rewrite P1. cbn [obind].
      split; auto. split; auto. eapply next_hyp; eauto.
  Qed.

  (** The result of [Match]. *)
  Theorem run_spec mt refs hyps :
    exists taken ms lg missed set,
      match_run lt S scorer mt refs hyps = Ok (ms ++ map make_fn missed, Matcher S set lg) /\
      matching R scorer refs hyps taken ms lg /\
      ssorted lt missed /\ (forall r, In r missed <-> In r refs /\ ~ In r taken).
  Proof.
    destruct (fi_run _ _ HS (mt_set mt) refs) as [set [F1 F2]].
    assert (H0 : rest refs [] (set_of_range lt refs)).
    { split; [apply set_of_range_sorted; auto|]. intros r. rewrite in_set_of_range by auto.
      simpl. tauto. }
    destruct (loop_spec refs set F2 hyps _ H0) as [taken [ms [lg [un [Q1 [Q2 [Q3 Q4]]]]]]].
    exists taken, ms, lg, un, set. unfold match_run. rewrite F1. cbn [obind]. rewrite Q1.
    cbn [obind l_result l_unmatched l_repeated]. auto.
  Qed.

  (** ** Facts about matchings *)

  Lemma decided_taken taken h l t m g : decided scorer taken h l t m g ->
    incl t l /\ (forall r, In r t -> ~ In r taken) /\ NoDup t /\ refs_of m = t.
  Proof.
    intros [before r after ms -> H1 H2 H3 H4| |]; simpl.
    - split; [|split; [|split]].
      + intros x [<-|[]]. apply in_or_app. right. left. reflexivity.
      + intros x [<-|[]]. exact H2.
      + constructor; [intros []|constructor].
      + reflexivity.
    - split; [intros x []|]. split; [intros x []|]. split; [constructor|reflexivity].
    - split; [intros x []|]. split; [intros x []|]. split; [constructor|reflexivity].
  Qed.

  Lemma matching_taken refs hyps taken ms lg : matching R scorer refs hyps taken ms lg ->
    incl taken refs /\ NoDup taken /\ refs_of ms = taken.
  Proof.
    induction 1 as [|hyps taken ms lg h l t m g HM [IH1 [IH2 IH3]] HR HD].
    - split; [intros x []|]. split; [constructor|reflexivity].
    - destruct (decided_taken _ _ _ _ _ _ HD) as [D1 [D2 [D3 D4]]]. split; [|split].
      + intros x K. apply in_app_or in K. destruct K as [K|K]; auto.
        apply (fi_incl _ _ HS _ _ _ HR). auto.
      + apply Geometry.nodup_app; auto. intros x A B. apply (D2 x B A).
      + rewrite refs_app, IH3, D4. reflexivity.
  Qed.

  Lemma decided_hyps taken h l t m g : decided scorer taken h l t m g -> sublist (hyps_of m) [h].
  Proof. intros [before r after ms -> H1 H2 H3 H4| |]; simpl; repeat constructor. Qed.

  Lemma matching_hyps refs hyps taken ms lg : matching R scorer refs hyps taken ms lg ->
    sublist (hyps_of ms) hyps.
  Proof.
    induction 1 as [|hyps taken ms lg h l t m g HM IH HR HD]; [constructor|].
    rewrite hyps_app. apply sub_app; auto. eapply decided_hyps; eauto.
  Qed.

  (** Every match of the result is a pair that the search returned and the
      scorer accepts, or a false alarm. *)
  Lemma matching_members refs hyps taken ms lg : matching R scorer refs hyps taken ms lg ->
    forall m, In m ms ->
    exists h, In h hyps /\
      ((exists r l, m = match_pair r h (scorer r h) /\ R refs h l /\ In r l /\ accept r h) \/
       (exists l, m = make_fp h /\ R refs h l /\ forall r, In r l -> ~ accept r h)).
  Proof.
    induction 1 as [|hyps taken ms lg h l t m g HM IH HR HD]; [intros m []|].
    intros x K. apply in_app_or in K. destruct K as [K|K].
    - destruct (IH x K) as [h' [A B]]. exists h'. split; [apply in_or_app; auto|exact B].
    - exists h. split; [apply in_or_app; right; left; reflexivity|].
      destruct HD as [before r after mm -> H1 H2 H3 H4|H1|]; simpl in K.
      + destruct K as [<-|[]]. left. exists r, (before ++ r :: after).
        split; auto. split; auto. split; auto. apply in_or_app. right. left. reflexivity.
      + destruct K as [<-|[]]. right. exists l. auto.
      + destruct K.
  Qed.

  Lemma matching_all_hyp refs hyps taken ms lg : matching R scorer refs hyps taken ms lg ->
    forall m, In m ms -> has_hyp m = true.
  Proof.
    intros HM m K. destruct (matching_members _ _ _ _ _ HM m K) as [h [_ [[r [l [-> _]]]|[l [-> _]]]]];
      reflexivity.
  Qed.

  (** ** Counts *)

  Lemma matching_nr refs hyps taken ms lg : matching R scorer refs hyps taken ms lg ->
    total (fun m => me_nr (m_err m)) ms = length taken.
  Proof.
    induction 1 as [|hyps taken ms lg h l t m g HM IH HR HD]; [reflexivity|].
    rewrite total_app, app_length, IH. f_equal.
    destruct HD as [before r after mm -> H1 H2 H3 H4|H1|]; simpl; auto.
    unfold total. simpl. rewrite (Objects.nr_accepted _ H1). reflexivity.
  Qed.

  Lemma fn_nr l : total (fun m : mtch => me_nr (m_err m)) (map make_fn l) = length l.
  Proof.
    induction l as [|r l IH]; auto. unfold total in *. cbn [map list_sum fold_right].
    unfold list_sum in IH. rewrite IH. reflexivity.
  Qed.

  Lemma fn_nh l : total (fun m : mtch => me_nh (m_err m)) (map make_fn l) = 0.
  Proof.
    induction l as [|r l IH]; auto.
  Qed.

  Lemma total_le {A} (f : A -> nat) l : (forall x, f x <= 1) -> total f l <= length l.
  Proof. intros H. induction l as [|x l IH]; auto. unfold total in *. simpl. specialize (H x). lia. Qed.

  Lemma matching_length refs hyps taken ms lg : matching R scorer refs hyps taken ms lg ->
    length ms <= length hyps.
  Proof.
    induction 1 as [|hyps taken ms lg h l t m g HM IH HR HD]; [auto|].
    rewrite !app_length. simpl. destruct HD; simpl; lia.
  Qed.

  Lemma count_refs mt refs hyps n ms mt' : match_run lt S scorer mt refs hyps = Ok (ms, mt') ->
    has_size (fun r => In r refs) n -> total (fun m => me_nr (m_err m)) ms = n.
  Proof.
    destruct (run_spec mt refs hyps) as [taken [ms' [lg [un [set [-> [Q1 [Q2 Q3]]]]]]]].
    intros [= <- <-] [l [L1 [L2 L3]]]. rewrite total_app, fn_nr, (matching_nr _ _ _ _ _ Q1).
    destruct (matching_taken _ _ _ _ _ Q1) as [T1 [T2 T3]].
    rewrite <- app_length, <- L3. apply Permutation_length, NoDup_Permutation; auto.
    - apply Geometry.nodup_app; auto.
      + apply (ssorted_nodup lt irr); auto.
      + intros x A B. apply Q3 in B. tauto.
    - intros x. rewrite in_app_iff, Q3, L2. split; [intros [K|K]; [apply T1, K|tauto]|].
      intros K. destruct (in_dec (fun x y => ltac:(
      destruct (c_eq cr x y) eqn:E; [left; apply (to_eq _ Hr), E|
        right; intros E'; apply (to_eq _ Hr) in E'; congruence]) : {x = y} + {x <> y}) x taken); auto.
  Qed.

  Lemma count_hyps mt refs hyps ms mt' : match_run lt S scorer mt refs hyps = Ok (ms, mt') ->
    total (fun m => me_nh (m_err m)) ms <= length hyps.
  Proof.
    destruct (run_spec mt refs hyps) as [taken [ms' [lg [un [set [-> [Q1 [Q2 Q3]]]]]]]].
    intros [= <- <-]. rewrite total_app, fn_nh.
    assert (A := matching_length _ _ _ _ _ Q1).
    assert (B := total_le (fun m : mtch => me_nh (m_err m)) ms' (fun m => Objects.nh_le_1 (m_err m))).
    lia.
  Qed.

  (** ** C20-C22 on results *)

  Lemma result_refs mt refs hyps ms mt' : match_run lt S scorer mt refs hyps = Ok (ms, mt') ->
    NoDup (refs_of ms) /\ same_elements (refs_of ms) refs.
  Proof.
    destruct (run_spec mt refs hyps) as [taken [ms' [lg [un [set [-> [Q1 [Q2 Q3]]]]]]]].
    intros [= <- <-]. destruct (matching_taken _ _ _ _ _ Q1) as [T1 [T2 T3]].
    rewrite refs_app, refs_fn, T3. split.
    - apply Geometry.nodup_app; auto.
      + apply (ssorted_nodup lt irr); auto.
      + intros x A B. apply Q3 in B. tauto.
    - intros x. rewrite in_app_iff, Q3. split; [intros [K|K]; [apply T1, K|tauto]|].
      intros K. destruct (in_dec (fun x y => ltac:(
      destruct (c_eq cr x y) eqn:E; [left; apply (to_eq _ Hr), E|
        right; intros E'; apply (to_eq _ Hr) in E'; congruence]) : {x = y} + {x <> y}) x taken); auto.
  Qed.

  Lemma refs_once mt refs hyps ms mt' : match_run lt S scorer mt refs hyps = Ok (ms, mt') ->
    NoDup (refs_of ms).
  Proof. intros K. apply (result_refs _ _ _ _ _ K). Qed.

  Lemma result_hyps mt refs hyps ms mt' : match_run lt S scorer mt refs hyps = Ok (ms, mt') ->
    sublist (hyps_of ms) hyps.
  Proof.
    destruct (run_spec mt refs hyps) as [taken [ms' [lg [un [set [-> [Q1 [Q2 Q3]]]]]]]].
    intros [= <- <-]. rewrite hyps_app, hyps_fn, app_nil_r. eapply matching_hyps; eauto.
  Qed.

  Lemma result_pairs mt refs hyps ms mt' : match_run lt S scorer mt refs hyps = Ok (ms, mt') ->
    forall m, In m ms ->
      (exists r h l, m = match_pair r h (scorer r h) /\ In h hyps /\ R refs h l /\ In r l /\ accept r h) \/
      (exists h l, m = make_fp h /\ In h hyps /\ R refs h l /\ forall r, In r l -> ~ accept r h) \/
      (exists r, m = make_fn r /\ In r refs).
  Proof.
    destruct (run_spec mt refs hyps) as [taken [ms' [lg [un [set [-> [Q1 [Q2 Q3]]]]]]]].
    intros [= <- <-] m K. apply in_app_or in K. destruct K as [K|K].
    - destruct (matching_members _ _ _ _ _ Q1 m K) as [h [A [[r [l [-> [B [C D]]]]]|[l [-> [B C]]]]]].
      + left. exists r, h, l. auto.
      + right. left. exists h, l. auto.
    - right. right. apply in_map_iff in K. destruct K as [r [<- K]]. exists r. split; auto.
      apply Q3 in K. tauto.
  Qed.

  (** ** C25, C26 *)

  Lemma reuse mt mt' refs hyps :
    match_run lt S scorer mt refs hyps = match_run lt S scorer mt' refs hyps.
  Proof. unfold match_run. rewrite (fi_clear _ _ HS (mt_set mt) (mt_set mt')). reflexivity. Qed.

  Lemma logged_unique h l m m' : logged scorer h l m -> logged scorer h l m' -> m = m'.
  Proof.
    intros K. revert m'. induction K; intros m' L; inversion L; subst; auto; try contradiction.
    f_equal; auto.
  Qed.

  Lemma split_unique {A} (P : A -> Prop) (b b' : list A) r r' a a' :
    b ++ r :: a = b' ++ r' :: a' -> P r -> P r' -> (forall x, In x b -> ~ P x) ->
    (forall x, In x b' -> ~ P x) -> b = b' /\ r = r' /\ a = a'.
  Proof.
    revert b'. induction b as [|x b IH]; intros [|x' b'] E Pr Pr' Hb Hb'; simpl in E; injection E as E1 E2.
    - auto.
    - subst x'. exfalso. apply (Hb' r); simpl; auto.
    - subst r'. exfalso. apply (Hb x); simpl; auto.
    - subst x'. destruct (IH b') as [-> [-> ->]]; auto; intros y K; [apply Hb|apply Hb']; right; auto.
  Qed.

  Lemma decided_unique taken h l t m g t' m' g' :
    decided scorer taken h l t m g -> decided scorer taken h l t' m' g' -> t = t' /\ m = m' /\ g = g'.
  Proof.
    intros [b r a ms -> A1 A2 A3 A4|A1|ms [z [Z1 Z2]] A2 A3]
           [b' r' a' ms' E B1 B2 B3 B4|B1|ms' [z' [Y1 Y2]] B2 B3].
    - destruct (split_unique (fun x => accept x h /\ ~ In x taken) b b' r r' a a' E) as [<- [<- <-]]; auto.
      + intros x K [L M]. apply M, A3; auto.
      + intros x K [L M]. apply M, B3; auto.
      + rewrite (logged_unique _ _ _ _ A4 B4). auto.
    - exfalso. apply (B1 r); auto. apply in_or_app. right. left. reflexivity.
    - exfalso. apply A2, B2; auto. apply in_or_app. right. left. reflexivity.
    - subst l. exfalso. apply (A1 r'); auto. apply in_or_app. right. left. reflexivity.
    - auto.
    - exfalso. apply (A1 z'); auto.
    - subst l. exfalso. apply B2, A2; auto. apply in_or_app. right. left. reflexivity.
    - exfalso. apply (B1 z); auto.
    - rewrite (logged_unique _ _ _ _ A3 B3). auto.
  Qed.

  Lemma matching_unique refs refs' hyps : same_elements refs refs' ->
    forall taken ms lg taken' ms' lg',
    matching R scorer refs hyps taken ms lg -> matching R scorer refs' hyps taken' ms' lg' ->
    taken = taken' /\ ms = ms' /\ lg = lg'.
  Proof.
    intros He. induction hyps as [|h hyps IH] using rev_ind; intros taken ms lg taken' ms' lg' A B.
    - inversion A as [|? ? ? ? ? ? ? ? ? ? ? ? E1]; [|destruct hyps; discriminate].
      inversion B as [|? ? ? ? ? ? ? ? ? ? ? ? E2]; [|destruct hyps; discriminate]. auto.
    - inversion A as [E1|a0 a1 a2 a3 a4 l a6 a7 a8 A1 A2 A3 E1]; [destruct hyps; discriminate|].
      inversion B as [E2|b0 b1 b2 b3 b4 l' b6 b7 b8 B1 B2 B3 E2]; [destruct hyps; discriminate|].
      apply app_inj_tail in E1, E2. destruct E1 as [-> ->], E2 as [-> ->].
      destruct (IH _ _ _ _ _ _ A1 B1) as [<- [<- <-]].
      assert (l' = l) as ->.
      { apply (fi_unique _ _ HS refs' h); auto. eapply (fi_same _ _ HS refs); eauto. }
      destruct (decided_unique _ _ _ _ _ _ _ _ _ A3 B3) as [-> [-> ->]]. auto.
  Qed.

  Lemma same_refs_result mt refs refs' hyps : same_elements refs refs' ->
    exists ms a b, match_run lt S scorer mt refs hyps = Ok (ms, a) /\
      match_run lt S scorer mt refs' hyps = Ok (ms, b) /\ mt_repeated a = mt_repeated b.
  Proof.
    intros He.
    destruct (run_spec mt refs hyps) as [taken [ms [lg [un [set [-> [Q1 [Q2 Q3]]]]]]]].
    destruct (run_spec mt refs' hyps) as [taken' [ms' [lg' [un' [set' [-> [P1 [P2 P3]]]]]]]].
    destruct (matching_unique _ _ _ He _ _ _ _ _ _ Q1 P1) as [<- [<- <-]].
    assert (un = un') as <-.
    { apply (ssorted_unique lt irr trn); auto. intros x. rewrite Q3, P3, (He x). tauto. }
    eexists. eexists. eexists. split; [reflexivity|]. split; reflexivity.
  Qed.

  (** ** C27 *)

  Lemma matching_prefix refs hyps more taken ms lg :
    matching R scorer refs (hyps ++ more) taken ms lg ->
    exists taken1 ms1 lg1 taken2 ms2 lg2,
      taken = taken1 ++ taken2 /\ ms = ms1 ++ ms2 /\ lg = lg1 ++ lg2 /\
      matching R scorer refs hyps taken1 ms1 lg1.
  Proof.
    revert taken ms lg. induction more as [|h more IH] using rev_ind; intros taken ms lg HM.
    - rewrite app_nil_r in HM. exists taken, ms, lg, [], [], []. rewrite !app_nil_r. auto.
    - rewrite app_assoc in HM. inversion HM as [E|a0 a1 a2 a3 a4 l a6 a7 a8 A1 A2 A3 E].
      + destruct (hyps ++ more); discriminate.
      + apply app_inj_tail in E. destruct E as [-> ->].
        destruct (IH _ _ _ A1) as [t1 [m1 [g1 [t2 [m2 [g2 [-> [-> [-> K]]]]]]]]].
        exists t1, m1, g1, (t2 ++ a6), (m2 ++ a7), (g2 ++ a8). rewrite !app_assoc. auto.
  Qed.

  Lemma prefix_stable mt refs hyps more :
    exists a b u v s t,
      match_run lt S scorer mt refs hyps = Ok (a ++ map make_fn u, s) /\
      match_run lt S scorer mt refs (hyps ++ more) = Ok (a ++ b ++ map make_fn v, t) /\
      (forall m, In m (a ++ b) -> has_hyp m = true) /\
      sublist (hyps_of b) more /\
      (forall r, In r u <-> In r v \/ In r (refs_of b)) /\
      exists g, mt_repeated t = mt_repeated s ++ g.
  Proof.
    destruct (run_spec mt refs hyps) as [taken [ms [lg [un [set [-> [Q1 [Q2 Q3]]]]]]]].
    destruct (run_spec mt refs (hyps ++ more)) as [taken' [ms' [lg' [un' [set' [-> [P1 [P2 P3]]]]]]]].
    assert (AH := matching_all_hyp _ _ _ _ _ P1).
    assert (TK := matching_taken _ _ _ _ _ P1).
    assert (TK1 := matching_taken _ _ _ _ _ Q1).
    assert (SB : forall b, ms' = ms ++ b -> sublist (hyps_of b) more).
    { clear - P1 Q1 HS. intros b E. revert ms' taken' lg' b P1 E.
      induction more as [|h more IH] using rev_ind; intros ms' taken' lg' b P1 E.
      - rewrite app_nil_r in P1.
        destruct (matching_unique refs refs hyps (fun x => iff_refl _) _ _ _ _ _ _ Q1 P1) as [_ [<- _]].
        rewrite <- (app_nil_r ms) in E at 1. apply app_inv_head in E. subst b. constructor.
      - rewrite app_assoc in P1. inversion P1 as [E'|a0 a1 a2 a3 a4 l a6 a7 a8 A1 A2 A3 E' F1 F2 F3].
        + destruct (hyps ++ more); discriminate.
        + apply app_inj_tail in E'. destruct E' as [-> ->].
          destruct (matching_prefix _ _ _ _ _ _ A1) as [t1 [m1 [g1 [t2 [m2 [g2 [-> [-> [-> K]]]]]]]]].
          destruct (matching_unique refs refs hyps (fun x => iff_refl _) _ _ _ _ _ _ Q1 K) as [<- [<- <-]].
          rewrite <- F2, <- app_assoc in E. apply app_inv_head in E. subst b.
          rewrite hyps_app. apply sub_app.
          * eapply IH; eauto.
          * eapply decided_hyps; eauto. }
    destruct (matching_prefix _ _ _ _ _ _ P1) as [t1 [m1 [g1 [t2 [m2 [g2 [E1 [E2 [E3 K]]]]]]]]].
    destruct (matching_unique refs refs hyps (fun x => iff_refl _) _ _ _ _ _ _ Q1 K) as [<- [<- <-]].
    exists ms, m2, un, un', (Matcher S set lg), (Matcher S set' lg').
    split; auto. split; [rewrite E2, app_assoc; reflexivity|].
    split; [rewrite <- E2; exact AH|]. split; [apply SB; auto|]. split.
    - destruct TK as [T1 [T2 T3]]. destruct TK1 as [U1 [U2 U3]].
      assert (R2 : refs_of m2 = t2).
      { rewrite E2, refs_app, U3, E1 in T3. apply app_inv_head in T3. exact T3. }
      intros r. rewrite Q3, P3, E1, in_app_iff, R2.
      assert (ND : NoDup (taken ++ t2)) by (rewrite <- E1; auto).
      assert (D : In r t2 -> ~ In r taken).
      { clear - ND. intros A B. induction taken as [|x tk IH]; [destruct B|].
        inversion ND as [|? ? N1 N2]. destruct B as [->|B]; [apply N1, in_or_app; auto|auto]. }
      assert (In r t2 -> In r refs) by (intros A; apply T1; rewrite E1; apply in_or_app; auto).
      destruct (in_dec (fun x y => ltac:(
      destruct (c_eq cr x y) eqn:E; [left; apply (to_eq _ Hr), E|
        right; intros E'; apply (to_eq _ Hr) in E'; congruence]) : {x = y} + {x <> y}) r t2); tauto.
    - exists g2. simpl. exact E3.
  Qed.

  (** ** C28 *)

  Lemma logged_in h l g : logged scorer h l g -> forall m, In m g <->
    exists r, m = match_pair r h (scorer r h) /\ In r l /\ accept r h.
  Proof.
    induction 1 as [|r l ms A L IH|r l ms A L IH]; intros m; simpl.
    - split; [tauto|]. intros [r [_ [[] _]]].
    - rewrite IH. split.
      + intros [<-|[x [E [K1 K2]]]]; [exists r; auto|]. exists x. auto.
      + intros [x [-> [[->|K1] K2]]]; [auto|]. right. exists x. auto.
    - rewrite IH. split.
      + intros [x [E [K1 K2]]]. exists x. auto.
      + intros [x [-> [[->|K1] K2]]]; [tauto|]. exists x. auto.
  Qed.

  Lemma matching_log refs hyps taken ms lg : matching R scorer refs hyps taken ms lg ->
    forall m, In m lg -> exists r h, m = match_pair r h (scorer r h) /\ In h hyps /\
      accept r h /\ In r taken.
  Proof.
    induction 1 as [|hyps taken ms lg h l t m g HM IH HR HD]; [intros m []|].
    intros x K. apply in_app_or in K. destruct K as [K|K].
    - destruct (IH x K) as [r [h' [A [B [C D]]]]]. exists r, h'. split; auto.
      split; [apply in_or_app; auto|]. split; auto. apply in_or_app; auto.
    - destruct HD as [b r a mm -> A1 A2 A3 A4|A1|mm A1 A2 A3].
      + apply (logged_in _ _ _ A4) in K. destruct K as [y [-> [K1 K2]]]. exists y, h.
        split; auto. split; [apply in_or_app; right; left; auto|]. split; auto.
        apply in_or_app. auto.
      + destruct K.
      + apply (logged_in _ _ _ A3) in K. destruct K as [y [-> [K1 K2]]]. exists y, h.
        split; auto. split; [apply in_or_app; right; left; auto|]. split; auto.
        apply in_or_app. auto.
  Qed.

  (** Every hypothesis is in the result or in the log. *)
  Lemma matching_cover refs hyps taken ms lg : matching R scorer refs hyps taken ms lg ->
    forall h, In h hyps -> In h (hyps_of ms) \/ In h (hyps_of lg).
  Proof.
    induction 1 as [|hyps taken ms lg h l t m g HM IH HR HD]; [intros h []|].
    intros x K. rewrite !hyps_app, !in_app_iff. apply in_app_or in K. destruct K as [K|[<-|[]]].
    - destruct (IH x K); auto.
    - destruct HD as [b r a mm -> A1 A2 A3 A4|A1|mm [z [Z1 Z2]] A2 A3]; simpl; auto.
      right. right. apply in_flat_map. exists (match_pair z h (scorer z h)). split; [|left; reflexivity].
      apply (logged_in _ _ _ A3). exists z. auto.
  Qed.

  (** ** One hypothesis, one match *)

  Lemma matching_at refs h1 h h2 taken ms lg :
    matching R scorer refs (h1 ++ h :: h2) taken ms lg ->
    exists t1 a g1 l t m g b,
      matching R scorer refs h1 t1 a g1 /\ R refs h l /\ decided scorer t1 h l t m g /\
      ms = a ++ m ++ b.
  Proof.
    intros HM. replace (h1 ++ h :: h2) with ((h1 ++ [h]) ++ h2) in HM by (rewrite <- app_assoc; reflexivity).
    destruct (matching_prefix _ _ _ _ _ _ HM) as [t1 [m1 [g1 [t2 [m2 [g2 [-> [-> [-> K]]]]]]]]].
    inversion K as [E|a0 a1 a2 a3 a4 l a6 a7 a8 A1 A2 A3 E F1 F2 F3]; [destruct h1; discriminate|].
    apply app_inj_tail in E. destruct E as [-> ->].
    exists a1, a2, a3, l, a6, a7, a8, m2. rewrite <- app_assoc. auto.
  Qed.

  Lemma each_hyp mt refs h1 h h2 ms mt' :
    match_run lt S scorer mt refs (h1 ++ h :: h2) = Ok (ms, mt') ->
    exists l a m b, R refs h l /\ ms = a ++ m ++ b /\ sublist (hyps_of a) h1 /\
      (m = [make_fp h] \/ m = [] \/ exists r, m = [match_pair r h (scorer r h)]) /\
      (m = [make_fp h] <-> forall r, In r l -> ~ accept r h) /\
      (m = [] <-> (exists r, In r l /\ accept r h) /\
                  forall r, In r l -> accept r h -> In r (refs_of a)).
  Proof.
    destruct (run_spec mt refs (h1 ++ h :: h2)) as [taken [ms' [lg [un [set [-> [Q1 [Q2 Q3]]]]]]]].
    intros [= <- <-].
    destruct (matching_at _ _ _ _ _ _ _ Q1) as [t1 [a [g1 [l [t [m [g [b [A1 [A2 [A3 ->]]]]]]]]]]].
    exists l, a, m, (b ++ map make_fn un). rewrite <- !app_assoc. split; auto. split; auto.
    split; [eapply matching_hyps; eauto|].
    destruct (matching_taken _ _ _ _ _ A1) as [_ [_ T]]. rewrite T.
    destruct A3 as [bf r af mm -> B1 B2 B3 B4|B1|mm B1 B2 B3].
    - assert (I : In r (bf ++ r :: af)) by (apply in_or_app; right; left; reflexivity).
      split; [eauto|]. split.
      + split; [discriminate|]. intros K. exfalso. apply (K r); auto.
      + split; [discriminate|]. intros [_ K]. exfalso. apply B2, K; auto.
    - split; auto. split; [tauto|]. split; [discriminate|]. intros [[r [K1 K2]] _]. exfalso.
      apply (B1 r); auto.
    - split; auto. split; [|tauto]. split; [discriminate|]. intros K. destruct B1 as [r [K1 K2]].
      exfalso. apply (K r); auto.
  Qed.

  Lemma matching_split refs hyps taken ms lg : matching R scorer refs hyps taken ms lg ->
    forall a m b, ms = a ++ m :: b ->
    exists h1 h h2 t1 g1 l t g, hyps = h1 ++ h :: h2 /\
      matching R scorer refs h1 t1 a g1 /\ R refs h l /\ decided scorer t1 h l t [m] g.
  Proof.
    induction 1 as [|hyps taken ms lg h l t m g HM IH HR HD]; intros a x b E.
    - destruct a; discriminate.
    - assert (C : m = [] \/ exists y, m = [y]) by (destruct HD; eauto).
      destruct C as [->|[y ->]].
      + rewrite app_nil_r in E. destruct (IH a x b E) as
          [h1 [h' [h2 [t1 [g1 [l' [t' [g' [-> [B1 [B2 B3]]]]]]]]]]].
        exists h1, h', (h2 ++ [h]), t1, g1, l', t', g'. rewrite <- app_assoc. auto.
      + destruct b as [|z b] using rev_ind.
        * apply app_inj_tail in E. destruct E as [-> ->].
          exists hyps, h, [], taken, lg, l, t, g. auto.
        * clear IHb. rewrite app_comm_cons, app_assoc in E. apply app_inj_tail in E. destruct E as [E ->].
          destruct (IH a x b E) as [h1 [h' [h2 [t1 [g1 [l' [t' [g' [-> [B1 [B2 B3]]]]]]]]]]].
          exists h1, h', (h2 ++ [h]), t1, g1, l', t', g'. rewrite <- app_assoc. auto.
  Qed.

  Lemma app_split_r {A} (u v a b : list A) x : u ++ v = a ++ x :: b -> ~ In x v ->
    exists b', u = a ++ x :: b' /\ b = b' ++ v.
  Proof.
    revert a. induction u as [|y u IH]; intros a E N.
    - simpl in E. subst v. exfalso. apply N, in_or_app. right. left. reflexivity.
    - destruct a as [|z a]; simpl in E; injection E as -> E.
      + exists u. subst b. auto.
      + destruct (IH a E N) as [b' [-> ->]]. exists b'. auto.
  Qed.

  Lemma first_free mt refs hyps a r h e b mt' :
    match_run lt S scorer mt refs hyps = Ok (a ++ Match (Some r) (Some h) e :: b, mt') ->
    exists h1 h2 l before after,
      hyps = h1 ++ h :: h2 /\ sublist (hyps_of a) h1 /\
      R refs h l /\ l = before ++ r :: after /\ e = scorer r h /\ accept r h /\
      ~ In r (refs_of a) /\
      forall x, In x before -> accept x h -> In x (refs_of a).
  Proof.
    destruct (run_spec mt refs hyps) as [taken [ms' [lg [un [set [-> [Q1 [Q2 Q3]]]]]]]].
    intros [= E _]. apply app_split_r in E.
    2:{ intros K. apply in_map_iff in K. destruct K as [y [K _]]. discriminate. }
    destruct E as [b' [E _]].
    destruct (matching_split _ _ _ _ _ Q1 _ _ _ E) as
      [h1 [h' [h2 [t1 [g1 [l [t [g [-> [B1 [B2 B3]]]]]]]]]]].
    destruct (matching_taken _ _ _ _ _ B1) as [_ [_ T]]. rewrite T.
    inversion B3 as [bf r' af mm K1 K2 K3 K4 K5 K6 K7 K8|K1 K2 K3 K4|mm K1 K2 K3 K4 K5 K6]; subst.
    - exists h1, h2, (bf ++ r :: af), bf, af. split; auto.
      split; [eapply matching_hyps; eauto|]. auto 10.
  Qed.

  (** ** The log on results *)

  Lemma log_members mt refs hyps ms mt' : match_run lt S scorer mt refs hyps = Ok (ms, mt') ->
    (forall m, In m (mt_repeated mt') -> exists r h, m = match_pair r h (scorer r h) /\ In h hyps /\
      accept r h /\ exists m', In m' ms /\ m_ref m' = Some r /\ has_hyp m' = true) /\
    (forall h, In h hyps -> In h (hyps_of ms) \/ In h (hyps_of (mt_repeated mt'))).
  Proof.
    destruct (run_spec mt refs hyps) as [taken [ms' [lg [un [set [-> [Q1 [Q2 Q3]]]]]]]].
    intros [= <- <-]. simpl. split.
    - intros m K. destruct (matching_log _ _ _ _ _ Q1 m K) as [r [h [A [B [C D]]]]].
      exists r, h. split; auto. split; auto. split; auto.
      destruct (matching_taken _ _ _ _ _ Q1) as [_ [_ T]]. rewrite <- T in D.
      apply in_flat_map in D. destruct D as [m' [D1 D2]]. exists m'.
      split; [apply in_or_app; auto|]. split; [|eapply matching_all_hyp; eauto].
      destruct (m_ref m'); [destruct D2 as [->|[]]; reflexivity|destruct D2].
    - intros h K. rewrite hyps_app, hyps_fn, app_nil_r. eapply matching_cover; eauto.
  Qed.

  (** The shape of the result and of the log. *)
  Lemma result_shape mt refs hyps :
    exists taken ms missed mt',
      match_run lt S scorer mt refs hyps = Ok (ms ++ map make_fn missed, mt') /\
      matching R scorer refs hyps taken ms (mt_repeated mt') /\
      StronglySorted (fun x y => lt x y = true) missed /\
      (forall r, In r missed <-> In r refs /\ ~ In r taken).
  Proof.
    destruct (run_spec mt refs hyps) as [taken [ms [lg [un [set [E [Q1 [Q2 Q3]]]]]]]].
    exists taken, ms, un, (Matcher S set lg). auto.
  Qed.
End Run.

(** ** Document boxes *)

Lemma sorted_before {A} (P : A -> A -> Prop) a x b y :
  StronglySorted P (a ++ x :: b) -> In y (a ++ x :: b) -> y <> x -> In y a \/ P x y.
Proof.
  intros HS Hy N. apply in_app_or in Hy. destruct Hy as [K|[K|K]]; [auto|congruence|right].
  induction a as [|z a IH]; simpl in HS; inversion HS as [|? ? H1 H2]; subst; auto.
  rewrite Forall_forall in H2. auto.
Qed.

Lemma largest_overlap srt {Q} (cq : Cmp Q) : sort_contract srt -> total_order cq ->
  forall scorer mt refs hyps a r h e b mt',
  match_run (event_lt cq cmp_docbox) (evset_docbox srt cq) scorer mt refs hyps =
    Ok (a ++ Match (Some r) (Some h) e :: b, mt') ->
  forall x, In x refs -> ev_query x = ev_query (sc_base h) ->
    acceptable scorer x h -> (overlap (sc_base h) r < overlap (sc_base h) x)%Z ->
    In x (refs_of a).
Proof.
  intros Hs Hq scorer mt refs hyps a r h e b mt' Hrun x Hx Hqx Hacc Hov.
  destruct (first_free (cmp_devent cq) (total_order_event cq cmp_docbox Hq total_order_docbox)
              (evset_docbox srt cq) (box_search cq)
              (finds_docbox srt cq Hs Hq) scorer mt refs hyps a r h e b mt' Hrun)
    as [h1 [h2 [l [bf [af [-> [E1 [[L1 [L2 L3]] [-> [E2 [E3 [E4 E5]]]]]]]]]]]].
  assert (Hr : In r (bf ++ r :: af)) by (apply in_or_app; right; left; reflexivity).
  assert (K := Hr). apply L2 in K. destruct K as [_ [_ [_ P]]].
  assert (Hin : In x (bf ++ r :: af)).
  { apply L2. split; auto. split; auto. split; [|lia].
    destruct (str_eq (db_doc (ev_loc x)) (db_doc (ev_loc (sc_base h)))) eqn:D.
    - apply Geometry.str_eq_spec, D.
    - exfalso. unfold overlap in Hov. unfold docbox_inter at 2 in Hov. rewrite D in Hov.
      unfold overlap in P. lia. }
  destruct (sorted_before _ _ _ _ x L3 Hin) as [K|K].
  - intros ->. lia.
  - apply E5; auto.
  - exfalso. destruct K as [K|[K _]]; lia.
Qed.
