(** Only the ranking matters: runs on related hypotheses. *)
From Coq Require Import List Bool ZArith Arith Reals Lra Lia Sorted Permutation.
From Flocq Require Import Core BinarySingleNaN.
From Verif.Model Require Import Cpp Floats Events EventSets Matches Matcher Assessment.
From Verif.Spec Require Import Order Objects Sets Matching Collapse Metrics Curves.
From Verif.Proofs Require Import Order.
From Verif.Proofs Require Matching Collapse Curves.
Import ListNotations.

(** Two sorted permutations agree up to equivalent elements. *)
Lemma Forall2_app_r {A B} (P : A -> B -> Prop) l a b : Forall2 P l (a ++ b) ->
  exists u v, l = u ++ v /\ Forall2 P u a /\ Forall2 P v b.
Proof.
  revert l. induction a as [|x a IH]; intros l H; simpl in H.
  - exists [], l. auto.
  - inversion H as [|y ? l' ? H1 H2]; subst. destruct (IH _ H2) as [u [v [-> [U V]]]].
    exists (y :: u), v. split; [reflexivity|]. auto.
Qed.

Lemma Forall2_all {A B} (P : A -> B -> Prop) u w : length u = length w ->
  (forall x y, In x u -> In y w -> P x y) -> Forall2 P u w.
Proof.
  revert w. induction u as [|x u IH]; intros [|y w] E H; simpl in E; try discriminate; constructor.
  - apply H; simpl; auto.
  - apply IH; [lia|]. intros; apply H; simpl; auto.
Qed.

Lemma sorted_equiv {A} (lt : A -> A -> bool) (l l' : list A) : swo_on lt l ->
  Permutation l l' -> sorted_by lt l -> sorted_by lt l' ->
  Forall2 (fun x y => lt x y = false /\ lt y x = false) l l'.
Proof.
  intros W P. revert W l' P. induction l as [|x t IH]; intros W l' P S S'.
  - apply Permutation_nil in P. subst. constructor.
  - assert (K : In x l') by (eapply Permutation_in; [exact P|simpl; auto]).
    apply in_split in K. destruct K as [u [v ->]].
    assert (P' : Permutation t (u ++ v)) by (eapply Permutation_cons_app_inv; exact P).
    inversion S as [|? ? S1 S2]; subst. rewrite Forall_forall in S2.
    assert (Su : sorted_by lt (u ++ v) /\ forall y, In y u -> lt x y = false).
    { clear - S'. induction u as [|y u IH]; simpl in *.
      - inversion S'; subst. split; [assumption|intros y []].
      - inversion S' as [|? ? S1' B]; subst. destruct (IH S1') as [C D].
        rewrite Forall_forall in B. split.
        + constructor; [exact C|]. rewrite Forall_forall. intros z K. apply B.
          apply in_app_or in K. apply in_or_app. simpl. tauto.
        + intros z [<-|K]; [|auto]. apply B. apply in_or_app. simpl. auto. }
    destruct Su as [Suv Lu].
    assert (W' : swo_on lt t) by (eapply swo_on_incl; [|exact W]; intros z K; simpl; auto).
    specialize (IH W' _ P' S1 Suv).
    assert (I : forall z, In z (u ++ v) -> In z (x :: t)).
    { intros z K. right. eapply Permutation_in; [apply Permutation_sym, P'|exact K]. }
    assert (Eu : forall y, In y u -> lt x y = false /\ lt y x = false).
    { intros y K. split; [auto|]. apply S2. eapply Permutation_in; [apply Permutation_sym, P'|].
      apply in_or_app. auto. }
    assert (Exx : lt x x = false) by (apply (swo_irrefl _ _ W); simpl; auto).
    apply Forall2_app_r in IH. destruct IH as [t1 [t2 [-> [F1 F2]]]].
    assert (E1 : forall y, In y t1 -> lt x y = false /\ lt y x = false).
    { intros y K. clear - F1 K Eu W I. 
      assert (Z : exists z, In z u /\ lt y z = false /\ lt z y = false).
      { clear - F1 K. induction F1 as [|a b t1 u H F IH]; [destruct K|]. destruct K as [<-|K].
        - exists b. simpl. tauto.
        - destruct (IH K) as [z [Z1 Z2]]. exists z. simpl. tauto. }
      destruct Z as [z [Z1 [Z2 Z3]]]. destruct (Eu z Z1) as [A1 B1].
      apply (swo_incomp _ _ W x z y); auto.
      - simpl; auto.
      - apply I. apply in_or_app. auto.
      - right. apply in_or_app. auto. }
    change (x :: t1 ++ t2) with ((x :: t1) ++ t2).
    replace (u ++ x :: v) with ((u ++ [x]) ++ v) by (rewrite <- app_assoc; reflexivity).
    apply Forall2_app; [|exact F2]. apply Forall2_all.
    + rewrite app_length. simpl. rewrite (Curves.Forall2_len _ _ _ F1). lia.
    + intros a b Ka Kb.
      assert (A1 : lt a x = false /\ lt x a = false) by (destruct Ka as [<-|Ka]; [auto|destruct (E1 a Ka); auto]).
      assert (B : lt x b = false /\ lt b x = false).
      { apply in_app_or in Kb. destruct Kb as [Kb|[<-|[]]]; auto. }
      apply (swo_incomp _ _ W a x b); try tauto.
      * destruct Ka as [<-|Ka]; simpl; auto. right. apply in_or_app. auto.
      * simpl; auto.
      * apply in_app_or in Kb. destruct Kb as [Kb|[<-|[]]]; [apply I; apply in_or_app; auto|simpl; auto].
Qed.

(** ** Related outcomes *)

Definition orel {A B} (P : A -> B -> Prop) (a : outcome A) (b : outcome B) : Prop :=
  match a, b with
  | Ok x, Ok y => P x y
  | UB, UB => True
  | Throw e, Throw e' => e = e'
  | _, _ => False
  end.

Lemma orel_bind {A B C D} (P : A -> B -> Prop) (R : C -> D -> Prop) a b f g :
  orel P a b -> (forall x y, P x y -> orel R (f x) (g y)) -> orel R (obind a f) (obind b g).
Proof. intros H K. destruct a, b; simpl in *; try contradiction; auto. Qed.

Lemma orel_fold {X Y A B} (PX : X -> Y -> Prop) (P : A -> B -> Prop) f g l l' :
  (forall x y a b, PX x y -> P a b -> orel P (f a x) (g b y)) -> Forall2 PX l l' ->
  forall a b, P a b -> orel P (ofold f l a) (ofold g l' b).
Proof.
  intros H. induction 1 as [|x y l l' Hx HF IH]; intros a b Hab; simpl; [exact Hab|].
  apply orel_bind with P; [apply H; auto|exact IH].
Qed.

(** ** Related matches *)

Section Related.
  Context {RE HE HE' : Type} (rh : HE -> HE' -> Prop).

  Definition sim (m : match_t RE HE) (m' : match_t RE HE') : Prop :=
    m_ref m = m_ref m' /\ m_err m = m_err m' /\
    match m_hyp m, m_hyp m' with
    | Some h, Some h' => rh h h'
    | None, None => True
    | _, _ => False
    end.

  Variable ltr : RE -> RE -> bool.
  Variables (S : EvSet RE HE) (S' : EvSet RE HE').
  Variables (scorer : RE -> HE -> match_error) (scorer' : RE -> HE' -> match_error).
  Hypothesis Hscorer : forall r h h', rh h h' -> scorer r h = scorer' r h'.

  Definition sim_st (st : loop_st) (st' : loop_st) : Prop :=
    l_unmatched st = l_unmatched st' /\ Forall2 sim (l_repeated st) (l_repeated st') /\
    Forall2 sim (l_result st) (l_result st').

  Lemma sim_snoc l l' m m' : Forall2 sim l l' -> sim m m' -> Forall2 sim (l ++ [m]) (l' ++ [m']).
  Proof. intros H K. apply Forall2_app; auto. Qed.

  Lemma sim_refs h h' : rh h h' -> forall refs b st st', sim_st st st' ->
    fst (match_refs ltr scorer h refs b st) = fst (match_refs ltr scorer' h' refs b st') /\
    sim_st (snd (match_refs ltr scorer h refs b st)) (snd (match_refs ltr scorer' h' refs b st')).
  Proof.
    intros Hh. induction refs as [|r refs IH]; intros b st st' [E1 [E2 E3]]; simpl.
    - split; [reflexivity|]. repeat split; auto.
    - rewrite (Hscorer r h h' Hh). destruct f32_lt; [|apply IH; repeat split; auto].
      rewrite E1. destruct set_find; simpl.
      + split; [reflexivity|]. split; [simpl; rewrite ?E1; reflexivity|]. split; [exact E2|].
        apply sim_snoc; auto. split; [reflexivity|]. split; [reflexivity|exact Hh].
      + apply IH. split; [reflexivity|]. split; [|exact E3].
        apply sim_snoc; auto. split; [reflexivity|]. split; [reflexivity|exact Hh].
  Qed.

  Variables (set : es_T S) (set' : es_T S').
  Hypothesis Hfind : forall h h', rh h h' -> es_find S h set = es_find S' h' set'.

  Lemma sim_loop hyps hyps' : Forall2 rh hyps hyps' -> forall st st', sim_st st st' ->
    orel sim_st (ofold (match_hyp ltr S scorer set) hyps st) (ofold (match_hyp ltr S' scorer' set') hyps' st').
  Proof.
    apply orel_fold. intros h h' st st' Hh Hs. unfold match_hyp. rewrite (Hfind h h' Hh).
    destruct (es_find S' h' set') as [l| |e]; simpl; auto.
    destruct (sim_refs h h' Hh l false st st' Hs) as [A B].
    destruct (match_refs ltr scorer h l false st) as [b s], (match_refs ltr scorer' h' l false st') as [b' s'].
    simpl in A, B. subst b'. destruct b; simpl; [exact B|].
    destruct B as [B1 [B2 B3]]. split; [exact B1|]. split; [exact B2|].
    apply sim_snoc; auto. split; [reflexivity|]. split; [reflexivity|exact Hh].
  Qed.
End Related.

Lemma sim_run {RE HE HE'} (rh : HE -> HE' -> Prop) ltr (S : EvSet RE HE) (S' : EvSet RE HE') scorer scorer' mt mt' refs hyps hyps'
  ms t :
  (forall r h h', rh h h' -> scorer r h = scorer' r h') ->
  (forall set, ofold (fun s r => es_insert S r s) refs (es_clear S (mt_set mt)) = Ok set ->
    exists set', ofold (fun s r => es_insert S' r s) refs (es_clear S' (mt_set mt')) = Ok set' /\
    forall h h', rh h h' -> es_find S h set = es_find S' h' set') ->
  Forall2 rh hyps hyps' ->
  match_run ltr S scorer mt refs hyps = Ok (ms, t) ->
  exists ms' t', match_run ltr S' scorer' mt' refs hyps' = Ok (ms', t') /\ Forall2 (sim rh) ms ms' /\
    Forall2 (sim rh) (mt_repeated t) (mt_repeated t').
Proof.
  intros Hs Hset HF E. unfold match_run in *.
  destruct (ofold (fun s r => es_insert S r s) refs (es_clear S (mt_set mt))) as [set| |] eqn:E1; try discriminate.
  destruct (Hset set eq_refl) as [set' [E2 Hf]]. rewrite E2. simpl in *.
  assert (L := sim_loop rh ltr S S' scorer scorer' Hs set set' Hf hyps hyps' HF
    (LoopSt (set_of_range ltr refs) [] []) (LoopSt (set_of_range ltr refs) [] [])).
  destruct (ofold (match_hyp ltr S scorer set) hyps) as [a| |]; try discriminate.
  destruct (ofold (match_hyp ltr S' scorer' set') hyps') as [b| |]; simpl in *;
    try (exfalso; apply L; repeat split; constructor).
  injection E as <- <-.
  destruct L as [L1 [L2 L3]]; [repeat split; constructor|].
  do 2 eexists. split; [reflexivity|]. split; [|exact L2].
  apply Forall2_app; [exact L3|]. rewrite L1. clear. induction (l_unmatched b); simpl; constructor; auto.
  split; [reflexivity|]. split; [reflexivity|exact I].
Qed.

(** ** Metrics of related matches *)

Section RelatedMetrics.
  Context {RE HE HE' : Type} (rh : HE -> HE' -> Prop).
  Variables (score : HE -> f32) (score' : HE' -> f32).
  (** The ranks are related by a relation that keeps ties apart or together. *)
  Variable rel : f32 -> f32 -> Prop.
  Hypothesis rel_tie : forall x y x' y', rel x x' -> rel y y' -> f32_eq x y = f32_eq x' y'.
  Hypothesis rel_hyp : forall h h', rh h h' -> rel (score h) (score' h').
  Hypothesis rel_none : rel f32_ninf f32_ninf.

  Notation sim := (sim (RE := RE) rh).

  Lemma sim_score m m' : sim m m' -> rel (match_score score m) (match_score score' m').
  Proof.
    intros [_ [_ H]]. unfold match_score. destruct (m_hyp m), (m_hyp m'); try contradiction; auto.
  Qed.

  Lemma sim_collapse_loop l l' : Forall2 sim l l' -> forall c x x', rel x x' ->
    collapse_loop score c x l = collapse_loop score' c x' l'.
  Proof.
    induction 1 as [|m m' l l' Hm HF IH]; intros c x x' Hx; simpl; [reflexivity|].
    assert (Hr := sim_score m m' Hm). unfold f32_ne.
    change (Beqb (match_score score m) x) with (f32_eq (match_score score m) x).
    change (Beqb (match_score score' m') x') with (f32_eq (match_score score' m') x').
    rewrite (rel_tie _ _ _ _ Hr Hx). destruct Hm as [_ [-> _]].
    destruct f32_eq; simpl; [apply IH; exact Hx|]. f_equal. apply IH. exact Hr.
  Qed.

  Lemma sim_points l l' c : Forall2 sim l l' -> points score c l = points score' c l'.
  Proof.
    intros H. unfold points. destruct c.
    - destruct H as [|m m' l l' Hm HF]; [reflexivity|]. simpl.
      assert (Hr := sim_score m m' Hm). destruct Hm as [_ [-> _]]. apply sim_collapse_loop; auto.
    - unfold get_match_errors. induction H as [|m m' l l' Hm HF IH]; [reflexivity|]. simpl.
      destruct Hm as [_ [-> _]]. congruence.
  Qed.

  Lemma sim_precision_recall A l l' c i : Forall2 sim l l' ->
    precision_recall_matches A score l c i = precision_recall_matches A score' l' c i.
  Proof. intros H. unfold precision_recall_matches. rewrite (sim_points l l' c H). reflexivity. Qed.

  Lemma sim_global_ap A l l' c i t : Forall2 sim l l' ->
    global_ap A score l c i t = global_ap A score' l' c i t.
  Proof. intros H. unfold global_ap. rewrite (sim_precision_recall A l l' c i H). reflexivity. Qed.

  Lemma sim_global_ndcg A T l l' c : Forall2 sim l l' ->
    global_ndcg A T score l c = global_ndcg A T score' l' c.
  Proof. intros H. unfold global_ndcg. rewrite (sim_points l l' c H). reflexivity. Qed.

  Lemma sim_mean_ap A srt gs gs' c i t : Forall2 (Forall2 sim) gs gs' ->
    mean_ap A score srt gs c i t false = mean_ap A score' srt gs' c i t false.
  Proof.
    intros H. unfold mean_ap. rewrite (Curves.Forall2_len _ _ _ H). f_equal.
    generalize (a0 A). induction H as [|g g' gs gs' Hg HF IH]; intros s; simpl; [reflexivity|].
    rewrite (sim_global_ap A g g' c i t Hg). destruct global_ap; simpl; auto.
  Qed.

  Lemma sim_mean_ndcg A T srt gs gs' c : Forall2 (Forall2 sim) gs gs' ->
    mean_ndcg A T score srt gs c false = mean_ndcg A T score' srt gs' c false.
  Proof.
    intros H. unfold mean_ndcg. rewrite (Curves.Forall2_len _ _ _ H). f_equal.
    generalize (a0 A). induction H as [|g g' gs gs' Hg HF IH]; intros s; simpl; [reflexivity|].
    rewrite (sim_global_ndcg A T g g' c Hg). simpl. auto.
  Qed.
End RelatedMetrics.

Section RelatedGroups.
  Context {Q RE HE HE' : Type} (cq : Cmp Q) (rq : RE -> Q) (hq : HE -> Q) (hq' : HE' -> Q).
  Context (rh : HE -> HE' -> Prop).
  Hypothesis Hq : forall h h', rh h h' -> hq h = hq' h'.

  Notation sim := (sim (RE := RE) rh).

  Lemma sim_query m m' : sim m m' -> match_query rq hq m = match_query rq hq' m'.
  Proof.
    intros [E1 [_ E3]]. unfold match_query, has_ref, get_ref, get_hyp. rewrite E1.
    destruct (m_ref m'); [reflexivity|]. destruct (m_hyp m), (m_hyp m'); try contradiction; auto.
    simpl. rewrite (Hq h h0 E3). reflexivity.
  Qed.

  Lemma sim_push pos m m' gs gs' : sim m m' -> Forall2 (Forall2 sim) gs gs' ->
    Forall2 (Forall2 sim) (push_at pos m gs) (push_at pos m' gs').
  Proof.
    intros Hm H. unfold push_at. rewrite (Curves.Forall2_len _ _ _ H).
    destruct Nat.ltb.
    - revert pos. induction H as [|g g' gs gs' Hg HF IH]; intros pos; [destruct pos; constructor|].
      destruct pos; simpl.
      + constructor; auto. apply Forall2_app; auto.
      + constructor; auto.
    - apply Forall2_app; auto.
  Qed.

  Lemma sim_group q2g ms ms' : Forall2 sim ms ms' ->
    orel (Forall2 (Forall2 sim)) (group_matches cq rq hq ms q2g) (group_matches cq rq hq' ms' q2g).
  Proof.
    intros H. unfold group_matches.
    apply orel_bind with (fun a b => fst a = fst b /\ Forall2 (Forall2 sim) (snd a) (snd b));
      [|intros a b [_ K]; exact K].
    apply orel_fold with sim; [|exact H|split; [reflexivity|constructor]].
    intros m m' [p gs] [p' gs'] Hm [E K]. simpl in E, K. subst p'. unfold group_step.
    rewrite (sim_query m m' Hm). destruct (match_query rq hq' m'); simpl; auto.
    split; [reflexivity|]. apply sim_push; auto.
  Qed.
End RelatedGroups.

(** ** Increasing transformations of the scores *)

Lemma finite_not_nan (x : f32) : is_finite x = true -> is_nan x = false.
Proof. destruct x; simpl; auto; discriminate. Qed.

Lemma lt_not_eq x y : f32_lt x y = true -> f32_eq x y = false.
Proof.
  intros H. destruct (f32_eq x y) eqn:E; auto. apply f32_eq_not_lt in E. congruence.
Qed.

Lemma f32_eq_congr x y x' y' : f32_eq x x' = true -> f32_eq y y' = true -> f32_eq x y = f32_eq x' y'.
Proof.
  intros A B. destruct (f32_eq x y) eqn:E; symmetry.
  - apply f32_eq_trans with x; [rewrite f32_eq_sym; exact A|]. eapply f32_eq_trans; eauto.
  - destruct (f32_eq x' y') eqn:E'; auto. exfalso.
    assert (f32_eq x y = true); [|congruence].
    eapply f32_eq_trans; [exact A|]. eapply f32_eq_trans; [exact E'|]. rewrite f32_eq_sym. exact B.
Qed.

Lemma eq_finite x y : is_finite x = true -> f32_eq x y = true -> is_finite y = true.
Proof.
  intros F E. destruct y as [s|s| |s m e b]; auto; destruct x as [s'|s'| |s' m' e' b']; try discriminate;
    destruct s; discriminate.
Qed.

Lemma finite_ninf x : is_finite x = true -> f32_eq x f32_ninf = false.
Proof. intros F. destruct x as [s'|s'| |s' m' e' b']; try discriminate; reflexivity. Qed.

Section Increasing.
  Variables (P : f32 -> Prop) (f : f32 -> f32).
  Hypothesis Hf : increasing P f.

  Lemma inc_lt_eq x y : P x -> P y -> f32_lt (f x) (f y) = f32_lt x y.
  Proof.
    intros Px Py. assert (Fx := inc_from _ _ Hf x Px). assert (Fy := inc_from _ _ Hf y Py).
    destruct (f32_total x y (finite_not_nan _ Fx) (finite_not_nan _ Fy)) as [H|[H|H]].
    - rewrite H. apply (inc_lt _ _ Hf); auto.
    - rewrite (f32_eq_not_lt _ _ H). apply f32_eq_not_lt. apply (inc_eq _ _ Hf); auto.
    - rewrite (f32_lt_asym _ _ H). apply f32_lt_asym. apply (inc_lt _ _ Hf); auto.
  Qed.

  Lemma inc_eq_eq x y : P x -> P y -> f32_eq (f x) (f y) = f32_eq x y.
  Proof.
    intros Px Py. assert (Fx := inc_from _ _ Hf x Px). assert (Fy := inc_from _ _ Hf y Py).
    destruct (f32_total x y (finite_not_nan _ Fx) (finite_not_nan _ Fy)) as [H|[H|H]].
    - rewrite (lt_not_eq _ _ H). apply lt_not_eq. apply (inc_lt _ _ Hf); auto.
    - rewrite H. apply (inc_eq _ _ Hf); auto.
    - rewrite f32_eq_sym, (f32_eq_sym x), (lt_not_eq _ _ H). apply lt_not_eq. apply (inc_lt _ _ Hf); auto.
  Qed.

  Definition rel_inc (x x' : f32) : Prop :=
    (P x /\ f32_eq (f x) x' = true) \/ (x = f32_ninf /\ x' = f32_ninf).

  Lemma rel_inc_tie x y x' y' : rel_inc x x' -> rel_inc y y' -> f32_eq x y = f32_eq x' y'.
  Proof.
    intros [[Fx Ex]|[-> ->]] [[Fy Ey]|[-> ->]]; auto.
    - rewrite <- (inc_eq_eq x y Fx Fy). apply f32_eq_congr; auto.
    - rewrite !finite_ninf; auto; [|apply (inc_from _ _ Hf); exact Fx].
      eapply eq_finite; [|exact Ex]. apply (inc_to _ _ Hf); auto.
    - rewrite (f32_eq_sym f32_ninf), (f32_eq_sym f32_ninf), !finite_ninf; auto; [|apply (inc_from _ _ Hf); exact Fy].
      eapply eq_finite; [|exact Ey]. apply (inc_to _ _ Hf); auto.
  Qed.
End Increasing.

(** The same matches with transformed scores. *)
Lemma rescored_points RE HE (score : HE -> f32) (l : list (match_t RE HE)) P f c : increasing P f ->
  (forall h, In h (hyps_of l) -> P (score h)) -> points (fun h => f (score h)) c l = points score c l.
Proof.
  intros Hf Hl. symmetry.
  apply (sim_points (fun h h' => h = h' /\ P (score h)) score (fun h => f (score h)) (rel_inc P f)).
  - apply rel_inc_tie, Hf.
  - intros h h' [-> F]. left. split; [exact F|]. apply f32_eq_refl. apply finite_not_nan. apply (inc_to _ _ Hf); auto.
  - right. auto.
  - assert (G : forall m, In m l -> sim (fun h h' => h = h' /\ P (score h)) m m).
    { intros m K. split; [reflexivity|]. split; [reflexivity|]. destruct (m_hyp m) eqn:E; auto.
      split; [reflexivity|]. apply Hl. unfold hyps_of. apply in_flat_map. exists m. split; [exact K|].
      rewrite E. simpl; auto. }
    clear - G. induction l; constructor; [apply G; simpl; auto|]. apply IHl. intros; apply G; simpl; auto.
Qed.

Lemma rescored_metrics RE HE (score : HE -> f32) (l : list (match_t RE HE)) P f A (T : Trans A) c i t : increasing P f ->
  (forall h, In h (hyps_of l) -> P (score h)) ->
  precision_recall_matches A (fun h => f (score h)) l c i = precision_recall_matches A score l c i /\
  global_ap A (fun h => f (score h)) l c i t = global_ap A score l c i t /\
  global_ndcg A T (fun h => f (score h)) l c = global_ndcg A T score l c.
Proof.
  intros Hf Hl. unfold global_ap, global_ndcg, precision_recall_matches.
  rewrite (rescored_points _ _ _ _ P f c Hf Hl). auto.
Qed.

(** The order of the hypotheses. *)
Section RescoreSort.
  Context {E : Type} (ce : Cmp E) (P : f32 -> Prop) (f : f32 -> f32).
  Hypothesis Hf : increasing P f.

  Lemma rescore_lt x y : P (sc_score x) -> P (sc_score y) ->
    scored_lt ce (rescore f x) (rescore f y) = scored_lt ce x y.
  Proof.
    intros Fx Fy. unfold scored_lt, rescore, f32_ne. simpl.
    change (Beqb (f (sc_score x)) (f (sc_score y))) with (f32_eq (f (sc_score x)) (f (sc_score y))).
    rewrite (inc_eq_eq P f Hf _ _ Fx Fy), (inc_lt_eq P f Hf _ _ Fx Fy). reflexivity.
  Qed.

  Definition rescored (h h' : scored E) : Prop :=
    P (sc_score h) /\ sc_base h' = sc_base h /\ same_number (sc_score h') (f (sc_score h)).

  Lemma rescored_sort srt hyps s s' : sort_contract srt -> total_order ce ->
    (forall h, In h hyps -> P (sc_score h)) ->
    std_sort srt (flip_lt (scored_lt ce)) hyps = Ok s ->
    std_sort srt (flip_lt (scored_lt ce)) (map (rescore f) hyps) = Ok s' ->
    Forall2 rescored s s'.
  Proof.
    intros C To Hh E1 E2.
    assert (HF : forall h, In h hyps -> is_finite (sc_score h) = true) by (intros h K; apply (inc_from _ _ Hf), Hh, K).
    assert (Hh' : forall h, In h (map (rescore f) hyps) -> is_finite (sc_score h) = true).
    { intros h K. apply in_map_iff in K. destruct K as [x [<- K]]. apply (inc_to _ _ Hf). apply Hh, K. }
    assert (W : forall l, (forall h, In h l -> is_finite (sc_score h) = true) -> swo_on (flip_lt (scored_lt ce)) l).
    { intros l Hl. apply swo_flip. apply (swo_scored ce To). intros x K. apply finite_not_nan, Hl, K. }
    rewrite (std_sort_ok srt _ _ (W _ HF)) in E1. rewrite (std_sort_ok srt _ _ (W _ Hh')) in E2.
    injection E1 as <-. injection E2 as <-.
    destruct (C _ _ _ (W _ HF)) as [P1 S1]. destruct (C _ _ _ (W _ Hh')) as [P2 S2].
    set (s := srt _ _ hyps) in *. set (s' := srt _ _ (map _ hyps)) in *. clearbody s s'.
    assert (Fs : forall h, In h s -> P (sc_score h)).
    { intros h K. apply Hh. eapply Permutation_in; [apply Permutation_sym, P1|exact K]. }
    assert (Q : Permutation (map (rescore f) s) s').
    { eapply Permutation_trans; [apply Permutation_map, Permutation_sym, P1|exact P2]. }
    assert (Ms : sorted_by (flip_lt (scored_lt ce)) (map (rescore f) s)).
    { clear - S1 Fs Hf. induction S1 as [|x s S IH F]; simpl; constructor.
      - apply IH. intros; apply Fs; simpl; auto.
      - rewrite Forall_forall in *. intros y K. apply in_map_iff in K. destruct K as [z [<- K]].
        specialize (F z K). unfold flip_lt in *. rewrite rescore_lt; auto; apply Fs; simpl; auto. }
    assert (Fm : forall h, In h (map (rescore f) s) -> is_finite (sc_score h) = true).
    { intros h K. apply in_map_iff in K. destruct K as [x [<- K]]. apply (inc_to _ _ Hf). apply Fs, K. }
    assert (EQ := sorted_equiv _ _ _ (W _ Fm) Q Ms S2).
    assert (Fs' : forall h, In h s' -> is_finite (sc_score h) = true).
    { intros h K. apply Hh'. eapply Permutation_in; [apply Permutation_sym, P2|exact K]. }
    clear - EQ Fs Fs' To Hf. revert s' Fs' EQ. induction s as [|x s IH]; intros s' Fs' EQ; inversion EQ as [|? y ? t [A B] H]; subst; constructor.
    - assert (Fx : P (sc_score x)) by (apply Fs; simpl; auto).
      assert (Fx' : is_finite (sc_score (rescore f x)) = true) by (apply (inc_to _ _ Hf), Fx).
      assert (Fy : is_finite (sc_score y) = true) by (apply Fs'; simpl; auto).
      unfold flip_lt in A, B.
      assert (K : scored_eq ce (rescore f x) y = true)
        by (apply (scored_trichotomy ce To); [apply finite_not_nan, Fx'|apply finite_not_nan, Fy|auto]).
      apply scored_eq_spec in K; [|exact To]. destruct K as [K1 K2]. split; [exact Fx|]. split.
      + symmetry. exact K2.
      + unfold same_number in *. rewrite f32_eq_sym. exact K1.
    - apply IH; auto; intros; [apply Fs|apply Fs']; simpl; auto.
  Qed.
End RescoreSort.

Lemma rescored_run RE E Q (ce : Cmp E) (cr : Cmp RE) (cq : Cmp Q) (S : EvSet RE (scored E)) R srt P f scorer mt refs hyps :
  total_order ce -> total_order cr -> sort_contract srt -> finds S R -> increasing P f ->
  (forall h h' s, sc_base h = sc_base h' -> es_find S h s = es_find S h' s) ->
  (forall r h h', sc_base h = sc_base h' -> scorer r h = scorer r h') ->
  (forall h, In h hyps -> P (sc_score h)) ->
  exists s s' ms ms' t t',
    std_sort srt (flip_lt (scored_lt ce)) hyps = Ok s /\
    std_sort srt (flip_lt (scored_lt ce)) (map (rescore f) hyps) = Ok s' /\
    match_run (c_lt cr) S scorer mt refs s = Ok (ms, t) /\
    match_run (c_lt cr) S scorer mt refs s' = Ok (ms', t') /\
    Forall2 same_match ms ms' /\ Forall2 same_match (mt_repeated t) (mt_repeated t') /\
    forall A (T : Trans A) collapse interpolate trapezoid,
      precision_recall_matches A sc_score ms' collapse interpolate =
        precision_recall_matches A sc_score ms collapse interpolate /\
      global_ap A sc_score ms' collapse interpolate trapezoid =
        global_ap A sc_score ms collapse interpolate trapezoid /\
      global_ndcg A T sc_score ms' collapse = global_ndcg A T sc_score ms collapse /\
      forall (rq : RE -> Q) (bq : E -> Q) q2g,
      let groups l := group_matches cq rq (fun h => bq (sc_base h)) l q2g in
      obind (groups ms') (fun g => mean_ap A sc_score srt g collapse interpolate trapezoid false) =
        obind (groups ms) (fun g => mean_ap A sc_score srt g collapse interpolate trapezoid false) /\
      obind (groups ms') (fun g => mean_ndcg A T sc_score srt g collapse false) =
        obind (groups ms) (fun g => mean_ndcg A T sc_score srt g collapse false).
Proof.
  intros Te Tr C F Hf Hfind Hsc Hh.
  assert (W : forall l, (forall h, In h l -> is_finite (sc_score h) = true) -> swo_on (flip_lt (scored_lt ce)) l).
  { intros l Hl. apply swo_flip. apply (swo_scored ce Te). intros x K. apply finite_not_nan, Hl, K. }
  assert (Hh' : forall h, In h (map (rescore f) hyps) -> is_finite (sc_score h) = true).
  { intros h K. apply in_map_iff in K. destruct K as [x [<- K]]. apply (inc_to _ _ Hf). apply Hh, K. }
  set (s := srt _ (flip_lt (scored_lt ce)) hyps). set (s' := srt _ (flip_lt (scored_lt ce)) (map (rescore f) hyps)).
  assert (HF : forall h, In h hyps -> is_finite (sc_score h) = true) by (intros h K; apply (inc_from _ _ Hf), Hh, K).
  assert (E1 : std_sort srt (flip_lt (scored_lt ce)) hyps = Ok s) by (apply std_sort_ok, W, HF).
  assert (E2 : std_sort srt (flip_lt (scored_lt ce)) (map (rescore f) hyps) = Ok s') by (apply std_sort_ok, W, Hh').
  assert (RS := rescored_sort ce P f Hf srt hyps s s' C Te Hh E1 E2).
  destruct (Matching.result_shape cr Tr S R F scorer mt refs s) as [taken [ms0 [missed [t [Em _]]]]].
  set (ms := ms0 ++ map make_fn missed) in *.
  destruct (sim_run (rescored P f) (c_lt cr) S S scorer scorer mt mt refs s s' ms t) as [ms' [t' [Em' [SM SR]]]]; auto.
  { intros r h h' [_ [K _]]. apply Hsc. auto. }
  { intros set Es. exists set. split; [exact Es|]. intros h h' [_ [K _]]. apply Hfind. auto. }
  exists s, s', ms, ms', t, t'. do 4 (split; [assumption|]).
  assert (SS : forall a b, sim (RE := RE) (@rescored E P f) a b -> same_match a b).
  { intros a b [A1 [A2 A3]]. split; [auto|]. split; [auto|].
    destruct (m_hyp a), (m_hyp b); try contradiction; auto. simpl. destruct A3 as [_ [-> _]]. reflexivity. }
  split; [eapply Collapse.Forall2_weaken; [exact SS|exact SM]|].
  split; [eapply Collapse.Forall2_weaken; [exact SS|exact SR]|].
  assert (RT := rel_inc_tie P f Hf).
  assert (RH : forall h h' : scored E, rescored P f h h' -> rel_inc P f (sc_score h) (sc_score h')).
  { intros h h' [K1 [_ K3]]. left. split; [exact K1|]. unfold same_number in K3. rewrite f32_eq_sym. exact K3. }
  assert (RN : rel_inc P f f32_ninf f32_ninf) by (right; auto).
  intros A T c i tr.
  split; [symmetry; eapply sim_precision_recall; eauto|].
  split; [symmetry; eapply sim_global_ap; eauto|].
  split; [symmetry; eapply sim_global_ndcg; eauto|].
  intros rq bq q2g. cbv zeta.
  assert (G := sim_group cq rq (fun h : scored E => bq (sc_base h)) (fun h => bq (sc_base h)) (rescored P f)
    (fun h h' K => f_equal bq (eq_sym (proj1 (proj2 K)))) q2g ms ms' SM).
  set (hq := fun h : scored E => bq (sc_base h)) in *.
  destruct (group_matches cq rq hq ms q2g), (group_matches cq rq hq ms' q2g); simpl in G |- *; try contradiction;
    [|auto|subst; auto].
  split; symmetry; [eapply sim_mean_ap|eapply sim_mean_ndcg]; eauto.
Qed.
