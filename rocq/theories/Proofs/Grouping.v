(** Proofs about grouping. *)
From Coq Require Import List Bool Arith Lia Permutation.
Import ListNotations.
From Verif.Model Require Import Cpp Matches Assessment.
From Verif.Spec Require Import Order Matching Grouping.
From Verif.Proofs Require Import Order Sets Matching.
Local Open Scope cpp_scope.

Lemma Forall2_len {A B} (P : A -> B -> Prop) l l' : Forall2 P l l' -> length l = length l'.
Proof. induction 1; simpl; congruence. Qed.

Lemma selects_app {A} (P : A -> Prop) l s l' s' :
  selects P l s -> selects P l' s' -> selects P (l ++ l') (s ++ s').
Proof. intros H K. induction H; simpl; auto; constructor; auto. Qed.

Lemma selects_none {A} (P : A -> Prop) l : (forall x, In x l -> ~ P x) -> selects P l [].
Proof. induction l; intros H; constructor; auto; [apply H|apply IHl; intros; apply H]; simpl; auto. Qed.

Lemma selects_in {A} (P : A -> Prop) l s : selects P l s -> forall x, In x s <-> In x l /\ P x.
Proof.
  induction 1 as [|y l s H K IH|y l s H K IH]; intros x; simpl.
  - tauto.
  - rewrite IH. split; [intros [->|K']; tauto|tauto].
  - rewrite IH. split; [tauto|]. intros [[->|K'] K'']; [contradiction|auto].
Qed.

Lemma selects_sub {A} (P : A -> Prop) l s : selects P l s -> sublist s l.
Proof. induction 1; constructor; auto. Qed.

Lemma first_seen_in {A} (l s : list A) : first_seen l s -> forall x, In x s <-> In x l.
Proof.
  induction 1 as [|l s x H IH K|l s x H IH K]; intros y.
  - tauto.
  - rewrite in_app_iff, IH. simpl. split; [auto|]. intros [L|[<-|[]]]; auto. apply IH, K.
  - rewrite !in_app_iff, IH. tauto.
Qed.

Lemma first_seen_nodup {A} (l s : list A) : first_seen l s -> NoDup s.
Proof.
  induction 1 as [|l s x H IH K|l s x H IH K]; [constructor|auto|].
  apply Geometry.nodup_app; auto.
  - constructor; [intros []|constructor].
  - intros y A1 [<-|[]]. contradiction.
Qed.

Lemma combine_snoc {A B} (a : list A) (b : list B) x y :
  length a = length b -> combine (a ++ [x]) (b ++ [y]) = combine a b ++ [(x, y)].
Proof.
  revert b. induction a as [|u a IH]; intros [|v b] E; simpl in *; try discriminate; auto.
  rewrite IH; auto.
Qed.

Lemma map_find_positions {K} (keq : K -> K -> bool) (Hk : forall x y, keq x y = true <-> x = y) :
  forall keys base k, NoDup keys ->
    (exists i, nth_error keys i = Some k /\ map_find keq k (combine keys (seq base (length keys))) = Some (base + i))
    \/ (~ In k keys /\ map_find keq k (combine keys (seq base (length keys))) = None).
Proof.
  induction keys as [|x keys IH]; intros base k ND; simpl.
  - right. auto.
  - inversion ND as [|? ? N1 N2]; subst. destruct (keq x k) eqn:E.
    + apply Hk in E. subst x. left. exists 0. rewrite Nat.add_0_r. auto.
    + assert (x <> k) by (intros K'; apply Hk in K'; congruence).
      destruct (IH (S base) k N2) as [[i [I1 I2]]|[I1 I2]].
      * left. exists (S i). rewrite I2, <- Nat.add_succ_comm. auto.
      * right. split; auto. intros [K'|K']; auto.
Qed.

Lemma push_old {M} pos (m : M) groups a g b :
  groups = a ++ g :: b -> length a = pos -> push_at pos m groups = a ++ (g ++ [m]) :: b.
Proof.
  intros -> <-. unfold push_at. rewrite app_length. simpl.
  destruct (Nat.ltb_spec (length a) (length a + S (length b))); [|lia].
  rewrite firstn_app, firstn_all, Nat.sub_diag, app_nil_r. f_equal.
  rewrite skipn_app, skipn_all, Nat.sub_diag. reflexivity.
Qed.

Lemma push_new {M} (m : M) groups : push_at (length groups) m groups = groups ++ [[m]].
Proof. unfold push_at. rewrite Nat.ltb_irrefl. reflexivity. Qed.

Section Group.
  Context {Q RE HE : Type} (cq : Cmp Q) (Hq : total_order cq) (rq : RE -> Q) (hq : HE -> Q).
  Variable q2g : list (Q * Q).
  Hypothesis Hnd : NoDup (map fst q2g).
  Notation M := (match_t RE HE).
  Notation grp := (grouped rq hq q2g).

  Lemma group_of_spec q g : in_group q2g q g <-> group_of cq q2g q = g.
  Proof.
    unfold group_of, in_group.
    destruct (map_find (c_eq cq) q q2g) as [g'|] eqn:E.
    - assert (K : In (q, g') q2g).
      { apply (map_find_in (c_eq cq)) in E; [exact E|]. apply (to_eq _ Hq). }
      split.
      + intros [L|[L _]]; [|exfalso; apply (L g'), K].
        apply (map_find_nodup (c_eq cq)) in L; auto; [congruence|apply (to_eq _ Hq)].
      + intros <-. auto.
    - assert (K : forall g', ~ In (q, g') q2g).
      { intros g' L. apply (map_find_nodup (c_eq cq)) in L; auto; [congruence|apply (to_eq _ Hq)]. }
      split; [intros [L|[_ ->]]; [destruct (K _ L)|auto]|]. intros <-. auto.
  Qed.

  Lemma match_query_spec (m : M) :
    (exists q, has_query rq hq m q /\ match_query rq hq m = Ok q) \/
    ((forall q, ~ has_query rq hq m q) /\ match_query rq hq m = UB).
  Proof.
    unfold match_query, has_query, has_ref, get_ref, get_hyp.
    destruct (m_ref m) as [r|]; simpl; [left; eauto|].
    destruct (m_hyp m) as [h|]; simpl; [left; eauto|right; auto].
  Qed.

  Lemma has_query_unique (m : M) q q' : has_query rq hq m q -> has_query rq hq m q' -> q = q'.
  Proof.
    unfold has_query. destruct (m_ref m); [congruence|]. destruct (m_hyp m); [congruence|tauto].
  Qed.

  Lemma grouped_unique (m : M) g g' : grp m g -> grp m g' -> g = g'.
  Proof.
    intros [q [A B]] [q' [C D]]. rewrite (has_query_unique _ _ _ A C) in B.
    apply group_of_spec in B, D. congruence.
  Qed.

  Lemma loop_groups ms : forall ks, Forall2 grp ms ks ->
    exists keys groups,
      ofold (group_step cq rq hq q2g) ms ([], []) = Ok (combine keys (seq 0 (length keys)), groups) /\
      first_seen ks keys /\ Forall2 (fun k g => g <> [] /\ selects (fun m => grp m k) ms g) keys groups.
  Proof.
    induction ms as [|m ms IH] using rev_ind; intros ks HF.
    - inversion HF; subst. exists [], []. split; [reflexivity|]. split; constructor.
    - apply Forall2_app_inv_l in HF. destruct HF as [ks1 [ks2 [F1 [F2 ->]]]].
      inversion F2 as [|? k ? ? Hk F3]; subst. inversion F3; subst. clear F2 F3.
      destruct (IH ks1 F1) as [keys [groups [E [FS FG]]]].
      rewrite ofold_app, E. cbn [obind ofold]. unfold group_step.
      destruct Hk as [q [Q1 Q2]].
      destruct (match_query_spec m) as [[q' [Q3 Q4]]|[Q3 _]]; [|destruct (Q3 _ Q1)].
      rewrite Q4. cbn [obind]. assert (q' = q) by (eapply has_query_unique; eauto). subst q'.
      assert (Gk : group_of cq q2g q = k) by (apply group_of_spec; auto). rewrite Gk.
      assert (Hmk : grp m k) by (exists q; auto).
      assert (ND := first_seen_nodup _ _ FS).
      assert (Len : length keys = length groups) by (apply (Forall2_len _ _ _ FG)).
      assert (LC : length (combine keys (seq 0 (length keys))) = length keys).
      { rewrite combine_length, seq_length. lia. }
      destruct (map_find_positions (c_eq cq) (to_eq _ Hq) keys 0 k ND) as [[i [I1 I2]]|[I1 I2]].
      + unfold map_emplace. rewrite I2. cbn [obind]. rewrite I2.
        apply nth_error_split in I1. destruct I1 as [k1 [k2 [-> L1]]].
        apply Forall2_app_inv_l in FG. destruct FG as [g1 [g2 [G1 [G2 ->]]]].
        inversion G2 as [|? g ? g3 [G3 G3'] G4]; subst g2.
        assert (L2 : length g1 = 0 + i) by (rewrite <- L1; symmetry; apply (Forall2_len _ _ _ G1)).
        rewrite (push_old _ _ _ g1 g g3 eq_refl L2). cbn [obind].
        assert (In k (k1 ++ k :: k2)) by (apply in_or_app; right; left; reflexivity).
        assert (Hoth : forall ks' gs, Forall2 (fun k g => g <> [] /\ selects (fun m => grp m k) ms g) ks' gs ->
                  ~ In k ks' ->
                  Forall2 (fun k g => g <> [] /\ selects (fun m => grp m k) (ms ++ [m]) g) ks' gs).
        { clear - Hmk Hq Hnd. induction 1 as [|k' g ks' gs [N S] F IH]; intros Nk; constructor.
          - split; auto. rewrite <- (app_nil_r g). apply selects_app; auto. apply selects_none.
            intros x [<-|[]] Gx. apply Nk. left. eapply grouped_unique; eauto.
          - apply IH. intros K. apply Nk. right. exact K. }
        assert (NK : ~ In k (k1 ++ k2)) by (apply NoDup_remove_2; exact ND).
        eexists. eexists. split; [reflexivity|]. split.
        * apply fs_old; auto.
        * apply Forall2_app; [apply Hoth; auto; intros K; apply NK, in_or_app; auto|].
          constructor; [|apply Hoth; auto; intros K; apply NK, in_or_app; auto].
          split; [destruct g; discriminate|]. apply selects_app; auto.
          apply sel_yes; auto. constructor.
      + unfold map_emplace. rewrite I2. cbn [obind].
        rewrite map_find_app, I2. cbn [map_find]. rewrite (to_eq_refl _ Hq), LC, Len, push_new.
        cbn [obind]. exists (keys ++ [k]), (groups ++ [[m]]). split; [|split].
        * do 2 f_equal. rewrite app_length. simpl. rewrite seq_app. simpl.
          rewrite combine_snoc by (rewrite seq_length; reflexivity). rewrite Len. reflexivity.
        * apply fs_new; auto.
        * assert (Hoth : forall ks' gs, Forall2 (fun k g => g <> [] /\ selects (fun m => grp m k) ms g) ks' gs ->
                  ~ In k ks' ->
                  Forall2 (fun k g => g <> [] /\ selects (fun m => grp m k) (ms ++ [m]) g) ks' gs).
          { clear - Hmk Hq Hnd. induction 1 as [|k' g ks' gs [N S] F IH]; intros Nk; constructor.
            - split; auto. rewrite <- (app_nil_r g). apply selects_app; auto. apply selects_none.
              intros x [<-|[]] Gx. apply Nk. left. eapply grouped_unique; eauto.
            - apply IH. intros K. apply Nk. right. exact K. }
          apply Forall2_app; [apply Hoth; auto|]. constructor; [|constructor].
          split; [discriminate|].
          change [m] with ([] ++ [m]) at 2. apply selects_app; [|apply sel_yes; auto; constructor].
          apply selects_none. intros x K Gx. apply I1. apply (first_seen_in _ _ FS).
          clear - F1 K Gx Hq Hnd. induction F1 as [|y k' ms' ks' Hy F IHF]; [destruct K|].
          destruct K as [->|K]; [left; eapply grouped_unique; eauto|right; auto].
  Qed.

  Theorem groups_spec ms ks : Forall2 grp ms ks ->
    exists keys groups, group_matches cq rq hq ms q2g = Ok groups /\
      first_seen ks keys /\ Forall2 (fun k g => g <> [] /\ selects (fun m => grp m k) ms g) keys groups.
  Proof.
    intros HF. destruct (loop_groups ms ks HF) as [keys [groups [E [A B]]]].
    exists keys, groups. unfold group_matches. rewrite E. auto.
  Qed.

  Lemma forall_grouped ms : (forall m, In m ms -> exists q, has_query rq hq m q) ->
    exists ks, Forall2 grp ms ks.
  Proof.
    induction ms as [|m ms IH]; intros H; [exists []; constructor|].
    destruct IH as [ks K]; [intros; apply H; right; auto|].
    destruct (H m (or_introl eq_refl)) as [q A]. exists (group_of cq q2g q :: ks). constructor; auto.
    exists q. split; auto. apply group_of_spec. reflexivity.
  Qed.

  Lemma grouped_dec (m : M) k : (exists q, has_query rq hq m q) -> grp m k \/ ~ grp m k.
  Proof.
    intros [q A]. destruct (c_eq cq (group_of cq q2g q) k) eqn:E.
    - apply (to_eq _ Hq) in E. left. exists q. split; auto. apply group_of_spec, E.
    - right. intros B. assert (grp m (group_of cq q2g q)) by (exists q; split; auto; apply group_of_spec; auto).
      rewrite (grouped_unique _ _ _ B H), (to_eq_refl _ Hq) in E. discriminate.
  Qed.

  (** Every match is in exactly one group. *)
  Lemma partition ms : forall keys groups, NoDup keys ->
    (forall m, In m ms -> exists k, In k keys /\ grp m k) ->
    Forall2 (fun k g => selects (fun m => grp m k) ms g) keys groups ->
    Permutation ms (concat groups).
  Proof.
    induction ms as [|m ms IH]; intros keys gs ND Hk F.
    - assert (concat gs = []) as ->; [|constructor]. clear - F.
      induction F as [|k g ks gs S F IHF]; auto. inversion S; subst. exact IHF.
    - destruct (Hk m (or_introl eq_refl)) as [k [K1 K2]].
      apply in_split in K1. destruct K1 as [k1 [k2 ->]].
      apply Forall2_app_inv_l in F. destruct F as [a [g2 [G1 [G2 ->]]]].
      inversion G2 as [|? g ? b G3' G4]; subst g2.
      inversion G3' as [|? ? g' P1 P2|? ? ? P1 P2]; subst; [|contradiction].
      assert (NK : ~ In k (k1 ++ k2)) by (apply NoDup_remove_2; exact ND).
      assert (Hoth : forall ks' gs, Forall2 (fun k g => selects (fun m => grp m k) (m :: ms) g) ks' gs ->
                ~ In k ks' -> Forall2 (fun k g => selects (fun m => grp m k) ms g) ks' gs).
      { clear - K2 Hq Hnd. induction 1 as [|k' g ks' gs S F IH]; intros Nk; constructor.
        - inversion S as [|? ? s' P1 P2|? ? ? P1 P2]; subst; auto. exfalso. apply Nk. left.
          eapply grouped_unique; eauto.
        - apply IH. intros K. apply Nk. right. exact K. }
      assert (P : Permutation ms (concat (a ++ g' :: b))).
      { apply (IH (k1 ++ k :: k2)); auto.
        - intros m' K. apply Hk. right. exact K.
        - apply Forall2_app; [apply Hoth; auto; intros K; apply NK, in_or_app; auto|].
          constructor; auto. apply Hoth; auto. intros K; apply NK, in_or_app; auto. }
      rewrite concat_app in *. simpl in *. apply Permutation_cons_app. exact P.
  Qed.

  Theorem groups_partition ms : (forall m, In m ms -> exists q, has_query rq hq m q) ->
    exists groups, group_matches cq rq hq ms q2g = Ok groups /\
      Permutation ms (concat groups) /\
      (forall g, In g groups -> g <> [] /\ sublist g ms) /\
      (forall g m m' k, In g groups -> In m g -> In m' ms -> grp m k -> (In m' g <-> grp m' k)).
  Proof.
    intros H. destruct (forall_grouped ms H) as [ks HF].
    destruct (groups_spec ms ks HF) as [keys [groups [E [FS FG]]]].
    exists groups. split; auto. split; [|split].
    - apply (partition ms keys); auto; [eapply first_seen_nodup; eauto| |
        clear - FG; induction FG as [|? ? ? ? [? ?] ? ?]; constructor; auto].
      intros m K. destruct (H m K) as [q A]. exists (group_of cq q2g q).
      assert (G : grp m (group_of cq q2g q)) by (exists q; split; auto; apply group_of_spec; auto).
      split; auto. apply (first_seen_in _ _ FS). clear - HF K G Hq Hnd.
      induction HF as [|y k' ms' ks' Hy F IHF]; [destruct K|].
      destruct K as [->|K]; [left; eapply grouped_unique; eauto|right; auto].
    - intros g K. clear - FG K. induction FG as [|k g' ks gs [N S] F IHF]; [destruct K|].
      destruct K as [->|K]; auto. split; auto. eapply selects_sub; eauto.
    - intros g m m' k K A B C. clear - FG K A B C Hq Hnd. induction FG as [|k0 g' ks gs [N S] F IHF]; [destruct K|].
      destruct K as [->|K]; auto. assert (P := selects_in _ _ _ S).
      assert (k0 = k) as -> by (eapply grouped_unique; [apply (P m), A|exact C]). rewrite P. tauto.
  Qed.

  Theorem groups_ub ms m : In m ms -> m_ref m = None -> m_hyp m = None ->
    group_matches cq rq hq ms q2g = UB.
  Proof.
    intros K A B. apply in_split in K. destruct K as [a [b ->]].
    unfold group_matches. rewrite ofold_app. cbn [ofold].
    assert (X : forall l st, (exists st', ofold (group_step cq rq hq q2g) l st = Ok st') \/
                             ofold (group_step cq rq hq q2g) l st = UB).
    { clear. induction l as [|x l IH]; intros st; simpl; [left; eauto|].
      unfold group_step at 1. unfold group_step at 2. destruct st as [g2p groups].
      destruct (match_query_spec x) as [[q [_ ->]]|[_ ->]]; simpl; auto. }
    destruct (X a ([], [])) as [[[g2p groups] ->]| ->]; cbn [obind]; auto.
    unfold group_step at 1. destruct (match_query_spec m) as [[q [K _]]|[_ ->]]; [|reflexivity].
    unfold has_query in K. rewrite A, B in K. destruct K.
  Qed.
End Group.
