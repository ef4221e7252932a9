(** Proofs about std::set, the maps and the event sets. *)
From Coq Require Import List ZArith Bool Lia Permutation Sorted.
From Verif.Model Require Import Cpp Floats Box Events EventSets.
From Verif.Spec Require Import Order Sets.
From Verif.Proofs Require Import Geometry Order.
Import ListNotations.

(** ** std::set *)

Section StdSet.
  Context {A : Type} (lt : A -> A -> bool).
  Hypothesis lt_irrefl : forall x, lt x x = false.
  Hypothesis lt_trans : forall x y z, lt x y = true -> lt y z = true -> lt x z = true.
  Hypothesis lt_total : forall x y, lt x y = true \/ x = y \/ lt y x = true.

  Definition ssorted (l : list A) : Prop := StronglySorted (fun x y => lt x y = true) l.

  Lemma lt_asym x y : lt x y = true -> lt y x = false.
  Proof.
    intros H. apply not_true_iff_false. intros H'. assert (K := lt_trans _ _ _ H H').
    rewrite lt_irrefl in K. discriminate.
  Qed.

  Lemma lt_eq x y : lt x y = false -> lt y x = false -> x = y.
  Proof. intros H1 H2. destruct (lt_total x y) as [H|[H|H]]; congruence. Qed.

  Lemma ssorted_nodup l : ssorted l -> NoDup l.
  Proof.
    induction 1 as [|x l Hl IH Hx]; constructor; auto.
    intros Hi. rewrite Forall_forall in Hx. apply Hx in Hi. rewrite lt_irrefl in Hi. discriminate.
  Qed.

  Lemma ssorted_lt_notin x l : ssorted l -> Forall (fun y => lt x y = true) l -> ~ In x l.
  Proof.
    intros _ H Hi. rewrite Forall_forall in H. apply H in Hi. rewrite lt_irrefl in Hi. discriminate.
  Qed.

  Lemma in_set_insert x l y :
    In y (fst (set_insert lt x l)) <-> y = x \/ In y l.
  Proof.
    induction l as [|z l IH]; simpl; [intuition|].
    destruct (lt z x) eqn:E1.
    - destruct (set_insert lt x l) as [l' b]. simpl in *. rewrite IH. intuition.
    - destruct (lt x z) eqn:E2; simpl; [intuition|].
      rewrite (lt_eq _ _ E1 E2). intuition.
  Qed.

  Lemma ssorted_insert x l : ssorted l -> ssorted (fst (set_insert lt x l)).
  Proof.
    induction 1 as [|z l Hl IH Hz]; simpl; [repeat constructor|].
    destruct (lt z x) eqn:E1.
    - assert (Hi := in_set_insert x l).
      destruct (set_insert lt x l) as [l' b]. simpl in *. constructor; auto.
      rewrite Forall_forall in *. intros y Hy. apply Hi in Hy. destruct Hy as [->|Hy]; auto.
    - destruct (lt x z) eqn:E2; simpl; [|constructor; auto].
      constructor; [constructor; auto|]. constructor; auto.
      rewrite Forall_forall in *. intros y Hy. eapply lt_trans; eauto.
  Qed.

  Lemma set_insert_new x l : ssorted l -> (snd (set_insert lt x l) = true <-> ~ In x l).
  Proof.
    induction 1 as [|z l Hl IH Hz]; simpl; [intuition|].
    destruct (lt z x) eqn:E1.
    - destruct (set_insert lt x l) as [l' b]. simpl in *. rewrite IH.
      split; [|tauto]. intros H [->|K]; [rewrite lt_irrefl in E1; discriminate|tauto].
    - destruct (lt x z) eqn:E2; simpl.
      + split; auto. intros _ [->|K]; [rewrite lt_irrefl in E2; discriminate|].
        rewrite Forall_forall in Hz. apply Hz in K. assert (lt x x = true) by eauto.
        rewrite lt_irrefl in *. discriminate.
      + rewrite (lt_eq _ _ E1 E2). split; [discriminate|tauto].
  Qed.

  Lemma set_find_spec x l : ssorted l ->
    (In x l /\ set_find lt x l = Some x) \/ (~ In x l /\ set_find lt x l = None).
  Proof.
    induction 1 as [|z l Hl IH Hz]; simpl; [auto|].
    destruct (lt z x) eqn:E1.
    - destruct IH as [[H1 H2]|[H1 H2]]; [auto|]. right. split; auto.
      intros [->|K]; [rewrite lt_irrefl in E1; discriminate|tauto].
    - destruct (lt x z) eqn:E2.
      + right. split; auto. intros [->|K]; [rewrite lt_irrefl in E2; discriminate|].
        rewrite Forall_forall in Hz. apply Hz in K. assert (lt x x = true) by eauto.
        rewrite lt_irrefl in *. discriminate.
      + rewrite (lt_eq _ _ E1 E2). auto.
  Qed.

  Lemma in_set_erase x l y : ssorted l ->
    (In y (fst (set_erase lt x l)) <-> y <> x /\ In y l).
  Proof.
    induction 1 as [|z l Hl IH Hz]; simpl; [intuition|].
    destruct (lt z x) eqn:E1.
    - destruct (set_erase lt x l) as [l' n]. simpl in *. rewrite IH.
      split; [|tauto]. intros [->|K]; [|tauto]. split; auto. intros ->.
      rewrite lt_irrefl in E1. discriminate.
    - destruct (lt x z) eqn:E2; simpl.
      + split; [|tauto]. intros H. split; auto. intros ->.
        destruct H as [->|K]; [rewrite lt_irrefl in E2; discriminate|].
        rewrite Forall_forall in Hz. apply Hz in K. assert (lt x x = true) by eauto.
        rewrite lt_irrefl in *. discriminate.
      + rewrite (lt_eq _ _ E1 E2) in *. split.
        * intros H. split; auto. intros ->. revert H. apply ssorted_lt_notin; auto.
        * intros [H [K|K]]; auto. congruence.
  Qed.

  Lemma ssorted_erase x l : ssorted l -> ssorted (fst (set_erase lt x l)).
  Proof.
    intros Hs. assert (Hi := fun y => in_set_erase x l y Hs). revert Hi.
    induction Hs as [|z l Hl IH Hz]; simpl; intros Hi; [constructor|].
    destruct (lt z x) eqn:E1.
    - assert (Hi' := fun y => in_set_erase x l y Hl). specialize (IH Hi').
      destruct (set_erase lt x l) as [l' n]. simpl in *. constructor; auto.
      rewrite Forall_forall in *. intros y Hy. apply Hi' in Hy. apply Hz. tauto.
    - destruct (lt x z); simpl; auto. constructor; auto.
  Qed.

  Lemma set_erase_count x l : ssorted l ->
    snd (set_erase lt x l) = (if set_find lt x l then 1 else 0).
  Proof.
    induction 1 as [|z l Hl IH Hz]; simpl; auto.
    destruct (lt z x) eqn:E1.
    - destruct (set_erase lt x l) as [l' n]. exact IH.
    - destruct (lt x z); reflexivity.
  Qed.

  Lemma set_of_range_ind l acc : ssorted acc ->
    ssorted (fold_left (fun s x => fst (set_insert lt x s)) l acc) /\
    forall y, In y (fold_left (fun s x => fst (set_insert lt x s)) l acc) <-> In y l \/ In y acc.
  Proof.
    revert acc. induction l as [|x l IH]; intros acc Ha; simpl; [split; auto; intuition|].
    destruct (IH (fst (set_insert lt x acc)) (ssorted_insert x acc Ha)) as [H1 H2].
    split; auto. intros y. rewrite H2, in_set_insert. intuition.
  Qed.

  Lemma set_of_range_sorted l : ssorted (set_of_range lt l).
  Proof. apply set_of_range_ind. constructor. Qed.

  Lemma in_set_of_range l y : In y (set_of_range lt l) <-> In y l.
  Proof.
    unfold set_of_range. rewrite (proj2 (set_of_range_ind l [] ltac:(constructor))). simpl. tauto.
  Qed.

  (** A sorted list is determined by its elements. *)
  Lemma ssorted_unique l l' : ssorted l -> ssorted l' -> (forall x, In x l <-> In x l') -> l = l'.
  Proof.
    intros H. revert l'. induction H as [|x l Hl IH Hx]; intros l' H' Hi.
    - destruct l' as [|y l']; auto. exfalso. apply (Hi y). simpl; auto.
    - destruct H' as [|y l' Hl' Hy]; [exfalso; apply (Hi x); simpl; auto|].
      rewrite Forall_forall in *.
      assert (x = y) as <-.
      { destruct (proj1 (Hi x) (or_introl eq_refl)) as [E|E]; auto.
        destruct (proj2 (Hi y) (or_introl eq_refl)) as [F|F]; auto.
        assert (K : lt x x = true) by eauto. rewrite lt_irrefl in K. discriminate. }
      f_equal. apply IH; auto. intros z. split; intros Hz.
      + destruct (proj1 (Hi z) (or_intror Hz)) as [<-|K]; auto.
        apply Hx in Hz. rewrite lt_irrefl in Hz. discriminate.
      + destruct (proj2 (Hi z) (or_intror Hz)) as [<-|K]; auto.
        apply Hy in Hz. rewrite lt_irrefl in Hz. discriminate.
  Qed.
End StdSet.

(** ** Maps *)

Section Maps.
  Context {K V : Type} (keq : K -> K -> bool).
  Hypothesis keq_spec : forall x y, keq x y = true <-> x = y.

  Lemma keq_refl x : keq x x = true.
  Proof. apply keq_spec. reflexivity. Qed.

  Lemma keq_neq x y : x <> y -> keq x y = false.
  Proof. intros H. apply not_true_iff_false. rewrite keq_spec. exact H. Qed.

  Lemma map_find_set k k' (v : V) m :
    map_find keq k (map_set keq k' v m) =
    if keq k' k then Some v else map_find keq k m.
  Proof.
    induction m as [|[a b] m IH]; simpl; auto.
    destruct (keq a k') eqn:E1; simpl.
    - apply keq_spec in E1. subst. destruct (keq k' k); reflexivity.
    - destruct (keq a k) eqn:E2; [|exact IH].
      apply keq_spec in E2. subst. rewrite keq_neq; auto.
      intros ->. rewrite keq_refl in E1. discriminate.
  Qed.

  Lemma map_find_app k (m m' : list (K * V)) :
    map_find keq k (m ++ m') =
    match map_find keq k m with Some v => Some v | None => map_find keq k m' end.
  Proof.
    induction m as [|[a b] m IH]; simpl; auto. destruct (keq a k); auto.
  Qed.

  Lemma map_find_emplace k k' (v : V) m :
    map_find keq k (map_emplace keq k' v m) =
    match map_find keq k m with
    | Some w => Some w
    | None => if keq k' k then Some v else None
    end.
  Proof.
    unfold map_emplace. destruct (map_find keq k' m) eqn:E.
    - destruct (keq k' k) eqn:E'.
      + apply keq_spec in E'. subst. rewrite E. reflexivity.
      + destruct (map_find keq k m); reflexivity.
    - rewrite map_find_app. simpl. destruct (map_find keq k m); auto.
  Qed.

  Lemma map_find_in k (v : V) m : map_find keq k m = Some v -> In (k, v) m.
  Proof.
    induction m as [|[a b] m IH]; simpl; [discriminate|].
    destruct (keq a k) eqn:E; auto. intros [= ->]. apply keq_spec in E. subst. auto.
  Qed.

  Lemma map_find_none k (m : list (K * V)) : map_find keq k m = None <-> ~ In k (map fst m).
  Proof.
    induction m as [|[a b] m IH]; simpl; [intuition|].
    destruct (keq a k) eqn:E.
    - apply keq_spec in E. intuition discriminate.
    - rewrite IH. split; [|tauto]. intros H [->|K']; [rewrite keq_refl in E; discriminate|tauto].
  Qed.

  Lemma map_find_nodup k (v : V) m :
    NoDup (map fst m) -> In (k, v) m -> map_find keq k m = Some v.
  Proof.
    induction m as [|[a b] m IH]; simpl; [contradiction|].
    intros Hn [H|H]; inversion Hn; subst.
    - injection H as -> ->. rewrite keq_refl. reflexivity.
    - rewrite keq_neq; auto. intros ->. apply H2. apply in_map_iff. exists (k, v). auto.
  Qed.
End Maps.

(** ** The generic set *)

Section GSet.
  Context {E : Type} (ce : Cmp E).
  Hypothesis H : total_order ce.

  Notation ss := (ssorted (c_lt ce)).

  Lemma gset_run_spec h : ss (gset_run ce h) /\ forall e, In e (gset_run ce h) <-> holds (rev h) e.
  Proof.
    induction h as [|op h IH] using rev_ind.
    - split; [constructor|]. simpl. tauto.
    - destruct IH as [IH1 IH2]. unfold gset_run in *. rewrite fold_left_app, rev_app_distr. simpl.
      set (s := fold_left (gset_op ce) h gset_empty) in *.
      destruct op as [x|x|]; simpl.
      + split.
        * apply ssorted_insert; auto; apply H.
        * intros e. unfold gset_insert. rewrite in_set_insert by apply H. rewrite IH2. intuition.
      + split.
        * apply ssorted_erase; auto; apply H.
        * intros e. unfold gset_remove. rewrite in_set_erase by (auto; apply H).
          rewrite IH2. intuition.
      + split; [constructor|]. simpl. tauto.
  Qed.

  Lemma gset_size_spec h : has_size (holds (rev h)) (gset_size (gset_run ce h)).
  Proof.
    destruct (gset_run_spec h) as [H1 H2]. exists (gset_run ce h). split; [|split]; auto.
    eapply ssorted_nodup; [apply H|exact H1].
  Qed.

  Lemma gset_find_spec h e :
    (holds (rev h) e /\ gset_find_overlapping ce e (gset_run ce h) = [e]) \/
    (~ holds (rev h) e /\ gset_find_overlapping ce e (gset_run ce h) = []).
  Proof.
    destruct (gset_run_spec h) as [H1 H2]. unfold gset_find_overlapping.
    destruct (set_find_spec (c_lt ce) (to_irrefl _ H) (to_trans _ H) (to_total _ H) e _ H1)
      as [[K1 ->]|[K1 ->]]; rewrite H2 in K1; auto.
  Qed.
End GSet.

(** ** The set of document boxes *)

Section DSet.
  Context {Q : Type} (cq : Cmp Q).
  Hypothesis Hq : total_order cq.

  Notation lt := (c_lt (cmp_devent cq)).
  Notation key e := (ev_query e, db_doc (ev_loc e)).

  Lemma Hev : total_order (cmp_devent cq).
  Proof. apply total_order_event; [exact Hq|apply total_order_docbox]. Qed.

  Definition inner (s : dset Q) (q : Q) (d : bytes) : list (devent Q) :=
    match dset_inner cq q d (ds_map s) with Some l => l | None => [] end.

  Definition mem (s : dset Q) (e : devent Q) : Prop :=
    In e (inner s (ev_query e) (db_doc (ev_loc e))).

  Definition wf (s : dset Q) : Prop :=
    forall q d, ssorted lt (inner s q d) /\
                forall e, In e (inner s q d) -> ev_query e = q /\ db_doc (ev_loc e) = d.

  (** The counter is the number of members, modulo 2^64. *)
  Definition counted (s : dset Q) : Prop :=
    exists l, NoDup l /\ (forall e, In e l <-> mem s e) /\
              ds_size s = Some (Z.of_nat (length l) mod two64)%Z.

  Lemma inner_put m q d l' q' d' sz :
    inner (DSet m sz) q' d' = inner (DSet m sz) q' d' ->
    inner (DSet (map_set (c_eq cq) q
             (map_set str_eq d l'
                match map_find (c_eq cq) q m with Some p => p | None => [] end) m) sz) q' d'
    = if c_eq cq q q' && str_eq d d' then l' else inner (DSet m sz) q' d'.
  Proof.
    intros _. unfold inner, dset_inner. simpl ds_map.
    rewrite (map_find_set (c_eq cq) (to_eq _ Hq)).
    destruct (c_eq cq q q') eqn:E; simpl; auto.
    apply (to_eq _ Hq) in E. subst q'.
    rewrite (map_find_set str_eq str_eq_spec). destruct (str_eq d d') eqn:E'; auto.
    destruct (map_find (c_eq cq) q m); auto.
  Qed.

  (** Insertion, with the empty containers [emplace] makes. *)
  Lemma inner_insert m q d l' q' d' sz :
    let m1 := map_emplace (c_eq cq) q [] m in
    let p := match map_find (c_eq cq) q m1 with Some p => p | None => [] end in
    let p1 := map_emplace str_eq d [] p in
    inner (DSet (map_set (c_eq cq) q (map_set str_eq d l' p1) m1) sz) q' d'
    = if c_eq cq q q' && str_eq d d' then l' else inner (DSet m sz) q' d'.
  Proof.
    intros m1 p p1. unfold inner, dset_inner. simpl ds_map.
    rewrite (map_find_set (c_eq cq) (to_eq _ Hq)).
    assert (Hm1 : forall k, map_find (c_eq cq) k m1 =
        match map_find (c_eq cq) k m with
        | Some w => Some w
        | None => if c_eq cq q k then Some [] else None
        end).
    { intros k. apply (map_find_emplace (c_eq cq) (to_eq _ Hq)). }
    destruct (c_eq cq q q') eqn:E; simpl.
    - apply (to_eq _ Hq) in E. subst q'.
      rewrite (map_find_set str_eq str_eq_spec). destruct (str_eq d d') eqn:E'; auto.
      unfold p1. rewrite (map_find_emplace str_eq str_eq_spec), E'.
      unfold p. rewrite Hm1, (to_eq_refl _ Hq).
      destruct (map_find (c_eq cq) q m) as [p0|]; simpl; auto.
      destruct (map_find str_eq d' p0); auto.
    - rewrite Hm1, E. destruct (map_find (c_eq cq) q' m); auto.
  Qed.

  Lemma inner_insert_l m q d sz :
    let m1 := map_emplace (c_eq cq) q [] m in
    let p := match map_find (c_eq cq) q m1 with Some p => p | None => [] end in
    let p1 := map_emplace str_eq d [] p in
    match map_find str_eq d p1 with Some l => l | None => [] end = inner (DSet m sz) q d.
  Proof.
    intros m1 p p1. unfold inner, dset_inner, p1, p, m1. simpl ds_map.
    rewrite (map_find_emplace str_eq str_eq_spec), (map_find_emplace (c_eq cq) (to_eq _ Hq)).
    rewrite (to_eq_refl _ Hq), str_eq_refl.
    destruct (map_find (c_eq cq) q m) as [p0|]; simpl; auto. destruct (map_find str_eq d p0); auto.
  Qed.

  Lemma key_eqb (e x : devent Q) :
    c_eq cq (ev_query e) (ev_query x) && str_eq (db_doc (ev_loc e)) (db_doc (ev_loc x)) = true
    <-> key e = key x.
  Proof.
    rewrite andb_true_iff, (to_eq _ Hq), str_eq_spec. split.
    - intros [-> ->]. reflexivity.
    - intros [= -> ->]. auto.
  Qed.

  (** Replacing the inner set of [e]'s key by [l']. *)
  Definition put_at (s s' : dset Q) (e : devent Q) (l' : list (devent Q)) : Prop :=
    forall q d, inner s' q d =
      if c_eq cq (ev_query e) q && str_eq (db_doc (ev_loc e)) d then l' else inner s q d.

  Lemma put_wf s s' e l' :
    wf s -> put_at s s' e l' -> ssorted lt l' ->
    (forall x, In x l' -> key x = key e) -> wf s'.
  Proof.
    intros Hw Hp Hs Hk q d. specialize (Hp q d).
    destruct (c_eq cq (ev_query e) q && str_eq (db_doc (ev_loc e)) d) eqn:E;
      rewrite Hp; [|apply Hw].
    split; auto. intros x Hx. apply andb_true_iff in E. destruct E as [E1 E2].
    apply (to_eq _ Hq) in E1. apply str_eq_spec in E2. apply Hk in Hx. injection Hx as -> ->. auto.
  Qed.

  Lemma put_mem s s' e l' x :
    put_at s s' e l' -> (mem s' x <-> if c_eq cq (ev_query e) (ev_query x)
      && str_eq (db_doc (ev_loc e)) (db_doc (ev_loc x)) then In x l' else mem s x).
  Proof. intros Hp. unfold mem at 1. rewrite Hp. destruct (_ && _); reflexivity. Qed.

  Lemma has_key s e x : wf s -> In x (inner s (ev_query e) (db_doc (ev_loc e))) -> key x = key e.
  Proof. intros Hw Hx. apply Hw in Hx. destruct Hx as [-> ->]. reflexivity. Qed.

  Lemma mod_succ n : ((n mod two64 + 1) mod two64 = (n + 1) mod two64)%Z.
  Proof. apply Zplus_mod_idemp_l. Qed.

  Lemma dset_insert_spec s e : wf s -> counted s ->
    exists s', dset_insert cq e s = Ok s' /\ wf s' /\ counted s' /\
      forall x, mem s' x <-> e = x \/ mem s x.
  Proof.
    intros Hw [l [Hl1 [Hl2 Hl3]]]. unfold dset_insert.
    set (q := ev_query e). set (d := db_doc (ev_loc e)).
    rewrite (inner_insert_l (ds_map s) q d (ds_size s)).
    replace (DSet (ds_map s) (ds_size s)) with s by (destruct s; reflexivity).
    assert (Hin := in_set_insert lt (to_total _ Hev) e (inner s q d)).
    assert (Hss := ssorted_insert lt (to_trans _ Hev) (to_total _ Hev) e
                     (inner s q d) (proj1 (Hw q d))).
    assert (Hnew := set_insert_new lt (to_irrefl _ Hev) (to_trans _ Hev) (to_total _ Hev) e
                     (inner s q d) (proj1 (Hw q d))).
    destruct (set_insert lt e (inner s q d)) as [l' ins] eqn:Ei. cbn [fst snd] in Hin, Hss, Hnew.
    assert (Hk : forall x, In x l' -> key x = key e).
    { intros x Hx. apply Hin in Hx. destruct Hx as [->|Hx]; auto. eapply has_key; eauto. }
    assert (G : forall sz, let s' := DSet (map_set (c_eq cq) q
          (map_set str_eq d l' (map_emplace str_eq d []
             match map_find (c_eq cq) q (map_emplace (c_eq cq) q [] (ds_map s)) with
             | Some p => p | None => [] end)) (map_emplace (c_eq cq) q [] (ds_map s))) sz in
        put_at s s' e l').
    { intros sz s' q' d'. unfold s'. rewrite inner_insert.
      destruct (_ && _); [reflexivity|]. unfold inner, dset_inner. reflexivity. }
    assert (Gm : forall s', put_at s s' e l' -> forall x, mem s' x <-> e = x \/ mem s x).
    { intros s' Hp x. rewrite (put_mem s s' e l' x Hp).
      destruct (_ && _) eqn:E.
      - rewrite Hin. apply key_eqb in E. unfold mem. injection E as E1 E2.
        rewrite <- E1, <- E2. fold q d. intuition.
      - split; auto. intros [->|K]; auto. rewrite (proj2 (key_eqb x x) eq_refl) in E. discriminate. }
    destruct ins.
    - rewrite Hl3. simpl. eexists. split; [reflexivity|].
      split; [|split].
      + eapply put_wf; eauto.
      + exists (e :: l). split; [|split].
        * constructor; auto. rewrite Hl2. unfold mem. apply Hnew. reflexivity.
        * intros x. simpl. rewrite Hl2. rewrite (Gm _ (G _)). reflexivity.
        * simpl ds_size. f_equal. rewrite mod_succ. f_equal. simpl length. lia.
      + apply Gm, G.
    - eexists. split; [reflexivity|]. split; [|split].
      + eapply put_wf; eauto.
      + exists l. split; [|split]; auto. intros x. rewrite (Gm _ (G _)), Hl2.
        split; auto. intros [<-|K]; auto. unfold mem. fold q d.
        destruct (In_dec (to_eq_dec _ Hev) e (inner s q d)) as [K|K]; auto.
        apply Hnew in K. discriminate.
      + apply Gm, G.
  Qed.

  Lemma nodup_remove (l : list (devent Q)) e : NoDup l -> In e l ->
    exists l', NoDup l' /\ length l = S (length l') /\ forall x, In x l' <-> x <> e /\ In x l.
  Proof.
    intros Hn Hi. apply in_split in Hi. destruct Hi as [l1 [l2 ->]].
    exists (l1 ++ l2). apply NoDup_remove in Hn. destruct Hn as [Hn1 Hn2]. split; [|split]; auto.
    - rewrite !app_length. simpl. lia.
    - intros x. rewrite !in_app_iff in *. simpl. split.
      + intros H. split; [intros ->; tauto|tauto].
      + intros [H1 [H2|[H2|H2]]]; auto. congruence.
  Qed.

  Lemma dset_remove_spec s e : wf s -> counted s ->
    exists s', dset_remove cq e s = Ok s' /\ wf s' /\ counted s' /\
      forall x, mem s' x <-> e <> x /\ mem s x.
  Proof.
    intros Hw Hc. destruct Hc as [l [Hl1 [Hl2 Hl3]]]. unfold dset_remove.
    assert (Hno : inner s (ev_query e) (db_doc (ev_loc e)) = [] ->
              exists s', Ok s = Ok s' /\ wf s' /\ counted s' /\
                forall x, mem s' x <-> e <> x /\ mem s x).
    { intros Hi. exists s. split; [|split; [|split]]; auto.
      - exists l. auto.
      - intros x. split; [|tauto]. intros Hx. split; auto. intros <-. unfold mem in Hx.
        rewrite Hi in Hx. destruct Hx. }
    destruct (map_find (c_eq cq) (ev_query e) (ds_map s)) as [p|] eqn:Ep;
      [|apply Hno; unfold inner, dset_inner; rewrite Ep; reflexivity].
    destruct (map_find str_eq (db_doc (ev_loc e)) p) as [k|] eqn:Ek;
      [|apply Hno; unfold inner, dset_inner; rewrite Ep, Ek; reflexivity].
    clear Hno.
    assert (Ein : inner s (ev_query e) (db_doc (ev_loc e)) = k)
      by (unfold inner, dset_inner; rewrite Ep, Ek; reflexivity).
    assert (Hk := Hw (ev_query e) (db_doc (ev_loc e))). rewrite Ein in Hk. destruct Hk as [Hk1 Hk2].
    assert (Hin := fun y => in_set_erase lt (to_irrefl _ Hev) (to_trans _ Hev) (to_total _ Hev) e
                     k y Hk1).
    assert (Hss := ssorted_erase lt (to_irrefl _ Hev) (to_trans _ Hev) (to_total _ Hev) e k Hk1).
    assert (Hn := set_erase_count lt e k Hk1).
    destruct (set_erase lt e k) as [k' n] eqn:Ee. cbn [fst snd] in Hin, Hss, Hn.
    assert (Hp : forall sz, put_at s (DSet (map_set (c_eq cq) (ev_query e)
                   (map_set str_eq (db_doc (ev_loc e)) k' p) (ds_map s)) sz) e k').
    { intros sz q' d'.
      assert (K := inner_put (ds_map s) (ev_query e) (db_doc (ev_loc e)) k' q' d' sz eq_refl).
      rewrite Ep in K. rewrite K. destruct (_ && _); [reflexivity|].
      unfold inner, dset_inner. reflexivity. }
    assert (Gm : forall s', put_at s s' e k' -> forall x, mem s' x <-> e <> x /\ mem s x).
    { intros s' Hp' x. rewrite (put_mem s s' e k' x Hp').
      destruct (_ && _) eqn:E.
      - rewrite Hin. apply key_eqb in E. unfold mem. injection E as E1 E2.
        rewrite <- E1, <- E2, Ein. intuition.
      - split; [|tauto]. intros K. split; auto. intros <-.
        rewrite (proj2 (key_eqb e e) eq_refl) in E. discriminate. }
    rewrite Hl3. simpl. eexists. split; [reflexivity|]. split; [|split].
    - eapply put_wf; [exact Hw|apply Hp|exact Hss|].
      intros x Hx. apply Hin in Hx. destruct Hx as [_ Hx]. apply Hk2 in Hx.
      destruct Hx as [-> ->]. reflexivity.
    - unfold counted. simpl ds_size.
      destruct (set_find_spec lt (to_irrefl _ Hev) (to_trans _ Hev) (to_total _ Hev) e k Hk1)
        as [[K1 K2]|[K1 K2]]; rewrite K2 in Hn; subst n.
      + assert (Hi : In e l) by (apply Hl2; unfold mem; rewrite Ein; auto).
        destruct (nodup_remove l e Hl1 Hi) as [l' [N1 [N2 N3]]].
        exists l'. split; [|split]; auto.
        * intros x. rewrite N3, Hl2, (Gm _ (Hp _)). intuition.
        * f_equal. rewrite Zminus_mod_idemp_l, N2. f_equal. lia.
      + exists l. split; [|split]; auto.
        * intros x. rewrite Hl2, (Gm _ (Hp _)). split; [|tauto]. intros K. split; auto.
          intros <-. unfold mem in K. rewrite Ein in K. contradiction.
        * f_equal. rewrite Zminus_mod_idemp_l. f_equal. lia.
    - apply Gm, Hp.
  Qed.

  Lemma wf_empty sz : wf (DSet [] sz).
  Proof. intros q d. split; [constructor|]. intros e []. Qed.

  Lemma counted_empty : counted (DSet [] (Some 0%Z)).
  Proof. exists []. split; [constructor|]. split; [intros e; simpl; unfold mem; simpl; tauto|reflexivity]. Qed.

  Lemma ofold_app {X S} (f : S -> X -> outcome S) l1 l2 s :
    ofold f (l1 ++ l2) s = obind (ofold f l1 s) (ofold f l2).
  Proof.
    revert s. induction l1 as [|x l1 IH]; intros s; simpl; auto.
    destruct (f s x); simpl; auto.
  Qed.

  Lemma dset_run_spec h :
    exists s, dset_run cq h = Ok s /\ wf s /\ counted s /\ forall e, mem s e <-> holds (rev h) e.
  Proof.
    induction h as [|op h IH] using rev_ind.
    - exists dset_empty. split; [reflexivity|]. split; [apply wf_empty|]. split; [apply counted_empty|].
      unfold mem. simpl. tauto.
    - destruct IH as [s [H1 [H2 [H3 H4]]]]. unfold dset_run in *.
      rewrite ofold_app, H1, rev_app_distr. simpl obind. unfold ofold. simpl rev. simpl app.
      destruct op as [x|x|]; simpl.
      + destruct (dset_insert_spec s x H2 H3) as [s' [K1 [K2 [K3 K4]]]]. exists s'.
        rewrite K1. split; [reflexivity|]. split; [|split]; auto. intros e. rewrite K4, H4. tauto.
      + destruct (dset_remove_spec s x H2 H3) as [s' [K1 [K2 [K3 K4]]]]. exists s'.
        rewrite K1. split; [reflexivity|]. split; [|split]; auto. intros e. rewrite K4, H4. tauto.
      + exists (dset_clear s). split; [reflexivity|]. split; [apply wf_empty|].
        split; [apply counted_empty|]. unfold mem. simpl. tauto.
  Qed.

  (** ** FindOverlapping *)

  Lemma in_dset_overlaps (e : devent Q) l n x :
    In (n, x) (dset_overlaps e l) <-> In x l /\ n = overlap e x /\ (0 < n)%Z.
  Proof.
    unfold overlap. induction l as [|y l IH]; simpl; [tauto|].
    destruct (Z.ltb_spec 0 (docbox_inter (ev_loc y) (ev_loc e))); simpl; rewrite IH.
    - split.
      + intros [[= <- <-]|K]; [auto|tauto].
      + intros [[->|K1] [K2 K3]]; [left; subst; reflexivity|auto].
    - split; [tauto|]. intros [[->|K1] [K2 K3]]; [lia|auto].
  Qed.

  Lemma dset_overlaps_nodup (e : devent Q) l : NoDup l -> NoDup (map snd (dset_overlaps e l)).
  Proof.
    induction 1 as [|y l Hy Hl IH]; simpl; [constructor|].
    destruct (Z.ltb_spec 0 (docbox_inter (ev_loc y) (ev_loc e))); simpl; auto.
    constructor; auto. intros Hi. apply in_map_iff in Hi. destruct Hi as [[n x] [<- Hx]].
    apply in_dset_overlaps in Hx. simpl in Hy. tauto.
  Qed.

  Definition cmp_overlap : Cmp (Z * devent Q) :=
    mkCmp (fun x y => Z.eqb (fst x) (fst y) && c_eq (cmp_devent cq) (snd x) (snd y))
          (fun x y => negb (Z.eqb (fst x) (fst y)) || negb (c_eq (cmp_devent cq) (snd x) (snd y)))
          (pair_lt Z.ltb lt).

  Lemma total_order_overlap : total_order cmp_overlap.
  Proof.
    assert (Hlex : forall x y, pair_lt Z.ltb lt x y
                   = lex_lt cmp_Z (cmp_devent cq) fst snd x y).
    { intros [n x] [m y]. unfold pair_lt, lex_lt. simpl.
      destruct (Z.eqb_spec n m); simpl.
      - subst. rewrite Z.ltb_irrefl. simpl. reflexivity.
      - destruct (Z.ltb_spec n m); simpl; auto. destruct (Z.ltb_spec m n); simpl; auto. lia. }
    assert (T : total_order (mkCmp (c_eq cmp_overlap) (c_ne cmp_overlap)
                   (lex_lt cmp_Z (cmp_devent cq) fst snd))).
    { apply (total_order_lex cmp_Z (cmp_devent cq) fst snd total_order_Z Hev).
      - intros [n x] [m y]; simpl; congruence.
      - intros [n x] [m y]; simpl. rewrite andb_true_iff, Z.eqb_eq.
        change (event_eq cq cmp_docbox x y) with (c_eq (cmp_devent cq) x y).
        rewrite (to_eq _ Hev). reflexivity.
      - intros [n x] [m y]; simpl. rewrite orb_true_iff, !negb_true_iff, Z.eqb_neq.
        change (event_eq cq cmp_docbox x y) with (c_eq (cmp_devent cq) x y).
        rewrite <- not_true_iff_false, (to_eq _ Hev). reflexivity. }
    destruct T as [T1 T2 T3 T4 T5]. split; simpl in *.
    - exact T1.
    - exact T2.
    - intros x. rewrite Hlex. apply T3.
    - intros x y z. rewrite !Hlex. apply T4.
    - intros x y. rewrite !Hlex. apply T5.
  Qed.

  Lemma sorted_map_snd e l :
    (forall n x, In (n, x) l -> n = overlap e x) -> NoDup (map snd l) ->
    sorted_by (overlap_gt cq) l ->
    StronglySorted (overlap_order cq e) (map snd l).
  Proof.
    intros Hn Hd Hs. unfold sorted_by in Hs.
    induction Hs as [|[n x] l Hl IH Hx]; simpl; constructor.
    - apply IH; [intros; apply Hn; simpl; auto|]. inversion Hd; auto.
    - rewrite Forall_forall in *. intros y Hy. apply in_map_iff in Hy.
      destruct Hy as [[m y'] [Hy1 Hy2]]. simpl in Hy1. subst y'.
      assert (Kx := Hn n x (or_introl eq_refl)). assert (Ky := Hn m y (or_intror Hy2)).
      specialize (Hx _ Hy2). unfold overlap_gt, flip_lt in Hx.
      assert (Hne : (n, x) <> (m, y)).
      { intros [= -> ->]. inversion Hd; subst. apply H1. apply in_map_iff.
        exists (overlap e y, y). auto. }
      destruct (to_total _ total_order_overlap (n, x) (m, y)) as [K|[K|K]];
        [change (pair_lt Z.ltb lt (n, x) (m, y) = true) in K; rewrite K in Hx; discriminate Hx|contradiction|].
      simpl in K. unfold pair_lt in K. simpl in K.
      apply orb_true_iff in K. rewrite andb_true_iff, negb_true_iff, !Z.ltb_lt, Z.ltb_ge in K.
      unfold overlap_order. rewrite <- Kx, <- Ky.
      destruct K as [K|[K1 K2]]; [left; lia|].
      destruct (Z.eq_dec n m); [right; auto|left; lia].
  Qed.

  Lemma dset_find_spec srt s e : sort_contract srt -> wf s ->
    exists r, dset_find_overlapping cq srt e s = Ok r /\ NoDup r /\
      (forall x, In x r <-> mem s x /\ ev_query x = ev_query e /\
                            db_doc (ev_loc x) = db_doc (ev_loc e) /\ (0 < overlap e x)%Z) /\
      StronglySorted (overlap_order cq e) r.
  Proof.
    intros Hsrt Hw. unfold dset_find_overlapping.
    set (aux := match dset_inner cq (ev_query e) (db_doc (ev_loc e)) (ds_map s) with
                | Some l => dset_overlaps e l | None => [] end).
    assert (Haux : aux = dset_overlaps e (inner s (ev_query e) (db_doc (ev_loc e)))).
    { unfold aux, inner. destruct (dset_inner _ _ _ _); reflexivity. }
    destruct (Hw (ev_query e) (db_doc (ev_loc e))) as [W1 W2].
    assert (Hswo : swo_on (overlap_gt cq) aux).
    { unfold overlap_gt. apply (swo_flip (pair_lt Z.ltb lt)).
      apply (total_order_swo cmp_overlap total_order_overlap). }
    rewrite (std_sort_ok srt _ _ Hswo). simpl obind.
    destruct (Hsrt _ _ _ Hswo) as [P S].
    set (r := srt _ (overlap_gt cq) aux) in *.
    assert (Hnd : NoDup (map snd r)).
    { eapply Permutation_NoDup; [apply Permutation_map; exact P|].
      rewrite Haux. apply dset_overlaps_nodup. eapply ssorted_nodup; [apply Hev|exact W1]. }
    exists (map snd r). split; [reflexivity|]. split; [exact Hnd|]. split.
    - intros x. rewrite in_map_iff. split.
      + intros [[n x'] [Hx Hi]]. simpl in Hx. subst x'.
        apply (Permutation_in _ (Permutation_sym P)) in Hi. rewrite Haux in Hi.
        apply in_dset_overlaps in Hi. destruct Hi as [Hi [-> Hpos]].
        destruct (W2 x Hi) as [K1 K2]. unfold mem. rewrite K1, K2. auto.
      + intros [Hm [K1 [K2 K3]]]. exists (overlap e x, x). split; auto.
        apply (Permutation_in _ P). rewrite Haux. apply in_dset_overlaps.
        unfold mem in Hm. rewrite K1, K2 in Hm. auto.
    - apply sorted_map_snd; auto. intros n x Hi.
      apply (Permutation_in _ (Permutation_sym P)) in Hi. rewrite Haux in Hi.
      apply in_dset_overlaps in Hi. tauto.
  Qed.

  (** The order determines the list. *)
  Lemma overlap_order_unique e r r' :
    StronglySorted (overlap_order cq e) r -> StronglySorted (overlap_order cq e) r' ->
    (forall x, In x r <-> In x r') -> r = r'.
  Proof.
    intros H. revert r'. induction H as [|x l Hl IH Hx]; intros l' H' Hi.
    - destruct l' as [|y l']; auto. exfalso. apply (Hi y). simpl; auto.
    - destruct H' as [|y l' Hl' Hy]; [exfalso; apply (Hi x); simpl; auto|].
      rewrite Forall_forall in *.
      assert (Has : forall a b, overlap_order cq e a b -> overlap_order cq e b a -> False).
      { intros a b [K1|[K1 K2]] [K3|[K3 K4]]; try lia.
        assert (K := to_asym _ Hev _ _ K2). simpl in K. congruence. }
      assert (x = y) as <-.
      { destruct (proj1 (Hi x) (or_introl eq_refl)) as [E|E]; auto.
        destruct (proj2 (Hi y) (or_introl eq_refl)) as [F|F]; auto.
        exfalso. apply (Has x y); auto. }
      f_equal. apply IH; auto. intros z. split; intros Hz.
      + destruct (proj1 (Hi z) (or_intror Hz)) as [<-|K]; auto.
        apply Hx in Hz. exfalso; eauto.
      + destruct (proj2 (Hi z) (or_intror Hz)) as [<-|K]; auto.
        apply Hy in Hz. exfalso; eauto.
  Qed.

  Lemma dset_of_range_size l : obind (dset_of_range cq l) dset_size = UB.
  Proof.
    destruct l as [|e l]; [reflexivity|].
    unfold dset_of_range. simpl ofold.
    replace (dset_insert cq e (DSet [] None)) with (@UB (dset Q)); [reflexivity|].
    unfold dset_insert. simpl. rewrite (to_eq_refl _ Hq). simpl. rewrite str_eq_refl. reflexivity.
  Qed.
End DSet.

(** ** In terms of histories *)

Lemma holds_bound {E} (h : list (set_op E)) l :
  NoDup l -> (forall e, In e l -> holds h e) -> length l <= length h.
Proof.
  revert l. induction h as [|op h IH]; intros l Hn Hi; simpl.
  - destruct l as [|e l]; auto. destruct (Hi e (or_introl eq_refl)).
  - destruct op as [x|x|].
    + (* the elements other than x hold before *)
      assert (D : exists l', NoDup l' /\ length l <= S (length l') /\ forall e, In e l' -> holds h e).
      { clear IH. revert Hi. induction Hn as [|a l Ha Hn IHl]; intros Hi.
        - exists []. split; [constructor|]. split; [simpl; lia|]. intros e [].
        - destruct (Hi a (or_introl eq_refl)) as [<-|Hh].
          + exists l. split; auto. split; [simpl; lia|]. intros e He.
            destruct (Hi e (or_intror He)) as [<-|]; auto. contradiction.
          + assert (D : exists l', incl l' l /\ NoDup l' /\ length l <= S (length l')
                          /\ forall e, In e l' -> holds h e).
            { clear Ha IHl Hh. revert Hi. induction Hn as [|b l Hb Hn IHl]; intros Hi.
              - exists []. split; [intros ? []|]. split; [constructor|]. split; [simpl; lia|]. intros e [].
              - destruct (Hi b (or_intror (or_introl eq_refl))) as [<-|Hh].
                + exists l. split; [intros ? ?; simpl; auto|]. split; auto. split; [simpl; lia|].
                  intros e He. destruct (Hi e (or_intror (or_intror He))) as [<-|]; auto. contradiction.
                + destruct IHl as [l' [L0 [L1 [L2 L3]]]].
                  { intros e [->|He]; apply Hi; simpl; auto. }
                  exists (b :: l'). split; [intros e [->|He]; simpl; auto|].
                  split; [constructor; auto|]. split; [simpl; lia|]. intros e [->|He]; auto. }
            destruct D as [l' [L0 [L1 [L2 L3]]]]. exists (a :: l'). split; [constructor; auto|].
            split; [simpl; lia|]. intros e [->|He]; auto. }
      destruct D as [l' [L1 [L2 L3]]]. specialize (IH l' L1 L3). lia.
    + specialize (IH l Hn). assert (length l <= length h); [|lia]. apply IH.
      intros e He. apply Hi in He. apply He.
    + destruct l as [|e l]; [simpl; lia|]. destruct (Hi e (or_introl eq_refl)).
Qed.

Lemma dset_size_spec {Q} (cq : Cmp Q) : total_order cq ->
  forall h, (Z.of_nat (length h) < two64)%Z ->
  exists s n, dset_run cq h = Ok s /\ dset_size s = Ok (Z.of_nat n) /\ has_size (holds (rev h)) n.
Proof.
  intros Hq h Hh. destruct (dset_run_spec cq Hq h) as [s [H1 [H2 [[l [L1 [L2 L3]]] H4]]]].
  assert (Hl : forall e, In e l <-> holds (rev h) e) by (intros e; rewrite L2; apply H4).
  exists s, (length l). split; auto. split; [|exists l; auto].
  unfold dset_size. rewrite L3. f_equal. apply Z.mod_small. split; [lia|].
  assert (K := holds_bound (rev h) l L1 (fun e He => proj1 (Hl e) He)).
  rewrite rev_length in K. lia.
Qed.

Lemma dset_find_history srt : sort_contract srt ->
  forall Q (cq : Cmp Q), total_order cq -> forall h e,
  exists s r, dset_run cq h = Ok s /\ dset_find_overlapping cq srt e s = Ok r /\
    NoDup r /\
    (forall x, In x r <-> holds (rev h) x /\ ev_query x = ev_query e /\
                          db_doc (ev_loc x) = db_doc (ev_loc e) /\ (0 < overlap e x)%Z) /\
    StronglySorted (overlap_order cq e) r.
Proof.
  intros Hs Q cq Hq h e. destruct (dset_run_spec cq Hq h) as [s [H1 [H2 [H3 H4]]]].
  destruct (dset_find_spec cq Hq srt s e Hs H2) as [r [R1 [R2 [R3 R4]]]].
  exists s, r. split; [exact H1|]. split; [exact R1|]. split; [exact R2|]. split; [|exact R4].
  intros x. rewrite R3, H4. reflexivity.
Qed.

Lemma dset_membership srt : sort_contract srt ->
  forall Q (cq : Cmp Q), total_order cq ->
  forall h e, (0 < docbox_inter (ev_loc e) (ev_loc e))%Z ->
  exists s r, dset_run cq h = Ok s /\ dset_find_overlapping cq srt e s = Ok r /\
              (In e r <-> holds (rev h) e).
Proof.
  intros Hs Q cq Hq h e He. destruct (dset_find_history srt Hs Q cq Hq h e)
    as [s [r [H1 [H2 [_ [H4 _]]]]]].
  exists s, r. split; auto. split; auto. rewrite H4. unfold overlap. intuition.
Qed.

Lemma dset_of_range_refuted :
  exists l : list (devent Z),
    forall n, obind (dset_of_range cmp_Z l) dset_size <> Ok n.
Proof.
  exists [Event 7%Z (DocBox [] (Box 0 0 1 1))]. intros n.
  rewrite (dset_of_range_size cmp_Z total_order_Z). discriminate.
Qed.
