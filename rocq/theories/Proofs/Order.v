(** Proofs about the comparison operators and std::sort. *)
From Coq Require Import List ZArith NArith Ascii Permutation Sorted Bool Lia Reals Lra.
From Flocq Require Import Core BinarySingleNaN.
From Verif.Model Require Import Cpp Floats Box Events.
From Verif.Spec Require Import Order.
From Verif.Proofs Require Import Geometry.
Import ListNotations.
Local Open Scope Z_scope.

(** ** Strings *)

Lemma code_inj x y : code x = code y -> x = y.
Proof.
  intros H. unfold code in H.
  rewrite <- (ascii_N_embedding x), <- (ascii_N_embedding y), H. reflexivity.
Qed.

Lemma str_lt_irrefl a : str_lt a a = false.
Proof. induction a as [|x a IH]; simpl; auto. rewrite N.ltb_irrefl. exact IH. Qed.

Lemma str_lt_trans a b c : str_lt a b = true -> str_lt b c = true -> str_lt a c = true.
Proof.
  revert b c. induction a as [|x a IH]; intros [|y b] [|z c]; simpl; intros H1 H2;
    try discriminate; auto.
  destruct (N.ltb_spec (code x) (code y)); destruct (N.ltb_spec (code y) (code x));
    destruct (N.ltb_spec (code y) (code z)); destruct (N.ltb_spec (code z) (code y));
    destruct (N.ltb_spec (code x) (code z)); destruct (N.ltb_spec (code z) (code x));
    try lia; try discriminate; auto.
  eapply IH; eauto.
Qed.

Lemma str_lt_total a b : str_lt a b = true \/ a = b \/ str_lt b a = true.
Proof.
  revert b. induction a as [|x a IH]; intros [|y b]; simpl; auto.
  destruct (N.ltb_spec (code x) (code y)); destruct (N.ltb_spec (code y) (code x)); auto.
  assert (x = y) as -> by (apply code_inj; lia).
  destruct (IH b) as [H1|[->|H1]]; auto.
Qed.

Lemma str_lt_before a b : str_lt a b = true <-> str_before a b.
Proof.
  split.
  - revert b. induction a as [|x a IH]; intros [|y b]; simpl; intros H; try discriminate.
    + exists [], [], (y :: b). simpl. auto.
    + destruct (N.ltb_spec (code x) (code y)).
      * exists [], (x :: a), (y :: b). simpl. auto.
      * destruct (N.ltb_spec (code y) (code x)); [discriminate|].
        assert (x = y) as -> by (apply code_inj; lia).
        destruct (IH b H) as [p [s [t [-> [-> Hst]]]]].
        exists (y :: p), s, t. auto.
  - intros [p [s [t [-> [-> H]]]]]. induction p as [|x p IH]; simpl.
    + destruct s as [|c s], t as [|d t]; simpl; try easy.
      destruct (N.ltb_spec (code c) (code d)); [reflexivity|lia].
    + rewrite N.ltb_irrefl. exact IH.
Qed.

Lemma total_order_str : total_order cmp_str.
Proof.
  split; simpl.
  - apply str_eq_spec.
  - intros x y. rewrite negb_true_iff, <- not_true_iff_false, str_eq_spec. reflexivity.
  - apply str_lt_irrefl.
  - apply str_lt_trans.
  - apply str_lt_total.
Qed.

Lemma total_order_Z : total_order cmp_Z.
Proof.
  split; simpl; intros.
  - apply Z.eqb_eq.
  - rewrite negb_true_iff. apply Z.eqb_neq.
  - apply Z.ltb_irrefl.
  - rewrite Z.ltb_lt in *. lia.
  - rewrite !Z.ltb_lt. lia.
Qed.

(** ** Boxes *)

Ltac boolz :=
  repeat match goal with
  | H : context [Z.eqb ?a ?b] |- _ => destruct (Z.eqb_spec a b)
  | H : context [Z.ltb ?a ?b] |- _ => destruct (Z.ltb_spec a b)
  | |- context [Z.eqb ?a ?b] => destruct (Z.eqb_spec a b)
  | |- context [Z.ltb ?a ?b] => destruct (Z.ltb_spec a b)
  end.

Lemma box_ext a b :
  bx a = bx b -> by_ a = by_ b -> bw a = bw b -> bh a = bh b -> a = b.
Proof. destruct a, b; simpl; congruence. Qed.

Lemma box_lt_before a b : box_lt a b = true <-> box_before a b.
Proof.
  unfold box_lt, box_before. boolz; simpl; rewrite ?Z.ltb_lt; split; try discriminate; lia.
Qed.

Lemma box_eq_spec a b : box_eq a b = true <-> a = b.
Proof.
  unfold box_eq. split.
  - boolz; simpl; try discriminate. intros _. apply box_ext; auto.
  - intros ->. rewrite !Z.eqb_refl. reflexivity.
Qed.

Lemma total_order_box : total_order cmp_box.
Proof.
  split; simpl.
  - apply box_eq_spec.
  - intros x y. unfold box_ne. split.
    + boolz; simpl; intros H; try discriminate; intros ->; contradiction.
    + intros H. boolz; auto. exfalso. apply H, box_ext; auto.
  - intros x. apply not_true_iff_false. rewrite box_lt_before. unfold box_before. lia.
  - intros x y z. rewrite !box_lt_before. unfold box_before. lia.
  - intros x y. rewrite !box_lt_before. unfold box_before.
    destruct (Z.eq_dec (bx x) (bx y)); [|lia].
    destruct (Z.eq_dec (by_ x) (by_ y)); [|lia].
    destruct (Z.eq_dec (bw x) (bw y)); [|lia].
    destruct (Z.eq_dec (bh x) (bh y)); [|lia].
    right. left. apply box_ext; auto.
Qed.

(** ** Lexicographic combination, as the code writes it *)

Lemma to_eq_dec {D} (c : Cmp D) (H : total_order c) (x y : D) : {x = y} + {x <> y}.
Proof.
  destruct (c_eq c x y) eqn:E; [left; apply (to_eq _ H), E|right].
  intros Hxy. apply (to_eq _ H) in Hxy. congruence.
Qed.

Lemma to_ne_negb {D} (c : Cmp D) (H : total_order c) (x y : D) : c_ne c x y = negb (c_eq c x y).
Proof.
  apply eq_true_iff_eq. rewrite (to_ne _ H), negb_true_iff, <- not_true_iff_false, (to_eq _ H).
  reflexivity.
Qed.

Lemma to_eq_refl {D} (c : Cmp D) (H : total_order c) (x : D) : c_eq c x x = true.
Proof. apply (to_eq _ H). reflexivity. Qed.

Lemma to_asym {D} (c : Cmp D) (H : total_order c) (x y : D) :
  c_lt c x y = true -> c_lt c y x = false.
Proof.
  intros H1. apply not_true_iff_false. intros H2.
  assert (H3 := to_trans _ H _ _ _ H1 H2). rewrite (to_irrefl _ H) in H3. discriminate.
Qed.

Section Lex.
  Context {A B C : Type} (ca : Cmp A) (cb : Cmp B) (f : C -> A) (g : C -> B).
  Hypothesis Ha : total_order ca.
  Hypothesis Hb : total_order cb.
  Hypothesis Hext : forall x y, f x = f y -> g x = g y -> x = y.

  Definition lex_lt (x y : C) : bool :=
    if c_ne ca (f x) (f y) then c_lt ca (f x) (f y) else c_lt cb (g x) (g y).

  Lemma lex_lt_spec x y :
    lex_lt x y = true <-> c_lt ca (f x) (f y) = true \/
                         (f x = f y /\ c_lt cb (g x) (g y) = true).
  Proof.
    unfold lex_lt. destruct (to_eq_dec ca Ha (f x) (f y)) as [E|E].
    - rewrite E, (to_ne_negb _ Ha), (to_eq_refl _ Ha). simpl.
      rewrite (to_irrefl _ Ha). intuition discriminate.
    - rewrite (proj2 (to_ne _ Ha _ _) E). tauto.
  Qed.

  Lemma total_order_lex eqf nef :
    (forall x y, eqf x y = true <-> f x = f y /\ g x = g y) ->
    (forall x y, nef x y = true <-> f x <> f y \/ g x <> g y) ->
    total_order (mkCmp eqf nef lex_lt).
  Proof.
    intros Heq Hne. split; simpl.
    - intros x y. rewrite Heq. split; [intros [H1 H2]; auto|intros ->; auto].
    - intros x y. rewrite Hne. split.
      + intros H ->. tauto.
      + intros H. destruct (to_eq_dec ca Ha (f x) (f y)); [|auto].
        destruct (to_eq_dec cb Hb (g x) (g y)); [|auto]. exfalso; auto.
    - intros x. apply not_true_iff_false. rewrite lex_lt_spec.
      rewrite (to_irrefl _ Ha), (to_irrefl _ Hb). intuition discriminate.
    - intros x y z. rewrite !lex_lt_spec. intros [H1|[H1 H2]] [H3|[H3 H4]].
      + left. eapply (to_trans _ Ha); eauto.
      + left. rewrite <- H3. auto.
      + left. rewrite H1. auto.
      + right. split; [congruence|]. eapply (to_trans _ Hb); eauto.
    - intros x y. rewrite !lex_lt_spec.
      destruct (to_total _ Ha (f x) (f y)) as [H|[H|H]]; auto.
      destruct (to_total _ Hb (g x) (g y)) as [H'|[H'|H']]; auto.
  Qed.
End Lex.

Lemma total_order_docbox : total_order cmp_docbox.
Proof.
  apply (total_order_lex cmp_str cmp_box db_doc db_box total_order_str total_order_box).
  - intros [d b] [d' b']; simpl; congruence.
  - intros x y. unfold docbox_eq. rewrite andb_true_iff, str_eq_spec, box_eq_spec. reflexivity.
  - intros x y. unfold docbox_ne.
    rewrite orb_true_iff, negb_true_iff, <- not_true_iff_false, str_eq_spec.
    change (box_ne (db_box x) (db_box y)) with (c_ne cmp_box (db_box x) (db_box y)).
    rewrite (to_ne _ total_order_box). reflexivity.
Qed.

Lemma total_order_event {Q L} (cq : Cmp Q) (cl : Cmp L) :
  total_order cq -> total_order cl -> total_order (cmp_event cq cl).
Proof.
  intros Hq Hl.
  apply (total_order_lex cq cl ev_query ev_loc Hq Hl).
  - intros [q l] [q' l']; simpl; congruence.
  - intros x y. unfold event_eq. rewrite andb_true_iff, (to_eq _ Hq), (to_eq _ Hl). reflexivity.
  - intros x y. unfold event_ne. rewrite orb_true_iff, (to_ne _ Hq), (to_ne _ Hl). reflexivity.
Qed.

Lemma docbox_lt_before a b : docbox_lt a b = true <-> docbox_before a b.
Proof.
  unfold docbox_before. rewrite <- str_lt_before, <- box_lt_before.
  exact (lex_lt_spec cmp_str cmp_box db_doc db_box total_order_str a b).
Qed.

Lemma event_lt_before {Q L} (cq : Cmp Q) (cl : Cmp L) (qb : Q -> Q -> Prop) (lb : L -> L -> Prop) :
  total_order cq ->
  (forall x y, c_lt cq x y = true <-> qb x y) ->
  (forall x y, c_lt cl x y = true <-> lb x y) ->
  forall a b, event_lt cq cl a b = true <-> event_before qb lb a b.
Proof.
  intros Hq Hqb Hlb a b. unfold event_before. rewrite <- Hqb, <- Hlb.
  exact (lex_lt_spec cq cl ev_query ev_loc Hq a b).
Qed.

Lemma total_order_shaped : total_order cmp_shaped.
Proof. apply total_order_event; [apply total_order_str|apply total_order_docbox]. Qed.

(** ** Strict weak orders *)

Lemma total_order_swo {A} (c : Cmp A) : total_order c -> forall l, swo_on (c_lt c) l.
Proof.
  intros H l. split; intros.
  - apply (to_irrefl _ H).
  - eapply (to_trans _ H); eauto.
  - destruct (to_total _ H x y) as [E|[E|E]]; try congruence.
    destruct (to_total _ H y z) as [E'|[E'|E']]; try congruence.
    subst. split; apply (to_irrefl _ H).
Qed.

Lemma swo_flip {A} (lt : A -> A -> bool) l : swo_on lt l -> swo_on (flip_lt lt) l.
Proof.
  intros [H1 H2 H3]. unfold flip_lt. split; intros.
  - auto.
  - eapply H2; [| | |eassumption|eassumption]; auto.
  - destruct (H3 x y z); auto.
Qed.

Lemma swo_on_incl {A} (lt : A -> A -> bool) l l' :
  (forall x, In x l' -> In x l) -> swo_on lt l -> swo_on lt l'.
Proof.
  intros Hi [H1 H2 H3]. split; intros.
  - auto.
  - eapply H2; [| | |eassumption|eassumption]; auto.
  - apply (H3 x y z); auto.
Qed.

(** The order induced by a key is strict weak when the order of keys is. *)
Lemma swo_key {A K} (lt : K -> K -> bool) (f : A -> K) l :
  swo_on lt (map f l) -> swo_on (fun x y => lt (f x) (f y)) l.
Proof.
  intros [H1 H2 H3]. split; intros.
  - apply H1, in_map; auto.
  - eapply H2; [| | |eassumption|eassumption]; apply in_map; auto.
  - apply (H3 (f x) (f y) (f z)); auto using in_map.
Qed.

Lemma swo_ext {A} (lt lt' : A -> A -> bool) l :
  (forall x y, In x l -> In y l -> lt x y = lt' x y) -> swo_on lt l -> swo_on lt' l.
Proof.
  intros He [H1 H2 H3]. split; intros x.
  - intros Hx. rewrite <- He; auto.
  - intros y z Hx Hy Hz. rewrite <- !He by auto. apply H2; auto.
  - intros y z Hx Hy Hz. rewrite <- !He by auto. apply H3; auto.
Qed.

Lemma swo_onb_spec {A} (lt : A -> A -> bool) l : swo_onb lt l = true <-> swo_on lt l.
Proof.
  unfold swo_onb. rewrite andb_true_iff, !forallb_forall. split.
  - intros [H1 H2]. split.
    + intros x Hx. specialize (H1 x Hx). now apply negb_true_iff in H1.
    + intros x y z Hx Hy Hz Hxy Hyz. specialize (H2 x Hx).
      rewrite forallb_forall in H2. specialize (H2 y Hy).
      rewrite forallb_forall in H2. specialize (H2 z Hz).
      apply andb_true_iff in H2. destruct H2 as [H2 _]. rewrite Hxy, Hyz in H2. exact H2.
    + intros x y z Hx Hy Hz A1 A2 A3 A4. specialize (H2 x Hx).
      rewrite forallb_forall in H2. specialize (H2 y Hy).
      rewrite forallb_forall in H2. specialize (H2 z Hz).
      apply andb_true_iff in H2. destruct H2 as [_ H2]. rewrite A1, A2, A3, A4 in H2.
      simpl in H2. apply andb_true_iff in H2. rewrite !negb_true_iff in H2. exact H2.
  - intros [H1 H2 H3]. split.
    + intros x Hx. rewrite H1; auto.
    + intros x Hx. apply forallb_forall. intros y Hy. apply forallb_forall. intros z Hz.
      specialize (H2 x y z Hx Hy Hz). specialize (H3 x y z Hx Hy Hz).
      destruct (lt x y), (lt y z), (lt y x), (lt z y), (lt x z), (lt z x); simpl in *; intuition.
Qed.

Lemma std_sort_ok srt {A} (lt : A -> A -> bool) l :
  swo_on lt l -> std_sort srt lt l = Ok (srt A lt l).
Proof. intros H. apply swo_onb_spec in H. unfold std_sort. rewrite H. reflexivity. Qed.

Lemma std_sort_ub srt {A} (lt : A -> A -> bool) l :
  ~ swo_on lt l -> std_sort srt lt l = UB.
Proof.
  intros H. unfold std_sort. destruct (swo_onb lt l) eqn:E; auto.
  apply swo_onb_spec in E. contradiction.
Qed.

(** ** Insertion sort meets the contract *)

Lemma ins_perm {A} (lt : A -> A -> bool) x l : Permutation (x :: l) (ins lt x l).
Proof.
  induction l as [|y l IH]; simpl; auto. destruct (lt y x); auto.
  transitivity (y :: x :: l); [apply perm_swap|]. constructor. exact IH.
Qed.

Lemma isort_perm {A} (lt : A -> A -> bool) l : Permutation l (isort A lt l).
Proof.
  unfold isort. induction l as [|x l IH]; simpl; auto.
  transitivity (x :: fold_right (ins lt) [] l); auto. apply ins_perm.
Qed.

Lemma ins_sorted {A} (lt : A -> A -> bool) x l :
  swo_on lt (x :: l) -> sorted_by lt l -> sorted_by lt (ins lt x l).
Proof.
  intros Hs H. unfold sorted_by in *. induction H as [|y l Hl IH Hy]; simpl.
  - repeat constructor.
  - destruct (lt y x) eqn:E.
    + constructor.
      * apply IH. eapply swo_on_incl; [|exact Hs]. simpl. tauto.
      * rewrite Forall_forall in *. intros z Hz.
        apply (Permutation_in z (Permutation_sym (ins_perm lt x l))) in Hz.
        destruct Hz as [<-|Hz]; auto.
        apply not_true_iff_false. intros F. destruct Hs as [H1 H2 _].
        assert (lt y y = true) by (apply (H2 y x y); simpl; auto).
        rewrite H1 in *; simpl; auto. discriminate.
    + constructor; [constructor; auto|]. rewrite Forall_forall in *. intros z [<-|Hz]; auto.
      apply not_true_iff_false. intros F. specialize (Hy z Hz).
      destruct Hs as [H1 H2 H3].
      destruct (lt x y) eqn:Exy.
      * assert (lt z y = true) by (apply (H2 z x y); simpl; auto). congruence.
      * destruct (lt y z) eqn:Eyz.
        -- assert (lt y x = true) by (apply (H2 y z x); simpl; auto). congruence.
        -- destruct (H3 x y z) as [_ G]; simpl; auto. congruence.
Qed.

Lemma isort_contract : sort_contract isort.
Proof.
  intros A lt l Hs. split; [apply isort_perm|].
  unfold isort. induction l as [|x l IH]; simpl; [constructor|].
  assert (Hl : swo_on lt l) by (eapply swo_on_incl; [|exact Hs]; simpl; auto).
  apply ins_sorted; [|apply IH; auto].
  eapply swo_on_incl; [|exact Hs]. intros z [<-|Hz]; simpl; auto. right.
  apply (Permutation_in z (Permutation_sym (isort_perm lt l))). exact Hz.
Qed.

(** Two sorted permutations under a total order are equal. *)
Lemma sorted_unique {A} (lt : A -> A -> bool) (l l' : list A) :
  (forall x y, In x l -> In y l -> lt x y = false -> lt y x = false -> x = y) ->
  Permutation l l' -> sorted_by lt l -> sorted_by lt l' -> l = l'.
Proof.
  revert l'. induction l as [|x l IH]; intros l' Ht Hp Hl Hl'.
  - apply Permutation_nil in Hp. congruence.
  - destruct l' as [|y l']; [apply Permutation_sym, Permutation_nil in Hp; discriminate|].
    inversion Hl as [|? ? Hl1 Hl2]; subst. inversion Hl' as [|? ? Hl1' Hl2']; subst.
    rewrite Forall_forall in *.
    assert (x = y) as <-.
    { destruct (Permutation_in x Hp (or_introl eq_refl)) as [E|E]; auto.
      destruct (Permutation_in y (Permutation_sym Hp) (or_introl eq_refl)) as [F|F]; auto.
      apply Ht; simpl; auto. }
    f_equal. apply IH; auto.
    + intros; apply Ht; simpl; auto.
    + eapply Permutation_cons_inv; eauto.
Qed.

(** ** Scores *)

(** A place for every number on a line: minus infinity, the reals, plus
    infinity. *)
Definition frank (x : f32) : Z * R :=
  match x with
  | B754_infinity true => (-1, 0%R)
  | B754_infinity false => (1, 0%R)
  | _ => (0, B2R x)
  end.

Definition rank_lt (a b : Z * R) : Prop :=
  fst a < fst b \/ (fst a = fst b /\ (snd a < snd b)%R).

Lemma f32_compare x y : is_nan x = false -> is_nan y = false ->
  (f32_lt x y = true <-> rank_lt (frank x) (frank y)) /\
  (f32_eq x y = true <-> frank x = frank y).
Proof.
  intros Hx Hy.
  assert (Hf : forall a b : f32, is_finite a = true -> is_finite b = true ->
     (f32_lt a b = true <-> rank_lt (frank a) (frank b)) /\
     (f32_eq a b = true <-> frank a = frank b)).
  { intros a b Ha Hb.
    assert (Fa : frank a = (0, B2R a)) by (destruct a; simpl in *; congruence).
    assert (Fb : frank b = (0, B2R b)) by (destruct b; simpl in *; congruence).
    rewrite Fa, Fb. unfold f32_lt, f32_eq, rank_lt. simpl fst. simpl snd.
    rewrite Bltb_correct, Beqb_correct by assumption.
    destruct (Rlt_bool_spec (B2R a) (B2R b)); destruct (Req_bool_spec (B2R a) (B2R b));
      split; split; intros K; try discriminate; try congruence; try lia; auto;
      try (right; split; [reflexivity|lra]);
      try (destruct K as [K|[_ K]]; [lia|lra]). }
  destruct (is_finite x) eqn:Fx, (is_finite y) eqn:Fy; [apply Hf; auto| | |].
  - destruct y as [sy|sy| |sy my ey by_]; simpl in *; try discriminate.
    destruct x as [sx|sx| |sx mx ex bx]; simpl in *; try discriminate;
      destruct sy; unfold f32_lt, f32_eq, rank_lt; simpl; split; split; intros K;
      try discriminate; try congruence; try lia; auto;
      destruct sx; try discriminate; try lia; auto.
  - destruct x as [sx|sx| |sx mx ex bx]; simpl in *; try discriminate.
    destruct y as [sy|sy| |sy my ey by_]; simpl in *; try discriminate;
      destruct sx; unfold f32_lt, f32_eq, rank_lt; simpl; split; split; intros K;
      try discriminate; try congruence; try lia; auto;
      destruct sy; try discriminate; try lia; auto.
  - destruct x as [sx|sx| |sx mx ex bx]; simpl in *; try discriminate.
    destruct y as [sy|sy| |sy my ey by_]; simpl in *; try discriminate.
    destruct sx, sy; unfold f32_lt, f32_eq, rank_lt; simpl; split; split; intros K;
      try discriminate; try congruence; try lia; auto; destruct K as [K|[_ K]]; try lia; lra.
Qed.

Lemma f32_lt_nan_l x y : is_nan x = true -> f32_lt x y = false.
Proof. destruct x; try discriminate. reflexivity. Qed.

Lemma f32_lt_nan_r x y : is_nan y = true -> f32_lt x y = false.
Proof. destruct y; try discriminate. destruct x as [[]|[]| |[]]; reflexivity. Qed.

Lemma f32_eq_nan_l x y : is_nan x = true -> f32_eq x y = false.
Proof. destruct x; try discriminate. reflexivity. Qed.

Lemma f32_eq_nan_r x y : is_nan y = true -> f32_eq x y = false.
Proof. destruct y; try discriminate. destruct x as [[]|[]| |[]]; reflexivity. Qed.

Lemma rank_lt_irrefl a : ~ rank_lt a a.
Proof. unfold rank_lt. intros [H|[_ H]]; [lia|lra]. Qed.

Lemma rank_lt_trans a b c : rank_lt a b -> rank_lt b c -> rank_lt a c.
Proof.
  unfold rank_lt. intros [H|[H1 H2]] [H'|[H1' H2']].
  - left; lia.
  - left; lia.
  - left; lia.
  - right; split; [lia|lra].
Qed.

Lemma rank_total a b : rank_lt a b \/ a = b \/ rank_lt b a.
Proof.
  destruct a as [i r], b as [j s]. unfold rank_lt. simpl.
  destruct (Z.lt_trichotomy i j) as [H|[H|H]]; auto.
  destruct (Rtotal_order r s) as [H'|[H'|H']]; subst; auto.
Qed.

Lemma f32_lt_irrefl x : f32_lt x x = false.
Proof.
  destruct (is_nan x) eqn:N; [apply f32_lt_nan_l; auto|].
  apply not_true_iff_false. rewrite (proj1 (f32_compare x x N N)). apply rank_lt_irrefl.
Qed.

Lemma f32_lt_not_nan x y : f32_lt x y = true -> is_nan x = false /\ is_nan y = false.
Proof.
  intros H. destruct (is_nan x) eqn:Nx; [rewrite f32_lt_nan_l in H; auto; discriminate|].
  destruct (is_nan y) eqn:Ny; [rewrite f32_lt_nan_r in H; auto; discriminate|auto].
Qed.

Lemma f32_eq_not_nan x y : f32_eq x y = true -> is_nan x = false /\ is_nan y = false.
Proof.
  intros H. destruct (is_nan x) eqn:Nx; [rewrite f32_eq_nan_l in H; auto; discriminate|].
  destruct (is_nan y) eqn:Ny; [rewrite f32_eq_nan_r in H; auto; discriminate|auto].
Qed.

Lemma f32_lt_trans x y z : f32_lt x y = true -> f32_lt y z = true -> f32_lt x z = true.
Proof.
  intros H1 H2. destruct (f32_lt_not_nan _ _ H1) as [Nx Ny].
  destruct (f32_lt_not_nan _ _ H2) as [_ Nz].
  apply f32_compare in H1; auto. apply f32_compare in H2; auto.
  apply f32_compare; auto. eapply rank_lt_trans; eauto.
Qed.

Lemma f32_lt_asym x y : f32_lt x y = true -> f32_lt y x = false.
Proof.
  intros H. apply not_true_iff_false. intros H'.
  assert (f32_lt x x = true) by (eapply f32_lt_trans; eauto).
  rewrite f32_lt_irrefl in *. discriminate.
Qed.

Lemma f32_total x y : is_nan x = false -> is_nan y = false ->
  f32_lt x y = true \/ f32_eq x y = true \/ f32_lt y x = true.
Proof.
  intros Nx Ny. destruct (f32_compare x y Nx Ny) as [H1 H2].
  destruct (f32_compare y x Ny Nx) as [H3 _]. rewrite H1, H2, H3. apply rank_total.
Qed.

Lemma f32_eq_refl x : is_nan x = false -> f32_eq x x = true.
Proof. intros N. apply (proj2 (f32_compare x x N N)). reflexivity. Qed.

Lemma f32_eq_sym x y : f32_eq x y = f32_eq y x.
Proof.
  apply eq_true_iff_eq. split; intros H; destruct (f32_eq_not_nan _ _ H) as [N1 N2];
    apply f32_compare in H; auto; apply f32_compare; auto.
Qed.

Lemma f32_eq_trans x y z : f32_eq x y = true -> f32_eq y z = true -> f32_eq x z = true.
Proof.
  intros H1 H2. destruct (f32_eq_not_nan _ _ H1) as [Nx Ny].
  destruct (f32_eq_not_nan _ _ H2) as [_ Nz].
  apply f32_compare in H1; auto. apply f32_compare in H2; auto.
  apply f32_compare; auto. congruence.
Qed.

Lemma f32_eq_not_lt x y : f32_eq x y = true -> f32_lt x y = false.
Proof.
  intros H. destruct (f32_eq_not_nan _ _ H) as [Nx Ny].
  apply not_true_iff_false. intros H'. apply f32_compare in H; auto. apply f32_compare in H'; auto.
  rewrite H in H'. eapply rank_lt_irrefl; eauto.
Qed.

Lemma f32_lt_eq_l x y z : f32_eq x y = true -> f32_lt x z = f32_lt y z.
Proof.
  intros H. destruct (f32_eq_not_nan _ _ H) as [Nx Ny].
  destruct (is_nan z) eqn:Nz; [rewrite !f32_lt_nan_r; auto|].
  apply eq_true_iff_eq. rewrite (proj1 (f32_compare x z Nx Nz)), (proj1 (f32_compare y z Ny Nz)).
  apply f32_compare in H; auto. rewrite H. reflexivity.
Qed.

Lemma f32_lt_eq_r x y z : f32_eq x y = true -> f32_lt z x = f32_lt z y.
Proof.
  intros H. destruct (f32_eq_not_nan _ _ H) as [Nx Ny].
  destruct (is_nan z) eqn:Nz; [rewrite !f32_lt_nan_l; auto|].
  apply eq_true_iff_eq. rewrite (proj1 (f32_compare z x Nz Nx)), (proj1 (f32_compare z y Nz Ny)).
  apply f32_compare in H; auto. rewrite H. reflexivity.
Qed.

Lemma swo_f32 l : (forall x, In x l -> is_nan x = false) -> swo_on f32_lt l.
Proof.
  intros Hl. split; intros.
  - apply f32_lt_irrefl.
  - eapply f32_lt_trans; eauto.
  - destruct (f32_total x y) as [E|[E|E]]; auto; try congruence.
    destruct (f32_total y z) as [E'|[E'|E']]; auto; try congruence.
    assert (F := f32_eq_trans _ _ _ E E'). split; apply f32_eq_not_lt; auto.
    rewrite f32_eq_sym. exact F.
Qed.

Section Scored.
  Context {E : Type} (ce : Cmp E).
  Hypothesis Hce : total_order ce.

  Lemma scored_lt_spec x y : numeric x -> numeric y ->
    (scored_lt ce x y = true <->
     f32_lt (sc_score x) (sc_score y) = true \/
     (same_number (sc_score x) (sc_score y) /\ c_lt ce (sc_base x) (sc_base y) = true)).
  Proof.
    intros Nx Ny. unfold scored_lt, f32_ne, same_number.
    change (Beqb (sc_score x) (sc_score y)) with (f32_eq (sc_score x) (sc_score y)).
    destruct (f32_eq (sc_score x) (sc_score y)) eqn:Eq; simpl.
    - rewrite (f32_eq_not_lt _ _ Eq). intuition discriminate.
    - intuition discriminate.
  Qed.

  Lemma scored_eq_spec x y :
    scored_eq ce x y = true <-> same_number (sc_score x) (sc_score y) /\ sc_base x = sc_base y.
  Proof.
    unfold scored_eq, same_number. rewrite andb_true_iff, (to_eq _ Hce). reflexivity.
  Qed.

  Lemma scored_ne_spec x y : scored_ne ce x y = negb (scored_eq ce x y).
  Proof.
    unfold scored_ne, scored_eq. rewrite negb_andb, (to_ne_negb _ Hce). reflexivity.
  Qed.

  Lemma scored_trichotomy x y : numeric x -> numeric y ->
    (scored_lt ce x y = false /\ scored_lt ce y x = false) <-> scored_eq ce x y = true.
  Proof.
    intros Nx Ny. rewrite scored_eq_spec, <- !not_true_iff_false.
    rewrite !scored_lt_spec by assumption. unfold same_number. split.
    - intros [H1 H2]. destruct (f32_total (sc_score x) (sc_score y)) as [H|[H|H]]; auto; try tauto.
      split; auto. destruct (to_total _ Hce (sc_base x) (sc_base y)) as [K|[K|K]]; auto; try tauto.
      exfalso. apply H2. right. rewrite f32_eq_sym. auto.
    - intros [H1 H2]. rewrite H2, (to_irrefl _ Hce), (f32_eq_not_lt _ _ H1).
      rewrite (f32_eq_not_lt (sc_score y)) by (rewrite f32_eq_sym; exact H1).
      intuition discriminate.
  Qed.

  Lemma scored_eq_lt_l x y z : numeric z -> scored_eq ce x y = true ->
    scored_lt ce x z = scored_lt ce y z /\ scored_lt ce z x = scored_lt ce z y.
  Proof.
    intros Nz H. apply scored_eq_spec in H. destruct H as [H1 H2].
    destruct (f32_eq_not_nan _ _ H1) as [Nx Ny].
    split; apply eq_true_iff_eq; rewrite !scored_lt_spec by assumption; unfold same_number;
      rewrite H2.
    - rewrite (f32_lt_eq_l _ _ _ H1).
      assert (f32_eq (sc_score x) (sc_score z) = f32_eq (sc_score y) (sc_score z)) as ->; [|tauto].
      apply eq_true_iff_eq. split; intros K.
      + eapply f32_eq_trans; [|exact K]. rewrite f32_eq_sym. exact H1.
      + eapply f32_eq_trans; [exact H1|exact K].
    - rewrite (f32_lt_eq_r _ _ _ H1).
      assert (f32_eq (sc_score z) (sc_score x) = f32_eq (sc_score z) (sc_score y)) as ->; [|tauto].
      apply eq_true_iff_eq. split; intros K.
      + eapply f32_eq_trans; [exact K|exact H1].
      + eapply f32_eq_trans; [exact K|]. rewrite f32_eq_sym. exact H1.
  Qed.

  Lemma swo_scored : swo_for (@numeric E) (scored_lt ce).
  Proof.
    intros l Hl. split.
    - intros x Hx. apply not_true_iff_false. rewrite scored_lt_spec by auto.
      rewrite f32_lt_irrefl, (to_irrefl _ Hce). intuition discriminate.
    - intros x y z Hx Hy Hz. rewrite !scored_lt_spec by auto. unfold same_number.
      intros [H1|[H1 H2]] [H3|[H3 H4]].
      + left. eapply f32_lt_trans; eauto.
      + left. rewrite <- (f32_lt_eq_r _ _ _ H3). exact H1.
      + left. rewrite (f32_lt_eq_l _ _ _ H1). exact H3.
      + right. split; [eapply f32_eq_trans; eauto|eapply (to_trans _ Hce); eauto].
    - intros x y z Hx Hy Hz A1 A2 A3 A4.
      assert (E1 : scored_eq ce x y = true) by (apply scored_trichotomy; auto).
      destruct (scored_eq_lt_l _ _ z (Hl z Hz) E1) as [-> ->]. auto.
  Qed.

  Lemma scored_nan_not_swo n a b :
    ~ numeric n -> scored_lt ce a b = true -> ~ swo_on (scored_lt ce) [n; a; b].
  Proof.
    intros Nn Hab Hs. unfold numeric in Nn. apply not_false_iff_true in Nn.
    assert (L : forall z, scored_lt ce n z = false /\ scored_lt ce z n = false).
    { intros z. unfold scored_lt, f32_ne.
      change (Beqb (sc_score n) (sc_score z)) with (f32_eq (sc_score n) (sc_score z)).
      change (Beqb (sc_score z) (sc_score n)) with (f32_eq (sc_score z) (sc_score n)).
      rewrite f32_eq_nan_l, f32_eq_nan_r, f32_lt_nan_l, f32_lt_nan_r by assumption. auto. }
    destruct (swo_incomp _ _ Hs a n b) as [H _]; simpl; auto; try apply L. congruence.
  Qed.

  Lemma scored_le_is_ge a b : scored_le ce a b = scored_ge ce a b.
  Proof. reflexivity. Qed.

  Lemma scored_le_wrong a b :
    numeric a -> numeric b ->
    (scored_le ce a b = negb (scored_lt ce b a) <-> scored_eq ce a b = true).
  Proof.
    intros Na Nb. rewrite <- scored_trichotomy by assumption. unfold scored_le, scored_gt.
    split.
    - intros H. apply (f_equal negb) in H. rewrite !negb_involutive in H.
      destruct (scored_lt ce a b) eqn:E1; [|rewrite <- H; auto].
      exfalso.
      assert (S := swo_scored [a; b]). destruct S as [S1 S2 _].
      { intros x [<-|[<-|[]]]; auto. }
      assert (scored_lt ce a a = true) by (apply (S2 a b a); simpl; auto).
      rewrite S1 in *; simpl; auto. discriminate.
    - intros [-> ->]. reflexivity.
  Qed.
End Scored.
