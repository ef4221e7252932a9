(** Mappers of strings and events to ids. *)
From Coq Require Import Ascii List Bool ZArith Lia Permutation.
From Verif.Model Require Import Cpp Floats Events Mapper.
From Verif.Spec Require Import Grouping Mapper.
From Verif.Proofs Require Import Geometry Sets.
Import ListNotations.
Local Open Scope Z_scope.

(** ** Ids *)

Lemma find_none (t : id_table) s : map_find str_eq s t = None <-> ~ In s (map fst t).
Proof.
  induction t as [|[k v] t IH]; simpl; [tauto|]. destruct (str_eq k s) eqn:E.
  - apply str_eq_spec in E. split; [discriminate|]. intros H. exfalso. auto.
  - rewrite IH. assert (k <> s) by (intros ->; rewrite str_eq_refl in E; discriminate). tauto.
Qed.

Lemma find_some (t : id_table) s v : map_find str_eq s t = Some v -> In (s, v) t.
Proof.
  induction t as [|[k w] t IH]; simpl; [discriminate|]. destruct (str_eq k s) eqn:E; [|auto].
  apply str_eq_spec in E. intros K. injection K as ->. subst. auto.
Qed.

Lemma find_in (t : id_table) s v : NoDup (map fst t) -> In (s, v) t -> map_find str_eq s t = Some v.
Proof.
  induction t as [|[k w] t IH]; simpl; [tauto|]. intros N K. inversion N as [|? ? N1 N2]; subst.
  destruct K as [K|K].
  - injection K as -> ->. rewrite str_eq_refl. reflexivity.
  - destruct (str_eq k s) eqn:E; [|auto]. apply str_eq_spec in E. subst k.
    exfalso. apply N1. change s with (fst (s, v)). apply in_map, K.
Qed.

(** The table with the strings [l] numbered from 0. *)
Definition numbered (l : list bytes) : id_table := combine l (map Z.of_nat (seq 0 (length l))).

Lemma numbered_app l s : numbered (l ++ [s]) = numbered l ++ [(s, Z.of_nat (length l))].
Proof.
  unfold numbered. rewrite app_length. simpl length. rewrite Nat.add_1_r, seq_S, map_app. simpl map.
  assert (H : forall (X Y : Type) (a : list X) (b : list Y) x y, length a = length b ->
    combine (a ++ [x]) (b ++ [y]) = combine a b ++ [(x, y)]).
  { intros X Y. induction a as [|u a IH]; intros [|w b] x y L; try discriminate; simpl; [reflexivity|].
    rewrite IH by (injection L; auto). reflexivity. }
  apply H. rewrite map_length, seq_length. reflexivity.
Qed.

Lemma numbered_keys l : map fst (numbered l) = l.
Proof.
  unfold numbered. assert (H : forall (X Y : Type) (a : list X) (b : list Y), length a = length b -> map fst (combine a b) = a).
  { intros X Y. induction a as [|u a IH]; intros [|w b] L; try discriminate; simpl; [reflexivity|].
    rewrite IH by (injection L; auto). reflexivity. }
  apply H. rewrite map_length, seq_length. reflexivity.
Qed.

Lemma numbered_length l : length (numbered l) = length l.
Proof. rewrite <- (numbered_keys l) at 2. rewrite map_length. reflexivity. Qed.

Lemma numbered_in l s v : In (s, v) (numbered l) -> exists i, nth_error l i = Some s /\ v = Z.of_nat i.
Proof.
  revert s v. induction l as [|x l IH] using rev_ind; intros s v; [intros []|].
  rewrite numbered_app. intros K. apply in_app_or in K. destruct K as [K|[K|[]]].
  - destruct (IH s v K) as [i [E ->]]. exists i. split; [|reflexivity].
    rewrite nth_error_app1; [exact E|]. apply nth_error_Some. congruence.
  - injection K as <- <-. exists (length l). split; [|reflexivity].
    rewrite nth_error_app2, Nat.sub_diag by lia. reflexivity.
Qed.

Lemma k_max_ok m : 0 <= m < two64 - 1 -> k_max_size m = m + 1.
Proof. unfold k_max_size, two64. intros H. rewrite Z.mod_small; lia. Qed.

Lemma first_seen_unique {A} (l s s' : list A) : first_seen l s -> first_seen l s' -> s = s'.
Proof.
  intros H. revert s'. induction H as [|l s x H IH I|l s x H IH I]; intros s' K.
  - inversion K; auto; destruct l; discriminate.
  - inversion K as [E|l1 s1 x1 K1 I1 E|l1 s1 x1 K1 I1 E]; subst.
    + destruct l; discriminate.
    + apply app_inj_tail in E. destruct E as [-> ->]. auto.
    + apply app_inj_tail in E. destruct E as [-> ->]. rewrite <- (IH s1 K1) in I1. tauto.
  - inversion K as [E|l1 s1 x1 K1 I1 E|l1 s1 x1 K1 I1 E]; subst.
    + destruct l; discriminate.
    + apply app_inj_tail in E. destruct E as [-> ->]. rewrite <- (IH s' K1) in I1. tauto.
    + apply app_inj_tail in E. destruct E as [-> ->]. rewrite (IH s1 K1). reflexivity.
Qed.

Lemma first_seen_nodup {A} (l s : list A) : first_seen l s -> NoDup s.
Proof.
  intros H. induction H as [|l s x H IH I|l s x H IH I]; auto; [constructor|].
  apply (Permutation_NoDup (Permutation_cons_append s x)). constructor; assumption.
Qed.

Lemma first_seen_in {A} (l s : list A) x : first_seen l s -> (In x l <-> In x s).
Proof.
  intros H. induction H as [|l s y H IH I|l s y H IH I]; [tauto| |]; rewrite !in_app_iff; simpl.
  - rewrite IH. split; [intros [K|[<-|[]]]|]; auto.
  - rewrite IH. tauto.
Qed.

(** One call on the table with [seen] numbered. *)
Lemma call_spec m seen s : 0 <= m < two64 - 1 -> NoDup seen ->
  (exists i, nth_error seen i = Some s /\ string_to_int m (numbered seen) s = Ok (Z.of_nat i, numbered seen)) \/
  (~ In s seen /\ Z.of_nat (length seen) <= m /\
     string_to_int m (numbered seen) s = Ok (Z.of_nat (length seen), numbered (seen ++ [s]))) \/
  (~ In s seen /\ m < Z.of_nat (length seen) /\ string_to_int m (numbered seen) s = Throw RangeError).
Proof.
  intros M N. unfold string_to_int. destruct (map_find str_eq s (numbered seen)) as [v|] eqn:E.
  - left. apply find_some, numbered_in in E. destruct E as [i [E ->]]. eauto.
  - right. apply find_none in E. rewrite numbered_keys in E. rewrite numbered_length, k_max_ok by exact M.
    destruct (Z.ltb_spec (Z.of_nat (length seen)) (m + 1)).
    + left. split; [exact E|]. split; [lia|]. rewrite numbered_app. reflexivity.
    + right. split; [exact E|]. split; [lia|]. reflexivity.
Qed.

Lemma history_seen m : 0 <= m < two64 - 1 -> forall seen pre h t, first_seen (served pre) seen ->
  history m (numbered seen) h t ->
  (forall h1 s r h2, h = h1 ++ (s, r) :: h2 -> forall seen', first_seen (served (pre ++ h1)) seen' -> right_answer m seen' s r) /\
  exists final, first_seen (served (pre ++ h)) final /\ t = numbered final.
Proof.
  intros M seen pre h. revert seen pre. induction h as [|[s r] h IH]; intros seen pre t F H.
  - split; [intros h1; destruct h1; discriminate|]. inversion H; subst. exists seen. rewrite app_nil_r. auto.
  - assert (N := first_seen_nodup _ _ F).
    assert (Step : exists seen', history m (numbered seen') h t /\ first_seen (served (pre ++ [(s, r)])) seen' /\ right_answer m seen s r).
    { unfold served in *. rewrite flat_map_app. simpl. destruct (call_spec m seen s M N) as [[i [Ei Ec]]|[[Ni [L Ec]]|[Ni [L Ec]]]].
      - inversion H; subst; rewrite Ec in *; try discriminate.
        match goal with K : Ok _ = Ok _ |- _ => injection K as <- <- end.
        exists seen. split; [assumption|]. simpl. split; [|left; eauto].
        apply fs_old; [exact F|]. eapply nth_error_In, Ei.
      - inversion H; subst; rewrite Ec in *; try discriminate.
        match goal with K : Ok _ = Ok _ |- _ => injection K as <- <- end.
        exists (seen ++ [s]). split; [assumption|]. simpl. split; [|right; left; auto].
        apply fs_new; assumption.
      - inversion H; subst; rewrite Ec in *; try discriminate.
        match goal with K : Throw _ = Throw _ |- _ => injection K as <- end.
        exists seen. split; [assumption|]. simpl. rewrite app_nil_r. split; [exact F|right; right; auto]. }
    destruct Step as [seen' [H' [F' R]]]. destruct (IH seen' (pre ++ [(s, r)]) t F' H') as [A B].
    split.
    + intros h1 s0 r0 h2 E s' Fs. destruct h1 as [|c h1].
      * injection E as <- <- <-. rewrite app_nil_r in Fs. rewrite (first_seen_unique _ _ _ Fs F). exact R.
      * injection E as <- E. apply (A h1 s0 r0 h2 E). rewrite <- app_assoc. exact Fs.
    + destruct B as [f [B1 B2]]. exists f. rewrite <- app_assoc in B1. auto.
Qed.

Lemma history_right m h t : 0 <= m < two64 - 1 -> history m [] h t ->
  (forall h1 s r h2 seen, h = h1 ++ (s, r) :: h2 -> first_seen (served h1) seen -> right_answer m seen s r) /\
  exists seen, first_seen (served h) seen /\ map fst t = seen.
Proof.
  intros M H. destruct (history_seen m M [] [] h t) as [A [f [B ->]]]; auto; [constructor|].
  split; [intros h1 s r h2 seen E F; apply (A h1 s r h2 E seen F)|]. exists f. split; [exact B|apply numbered_keys].
Qed.

(** A first-seen list exists. *)
Lemma first_seen_exists (l : list bytes) : exists s, first_seen l s.
Proof.
  induction l as [|x l [s IH]] using rev_ind; [exists []; constructor|].
  destruct (map_find str_eq x (map (fun y => (y, 0)) s)) eqn:E.
  - exists s. apply fs_old; [exact IH|]. apply find_some in E. apply in_map_iff in E. destruct E as [y [E K]]. injection E as <- _. exact K.
  - exists (s ++ [x]). apply fs_new; [exact IH|]. apply find_none in E. rewrite map_map in E. simpl in E. rewrite map_id in E. exact E.
Qed.

(** ** Faithfulness of any table *)

(** No two strings share an id, and no id is still to be given out. *)
Definition sound_table (t : id_table) : Prop :=
  NoDup (map fst t) /\ NoDup (map snd t) /\ forall s v, In (s, v) t -> v < Z.of_nat (length t).

Lemma call_table m t s v t' : string_to_int m t s = Ok (v, t') ->
  In (s, v) t' /\ incl t t' /\ (t' = t \/ (t' = t ++ [(s, v)] /\ ~ In s (map fst t) /\ v = Z.of_nat (length t))).
Proof.
  unfold string_to_int. destruct (map_find str_eq s t) as [w|] eqn:E.
  - intros K. injection K as -> ->. split; [apply find_some, E|]. split; [apply incl_refl|auto].
  - destruct (Z.of_nat (length t) <? k_max_size m); [|discriminate].
    intros K. injection K as <- <-. split; [apply in_or_app; simpl; auto|].
    split; [intros x; rewrite in_app_iff; auto|]. right. split; auto. split; auto. apply find_none, E.
Qed.

Lemma call_sound m t s v t' : sound_table t -> string_to_int m t s = Ok (v, t') -> sound_table t'.
Proof.
  intros [K [V L]] E. destruct (call_table m t s v t' E) as [_ [_ [->|[-> [N ->]]]]]; [split; auto|].
  split; [|split].
  - rewrite map_app. simpl. apply (Permutation_NoDup (Permutation_cons_append _ _)). constructor; assumption.
  - rewrite map_app. simpl. apply (Permutation_NoDup (Permutation_cons_append _ _)). constructor; [|assumption].
    intros H. apply in_map_iff in H. destruct H as [[s' v'] [E1 E2]]. simpl in E1. specialize (L s' v' E2). lia.
  - intros s' v' H. rewrite app_length. simpl. apply in_app_or in H. destruct H as [H|[H|[]]].
    + specialize (L s' v' H). lia.
    + injection H as <- <-. lia.
Qed.

Lemma history_table m t h t' : sound_table t -> history m t h t' ->
  sound_table t' /\ incl t t' /\ forall s v, In (s, Ok v) h -> In (s, v) t'.
Proof.
  intros S H. induction H as [t|t s v t' h t'' E H IH|t s e h t'' E H IH|t s h t'' E H IH].
  - split; auto. split; [apply incl_refl|intros s v []].
  - destruct (IH (call_sound m t s v t' S E)) as [A [B C]]. destruct (call_table m t s v t' E) as [I1 [I2 _]].
    split; [exact A|]. split; [eapply incl_tran; eauto|]. intros s0 v0 [K|K]; [injection K as <- <-; auto|auto].
  - destruct (IH S) as [A [B C]]. split; [exact A|]. split; [exact B|]. intros s0 v0 [K|K]; [discriminate|auto].
  - destruct (IH S) as [A [B C]]. split; [exact A|]. split; [exact B|]. intros s0 v0 [K|K]; [discriminate|auto].
Qed.

Lemma table_inj t s a s' b : sound_table t -> In (s, a) t -> In (s', b) t -> (s = s' <-> a = b).
Proof.
  intros [K [V _]] I1 I2. split.
  - intros <-. assert (E1 := find_in t s a K I1). assert (E2 := find_in t s b K I2). congruence.
  - intros <-. clear K. induction t as [|[k w] t IH]; [destruct I1|]. simpl in V. inversion V as [|? ? N1 N2]; subst.
    destruct I1 as [I1|I1], I2 as [I2|I2].
    + congruence.
    + injection I1 as -> ->. exfalso. apply N1. change a with (snd (s', a)). apply in_map, I2.
    + injection I2 as -> ->. exfalso. apply N1. change a with (snd (s, a)). apply in_map, I1.
    + auto.
Qed.

Lemma history_faithful m t h t' : sound_table t -> history m t h t' -> faithful h.
Proof.
  intros S H s a s' b I1 I2. destruct (history_table m t h t' S H) as [S' [_ C]].
  apply (table_inj t'); auto.
Qed.

Lemma sound_nil : sound_table [].
Proof. split; [constructor|]. split; [constructor|]. intros s v []. Qed.

(** ** Necessity *)

Definition long (n : nat) : bytes := repeat Ascii.zero n.

Lemma long_inj a b : long a = long b -> a = b.
Proof. intros H. apply (f_equal (@length _)) in H. unfold long in H. rewrite !repeat_length in H. exact H. Qed.

Lemma longest (t : id_table) : exists n, forall s v, In (s, v) t -> (length s < n)%nat.
Proof.
  induction t as [|[k w] t [n IH]]; [exists 0%nat; intros s v []|].
  exists (S (Nat.max n (length k))). intros s v [K|K]; [injection K as <- <-; lia|]. specialize (IH s v K). lia.
Qed.

(** [c] new strings. *)
Lemma fill m (t : id_table) n c : (forall s v, In (s, v) t -> (length s < n)%nat) ->
  Z.of_nat (length t + c) <= k_max_size m ->
  exists h t', history m t h t' /\ length t' = (length t + c)%nat /\ incl t t' /\
    (forall s v, In (s, v) t' -> (length s < n + c)%nat).
Proof.
  revert t n. induction c as [|c IH]; intros t n L K.
  - exists [], t. split; [constructor|]. rewrite !Nat.add_0_r. split; auto. split; [apply incl_refl|exact L].
  - assert (Nf : map_find str_eq (long n) t = None).
    { apply find_none. intros H. apply in_map_iff in H. destruct H as [[s v] [E I]]. simpl in E. subst s.
      specialize (L _ _ I). unfold long in L. rewrite repeat_length in L. lia. }
    assert (E : string_to_int m t (long n) = Ok (Z.of_nat (length t), t ++ [(long n, Z.of_nat (length t))])).
    { unfold string_to_int. rewrite Nf. destruct (Z.ltb_spec (Z.of_nat (length t)) (k_max_size m)); [reflexivity|lia]. }
    destruct (IH (t ++ [(long n, Z.of_nat (length t))]) (S n)) as [h [t' [H1 [H2 [H3 H4]]]]].
    + intros s v I. apply in_app_or in I. destruct I as [I|[I|[]]]; [specialize (L s v I); lia|].
      injection I as <- <-. unfold long. rewrite repeat_length. lia.
    + rewrite app_length. simpl. lia.
    + exists ((long n, Ok (Z.of_nat (length t))) :: h), t'. split; [econstructor; eauto|].
      rewrite app_length in H2. simpl in H2. split; [lia|]. split.
      * intros x I. apply H3, in_or_app. auto.
      * intros s v I. specialize (H4 s v I). lia.
Qed.

Lemma history_app m t h t' h' t'' : history m t h t' -> history m t' h' t'' -> history m t (h ++ h') t''.
Proof. intros H. induction H; intros K; simpl; [exact K| | |]; econstructor; eauto. Qed.

Lemma not_nodup_values (t : id_table) : NoDup (map fst t) -> (forall s a s' b, In (s, a) t -> In (s', b) t -> a = b -> s = s') ->
  NoDup (map snd t).
Proof.
  induction t as [|[k w] t IH]; intros N H; [constructor|]. simpl in *. inversion N as [|? ? N1 N2]; subst.
  constructor.
  - intros K. apply in_map_iff in K. destruct K as [[s v] [E I]]. simpl in E. subst v.
    apply N1. rewrite (H k w s w) by auto. change s with (fst (s, w)). apply in_map, I.
  - apply IH; auto. intros s a s' b I1 I2. apply H; auto.
Qed.

Lemma faithful_needs m t : 0 <= m < two64 - 1 -> NoDup (map fst t) -> (forall s v, In (s, v) t -> v <= m) ->
  (forall h t', history m t h t' -> faithful h) -> sound_table t.
Proof.
  intros M N B H.
  assert (Call : forall s v t0, NoDup (map fst t0) -> In (s, v) t0 -> string_to_int m t0 s = Ok (v, t0)).
  { intros s v t0 N0 I. unfold string_to_int. rewrite (find_in t0 s v N0 I). reflexivity. }
  split; [exact N|]. split.
  - apply not_nodup_values; [exact N|]. intros s a s' b I1 I2 E.
    assert (Q : history m t [(s, Ok a); (s', Ok b)] t).
    { econstructor; [apply Call; assumption|]. econstructor; [apply Call; assumption|constructor]. }
    apply (H _ _ Q s a s' b); simpl; auto.
  - intros s v I. apply Z.nle_gt. intros L. specialize (B s v I).
    destruct (longest t) as [n Ln].
    destruct (fill m t n (Z.to_nat v - length t)) as [h [t' [H1 [H2 [H3 H4]]]]]; [exact Ln|rewrite k_max_ok by exact M; lia|].
    assert (L' : Z.of_nat (length t') = v) by lia.
    set (x := long (n + (Z.to_nat v - length t))).
    assert (Nf : map_find str_eq x t' = None).
    { apply find_none. intros K. apply in_map_iff in K. destruct K as [[s' v'] [E K]]. simpl in E. subst s'.
      specialize (H4 _ _ K). unfold x, long in H4. rewrite repeat_length in H4. lia. }
    assert (E : string_to_int m t' x = Ok (v, t' ++ [(x, v)])).
    { unfold string_to_int. rewrite Nf, L', k_max_ok by exact M. destruct (Z.ltb_spec v (m + 1)); [reflexivity|lia]. }
    assert (Q : history m t ((s, Ok v) :: h ++ [(x, Ok v)]) (t' ++ [(x, v)])).
    { econstructor; [apply Call; assumption|]. eapply history_app; [exact H1|]. econstructor; [exact E|constructor]. }
    assert (S : s = x).
    { apply (H _ _ Q s v x v); [simpl; auto| |reflexivity]. right. apply in_or_app. simpl. auto. }
    specialize (Ln s v I). subst s. unfold x, long in Ln. rewrite repeat_length in Ln. lia.
Qed.

Lemma wrapped_capacity h t : history (two64 - 1) [] h t ->
  t = [] /\ forall s r, In (s, r) h -> r = Throw RangeError.
Proof.
  intros H. remember [] as t0 eqn:E0. revert E0.
  induction H as [t|t s v t' h t'' E H IH|t s e h t'' E H IH|t s h t'' E H IH]; intros ->.
  - split; [reflexivity|intros s r []].
  - vm_compute in E. discriminate.
  - destruct (IH eq_refl) as [A B]. split; [exact A|]. intros s0 r [K|K]; [|eauto].
    vm_compute in E. injection E as <-. injection K as <- <-. reflexivity.
  - vm_compute in E. discriminate.
Qed.

(** ** Events *)

(** The tables only grow. *)
Lemma event_table qf m t e e' t' : sound_table t -> event_to_int qf m t e = Ok (e', t') ->
  sound_table t' /\ incl t t' /\ In (ev_query e, ev_query e') t' /\ In (ev_loc e, ev_loc e') t'.
Proof.
  intros S. unfold event_to_int. destruct qf.
  - destruct (string_to_int m t (ev_query e)) as [[q t1]| |] eqn:E1; try discriminate. cbn [obind].
    destruct (string_to_int m t1 (ev_loc e)) as [[l t2]| |] eqn:E2; try discriminate. cbn [obind].
    intros K. injection K as <- <-. cbn [ev_query ev_loc].
    assert (S1 := call_sound _ _ _ _ _ S E1). destruct (call_table _ _ _ _ _ E1) as [A1 [B1 _]].
    assert (S2 := call_sound _ _ _ _ _ S1 E2). destruct (call_table _ _ _ _ _ E2) as [A2 [B2 _]].
    split; [exact S2|]. split; [eapply incl_tran; eauto|]. auto.
  - destruct (string_to_int m t (ev_loc e)) as [[q t1]| |] eqn:E1; try discriminate. cbn [obind].
    destruct (string_to_int m t1 (ev_query e)) as [[l t2]| |] eqn:E2; try discriminate. cbn [obind].
    intros K. injection K as <- <-. cbn [ev_query ev_loc].
    assert (S1 := call_sound _ _ _ _ _ S E1). destruct (call_table _ _ _ _ _ E1) as [A1 [B1 _]].
    assert (S2 := call_sound _ _ _ _ _ S1 E2). destruct (call_table _ _ _ _ _ E2) as [A2 [B2 _]].
    split; [exact S2|]. split; [eapply incl_tran; eauto|]. auto.
Qed.

Lemma events_table qf m t l l' t' : sound_table t -> mapped (event_to_int qf m) t l l' t' ->
  sound_table t' /\ incl t t' /\
  Forall2 (fun e e' => In (ev_query e, ev_query e') t' /\ In (ev_loc e, ev_loc e') t') l l'.
Proof.
  intros S H. induction H as [t|t e e' t1 l l' t2 E H IH].
  - split; auto. split; [apply incl_refl|constructor].
  - destruct (event_table _ _ _ _ _ _ S E) as [S1 [I1 [A B]]]. destruct (IH S1) as [S2 [I2 F]].
    split; [exact S2|]. split; [eapply incl_tran; eauto|]. constructor; auto.
Qed.

Lemma scored_table qf m t l l' t' : sound_table t -> mapped (scored_mapper (event_to_int qf m)) t l l' t' ->
  sound_table t' /\ incl t t' /\
  Forall2 (fun e e' => In (ev_query (sc_base e), ev_query (sc_base e')) t' /\
    In (ev_loc (sc_base e), ev_loc (sc_base e')) t' /\ sc_score e' = sc_score e) l l'.
Proof.
  intros S H. induction H as [t|t e e' t1 l l' t2 E H IH].
  - split; auto. split; [apply incl_refl|constructor].
  - unfold scored_mapper in E. destruct (event_to_int qf m t (sc_base e)) as [[b t1']| |] eqn:Eb; try discriminate.
    cbn [obind] in E. injection E as <- <-.
    destruct (event_table _ _ _ _ _ _ S Eb) as [S1 [I1 [A B]]]. destruct (IH S1) as [S2 [I2 F]].
    split; [exact S2|]. split; [eapply incl_tran; eauto|]. constructor; auto.
Qed.

(** The reading of references, then hypotheses, then strings, through one
    table. *)
Lemma shared_table m qf qf' t refs refs' t1 hyps hyps' t2 h t3 : sound_table t ->
  mapped (event_to_int qf m) t refs refs' t1 -> mapped (scored_mapper (event_to_int qf' m)) t1 hyps hyps' t2 ->
  history m t2 h t3 ->
  exists id : bytes -> Z -> Prop,
    (forall s a s' b, id s a -> id s' b -> (s = s' <-> a = b)) /\
    Forall2 (fun e e' => id (ev_query e) (ev_query e') /\ id (ev_loc e) (ev_loc e')) refs refs' /\
    Forall2 (fun e e' => id (ev_query (sc_base e)) (ev_query (sc_base e')) /\
      id (ev_loc (sc_base e)) (ev_loc (sc_base e')) /\ sc_score e' = sc_score e) hyps hyps' /\
    (forall s v, In (s, Ok v) h -> id s v).
Proof.
  intros S H1 H2 H3. destruct (events_table _ _ _ _ _ _ S H1) as [S1 [I1 F1]].
  destruct (scored_table _ _ _ _ _ _ S1 H2) as [S2 [I2 F2]]. destruct (history_table _ _ _ _ S2 H3) as [S3 [I3 F3]].
  exists (fun s v => In (s, v) t3). split; [intros; apply (table_inj t3); auto|].
  split; [|split; [|exact F3]].
  - clear - F1 I2 I3. induction F1 as [|e e' l l' [A B] F1 IH]; constructor; auto.
  - clear - F2 I3. induction F2 as [|e e' l l' [A [B C]] F2 IH]; constructor; auto.
Qed.

(** With enough ids left nothing is thrown. *)
Lemma call_total m t s : 0 <= m < two64 - 1 -> Z.of_nat (length t) <= m ->
  exists v t', string_to_int m t s = Ok (v, t') /\ (length t' <= length t + 1)%nat.
Proof.
  intros M L. unfold string_to_int. destruct (map_find str_eq s t) as [v|]; [eexists _, _; split; [reflexivity|lia]|].
  rewrite k_max_ok by exact M. destruct (Z.ltb_spec (Z.of_nat (length t)) (m + 1)); [|lia].
  eexists _, _. split; [reflexivity|]. rewrite app_length. simpl. lia.
Qed.

Lemma event_total qf m t e : 0 <= m < two64 - 1 -> Z.of_nat (length t + 2) <= m + 1 ->
  exists e' t', event_to_int qf m t e = Ok (e', t') /\ (length t' <= length t + 2)%nat.
Proof.
  intros M L. unfold event_to_int. destruct qf.
  - destruct (call_total m t (ev_query e) M) as [q [t1 [-> L1]]]; [lia|]. cbn [obind].
    destruct (call_total m t1 (ev_loc e) M) as [q' [t2 [-> L2]]]; [lia|]. cbn [obind].
    eexists _, _. split; [reflexivity|lia].
  - destruct (call_total m t (ev_loc e) M) as [q [t1 [-> L1]]]; [lia|]. cbn [obind].
    destruct (call_total m t1 (ev_query e) M) as [q' [t2 [-> L2]]]; [lia|]. cbn [obind].
    eexists _, _. split; [reflexivity|lia].
Qed.

Lemma events_total qf m l : 0 <= m < two64 - 1 -> forall t, Z.of_nat (length t + 2 * length l) <= m + 1 ->
  exists l' t', mapped (event_to_int qf m) t l l' t' /\ (length t' <= length t + 2 * length l)%nat.
Proof.
  intros M. induction l as [|e l IH]; intros t L.
  - exists [], t. split; [constructor|simpl; lia].
  - simpl length in L. destruct (event_total qf m t e M) as [e' [t1 [E L1]]]; [lia|].
    destruct (IH t1) as [l' [t2 [H L2]]]; [lia|]. exists (e' :: l'), t2. split; [econstructor; eauto|simpl length; lia].
Qed.

(** ** Ownership *)

Definition bare (o : mapper_obj) : list nat := if mo_own o then [mo_impl o] else [].

Lemma owned_app l l' n n' v v' : owned (OwnSt v n (l ++ l')) = owned (OwnSt v' n' l) ++ owned (OwnSt v' n' l').
Proof. unfold owned. simpl. apply flat_map_app. Qed.

Lemma find_obj_none (l : list (nat * mapper_obj)) x : ~ In x (map fst l) -> map_find Nat.eqb x l = None.
Proof.
  induction l as [|[k o] l IH]; simpl; [reflexivity|]. intros H. destruct (Nat.eqb_spec k x); [tauto|]. apply IH. tauto.
Qed.

Lemma find_obj_some (l : list (nat * mapper_obj)) x : In x (map fst l) ->
  exists a o b, map_find Nat.eqb x l = Some o /\ l = a ++ (x, o) :: b /\ ~ In x (map fst a).
Proof.
  induction l as [|[k o] l IH]; simpl; [tauto|]. intros H. destruct (Nat.eqb_spec k x) as [->|N].
  - exists [], o, l. simpl. auto.
  - destruct H as [H|H]; [congruence|]. destruct (IH H) as [a [o' [b [E [-> K]]]]].
    exists ((k, o) :: a), o', b. split; [exact E|]. split; [reflexivity|]. simpl. intuition.
Qed.

Lemma filter_out (a b : list (nat * mapper_obj)) x o : NoDup (map fst (a ++ (x, o) :: b)) ->
  filter (fun ko => negb (Nat.eqb (fst ko) x)) (a ++ (x, o) :: b) = a ++ b.
Proof.
  intros N. rewrite map_app in N. simpl in N. apply NoDup_remove in N. destruct N as [_ N]. rewrite <- map_app in N.
  assert (F : forall l, ~ In x (map fst l) -> filter (fun ko : nat * mapper_obj => negb (Nat.eqb (fst ko) x)) l = l).
  { induction l as [|[k p] l IH]; simpl; [reflexivity|]. intros H.
    destruct (Nat.eqb_spec k x); [tauto|]. simpl. rewrite IH by tauto. reflexivity. }
  rewrite map_app, in_app_iff in N. rewrite filter_app. simpl. rewrite Nat.eqb_refl. simpl.
  rewrite !F by tauto. reflexivity.
Qed.

Lemma filter_free l a : NoDup l -> In a l -> Permutation l (a :: filter (fun b => negb (Nat.eqb b a)) l).
Proof.
  intros N I. apply in_split in I. destruct I as [u [v ->]].
  assert (M := NoDup_remove_2 _ _ _ N). rewrite in_app_iff in M.
  assert (F : forall l, ~ In a l -> filter (fun b => negb (Nat.eqb b a)) l = l).
  { induction l as [|k l IH]; simpl; [reflexivity|]. intros H. destruct (Nat.eqb_spec k a); [tauto|]. simpl. rewrite IH by tauto. reflexivity. }
  rewrite filter_app. simpl. rewrite Nat.eqb_refl. simpl. rewrite !F by tauto.
  symmetry. apply Permutation_middle.
Qed.

Record inv (mine : list nat) (s : own_st) : Prop := {
  i_live : Permutation (ow_live s) (mine ++ owned s);
  i_nodup : NoDup (ow_live s);
  i_names : NoDup (map fst (ow_objs s));
  i_fresh : forall a, In a (ow_live s) -> (a < ow_next s)%nat
}.

Lemma names_app x (s : list (nat * mapper_obj)) o : ~ In x (map fst s) -> NoDup (map fst s) -> NoDup (map fst (s ++ [(x, o)])).
Proof.
  intros H N. rewrite map_app. simpl. apply (Permutation_NoDup (Permutation_cons_append _ _)). constructor; assumption.
Qed.

Lemma proper_runs mine s op mine' : inv mine s -> proper mine s op mine' ->
  exists s', own_step s op = Ok s' /\ inv mine' s'.
Proof.
  intros [P N Nn Fr] H.
  assert (NewLive : NoDup (ow_next s :: ow_live s)).
  { constructor; [|exact N]. intros K. apply Fr in K. lia. }
  assert (NewFresh : forall a, In a (ow_next s :: ow_live s) -> (a < S (ow_next s))%nat).
  { intros a [<-|K]; [lia|]. specialize (Fr a K). lia. }
  inversion H as [m1 s1 x Hx|m1 s1|m1 s1 x a Hx|m1 s1 x a l r Hx E|m1 s1 x y Hx Hy|m1 s1 x o Hx Hl|m1 s1 x Hx]; subst; cbn [own_step].
  - rewrite find_obj_none by exact Hx. eexists. split; [reflexivity|].
    constructor; simpl; auto using names_app. rewrite (owned_app _ _ _ (ow_next s) _ (ow_live s)). destruct s as [lv nx ob]; simpl in *. unfold owned at 2. simpl.
    rewrite app_assoc. eapply Permutation_trans; [|apply Permutation_cons_append]. apply perm_skip, P.
  - eexists. split; [reflexivity|]. constructor; simpl; auto.
  - rewrite find_obj_none by exact Hx. eexists. split; [reflexivity|].
    constructor; simpl; auto using names_app. rewrite (owned_app _ _ _ (ow_next s) _ (ow_live s)). destruct s as [lv nx ob]; simpl in *. unfold owned at 2. simpl.
    rewrite app_nil_r. exact P.
  - rewrite find_obj_none by exact Hx. eexists. split; [reflexivity|].
    constructor; simpl; auto using names_app. rewrite (owned_app _ _ _ (ow_next s) _ (ow_live s)). destruct s as [lv nx ob]; simpl in *. unfold owned at 2. simpl.
    eapply Permutation_trans; [exact P|]. rewrite app_assoc.
    eapply Permutation_trans; [|apply Permutation_cons_append].
    rewrite <- app_assoc. simpl. symmetry. rewrite <- app_assoc. apply Permutation_middle.
  - rewrite find_obj_none by exact Hx. destruct (find_obj_some _ _ Hy) as [a [o [b [-> _]]]]. eexists. split; [reflexivity|].
    constructor; simpl; auto using names_app. rewrite (owned_app _ _ _ (ow_next s) _ (ow_live s)). destruct s as [lv nx ob]; simpl in *. unfold owned at 2. simpl.
    rewrite app_nil_r. exact P.
  - assert (Hn : In x (map fst (ow_objs s))) by (change x with (fst (x, o)); apply in_map, Hx).
    destruct (find_obj_some _ _ Hn) as [a [o' [b [-> [E K]]]]].
    assert (o' = o).
    { rewrite E in Hx, Nn. rewrite map_app in Nn. simpl in Nn. apply NoDup_remove in Nn. destruct Nn as [_ Nn].
      apply in_app_or in Hx. destruct Hx as [Hx|[Hx|Hx]]; [|congruence|].
      - exfalso. apply K. change x with (fst (x, o)). apply in_map, Hx.
      - exfalso. apply Nn, in_or_app. right. change x with (fst (x, o)). apply in_map, Hx. }
    subst o'. replace (existsb (Nat.eqb (mo_impl o)) (ow_live s)) with true.
    + eexists. split; [reflexivity|]. constructor; auto.
    + symmetry. apply existsb_exists. exists (mo_impl o). split; [exact Hl|apply Nat.eqb_refl].
  - destruct (find_obj_some _ _ Hx) as [a [o [b [-> [E K]]]]].
    assert (Ff := filter_out a b x o). rewrite <- E in Ff. specialize (Ff Nn). rewrite Ff.
    assert (Nab : NoDup (map fst (a ++ b))).
    { rewrite E, map_app in Nn. simpl in Nn. apply NoDup_remove in Nn. rewrite map_app. apply Nn. }
    assert (Oo : owned s = owned (OwnSt (ow_live s) (ow_next s) a) ++ bare o ++ owned (OwnSt (ow_live s) (ow_next s) b)).
    { destruct s as [lv nx ob]. simpl in *. rewrite E. unfold owned. simpl. rewrite flat_map_app. simpl. reflexivity. }
    assert (Oab : forall lv, owned (OwnSt lv (ow_next s) (a ++ b)) =
       owned (OwnSt (ow_live s) (ow_next s) a) ++ owned (OwnSt (ow_live s) (ow_next s) b)).
    { intros lv. rewrite (owned_app _ _ _ (ow_next s) _ (ow_live s)). reflexivity. }
    unfold bare in Oo. destruct (mo_own o).
    + assert (Il : In (mo_impl o) (ow_live s)).
      { apply (Permutation_in _ (Permutation_sym P)). apply in_or_app. right. rewrite Oo. apply in_or_app. right. simpl. auto. }
      unfold own_free. replace (existsb (Nat.eqb (mo_impl o)) (ow_live s)) with true
        by (symmetry; apply existsb_exists; exists (mo_impl o); split; [exact Il|apply Nat.eqb_refl]).
      cbn [obind ow_live ow_next ow_objs]. eexists. split; [reflexivity|].
      constructor; simpl; auto.
      * rewrite Oab. apply Permutation_cons_inv with (a := mo_impl o).
        eapply Permutation_trans; [symmetry; apply filter_free; assumption|].
        eapply Permutation_trans; [exact P|]. rewrite Oo. simpl.
        rewrite !app_assoc. symmetry. apply Permutation_middle.
      * apply NoDup_filter, N.
      * intros c Kc. apply filter_In in Kc. apply Fr, Kc.
    + eexists. split; [reflexivity|]. constructor; simpl; auto.
      rewrite Oab. rewrite Oo in P. simpl in P. exact P.
Qed.

Lemma tidy_inv mine s : tidy mine s -> inv mine s.
Proof.
  intros H. induction H as [|mine s op mine' s' H IH Hp E].
  - constructor; simpl; auto; try constructor. intros a [].
  - destruct (proper_runs _ _ _ _ IH Hp) as [s2 [E2 I]]. rewrite E in E2. injection E2 as ->. exact I.
Qed.

Lemma tidy_runs mine s op mine' : tidy mine s -> proper mine s op mine' -> exists s', own_step s op = Ok s'.
Proof. intros H Hp. destruct (proper_runs _ _ _ _ (tidy_inv _ _ H) Hp) as [s' [E _]]. eauto. Qed.

Lemma tidy_live mine s : tidy mine s -> NoDup (ow_live s) /\ Permutation (ow_live s) (mine ++ owned s).
Proof. intros H. destruct (tidy_inv _ _ H). auto. Qed.

Lemma tidy_end mine s : tidy mine s -> ow_objs s = [] -> Permutation (ow_live s) mine.
Proof.
  intros H E. destruct (tidy_live _ _ H) as [_ P]. unfold owned in P. rewrite E in P. simpl in P. rewrite app_nil_r in P. exact P.
Qed.

Lemma find_filter (l : list (nat * mapper_obj)) x y :
  map_find Nat.eqb y (filter (fun ko => negb (Nat.eqb (fst ko) x)) l) =
  if Nat.eqb x y then None else map_find Nat.eqb y l.
Proof.
  induction l as [|[k o] l IH]; simpl; [destruct (Nat.eqb x y); reflexivity|].
  destruct (Nat.eqb_spec k x) as [->|N]; simpl.
  - rewrite IH. destruct (Nat.eqb x y) eqn:E; [reflexivity|]. reflexivity.
  - rewrite IH. destruct (Nat.eqb_spec k y) as [->|N'].
    + destruct (Nat.eqb_spec x y); [congruence|reflexivity].
    + reflexivity.
Qed.

Lemma existsb_true a l : In a l -> existsb (Nat.eqb a) l = true.
Proof. intros H. apply existsb_exists. exists a. split; [exact H|apply Nat.eqb_refl]. Qed.

Lemma existsb_gone a l : existsb (Nat.eqb a) (filter (fun b => negb (Nat.eqb b a)) l) = false.
Proof.
  apply not_true_is_false. intros H. apply existsb_exists in H. destruct H as [b [H E]].
  apply Nat.eqb_eq in E. subst b. apply filter_In in H. destruct H as [_ H]. rewrite Nat.eqb_refl in H. discriminate.
Qed.

Lemma find_in_obj (l : list (nat * mapper_obj)) x o : NoDup (map fst l) -> In (x, o) l -> map_find Nat.eqb x l = Some o.
Proof.
  induction l as [|[k p] l IH]; simpl; [tauto|]. intros N K. inversion N as [|? ? N1 N2]; subst.
  destruct K as [K|K].
  - injection K as -> ->. rewrite Nat.eqb_refl. reflexivity.
  - destruct (Nat.eqb_spec k x) as [->|]; [|auto]. exfalso. apply N1. change x with (fst (x, o)). apply in_map, K.
Qed.

Lemma owned_in s x a : In (x, MapperObj a true) (ow_objs s) -> In a (owned s).
Proof. intros H. unfold owned. apply in_flat_map. exists (x, MapperObj a true). split; [exact H|simpl; auto]. Qed.

Lemma owned_once s x y a : NoDup (owned s) -> In (x, MapperObj a true) (ow_objs s) -> In (y, MapperObj a true) (ow_objs s) ->
  NoDup (map fst (ow_objs s)) -> x = y.
Proof.
  unfold owned. induction (ow_objs s) as [|[k o] l IH]; simpl; [tauto|]. intros N Hx Hy Nn. inversion Nn as [|? ? N1 N2]; subst.
  assert (Q : forall z, In (z, MapperObj a true) l ->
     In a (flat_map (fun xo : nat * mapper_obj => if mo_own (snd xo) then [mo_impl (snd xo)] else []) l)).
  { intros z K. apply in_flat_map. exists (z, MapperObj a true). split; [exact K|simpl; auto]. }
  destruct Hx as [Hx|Hx], Hy as [Hy|Hy].
  - congruence.
  - injection Hx as -> ->. simpl in N. inversion N as [|? ? M1 M2]; subst. exfalso. eauto.
  - injection Hy as -> ->. simpl in N. inversion N as [|? ? M1 M2]; subst. exfalso. eauto.
  - apply IH; auto. destruct (mo_own o); simpl in N; [inversion N; assumption|exact N].
Qed.

Lemma assign_breaks mine s x y a b : tidy mine s -> x <> y ->
  In (x, MapperObj a true) (ow_objs s) -> In (y, MapperObj b true) (ow_objs s) ->
  exists s1 s2, own_step s (OpAssign x y) = Ok s1 /\
    In a (ow_live s1) /\ ~ In a mine /\ ~ In a (owned s1) /\
    own_step s1 (OpDestroy x) = Ok s2 /\ own_step s2 (OpDestroy y) = UB.
Proof.
  intros Ht Ne Hx Hy. destruct (tidy_inv _ _ Ht) as [P N Nn Fr].
  assert (Fx := find_in_obj _ _ _ Nn Hx). assert (Fy := find_in_obj _ _ _ Nn Hy).
  assert (Nl : NoDup (mine ++ owned s)) by (eapply Permutation_NoDup; eauto).
  assert (Nm : NoDup (owned s)) by (clear - Nl; induction mine as [|m l IH]; [exact Nl|inversion Nl; auto]).
  assert (Ab : a <> b) by (intros <-; apply Ne; eapply owned_once; eauto).
  assert (La : In a (ow_live s)).
  { apply (Permutation_in _ (Permutation_sym P)), in_or_app. right. eapply owned_in; eauto. }
  assert (Lb : In b (ow_live s)).
  { apply (Permutation_in _ (Permutation_sym P)), in_or_app. right. eapply owned_in; eauto. }
  set (s1 := OwnSt (ow_live s) (ow_next s) (map_set Nat.eqb x (MapperObj b true) (ow_objs s))).
  assert (E1 : own_step s (OpAssign x y) = Ok s1) by (unfold own_step; rewrite Fx, Fy; reflexivity).
  assert (G1 : forall z, map_find Nat.eqb z (ow_objs s1) = if Nat.eqb x z then Some (MapperObj b true) else map_find Nat.eqb z (ow_objs s)).
  { intros z. unfold s1. simpl. apply (map_find_set Nat.eqb Nat.eqb_eq). }
  eexists s1, _. split; [exact E1|]. split; [exact La|]. split; [|split; [|split]].
  - intros K. apply in_split in K. destruct K as [u [v ->]]. rewrite <- app_assoc in Nl. simpl in Nl.
    apply NoDup_remove_2 in Nl. apply Nl, in_or_app. right. apply in_or_app. right. eapply owned_in; eauto.
  - unfold owned, s1. simpl. intros K. apply in_flat_map in K. destruct K as [[z o] [K1 K2]]. simpl in K2.
    destruct (mo_own o) eqn:Eo; [|destruct K2]. destruct K2 as [K2|[]].
    assert (Q : In (z, o) (ow_objs s) /\ z <> x \/ (z = x /\ o = MapperObj b true)).
    { clear - K1 Nn Hx. induction (ow_objs s) as [|[k p] l IH]; [destruct Hx|]. simpl in *. inversion Nn as [|? ? N1 N2]; subst.
      destruct (Nat.eqb_spec k x) as [->|Nk].
      - destruct K1 as [K1|K1]; [injection K1 as <- <-; auto|]. left. split; [auto|].
        intros ->. apply N1. change x with (fst (x, o)). apply in_map, K1.
      - destruct K1 as [K1|K1]; [injection K1 as -> ->; left; auto|].
        destruct Hx as [Hx|Hx]; [injection Hx as -> _; congruence|]. destruct (IH Hx N2 K1) as [[A B]|A]; auto. }
    destruct Q as [[Q1 Q2]|[-> ->]]; [|simpl in K2; congruence].
    destruct o as [oa oo]. simpl in *. subst. apply Q2. eapply owned_once; eauto.
  - unfold own_step. rewrite G1, Nat.eqb_refl. simpl mo_own. cbv iota. unfold own_free. simpl mo_impl.
    change (ow_live s1) with (ow_live s). rewrite (existsb_true b _ Lb). cbn [obind]. reflexivity.
  - unfold own_step. cbn [ow_objs ow_live ow_next]. rewrite find_filter.
    destruct (Nat.eqb_spec x y); [congruence|]. rewrite G1. destruct (Nat.eqb_spec x y); [congruence|]. rewrite Fy.
    simpl mo_own. cbv iota. unfold own_free. simpl mo_impl. cbn [ow_live]. rewrite existsb_gone. reflexivity.
Qed.

Lemma copy_dangles mine s x y a : tidy mine s -> ~ In x (map fst (ow_objs s)) ->
  In (y, MapperObj a true) (ow_objs s) ->
  exists s1 s2, own_step s (OpCopy x y) = Ok s1 /\ own_step s1 (OpDestroy y) = Ok s2 /\
    tidy mine s2 /\ own_step s2 (OpUse x) = UB.
Proof.
  intros Ht Hx Hy. destruct (tidy_inv _ _ Ht) as [P N Nn Fr].
  assert (Hyn : In y (map fst (ow_objs s))) by (change y with (fst (y, MapperObj a true)); apply in_map, Hy).
  assert (Ne : x <> y) by (intros ->; tauto).
  assert (Fx := find_obj_none _ _ Hx). assert (Fy := find_in_obj _ _ _ Nn Hy).
  assert (La : In a (ow_live s)).
  { apply (Permutation_in _ (Permutation_sym P)), in_or_app. right. eapply owned_in; eauto. }
  set (s1 := OwnSt (ow_live s) (ow_next s) (ow_objs s ++ [(x, MapperObj a false)])).
  assert (E1 : own_step s (OpCopy x y) = Ok s1) by (unfold own_step; rewrite Fx, Fy; reflexivity).
  assert (T1 : tidy mine s1) by (eapply ti_step; [exact Ht|apply pr_copy; eauto|exact E1]).
  assert (G1 : map_find Nat.eqb y (ow_objs s1) = Some (MapperObj a true)).
  { unfold s1. simpl. rewrite map_find_app, Fy. reflexivity. }
  set (s2 := OwnSt (filter (fun b => negb (Nat.eqb b a)) (ow_live s)) (ow_next s)
     (filter (fun ko => negb (Nat.eqb (fst ko) y)) (ow_objs s1))).
  assert (E2 : own_step s1 (OpDestroy y) = Ok s2).
  { unfold own_step. rewrite G1. simpl mo_own. cbv iota. unfold own_free. simpl mo_impl.
    change (ow_live s1) with (ow_live s). rewrite (existsb_true a _ La). reflexivity. }
  exists s1, s2. split; [exact E1|]. split; [exact E2|]. split.
  - eapply ti_step; [exact T1| |exact E2]. apply pr_destroy. unfold s1. simpl. rewrite map_app, in_app_iff. auto.
  - unfold own_step. unfold s2 at 1. cbn [ow_objs]. rewrite find_filter. destruct (Nat.eqb_spec y x); [congruence|].
    unfold s1. cbn [ow_objs]. rewrite map_find_app, Fx. simpl map_find. rewrite Nat.eqb_refl.
    simpl mo_impl. unfold s2. cbn [ow_live]. rewrite existsb_gone. reflexivity.
Qed.
