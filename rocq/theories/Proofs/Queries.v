(** Words, lines and the files that select queries. *)
From Coq Require Import Ascii String List Bool ZArith Lia.
From Flocq Require Import BinarySingleNaN.
From Verif.Model Require Import Cpp Floats Events Matches Stream Options Tool.
From Verif.Spec Require Import Order Matching Grouping Reader Tool.
From Verif.Proofs Require Import Reader.
From Verif.Proofs Require Grouping.
Import ListNotations.

(** ** Words *)

Lemma read_string_word old i x r : white i -> word x -> head_not (fun c => ~ white_char c) r ->
  read_string old (open_stream (i ++ x ++ r)) = (x, done r).
Proof.
  intros W [NE Fx] H. unfold read_string. rewrite sentry_comp.
  - simpl. rewrite (span_nonspace_app x r Fx H). unfold done, nilb. now destruct x, r.
  - exact W.
  - now destruct x.
  - destruct Fx as [|c x Hc Fx]; [easy|]. now apply head_not_cons.
Qed.

Lemma read_string_white old i : white i -> is_fail (snd (read_string old (open_stream i))) = true.
Proof.
  intros W. unfold read_string. unfold sentry, is_good. simpl. now rewrite (skip_ws_white i W).
Qed.

Lemma white_head r : (forall c t, r = c :: t -> white_char c) <-> head_not (fun c => ~ white_char c) r.
Proof.
  split.
  - intros H c t E K. exact (K (H c t E)).
  - intros H c t E. destruct (white_char_dec c) as [W|W]; [exact W|]. now destruct (H c t E).
Qed.

Lemma words_nil ws : words [] ws -> ws = [].
Proof.
  remember [] as b eqn:E. intros H. destruct H as [b W|i x r ws W [X _] N H]; [reflexivity|].
  destruct i, x; try discriminate. easy.
Qed.

Lemma read_words_ok b ws : words b ws -> forall fuel old, (List.length b < fuel)%nat ->
  read_words fuel old (open_stream b) = Ok ws.
Proof.
  intros H. induction H as [b W|i x r ws W X N H IH]; intros fuel old L.
  - destruct fuel as [|fuel]; [lia|]. simpl.
    pose proof (read_string_white old b W) as K. destruct (read_string old (open_stream b)) as [v s]. simpl in K.
    now rewrite K.
  - destruct fuel as [|fuel]; [lia|]. simpl. rewrite read_string_word; [|exact W|exact X|now apply white_head].
    simpl is_fail. cbv iota.
    rewrite !app_length in L. destruct X as [X1 X2]. destruct x as [|c x]; [easy|]. simpl in L.
    destruct r as [|d r].
    + destruct fuel as [|fuel]; [lia|]. now rewrite (words_nil ws H).
    + change (done (d :: r)) with (open_stream (d :: r)). rewrite IH; [reflexivity|]. simpl in *. lia.
Qed.

Lemma words_of_ok b ws : words b ws -> words_of b = Ok ws.
Proof. intros H. unfold words_of. apply (read_words_ok b ws H). lia. Qed.

Lemma words_exists b : exists ws, words b ws.
Proof.
  remember (List.length b) as n eqn:E. assert (L : (List.length b <= n)%nat) by lia. clear E. revert b L.
  induction n as [|n IH]; intros b L.
  - destruct b; [|simpl in L; lia]. exists []. constructor. constructor.
  - destruct (skip_ws_split b) as (i & E & W & H). set (s := skip_ws b) in *. clearbody s. subst b.
    pose proof (span_nonspace_split s) as K. destruct (span_nonspace s) as [x r].
    destruct K as (-> & Fx & Hr). destruct x as [|c x].
    + simpl in *. destruct r as [|d r].
      * exists []. rewrite app_nil_r. now constructor.
      * exfalso. apply (Hr d r eq_refl). apply (H d r eq_refl).
    + destruct (IH r) as [ws Hw].
      * rewrite !app_length in L. simpl in L. lia.
      * exists ((c :: x) :: ws). constructor; [exact W|split; [easy|exact Fx]|now apply white_head|exact Hw].
Qed.

Lemma words_fun b ws ws' : words b ws -> words b ws' -> ws = ws'.
Proof. intros H K. apply words_of_ok in H, K. congruence. Qed.

Lemma words_word b ws : words b ws -> Forall word ws.
Proof. induction 1; constructor; assumption. Qed.

Lemma words_forall ls : exists fs, Forall2 words ls fs.
Proof.
  induction ls as [|l ls [fs H]]; [exists []; constructor|]. destruct (words_exists l) as [ws K].
  exists (ws :: fs). now constructor.
Qed.

Lemma words_forall_fun ls fs fs' : Forall2 words ls fs -> Forall2 words ls fs' -> fs = fs'.
Proof.
  intros H. revert fs'. induction H as [|l f ls fs A H IH]; intros fs' K; inversion K; subst; [reflexivity|].
  f_equal; [eapply words_fun; eassumption|now apply IH].
Qed.

(** ** Lines *)

Lemma read_lines_end fuel old : read_lines (S fuel) old (IStream [] true false) = Ok [].
Proof. reflexivity. Qed.

Lemma read_lines_S fuel old is : read_lines (S fuel) old is =
  let (x, is1) := getline nl old is in
  if is_fail is1 then Ok []
  else obind (read_lines fuel x is1) (fun rest => Ok (x :: rest)).
Proof. reflexivity. Qed.

Lemma read_lines_ok b ls : file_lines b ls -> forall fuel old, (List.length b + 1 < fuel)%nat ->
  read_lines fuel old (open_stream b) = Ok ls.
Proof.
  intros H. induction H as [|l NE N|l b ls N H IH]; intros fuel old L.
  - destruct fuel; [lia|]. reflexivity.
  - destruct fuel as [|[|fuel]]; [lia|simpl in L; lia|]. rewrite read_lines_S.
    rewrite (getline_last old l NE N). cbv iota beta. simpl is_fail. cbv iota.
    now rewrite read_lines_end.
  - destruct fuel as [|fuel]; [lia|]. rewrite app_length in L. simpl in L. rewrite read_lines_S.
    change (ascii_of_N 10) with nl. rewrite (getline_line old l b N). cbv iota beta. simpl is_fail. cbv iota.
    rewrite IH by lia. reflexivity.
Qed.

Lemma lines_of_ok b ls : file_lines b ls -> lines_of b = Ok ls.
Proof. intros H. unfold lines_of. apply (read_lines_ok b ls H). lia. Qed.

(** ** Mapping *)

Lemma map_words_all {Q St} (mq : St -> bytes -> outcome (Q * St)) ws : forall st,
  map_words mq st ws = map_all mq st ws.
Proof.
  induction ws as [|x ws IH]; intros st; [reflexivity|]. simpl.
  destruct (mq st x) as [[q st1]| |e]; try reflexivity. simpl. rewrite IH.
  now destruct (map_all mq st1 ws) as [[qs st2]| |e].
Qed.

(** ** Maps *)

Section Maps.
  Context {Q : Type} (cq : Cmp Q) (Hq : total_order cq).

  Lemma map_set_in (q g q' g' : Q) m : NoDup (map fst m) ->
    (In (q', g') (map_set (c_eq cq) q g m) <-> (q' = q /\ g' = g) \/ (q' <> q /\ In (q', g') m)).
  Proof.
    induction m as [|[k v] m IH]; intros ND; simpl.
    - split; [intros [E|[]]; injection E; auto|intros [[-> ->]|[_ []]]; auto].
    - inversion ND as [|? ? NI ND']; subst. destruct (c_eq cq k q) eqn:E.
      + apply (to_eq _ Hq) in E. subst k. simpl. split.
        * intros [K|K]; [injection K; auto|]. right. split; [|auto]. intros ->. apply NI.
          apply (in_map fst) in K. exact K.
        * intros [[-> ->]|[N [K|K]]]; auto. injection K; congruence.
      + assert (k <> q) by (intros ->; rewrite (proj2 (to_eq _ Hq q q) eq_refl) in E; discriminate).
        simpl. rewrite (IH ND'). split.
        * intros [K|[K|[N K]]]; auto. injection K as <- <-. auto.
        * intros [K|[N [K|K]]]; auto.
  Qed.

  Lemma map_set_keys (q g : Q) m k : In k (map fst (map_set (c_eq cq) q g m)) <-> k = q \/ In k (map fst m).
  Proof.
    induction m as [|[k' v] m IH]; simpl.
    - intuition.
    - destruct (c_eq cq k' q) eqn:E; simpl.
      + apply (to_eq _ Hq) in E. subst k'. intuition.
      + rewrite IH. intuition.
  Qed.

  Lemma map_set_nodup (q g : Q) m : NoDup (map fst m) -> NoDup (map fst (map_set (c_eq cq) q g m)).
  Proof.
    induction m as [|[k v] m IH]; intros ND; simpl.
    - constructor; [intros []|constructor].
    - inversion ND as [|? ? NI ND']; subst. destruct (c_eq cq k q) eqn:E; simpl.
      + constructor; assumption.
      + constructor; [|auto]. rewrite map_set_keys. intros [->|K]; [|contradiction].
        rewrite (proj2 (to_eq _ Hq q q) eq_refl) in E. discriminate.
  Qed.

  (** The map holds what the file says. *)
  Definition holds (m : list (Q * Q)) (f : query_file Q) : Prop :=
    NoDup (map fst m) /\ forall q g, In (q, g) m <-> assigns f q g.

  Lemma holds_none : holds [] NoQueries.
  Proof. split; [constructor|]. simpl. tauto. Qed.

  Lemma holds_set qs : holds (fold_left (fun m q => map_set (c_eq cq) q q m) qs []) (QuerySet qs).
  Proof.
    induction qs as [|q qs IH] using rev_ind.
    - split; [constructor|]. simpl. tauto.
    - rewrite fold_left_app. simpl. destruct IH as [ND H]. split; [now apply map_set_nodup|].
      intros q' g. rewrite map_set_in by exact ND. rewrite H. simpl. rewrite in_app_iff. simpl.
      split; [intros [[-> ->]|[N [K ->]]]; auto|].
      intros [[K|[<-|[]]] ->]; [|auto].
      destruct (c_eq cq q' q) eqn:E; [apply (to_eq _ Hq) in E; auto|]. right. split; [|auto].
      intros ->. rewrite (proj2 (to_eq _ Hq q q) eq_refl) in E. discriminate.
  Qed.

  Lemma add_line (g0 : Q) qs m : NoDup (map fst m) ->
    NoDup (map fst (fold_left (fun m q => map_set (c_eq cq) q g0 m) qs m)) /\
    forall q g, In (q, g) (fold_left (fun m q => map_set (c_eq cq) q g0 m) qs m) <->
      (In q qs /\ g = g0) \/ (~ In q qs /\ In (q, g) m).
  Proof.
    intros ND. induction qs as [|q qs IH] using rev_ind.
    - split; [exact ND|]. intros q g. simpl. tauto.
    - rewrite fold_left_app. simpl. destruct IH as [ND' H]. split; [now apply map_set_nodup|].
      intros q' g. rewrite map_set_in by exact ND'. rewrite H, in_app_iff. simpl.
      split.
      + intros [[-> ->]|[N [[K ->]|[K L]]]]; auto. right. split; [|exact L]. intros [K'|[->|[]]]; auto.
      + assert (D : q' = q \/ q' <> q).
        { destruct (c_eq cq q' q) eqn:E; [left; now apply (to_eq _ Hq)|]. right. intros ->.
          rewrite (proj2 (to_eq _ Hq q q) eq_refl) in E. discriminate. }
        intros [[[K|[<-|[]]] ->]|[N K]]; [destruct D; auto|auto|]. right.
        split; [intros ->; apply N; auto|]. right. split; [tauto|exact K].
  Qed.

  Lemma assigns_snoc ls (g0 : Q) qs q g : assigns (QueryGroups (ls ++ [g0 :: qs])) q g <->
    (In q qs /\ g = g0) \/ (~ In q qs /\ assigns (QueryGroups ls) q g).
  Proof.
    simpl. split.
    - intros (l1 & qs' & l2 & E & I & N).
      destruct l2 as [|x l2 _] using rev_ind.
      + apply app_inj_tail in E. destruct E as [-> E]. injection E as -> ->. auto.
      + right. rewrite app_comm_cons, app_assoc in E. apply app_inj_tail in E. destruct E as [-> <-].
        split.
        * intros K. apply (N g0 qs); [apply in_or_app; right; simpl; auto|exact K].
        * exists l1, qs', l2. repeat split; auto. intros g' qs'' K. apply (N g' qs''). apply in_or_app; auto.
    - intros [[I ->]|[N (l1 & qs' & l2 & -> & I & N')]].
      + exists ls, qs, []. repeat split; auto.
      + exists l1, qs', (l2 ++ [g0 :: qs]). rewrite <- app_assoc. repeat split; auto.
        intros g' qs'' K. apply in_app_or in K. destruct K as [K|[E|[]]]; [now apply (N' g')|].
        injection E as <- <-. exact N.
  Qed.

  Lemma holds_groups ls : (forall l, In l ls -> (2 <= List.length l)%nat) ->
    holds (fold_left (fun m l => add_group cq l m) ls []) (QueryGroups ls).
  Proof.
    induction ls as [|l ls IH] using rev_ind; intros H.
    - split; [constructor|]. simpl. intros q g. split; [easy|].
      intros (l1 & qs & l2 & E & _). now destruct l1.
    - rewrite fold_left_app. destruct IH as [ND K]; [intros; apply H; apply in_or_app; auto|].
      assert (L : (2 <= List.length l)%nat) by (apply H; apply in_or_app; right; simpl; auto).
      destruct l as [|g0 qs]; [simpl in L; lia|]. cbn [fold_left add_group].
      destruct (add_line g0 qs _ ND) as [ND' K']. split; [exact ND'|].
      intros q g. rewrite assigns_snoc, K'. rewrite K. reflexivity.
  Qed.

  (** ** Selection *)

  Lemma map_find_holds m f q : holds m f ->
    match map_find (c_eq cq) q m with
    | Some g => assigns f q g
    | None => forall g, ~ assigns f q g
    end.
  Proof.
    intros [ND H]. destruct (map_find (c_eq cq) q m) as [g|] eqn:E.
    - apply H. clear H ND. induction m as [|[k v] m IH]; simpl in E; [discriminate|].
      destruct (c_eq cq k q) eqn:K; [|right; auto]. left. apply (to_eq _ Hq) in K. congruence.
    - intros g. rewrite <- H. clear H ND. induction m as [|[k v] m IH]; simpl in *; [auto|].
      destruct (c_eq cq k q) eqn:K; [discriminate|]. intros [L|L]; [|now apply IH].
      injection L as -> ->. rewrite (proj2 (to_eq _ Hq q q) eq_refl) in K. discriminate.
  Qed.

  Lemma holds_nil m f : holds m f -> (m = [] <-> forall q g, ~ assigns f q g).
  Proof.
    intros [ND H]. split.
    - intros -> q g K. now apply H in K.
    - intros K. destruct m as [|[q g] m]; [reflexivity|]. destruct (K q g). apply H. simpl; auto.
  Qed.

  Lemma selects_filter {X} (P : X -> Prop) (b : X -> bool) l : (forall x, In x l -> b x = true <-> P x) ->
    selects P l (filter b l).
  Proof.
    induction l as [|x l IH]; intros H; simpl; [constructor|].
    assert (K : selects P l (filter b l)) by (apply IH; intros; apply H; simpl; auto).
    pose proof (H x (or_introl eq_refl)) as E. destruct (b x).
    - apply sel_yes; [now apply E|exact K].
    - apply sel_no; [intros C; apply E in C; discriminate|exact K].
  Qed.

  Lemma selects_all {X} (P : X -> Prop) l : (forall x, In x l -> P x) -> selects P l l.
  Proof. induction l; intros H; constructor; simpl in *; auto. Qed.

  Lemma selects_fun {X} (P : X -> Prop) l s s' : selects P l s -> selects P l s' -> s = s'.
  Proof.
    intros H. revert s'. induction H as [|x l s A H IH|x l s A H IH]; intros s' K; inversion K; subst; try contradiction; auto.
    f_equal. auto.
  Qed.

  Lemma filter_events_ok {X} (query : X -> Q) m f l : holds m f -> m <> [] ->
    selects (fun e => kept f (query e)) l (filter_events cq query m l).
  Proof.
    intros H NE. apply selects_filter. intros x _. pose proof (map_find_holds m f (query x) H) as K.
    destruct (map_find (c_eq cq) (query x) m) as [g|].
    - split; [intros _; left; eauto|reflexivity].
    - split; [discriminate|]. intros [[g G]|G]; [now apply K in G|].
      apply (holds_nil m f H) in G. contradiction.
  Qed.

  Lemma group_is_holds m f q g : holds m f -> (in_group m q g <-> group_is f q g).
  Proof.
    intros [ND H]. unfold in_group, group_is. rewrite H. split; intros [K|[K E]]; auto; right; split; auto; intros g' L;
      apply (K g'); now apply H.
  Qed.
End Maps.
