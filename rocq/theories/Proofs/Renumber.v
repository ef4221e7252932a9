(** The ids of strings that occur in no reference do not matter. *)
From Coq Require Import Ascii String List Bool ZArith Reals Lia Lra Permutation Sorted.
From Flocq Require Import Core BinarySingleNaN.
From Verif.Model Require Import Cpp Floats Events EventSets Matches Matcher Scorers Assessment Bootstrap Mapper Stream
  Reader Options Tool.
From Verif.Spec Require Import Order Sets Matching Grouping Collapse Metrics Curves Reader Options Tool Parts Better Added.
From Verif.Proofs Require Import Queries.
From Verif.Proofs Require Order Sets Matching Grouping Evaluation Finish Instances Runs Ties FloatFacts Results Curves Parts Mapper Ids Raised.
Import ListNotations.
Local Open Scope string_scope.
Local Open Scope list_scope.

(** ** Ids *)

(** What is new in a table has a greater id. *)
Definition grown (t t' : id_table) : Prop :=
  (List.length t <= List.length t')%nat /\ forall s v, In (s, v) t' -> In (s, v) t \/ (Z.of_nat (List.length t) <= v)%Z.

Lemma grown_trans t t1 t2 : grown t t1 -> grown t1 t2 -> grown t t2.
Proof.
  intros [L1 G1] [L2 G2]. split; [lia|]. intros s v I. destruct (G2 s v I) as [J|J]; [auto|]. right. lia.
Qed.

Lemma call_grown m t s v t' : string_to_int m t s = Ok (v, t') -> grown t t'.
Proof.
  intros E. destruct (Mapper.call_table _ _ _ _ _ E) as (_ & _ & [->|(-> & _ & ->)]); [split; auto|].
  split; [rewrite app_length; lia|]. intros s' v' I. apply in_app_or in I as [I|[I|[]]]; [auto|]. injection I as <- <-. right. lia.
Qed.

Lemma event_grown qf m t e r t' : event_to_int qf m t e = Ok (r, t') -> grown t t'.
Proof.
  unfold event_to_int. destruct qf.
  - destruct (string_to_int m t (ev_query e)) as [[q t1]| |] eqn:E1; cbn [obind]; try discriminate.
    destruct (string_to_int m t1 (ev_loc e)) as [[l t2]| |] eqn:E2; cbn [obind]; try discriminate.
    intros H. injection H as _ <-. exact (grown_trans _ _ _ (call_grown _ _ _ _ _ E1) (call_grown _ _ _ _ _ E2)).
  - destruct (string_to_int m t (ev_loc e)) as [[l t1]| |] eqn:E1; cbn [obind]; try discriminate.
    destruct (string_to_int m t1 (ev_query e)) as [[q t2]| |] eqn:E2; cbn [obind]; try discriminate.
    intros H. injection H as _ <-. exact (grown_trans _ _ _ (call_grown _ _ _ _ _ E1) (call_grown _ _ _ _ _ E2)).
Qed.

Lemma events_grown qf m l : forall t l' t', map_all (event_to_int qf m) t l = Ok (l', t') -> grown t t'.
Proof.
  induction l as [|e l IH]; intros t l' t' E; cbn [map_all] in E.
  - injection E as _ <-. split; auto.
  - destruct (event_to_int qf m t e) as [[r t1]| |] eqn:E1; cbn [obind] in E; try discriminate.
    destruct (map_all (event_to_int qf m) t1 l) as [[l1 t2]| |] eqn:E2; cbn [obind] in E; try discriminate. injection E as _ <-.
    exact (grown_trans _ _ _ (event_grown _ _ _ _ _ _ E1) (IH _ _ _ E2)).
Qed.

Lemma events_ids qf m id l : forall t t', Mapper.sound_table t -> map_all (event_to_int qf m) t l = Ok (map (renamed id) l, t') ->
  Mapper.sound_table t' /\ incl t t' /\ forall e s, In e l -> spells e s -> In (s, id s) t'.
Proof.
  intros t t' So E. apply Ids.map_all_mapped in E. destruct (Mapper.events_table _ _ _ _ _ _ So E) as (So' & In1 & F). split; [exact So'|]. split; [exact In1|].
  clear - F. induction l as [|x l IH]; intros e s I Sp; [destruct I|]. cbn [map] in F. inversion F as [|? ? ? ? [A B] F']; subst.
  destruct I as [<-|I]; [|exact (IH F' e s I Sp)]. cbn [ev_query ev_loc renamed] in A, B. destruct Sp as [->| ->]; assumption.
Qed.

(** The strings of the references have the same ids below a bound, and the
    ids of the others are not below it. *)
Lemma ids_clip qf refs hyps hyps' id id' : Instances.ids_of qf refs hyps id -> Instances.ids_of qf refs hyps' id' ->
  exists n, (forall r s, In r refs -> spells r s -> id s < n /\ id' s = id s)%Z /\
    forall h h' s, In h hyps -> spells (sc_base h) s -> In h' hyps' -> spells (sc_base h') s -> Z.min (id s) n = Z.min (id' s) n.
Proof.
  intros (t1 & t2 & M1 & M2) (t1' & t2' & M1' & M2'). assert (M1c := M1). rewrite M1' in M1c. injection M1c as E1 ->.
  apply Raised.map_all_scored in M2, M2'. rewrite !map_map in M2, M2'. cbn [sc_base map_scored] in M2, M2'.
  rewrite <- (map_map sc_base (renamed id)) in M2. rewrite <- (map_map sc_base (renamed id')) in M2'.
  destruct (events_ids _ _ _ _ _ _ Mapper.sound_nil M1) as (S1 & _ & K1). destruct (events_ids _ _ _ _ _ _ Mapper.sound_nil M1') as (_ & _ & K1').
  destruct (events_ids _ _ _ _ _ _ S1 M2) as (S2 & I2 & K2). destruct (events_ids _ _ _ _ _ _ S1 M2') as (S2' & I2' & K2').
  destruct (events_grown _ _ _ _ _ _ M2) as [_ G2]. destruct (events_grown _ _ _ _ _ _ M2') as [_ G2'].
  exists (Z.of_nat (List.length t1)). split.
  - intros r s I Sp. assert (J := K1 r s I Sp). assert (J' := K1' r s I Sp). split; [exact (proj2 (proj2 S1) _ _ J)|].
    apply (Mapper.table_inj t1 s _ s _ S1 J' J). reflexivity.
  - intros h h' s I Sp I' Sp'. assert (J := K2 _ s (in_map sc_base _ _ I) Sp). assert (J' := K2' _ s (in_map sc_base _ _ I') Sp').
    destruct (G2 _ _ J) as [A|A], (G2' _ _ J') as [B|B].
    + now rewrite (proj1 (Mapper.table_inj t1 s _ s _ S1 A B) eq_refl).
    + rewrite <- (proj1 (Mapper.table_inj t2' s _ s _ S2' (I2' _ A) J') eq_refl) in B. assert (C := proj2 (proj2 S1) _ _ A). lia.
    + rewrite <- (proj1 (Mapper.table_inj t2 s _ s _ S2 (I2 _ B) J) eq_refl) in A. assert (C := proj2 (proj2 S1) _ _ B). lia.
    + lia.
Qed.

(** ** Rankings *)

Lemma sorted_unique {X} (W : X -> X -> Prop) : (forall x y, W x y -> W y x -> x = y) -> forall l l', Permutation l l' ->
  StronglySorted W l -> StronglySorted W l' -> l = l'.
Proof.
  intros An. induction l as [|x l IH]; intros l' P S S'; [now apply Permutation_nil in P|].
  destruct l' as [|y l']; [apply Permutation_sym, Permutation_nil in P; discriminate|].
  inversion S as [|? ? Sl Fl]; subst. inversion S' as [|? ? Sl' Fl']; subst. rewrite Forall_forall in Fl, Fl'.
  assert (E : x = y).
  { assert (Ix : In x (y :: l')) by (apply (Permutation_in _ P); now left). assert (Iy : In y (x :: l)) by (apply (Permutation_in _ (Permutation_sym P)); now left).
    destruct Ix as [->|Ix]; [reflexivity|]. destruct Iy as [->|Iy]; [reflexivity|]. apply An; auto. }
  subst y. f_equal. apply IH; auto. exact (Permutation_cons_inv P).
Qed.

Lemma sorted_map {X Y} (R : X -> X -> Prop) (W : Y -> Y -> Prop) (k : X -> Y) l : (forall x y, In x l -> In y l -> R x y -> W (k x) (k y)) ->
  StronglySorted R l -> StronglySorted W (map k l).
Proof.
  intros H S. induction S as [|x l S IH F]; [constructor|]. cbn [map]. constructor.
  - apply IH. intros a b Ia Ib. apply H; now right.
  - rewrite Forall_forall in *. intros y I. apply in_map_iff in I as (z & <- & I). apply H; [now left|now right|auto].
Qed.

Section Keys.
  Notation Ev := (event bytes bytes).
  Variables (n : Z).

  (** What remains of the ids of an event when all ids from the bound on are
      the same. *)
  Definition event_key (id : bytes -> Z) (e : Ev) : Z * Z :=
    (Z.min (id (ev_query e)) n, if (id (ev_query e) <? n)%Z then Z.min (id (ev_loc e)) n else 0%Z).
  Definition hyp_key (id : bytes -> Z) (h : scored Ev) : R * (Z * Z) := (B2R (sc_score h), event_key id (sc_base h)).

  Definition before (x y : R * (Z * Z)) : Prop :=
    (fst y <= fst x)%R /\ (fst x = fst y -> fst (snd y) < fst (snd x) \/ (fst (snd x) = fst (snd y) /\ snd (snd y) <= snd (snd x)))%Z.

  Lemma before_anti x y : before x y -> before y x -> x = y.
  Proof.
    destruct x as [s [a b]], y as [s' [a' b']]. intros [A B] [C D]. cbn [fst snd] in *. assert (E : s = s') by lra. subst s'.
    specialize (B eq_refl). specialize (D eq_refl). f_equal. f_equal; lia.
  Qed.

  Lemma not_below_before id a b : is_finite (sc_score a) = true -> is_finite (sc_score b) = true ->
    not_below (c_lt (Results.by_id id)) a b -> before (hyp_key id a) (hyp_key id b).
  Proof.
    intros Fa Fb [A B]. unfold before, hyp_key. cbn [fst snd].
    assert (A' := FloatFacts.f32_lt_R _ _ Fa Fb). split.
    - destruct (Rle_or_lt (B2R (sc_score b)) (B2R (sc_score a))) as [K|K]; [exact K|]. apply A' in K. congruence.
    - intros E. assert (Q : same_number (sc_score a) (sc_score b)).
      { unfold same_number, f32_eq. rewrite Beqb_correct by assumption. now apply Raux.Req_bool_true. }
      specialize (B Q). unfold Results.by_id, cmp_int_event, cmp_event, event_lt in B. cbn in B. unfold event_lt in B. cbn in B.
      unfold event_key. cbn [fst snd].
      set (qa := id (ev_query (sc_base a))) in *. set (qb := id (ev_query (sc_base b))) in *.
      set (la := id (ev_loc (sc_base a))) in *. set (lb := id (ev_loc (sc_base b))) in *.
      destruct (Z.ltb_spec qa n), (Z.ltb_spec qb n); try lia.
      + destruct (Z.eqb_spec qa qb) as [E1|E1]; cbn in B; [|apply Z.ltb_ge in B; lia]. apply Z.ltb_ge in B. lia.
      + destruct (Z.eqb_spec qa qb) as [E1|E1]; cbn in B; [|apply Z.ltb_ge in B; lia]. apply Z.ltb_ge in B. lia.
  Qed.
End Keys.

(** ** Evaluations *)

Section Evaluations.
  Notation Ev := (event bytes bytes).
  Notation M := (match_t Ev (scored Ev)).
  Variables (id id' : bytes -> Z) (Inj : forall s s', id s = id s' -> s = s') (Inj' : forall s s', id' s = id' s' -> s = s').

  (** The hypotheses in any order, or in the same order where they are not
      sorted. *)
  Definition reorders (crit : bytes) (hyps hyps' : list (scored Ev)) : Prop :=
    ((crit = lit "desc" \/ crit = lit "asc") /\ Permutation hyps hyps') \/ hyps = hyps'.

  Lemma reorders_perm crit hyps hyps' : reorders crit hyps hyps' -> Permutation hyps hyps'.
  Proof. intros [[_ P]| ->]; [exact P|reflexivity]. Qed.

  Lemma reorders_part crit (P : scored Ev -> Prop) hyps hyps' h1 h2 : reorders crit hyps hyps' -> selects P hyps h1 -> selects P hyps' h2 ->
    reorders crit h1 h2.
  Proof.
    intros [[C Pm]| ->] S1 S2.
    - left. split; [exact C|]. destruct (Runs.selects_perm _ _ _ Pm _ S1) as (h & Sh & Ph). now rewrite (selects_fun _ _ _ _ S2 Sh).
    - right. exact (selects_fun _ _ _ _ S1 S2).
  Qed.

  Variables (n : Z).

  Lemma ranking_keys crit hyps hyps' rank rank' : (forall h, In h hyps -> is_finite (sc_score h) = true) ->
    (forall h s, In h hyps -> spells (sc_base h) s -> Z.min (id s) n = Z.min (id' s) n) -> reorders crit hyps hyps' ->
    ranking (c_lt (Results.by_id id)) crit hyps rank -> ranking (c_lt (Results.by_id id')) crit hyps' rank' ->
    Permutation rank rank' /\ map (hyp_key n id) rank = map (hyp_key n id) rank'.
  Proof.
    intros Fi Cl Re Rk Rk'. assert (P := reorders_perm _ _ _ Re).
    assert (Ek : forall h, In h hyps -> hyp_key n id' h = hyp_key n id h).
    { intros h I. unfold hyp_key, event_key. assert (A := Cl h _ I (or_introl eq_refl)). assert (B := Cl h _ I (or_intror eq_refl)).
      f_equal. rewrite A, B. f_equal. destruct (Z.ltb_spec (id (ev_query (sc_base h))) n), (Z.ltb_spec (id' (ev_query (sc_base h))) n); try reflexivity; lia. }
    assert (Pi : forall k, Permutation hyps k -> forall h, In h k -> In h hyps) by (intros k Pk h I; exact (Permutation_in _ (Permutation_sym Pk) I)).
    assert (Main : forall (W : R * (Z * Z) -> R * (Z * Z) -> Prop) (Y Y' : scored Ev -> scored Ev -> Prop), (forall x y, W x y -> W y x -> x = y) -> Permutation hyps rank -> Permutation hyps' rank' ->
      (forall a b, is_finite (sc_score a) = true -> is_finite (sc_score b) = true -> Y a b -> W (hyp_key n id a) (hyp_key n id b)) ->
      (forall a b, is_finite (sc_score a) = true -> is_finite (sc_score b) = true -> Y' a b -> W (hyp_key n id' a) (hyp_key n id' b)) ->
      StronglySorted Y rank -> StronglySorted Y' rank' -> Permutation rank rank' /\ map (hyp_key n id) rank = map (hyp_key n id) rank').
    { intros W Y Y' An P1 P2 H1 H2 S1 S2. assert (Pr : Permutation rank rank') by (rewrite <- P1, <- P2; exact P). split; [exact Pr|].
      assert (I1 := Pi rank P1). assert (I2 := Pi rank' (perm_trans P P2)).
      apply (sorted_unique W An); [now apply Permutation_map| |].
      - revert S1. apply sorted_map. intros x y Ix Iy. apply H1; auto.
      - revert S2. apply sorted_map. intros x y Ix Iy K. rewrite <- (Ek x), <- (Ek y) by auto. apply H2; auto. }
    destruct Rk as [(C & P1 & S1)|[(C & P1 & S1)|(C1 & C2 & ->)]], Rk' as [(C' & P1' & S1')|[(C' & P1' & S1')|(C1' & C2' & ->)]]; try congruence;
      try (rewrite C in C'; discriminate C').
    - exact (Main before _ _ (before_anti) P1 P1' (not_below_before n id) (not_below_before n id') S1 S1').
    - refine (Main (fun x y => before y x) _ _ _ P1 P1' _ _ S1 S1').
      + intros x y A B. exact (before_anti _ _ B A).
      + intros a b Fa Fb. exact (not_below_before n id b a Fb Fa).
      + intros a b Fa Fb. exact (not_below_before n id' b a Fb Fa).
    - destruct Re as [[[C|C] _]| ->]; [contradiction|contradiction|]. auto.
  Qed.

  Lemma key_known e e' refs : (forall r s, In r refs -> spells r s -> (id s < n)%Z) -> event_key n id e = event_key n id e' ->
    In e refs -> e = e'.
  Proof.
    intros K E I. unfold event_key in E. assert (A := K e _ I (or_introl eq_refl)). assert (B := K e _ I (or_intror eq_refl)).
    assert (E1 := f_equal fst E). assert (E2 := f_equal snd E). cbn [fst snd] in E1, E2.
    assert (Q : id (ev_query e) = id (ev_query e')) by lia. rewrite <- Q in E2. destruct (Z.ltb_spec (id (ev_query e)) n); [|lia].
    assert (L : id (ev_loc e) = id (ev_loc e')) by lia. destruct e as [q l], e' as [q' l']. cbn in Q, L. f_equal; [exact (Inj _ _ Q)|exact (Inj _ _ L)].
  Qed.

  Lemma errs_keys refs bs : (forall r s, In r refs -> spells r s -> (id s < n)%Z) -> forall bs' seen seen',
    map (event_key n id) bs = map (event_key n id) bs' -> (forall e, In e refs -> In e seen <-> In e seen') ->
    Raised.errs Raised.event_dec refs seen bs = Raised.errs Raised.event_dec refs seen' bs'.
  Proof.
    intros K. induction bs as [|b bs IH]; intros [|b' bs'] seen seen' E S; try discriminate; [reflexivity|].
    cbn [map] in E. assert (E1 := f_equal (hd (0, 0)%Z) E). assert (E2 := f_equal (@tl _) E). cbn [hd tl] in E1, E2. cbn [Raised.errs].
    assert (B : (b = b' /\ In b refs) \/ (~ In b refs /\ ~ In b' refs)).
    { destruct (in_dec Raised.event_dec b refs) as [I|I]; [left; split; [exact (key_known _ _ _ K E1 I)|exact I]|].
      right. split; [exact I|]. intros J. apply I. now rewrite <- (key_known _ _ _ K (eq_sym E1) J). }
    f_equal.
    - unfold Raised.err1. destruct B as [[<- I]|[I I']].
      + destruct (in_dec Raised.event_dec b refs); [|contradiction]. specialize (S b I).
        destruct (in_dec Raised.event_dec b seen), (in_dec Raised.event_dec b seen'); tauto.
      + destruct (in_dec Raised.event_dec b refs); [contradiction|]. destruct (in_dec Raised.event_dec b' refs); [contradiction|]. reflexivity.
    - apply IH; [exact E2|]. intros e I. specialize (S e I). cbn [In]. destruct B as [[<- _]|[N N']]; [tauto|].
      split; (intros [<-|J]; [contradiction|tauto]).
  Qed.

  Lemma parts_renumbered P crit f refs hyps hyps' ms log gs g ms' log' gs' g' : (forall q, kept f q -> P q \/ ~ P q) ->
    (forall h, In h hyps -> is_finite (sc_score h) = true) ->
    (forall r s, In r refs -> spells r s -> (id s < n)%Z) ->
    (forall h s, In h hyps -> spells (sc_base h) s -> Z.min (id s) n = Z.min (id' s) n) -> reorders crit hyps hyps' ->
    simple_evaluation id crit f refs hyps ms log gs -> selects (Parts.about ev_query ev_query P) ms g ->
    simple_evaluation id' crit f refs hyps' ms' log' gs' -> selects (Parts.about ev_query ev_query P) ms' g' ->
    map m_err g = map m_err g'.
  Proof.
    intros DP Fi Kr Cl Re Ev Sg Ev' Sg'.
    destruct (Raised.part_errors cmp_str Order.total_order_str cmp_str Order.total_order_str (Results.by_id id) (Results.by_id_total id Inj) Raised.event_dec
      P crit f refs hyps ms log gs g DP Ev Sg) as (r1 & h1 & rank & k & Sr & Sh & Rk & -> & missed & Nm & -> & Im).
    destruct (Raised.part_errors cmp_str Order.total_order_str cmp_str Order.total_order_str (Results.by_id id') (Results.by_id_total id' Inj') Raised.event_dec
      P crit f refs hyps' ms' log' gs' g' DP Ev' Sg') as (r2 & h2 & rank' & k' & Sr' & Sh' & Rk' & -> & missed' & Nm' & -> & Im').
    assert (E := selects_fun _ _ _ _ Sr Sr'). subst r2. assert (Re1 := reorders_part crit _ _ _ _ _ Re Sh Sh').
    assert (Hi : forall h, In h h1 -> In h hyps) by (intros h I; now apply (Grouping.selects_in _ _ _ Sh) in I).
    destruct (ranking_keys crit h1 h2 rank rank' (fun h I => Fi h (Hi h I)) (fun h s I => Cl h s (Hi h I)) Re1 Rk Rk') as [Pr Ek].
    assert (Eb : map (event_key n id) (map sc_base rank) = map (event_key n id) (map sc_base rank')).
    { assert (A := f_equal (map snd) Ek). rewrite !map_map in A. rewrite !map_map. exact A. }
    f_equal.
    - apply errs_keys; [|exact Eb|reflexivity]. intros r s I. apply Kr. now apply (Grouping.selects_in _ _ _ Sr) in I.
    - f_equal. apply Permutation_length. apply NoDup_Permutation; auto. intros r. rewrite Im, Im'.
      split; intros [A B]; (split; [exact A|]); intros (h & C & D); apply B; exists h; (split; [|exact D]);
        [exact (Permutation_in _ (Permutation_sym Pr) C)|exact (Permutation_in _ Pr C)].
  Qed.

  Lemma evaluations_renumbered crit f refs hyps hyps' ms log gs ms' log' gs' :
    (forall h, In h hyps -> is_finite (sc_score h) = true) ->
    (forall r s, In r refs -> spells r s -> (id s < n)%Z) ->
    (forall h s, In h hyps -> spells (sc_base h) s -> Z.min (id s) n = Z.min (id' s) n) -> reorders crit hyps hyps' ->
    simple_evaluation id crit f refs hyps ms log gs -> simple_evaluation id' crit f refs hyps' ms' log' gs' ->
    map m_err ms = map m_err ms' /\ exists gs0, Permutation gs gs0 /\ Forall2 (fun g g' : list M => map m_err g = map m_err g') gs0 gs'.
  Proof.
    intros Fi Kr Cl Re Ev Ev'.
    destruct (Parts.evaluation_keys (c_lt (Results.by_id id)) (Results.by_id id) (Results.by_id_total id Inj) ev_query ev_query (evset_generic _) exact_search
      (Matching.finds_generic _ (Results.by_id_total id Inj)) (fun r h => trivial_scorer cmp_str cmp_str r (sc_base h)) Parts.exact_local _ _ _ _ _ _ _ Ev) as (keys & Nk & Fk & Hm & Ik).
    destruct (Parts.evaluation_keys (c_lt (Results.by_id id')) (Results.by_id id') (Results.by_id_total id' Inj') ev_query ev_query (evset_generic _) exact_search
      (Matching.finds_generic _ (Results.by_id_total id' Inj')) (fun r h => trivial_scorer cmp_str cmp_str r (sc_base h)) Parts.exact_local _ _ _ _ _ _ _ Ev') as (keys' & Nk' & Fk' & Hm' & Ik').
    assert (Hp := fun P g g' DP Sg Sg' => parts_renumbered P crit f refs hyps hyps' ms log gs g ms' log' gs' g' DP Fi Kr Cl Re Ev Sg Ev' Sg').
    assert (Ha : forall m, In m ms -> Parts.about ev_query ev_query (fun _ => True) m).
    { intros m J. destruct (Hm m J) as (k & _ & q & A & _). exists q. auto. }
    assert (Ha' : forall m, In m ms' -> Parts.about ev_query ev_query (fun _ => True) m).
    { intros m J. destruct (Hm' m J) as (k & _ & q & A & _). exists q. auto. }
    split; [exact (Hp (fun _ => True) ms ms' (fun _ _ => or_introl Logic.I) (selects_all _ _ Ha) (selects_all _ _ Ha'))|].
    assert (P := reorders_perm _ _ _ Re).
    assert (Kk : forall k, In k keys <-> In k keys').
    { intros k. rewrite Ik, Ik'. split; intros (q & A1 & A2 & A3); exists q; (split; [exact A1|]); (split; [exact A2|]);
      (destruct A3 as [A3|(h & A3 & A4)]; [now left|right]); exists h; (split; [|exact A4]);
      [exact (Permutation_in _ P A3)|exact (Permutation_in _ (Permutation_sym P) A3)]. }
    assert (Pk : Permutation keys keys') by (apply NoDup_Permutation; auto).
    destruct (Ties.Forall2_perm _ _ _ Pk _ Fk) as (gs0 & Pg & F0). exists gs0. split; [exact Pg|].
    clear - F0 Fk' Hp. revert gs0 F0. induction Fk' as [|k g keys gs Hk F IH]; intros gs0 F0; inversion F0 as [|? g0 ? l Hk2 F3]; subst; constructor; [|auto].
    exact (Hp (fun q => group_is f q k) g0 g (Raised.group_dec f k) Hk2 Hk).
  Qed.
End Evaluations.
