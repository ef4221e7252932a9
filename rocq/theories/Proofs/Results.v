(** Results of the two programs. *)
From Coq Require Import Ascii String List Bool ZArith Lia Reals Lra Permutation Sorted.
From Flocq Require Import BinarySingleNaN.
From Verif.Model Require Import Cpp Floats Events EventSets Matches Matcher Scorers Assessment Bootstrap Mapper Stream Reader Options Tool.
From Verif.Spec Require Import Order Matching Grouping Collapse Metrics Curves Reader Options Tool.
From Verif.Proofs Require Order Matching Grouping Collapse Metrics Curves Ndcg Rescore Reader Tool Finish Programs Evaluation Ids Instances Runs.
Import ListNotations.

(** ** Events of strings compared by ids *)

Definition by_id (id : bytes -> Z) : Cmp (event bytes bytes) :=
  mkCmp (fun x y => c_eq cmp_int_event (renamed id x) (renamed id y))
    (fun x y => c_ne cmp_int_event (renamed id x) (renamed id y))
    (fun x y => c_lt cmp_int_event (renamed id x) (renamed id y)).

Lemma by_id_total id : (forall s s', id s = id s' -> s = s') -> total_order (by_id id).
Proof.
  intros Inj. assert (Ie := Instances.renamed_inj id Inj). destruct Instances.total_order_int_event as [E N I T To].
  constructor; cbv [by_id c_eq c_ne c_lt]; fold (c_eq cmp_int_event) (c_ne cmp_int_event) (c_lt cmp_int_event).
  - intros x y. rewrite (E (renamed id x)). split; [apply Ie|now intros ->].
  - intros x y. rewrite (N (renamed id x)). split; intros H K; apply H; [now subst|now apply Ie].
  - intros x. apply I.
  - intros x y z. apply T.
  - intros x y. destruct (To (renamed id x) (renamed id y)) as [H|[H|H]]; auto.
Qed.

(** Consequences for the two evaluations. *)
Section Facts.
  Variables (srt : sort_fn) (Hs : sort_contract srt).

  Definition icdar_refs crit f refs hyps ms log groups :=
    Evaluation.eval_refs (c_lt cmp_shaped) cmp_shaped Order.total_order_shaped ev_query ev_query (evset_docbox srt cmp_str) (box_search cmp_str)
      (Matching.finds_docbox srt cmp_str Hs Order.total_order_str) (fun r h => ioh_scorer cmp_str f32_half r (sc_base h))
      crit f refs hyps ms log groups.

  Definition icdar_hyps crit f refs hyps ms log groups :=
    Evaluation.eval_hyps (c_lt cmp_shaped) cmp_shaped ev_query ev_query (box_search cmp_str)
      (fun r h => ioh_scorer cmp_str f32_half r (sc_base h)) crit f refs hyps ms log groups.

  Definition simple_refs id Inj crit f refs hyps ms log groups :=
    Evaluation.eval_refs (c_lt (by_id id)) (by_id id) (by_id_total id Inj) ev_query ev_query (evset_generic (by_id id)) exact_search
      (Matching.finds_generic (by_id id) (by_id_total id Inj)) (fun r h => trivial_scorer cmp_str cmp_str r (sc_base h))
      crit f refs hyps ms log groups.

  Definition simple_hyps id crit f refs hyps ms log groups :=
    Evaluation.eval_hyps (c_lt (by_id id)) (by_id id) ev_query ev_query exact_search
      (fun r h => trivial_scorer cmp_str cmp_str r (sc_base h)) crit f refs hyps ms log groups.
End Facts.

Lemma exists_named {Q} (Dec : forall x y : Q, {x = y} + {x <> y}) (q : Q) ls :
  (exists g, assigns (QueryGroups ls) q g) <-> exists g qs, In (g :: qs) ls /\ In q qs.
Proof.
  split.
  - intros (g & l1 & qs & l2 & -> & I & _). exists g, qs. split; [|exact I]. apply in_or_app. right. left. reflexivity.
  - induction ls as [|l ls IH]; [intros (g & qs & [] & _)|]. intros H.
    assert ({exists g qs, In (g :: qs) ls /\ In q qs} + {~ exists g qs, In (g :: qs) ls /\ In q qs}) as [Y|N].
    { clear - Dec. induction ls as [|[|g0 qs0] ls IH].
      - right. intros (g & qs & [] & _).
      - destruct IH as [Y|N].
        + left. destruct Y as (g & qs & I & J). exists g, qs. split; [right; exact I|exact J].
        + right. intros (g & qs & [K|I] & J); [discriminate|]. apply N. eauto.
      - destruct (in_dec Dec q qs0) as [Y|N].
        + left. exists g0, qs0. split; [left; reflexivity|exact Y].
        + destruct IH as [Y|N'].
          * left. destruct Y as (g & qs & I & J). exists g, qs. split; [right; exact I|exact J].
          * right. intros (g & qs & [K|I] & J); [injection K as <- <-; contradiction|]. apply N'. eauto. }
    + destruct (IH Y) as (g & l1 & qs & l2 & -> & I & K). exists g, (l :: l1), qs, l2. auto.
    + destruct H as (g & qs & [->|I] & J); [|exfalso; apply N; eauto].
      exists g, [], qs, ls. split; [reflexivity|]. split; [exact J|]. intros g' qs' I' J'. apply N. eauto.
Qed.

Lemma assigns_snoc {Q} (ls : list (list Q)) g qs q g' : (forall x y : Q, {x = y} + {x <> y}) ->
  assigns (QueryGroups (ls ++ [g :: qs])) q g' <-> (In q qs /\ g' = g) \/ (~ In q qs /\ assigns (QueryGroups ls) q g').
Proof.
  intros Dec. split.
  - intros (l1 & qs' & l2 & E & I & N). destruct l2 as [|x l2] using rev_ind.
    + apply app_inj_tail in E as [_ E]. injection E as -> ->. auto.
    + clear IHl2. rewrite app_comm_cons, app_assoc in E. apply app_inj_tail in E as [E E']. subst x. right.
      split; [apply (N g); apply in_or_app; right; left; reflexivity|].
      exists l1, qs', l2. split; [exact E|]. split; [exact I|]. intros h rs J. apply (N h). apply in_or_app. auto.
  - intros [[I ->]|(N & l1 & qs' & l2 & -> & I & K)].
    + exists ls, qs, []. split; [reflexivity|]. split; [exact I|]. intros h rs [].
    + exists l1, qs', (l2 ++ [g :: qs]). split; [now rewrite <- app_assoc|]. split; [exact I|].
      intros h rs J. apply in_app_or in J as [J|[J|[]]]; [exact (K h rs J)|]. injection J as <- <-. exact N.
Qed.

Lemma selects_iff {X} (P P' : X -> Prop) : (forall x, P x <-> P' x) -> forall l s, selects P l s -> selects P' l s.
Proof. intros K l s H. induction H; constructor; firstorder. Qed.

Lemma grouping_iff {Q RE E} (rq : RE -> Q) (hq : E -> Q) f f' : (forall q g, group_is f q g <-> group_is f' q g) ->
  forall ms (groups : list (list (match_t RE (scored E)))), grouping rq hq f ms groups -> grouping rq hq f' ms groups.
Proof.
  intros K ms groups (ks & keys & F1 & FS & F2).
  assert (G : forall m g, match_group rq hq f m g <-> match_group rq hq f' m g).
  { intros m g. split; intros (q & H & H'); exists q; split; auto; now apply K. }
  exists ks, keys. split; [|split; [exact FS|]].
  - apply (Tool.Forall2_impl (match_group rq hq f)); [|exact F1]. intros m g. now rewrite G.
  - eapply Tool.Forall2_impl; [|exact F2]. intros k g [N S]. split; [exact N|].
    apply (selects_iff (fun m => match_group rq hq f m k)); [|exact S]. intros m. apply G.
Qed.

Lemma query_kept {Q RE E} (rq : RE -> Q) (hq : E -> Q) f (ms : list (match_t RE (scored E))) m q :
  (forall x, In x (refs_of ms) -> kept f (rq x)) -> (forall h, In h (hyps_of ms) -> kept f (hq (sc_base h))) ->
  In m ms -> has_query rq (fun h => hq (sc_base h)) m q -> kept f q.
Proof.
  intros Hr Hh I H. unfold has_query in H. destruct (m_ref m) as [r|] eqn:R.
  - subst q. apply Hr. apply in_flat_map. exists m. rewrite R. simpl. auto.
  - destruct (m_hyp m) as [h|] eqn:K; [|destruct H]. subst q. apply Hh. apply in_flat_map. exists m. rewrite K. simpl. auto.
Qed.

(** Groups of matches in a file that lists queries. *)
Lemma same_assigned {Q RE E} (rq : RE -> Q) (hq : E -> Q) f (ms : list (match_t RE (scored E))) groups q0 g0 :
  assigns f q0 g0 ->
  (forall x, In x (refs_of ms) -> kept f (rq x)) -> (forall h, In h (hyps_of ms) -> kept f (hq (sc_base h))) ->
  grouping rq hq f ms groups -> forall m m' q q', In m ms -> In m' ms ->
  has_query rq (fun h => hq (sc_base h)) m q -> has_query rq (fun h => hq (sc_base h)) m' q' ->
  (exists g, In g groups /\ In m g /\ In m' g) <-> (exists k, assigns f q k /\ assigns f q' k).
Proof.
  intros A Hr Hh G m m' q q' I I' H H'. rewrite (Evaluation.grouping_same rq hq f ms groups G m m' I I').
  assert (L : forall x y, In x ms -> has_query rq (fun h => hq (sc_base h)) x y -> exists g, assigns f y g).
  { intros x y Ix Hx. destruct (query_kept rq hq f ms x y Hr Hh Ix Hx) as [K|K]; [exact K|destruct (K _ _ A)]. }
  split.
  - intros (k & (q1 & H1 & K1) & (q2 & H2 & K2)).
    rewrite (Grouping.has_query_unique rq (fun h => hq (sc_base h)) m q1 q H1 H) in K1.
    rewrite (Grouping.has_query_unique rq (fun h => hq (sc_base h)) m' q2 q' H2 H') in K2.
    exists k. split.
    + destruct K1 as [K1|[K1 _]]; [exact K1|]. destruct (L m q I H) as [g K]. destruct (K1 _ K).
    + destruct K2 as [K2|[K2 _]]; [exact K2|]. destruct (L m' q' I' H') as [g K]. destruct (K2 _ K).
  - intros (k & K & K'). exists k. split; [exists q|exists q']; split; auto; now left.
Qed.
