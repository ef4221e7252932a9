(** Evaluations of the queries of one group. *)
From Coq Require Import Ascii String List Bool ZArith Reals Lia Lra Permutation Sorted.
From Flocq Require Import Core BinarySingleNaN.
From Verif.Model Require Import Cpp Floats Events EventSets Matches Matcher Scorers Assessment Bootstrap Mapper Stream
  Reader Options Tool.
From Verif.Spec Require Import Order Sets Matching Grouping Collapse Metrics Curves Reader Options Tool Parts.
From Verif.Proofs Require Import Queries.
From Verif.Proofs Require Order Sets Matching Grouping Evaluation Finish Instances Runs Ties Rescore Results Curves.
Import ListNotations.
Local Open Scope string_scope.
Local Open Scope list_scope.

(** ** Selections *)

Lemma selects_in_iff {X} (P P' : X -> Prop) l s : (forall x, In x l -> P x <-> P' x) -> selects P l s -> selects P' l s.
Proof.
  intros H S. induction S as [|x l s Px S IH|x l s Px S IH]; [constructor| |].
  - apply sel_yes; [apply H; simpl; auto|]. apply IH. intros y I. apply H. simpl; auto.
  - apply sel_no; [rewrite <- H; simpl; auto|]. apply IH. intros y I. apply H. simpl; auto.
Qed.

Lemma selects_twice {X} (P P' : X -> Prop) l s s' : (forall x, P' x -> P x) -> selects P l s -> selects P' l s' -> selects P' s s'.
Proof.
  intros H S. revert s'. induction S as [|x l s Px S IH|x l s Px S IH]; intros s' S'; inversion S' as [|? ? t Q T|? ? t Q T]; subst.
  - constructor.
  - apply sel_yes; auto.
  - apply sel_no; auto.
  - exfalso. auto.
  - auto.
Qed.

Lemma selects_split {X} (P : X -> Prop) a b s : selects P (a ++ b) s -> exists s1 s2, s = s1 ++ s2 /\ selects P a s1 /\ selects P b s2.
Proof.
  revert s. induction a as [|x a IH]; intros s S.
  - exists [], s. split; [reflexivity|]. split; [constructor|exact S].
  - inversion S as [|? ? t Px T|? ? t Px T]; subst; destruct (IH _ T) as (s1 & s2 & -> & A & B).
    + exists (x :: s1), s2. split; [reflexivity|]. split; [now constructor|exact B].
    + exists s1, s2. split; [reflexivity|]. split; [now constructor|exact B].
Qed.

Lemma selects_unmap {X Y} (f : X -> Y) (P : Y -> Prop) l s : selects P (map f l) s ->
  exists t, s = map f t /\ selects (fun x => P (f x)) l t.
Proof.
  revert s. induction l as [|x l IH]; intros s S; inversion S as [|? ? t Px T|? ? t Px T]; subst.
  - exists []. split; [reflexivity|constructor].
  - destruct (IH _ T) as (u & -> & U). exists (x :: u). split; [reflexivity|now constructor].
  - destruct (IH _ T) as (u & -> & U). exists u. split; [reflexivity|now constructor].
Qed.

Lemma selects_exists {X} (P : X -> Prop) l : (forall x, In x l -> P x \/ ~ P x) -> exists s, selects P l s.
Proof.
  induction l as [|x l IH]; intros H; [exists []; constructor|].
  destruct IH as [s S]; [intros y I; apply H; simpl; auto|].
  destruct (H x); [simpl; auto|exists (x :: s)|exists s]; now constructor.
Qed.

Lemma first_seen_exists {X} (Dec : forall x y : X, {x = y} + {x <> y}) (l : list X) : exists s, first_seen l s.
Proof.
  induction l as [|x l [s S]] using rev_ind; [exists []; constructor|].
  destruct (in_dec Dec x s); [exists s|exists (s ++ [x])]; now constructor.
Qed.

(** ** Groups *)

Section Groups.
  Context {Q RE E : Type} (Dec : forall x y : Q, {x = y} + {x <> y}).
  Notation M := (match_t RE (scored E)).
  Variables (rq : RE -> Q) (hq : E -> Q).
  Notation mg := (match_group rq hq).

  Lemma grouping_exists f (ms : list M) : (forall m, In m ms -> exists k, mg f m k) -> exists groups, grouping rq hq f ms groups.
  Proof.
    intros H.
    assert (exists ks, Forall2 (mg f) ms ks) as [ks F].
    { clear Dec. induction ms as [|m ms IH]; [exists []; constructor|].
      destruct IH as [ks F]; [intros m' I; apply H; simpl; auto|]. destruct (H m) as [k K]; [simpl; auto|].
      exists (k :: ks). now constructor. }
    destruct (first_seen_exists Dec ks) as [keys Fs].
    assert (G : forall k, In k keys -> exists g, g <> [] /\ selects (fun m => mg f m k) ms g).
    { intros k I. apply (Grouping.first_seen_in _ _ Fs) in I. destruct (Evaluation.Forall2_in _ _ _ F) as [_ K].
      destruct (K k I) as (m & Im & Hm).
      destruct (selects_exists (fun m => mg f m k) ms) as [g S].
      - intros x Ix. destruct (H x Ix) as [k' Hk]. destruct (Dec k' k) as [->|N]; [now left|right].
        intros Hx. apply N. exact (Evaluation.match_group_fun rq hq f x _ _ Hk Hx).
      - exists g. split; [|exact S]. intros ->. apply (proj2 (Grouping.selects_in _ _ _ S m)). auto. }
    clear - G F Fs. assert (exists groups, Forall2 (fun k g => g <> [] /\ selects (fun m => mg f m k) ms g) keys groups) as [gs F2].
    { clear - G. induction keys as [|k keys IH]; [exists []; constructor|].
      destruct IH as [gs F]; [intros k' I; apply G; simpl; auto|]. destruct (G k) as [g K]; [simpl; auto|].
      exists (g :: gs). now constructor. }
    exists gs, ks, keys. auto.
  Qed.
End Groups.

(** ** The matching of a part *)

Section Matching.
  Context {Q RE E : Type}.
  Notation HE := (scored E).
  Notation M := (match_t RE HE).
  Variables (rq : RE -> Q) (hq : E -> Q).
  Variable R : list RE -> HE -> list RE -> Prop.
  Variable scorer : RE -> HE -> match_error.

  (** The search finds references of the same query only, and does not see the
      others. *)
  Record local : Prop := {
    lo_query : forall refs h l r, R refs h l -> In r l -> rq r = hq (sc_base h);
    lo_part : forall (P : Q -> Prop) refs refs' h l, selects (fun r => P (rq r)) refs refs' ->
      P (hq (sc_base h)) -> R refs h l -> R refs' h l
  }.
  Hypothesis Lo : local.
  Variable P : Q -> Prop.
  Definition about (m : M) : Prop := exists q, has_query rq (fun h => hq (sc_base h)) m q /\ P q.

  Lemma decided_part taken taken' h l t m g : (forall r, In r l -> In r taken <-> In r taken') ->
    decided scorer taken h l t m g -> decided scorer taken' h l t m g.
  Proof.
    intros H [b r a ms -> A1 A2 A3 A4|A1|ms A1 A2 A3].
    - apply (hit _ _ _ _ b r a); auto.
      + rewrite <- H; [exact A2|]. apply in_or_app. simpl; auto.
      + intros x I J. apply H; [|auto]. apply in_or_app. auto.
    - now constructor.
    - constructor; auto. intros x I J. apply H; auto.
  Qed.

  Lemma decided_query taken h l t m g : (forall r, In r l -> rq r = hq (sc_base h)) -> decided scorer taken h l t m g ->
    (forall r, In r t -> rq r = hq (sc_base h)) /\ (forall x, In x m -> has_query rq (fun h => hq (sc_base h)) x (hq (sc_base h))).
  Proof.
    intros H [b r a ms -> A1 A2 A3 A4|A1|ms A1 A2 A3]; split; intros x I; try destruct I as [<-|[]]; try destruct I.
    - apply H, in_or_app. simpl; auto.
    - unfold has_query. cbn. symmetry. apply H, in_or_app. simpl; auto.
    - reflexivity.
  Qed.

  Lemma about_query (m : M) q : has_query rq (fun h => hq (sc_base h)) m q -> about m <-> P q.
  Proof.
    intros H. split; [intros (q' & H' & K)|intros K; exists q; auto].
    now rewrite (Grouping.has_query_unique rq (fun h => hq (sc_base h)) m q q' H H').
  Qed.

  Lemma matching_queries refs hyps taken ms log : matching R scorer refs hyps taken ms log ->
    (forall m, In m ms -> exists h, In h hyps /\ has_query rq (fun h => hq (sc_base h)) m (hq (sc_base h))) /\
    (forall h, In h hyps -> exists m, In m ms /\ has_query rq (fun h => hq (sc_base h)) m (hq (sc_base h))) /\
    (forall r, In r taken -> exists m, In m ms /\ has_query rq (fun h => hq (sc_base h)) m (rq r)).
  Proof.
    induction 1 as [|hyps taken ms log h l t m g Mt (I1 & I2 & I3) Hl Hd]; [repeat split; intros ? []|].
    destruct (decided_query _ _ _ _ _ _ (fun r => lo_query Lo refs h l r Hl) Hd) as [Q1 Q2]. split; [|split].
    - intros x I. apply in_app_or in I as [I|I].
      + destruct (I1 x I) as (h' & I' & K). exists h'. split; [apply in_or_app; auto|exact K].
      + exists h. split; [apply in_or_app; simpl; auto|exact (Q2 x I)].
    - intros x I. apply in_app_or in I as [I|[<-|[]]].
      + destruct (I2 x I) as (m' & I' & K). exists m'. split; [apply in_or_app; auto|exact K].
      + destruct Hd as [b r a ms0 _ _ _ _ _|_|ms0 (r & Ir & Ar) A2 _].
        * eexists. split; [apply in_or_app; right; left; reflexivity|]. apply Q2. left. reflexivity.
        * eexists. split; [apply in_or_app; right; left; reflexivity|]. apply Q2. left. reflexivity.
        * destruct (I3 r (A2 r Ir Ar)) as (m' & Im & K). exists m'. split; [apply in_or_app; auto|].
          now rewrite <- (lo_query Lo refs h l r Hl Ir).
    - intros r I. apply in_app_or in I as [I|I].
      + destruct (I3 r I) as (m' & I' & K). exists m'. split; [apply in_or_app; auto|exact K].
      + rewrite (Q1 r I). destruct Hd as [b r' a ms0 _ _ _ _ _|_|ms0 _ _ _]; [|destruct I|destruct I].
        eexists. split; [apply in_or_app; right; left; reflexivity|]. apply Q2. left. reflexivity.
  Qed.

  Lemma matching_part refs refs' hyps taken ms log : matching R scorer refs hyps taken ms log ->
    selects (fun r => P (rq r)) refs refs' -> forall hyps', selects (fun h => P (hq (sc_base h))) hyps hyps' ->
    exists taken' ms' log', matching R scorer refs' hyps' taken' ms' log' /\
      (forall r, In r taken' <-> In r taken /\ P (rq r)) /\ selects about ms ms'.
  Proof.
    intros Mt Sr. induction Mt as [|hyps taken ms log h l t m g Mt IH Hl Hd]; intros hyps' Sh.
    - inversion Sh; subst. exists [], [], []. split; [constructor|]. split; [simpl; tauto|]. constructor.
    - destruct (selects_split _ _ _ _ Sh) as (k & s & -> & S1 & S2).
      destruct (IH k S1) as (taken' & ms' & log' & Mt' & Tk & Sm).
      destruct (decided_query _ _ _ _ _ _ (fun r => lo_query Lo refs h l r Hl) Hd) as [Q1 Q2].
      inversion S2 as [|? ? u Ph U|? ? u Ph U]; subst; inversion U; subst.
      + exists (taken' ++ t), (ms' ++ m), (log' ++ g). split; [|split].
        * apply (next_hyp _ _ _ _ _ _ _ _ l); auto.
          -- exact (lo_part Lo P refs refs' h l Sr Ph Hl).
          -- apply (decided_part taken taken'); auto. intros r I. rewrite Tk.
             rewrite (lo_query Lo refs h l r Hl I). tauto.
        * intros r. rewrite !in_app_iff, Tk. split; [|tauto]. intros [I|I]; [tauto|].
          split; [auto|]. now rewrite (Q1 r I).
        * apply Grouping.selects_app; [exact Sm|]. apply selects_all. intros x I. now apply (about_query x _ (Q2 x I)).
      + exists taken', ms', log'. rewrite app_nil_r. split; [exact Mt'|]. split.
        * intros r. rewrite in_app_iff, Tk. split; [tauto|]. intros [[I|I] K]; [auto|]. exfalso. apply Ph. now rewrite <- (Q1 r I).
        * rewrite <- (app_nil_r ms'). apply Grouping.selects_app; [exact Sm|]. apply Grouping.selects_none.
          intros x I K. apply Ph. now apply (about_query x _ (Q2 x I)).
  Qed.
End Matching.

(** ** The evaluation of a part *)

Section Evaluation.
  Context {Q RE E : Type} (Dec : forall x y : Q, {x = y} + {x <> y}).
  Notation HE := (scored E).
  Notation M := (match_t RE HE).
  Variables (lte : E -> E -> bool) (ltr : RE -> RE -> bool).
  Variables (rq : RE -> Q) (hq : E -> Q).
  Variable R : list RE -> HE -> list RE -> Prop.
  Variable scorer : RE -> HE -> match_error.
  Hypothesis Lo : local rq hq R.

  Lemma ranking_part crit (P : HE -> Prop) hyps rank hyps' : ranking lte crit hyps rank -> selects P hyps hyps' ->
    exists rank', selects P rank rank' /\ ranking lte crit hyps' rank'.
  Proof.
    intros Rk Sh. destruct Rk as [(C & Pm & S)|[(C & Pm & S)|(C1 & C2 & ->)]].
    - destruct (Runs.selects_perm _ _ _ Pm _ Sh) as (r & Sr & Pr). exists r. split; [exact Sr|]. left.
      split; [exact C|]. split; [exact Pr|]. exact (Ties.selects_sorted _ _ _ _ Sr S).
    - destruct (Runs.selects_perm _ _ _ Pm _ Sh) as (r & Sr & Pr). exists r. split; [exact Sr|]. right. left.
      split; [exact C|]. split; [exact Pr|]. exact (Ties.selects_sorted _ _ _ _ Sr S).
    - exists hyps'. split; [exact Sh|]. right. right. auto.
  Qed.

  Lemma evaluation_part crit f k f' refs hyps ms log groups g refs2 hyps2 : only f k f' ->
    evaluation lte ltr rq hq R scorer crit f refs hyps ms log groups ->
    selects (fun m => match_group rq hq f m k) ms g ->
    selects (fun r => kept f' (rq r)) refs refs2 -> selects (fun h => kept f' (hq (sc_base h))) hyps hyps2 ->
    exists log' groups', evaluation lte ltr rq hq R scorer crit f' refs hyps g log' groups'.
  Proof.
    intros On (r1 & h1 & rank & taken & found & missed & Sr & Sh & Rk & Mt & So & Mi & -> & G) Sg Sr2 Sh2.
    assert (Sub : forall q, kept f' q -> kept f q) by (intros q K; apply On in K; tauto).
    assert (Sr' := selects_twice _ _ _ _ _ (fun r => Sub (rq r)) Sr Sr2).
    assert (Sh' := selects_twice _ _ _ _ _ (fun h => Sub (hq (sc_base h))) Sh Sh2).
    destruct (ranking_part crit _ h1 rank hyps2 Rk Sh') as (rank' & Srk & Rk').
    destruct (matching_part rq hq R scorer Lo (kept f') r1 refs2 rank taken found log Mt Sr' rank' Srk)
      as (taken' & found' & log' & Mt' & Tk & Sf).
    destruct (matching_queries rq hq R scorer Lo _ _ _ _ _ Mt) as (Qf & _).
    destruct (Evaluation.ranking_in lte crit _ _ Rk) as [Ri _].
    assert (Ab : forall m, In m (found ++ map make_fn missed) -> match_group rq hq f m k <-> about rq hq (kept f') m).
    { intros m I.
      assert (exists q, has_query rq (fun h => hq (sc_base h)) m q /\ kept f q) as (q & Hq & Kq).
      { apply in_app_or in I as [I|I].
        - destruct (Qf m I) as (h & Ih & Hm). exists (hq (sc_base h)). split; [exact Hm|].
          apply Ri in Ih. now apply (Grouping.selects_in _ _ _ Sh) in Ih.
        - apply in_map_iff in I as (r & <- & I). exists (rq r). split; [reflexivity|]. apply Mi in I as [I _].
          now apply (Grouping.selects_in _ _ _ Sr) in I. }
      rewrite (about_query rq hq (kept f') m q Hq), (On q). split.
      - intros (q' & Hq' & K). rewrite (Grouping.has_query_unique rq _ m q q' Hq Hq'). split; [|exact K].
        now rewrite <- (Grouping.has_query_unique rq _ m q q' Hq Hq').
      - intros [_ K]. exists q. auto. }
    apply (selects_in_iff _ (about rq hq (kept f')) _ _ Ab) in Sg.
    destruct (selects_split _ _ _ _ Sg) as (g1 & g2 & -> & S1 & S2).
    rewrite (selects_fun _ _ _ _ S1 Sf) in *. clear g1 S1.
    destruct (selects_unmap _ _ _ _ S2) as (missed' & -> & Sm).
    assert (Sm' : selects (fun r => kept f' (rq r)) missed missed').
    { revert Sm. apply selects_in_iff. intros r _. apply about_query. reflexivity. }
    destruct (grouping_exists Dec rq hq f' (found' ++ map make_fn missed')) as [gs Gs].
    { intros m I. apply (Grouping.selects_in _ _ _ Sg) in I as [I (q & Hq & [[j Kj]|N])].
      - exists j, q. split; [exact Hq|]. now left.
      - exists q, q. split; [exact Hq|]. right. split; [|reflexivity]. intros j. apply N. }
    exists log', gs, refs2, hyps2, rank', taken', found', missed'.
    split; [exact Sr2|]. split; [exact Sh2|]. split; [exact Rk'|]. split; [exact Mt'|].
    split; [exact (Ties.selects_sorted _ _ _ _ Sm' So)|]. split; [|split; [reflexivity|exact Gs]].
    intros r. rewrite (Grouping.selects_in _ _ _ Sm'), Mi, Tk, (Grouping.selects_in _ _ _ Sr'). tauto.
  Qed.

End Evaluation.

(** The groups of an evaluation are those of the queries that occur. *)
Section Keys.
  Context {Q RE E : Type}.
  Notation HE := (scored E).
  Notation M := (match_t RE HE).
  Variables (lte : E -> E -> bool) (cr : Cmp RE) (Hr : total_order cr).
  Variables (rq : RE -> Q) (hq : E -> Q).
  Variables (S : EvSet RE HE) (R : list RE -> HE -> list RE -> Prop) (HS : finds S R).
  Variable scorer : RE -> HE -> match_error.
  Hypothesis Lo : local rq hq R.

  Lemma evaluation_keys crit f refs hyps ms log groups :
    evaluation lte (c_lt cr) rq hq R scorer crit f refs hyps ms log groups ->
    exists keys, NoDup keys /\ Forall2 (fun k g => selects (fun m => match_group rq hq f m k) ms g) keys groups /\
      (forall m, In m ms -> exists k, In k keys /\ match_group rq hq f m k) /\
      forall k, In k keys <-> exists q, kept f q /\ group_is f q k /\
        ((exists r, In r refs /\ rq r = q) \/ exists h, In h hyps /\ hq (sc_base h) = q).
  Proof.
    intros Ev. destruct (Evaluation.eval_refs lte cr Hr rq hq S R HS scorer _ _ _ _ _ _ _ Ev) as [_ Er].
    destruct Ev as (r1 & h1 & rank & taken & found & missed & Sr & Sh & Rk & Mt & So & Mi & -> & G).
    destruct (Evaluation.ranking_in lte crit _ _ Rk) as [Ri _].
    destruct G as (ks & keys & F1 & Fs & F2). exists keys. split; [exact (Grouping.first_seen_nodup _ _ Fs)|].
    split; [clear - F2; induction F2 as [|k g keys gs [_ K] F IH]; constructor; auto|].
    split; [intros m I; destruct (Evaluation.Forall2_in _ _ _ F1) as [K _]; destruct (K m I) as (k & Ik & Hk);
      exists k; split; [now apply (Grouping.first_seen_in _ _ Fs)|exact Hk]|].
    assert (Mk : forall k, In k keys <-> exists m, In m (found ++ map make_fn missed) /\ match_group rq hq f m k).
    { intros k. rewrite (Grouping.first_seen_in _ _ Fs). destruct (Evaluation.Forall2_in _ _ _ F1) as [K1 K2]. split.
      - intros I. destruct (K2 k I) as (m & Im & Hm). eauto.
      - intros (m & Im & Hm). destruct (K1 m Im) as (k' & Ik & Hk).
        now rewrite (Evaluation.match_group_fun rq hq f m k k' Hm Hk). }
    destruct (matching_queries rq hq R scorer Lo _ _ _ _ _ Mt) as (Q1 & Q2 & _).
    intros k. rewrite Mk. split.
    - intros (m & I & q & Hq & Gq). exists q. apply in_app_or in I as [I|I].
      + destruct (Q1 m I) as (h & Ih & Hm). rewrite (Grouping.has_query_unique rq _ m _ _ Hq Hm) in *.
        apply Ri in Ih. apply (Grouping.selects_in _ _ _ Sh) in Ih as [Ih K]. split; [exact K|]. split; [exact Gq|]. eauto.
      + apply in_map_iff in I as (r & <- & I). cbn in Hq. subst q. apply Mi in I as [I _].
        apply (Grouping.selects_in _ _ _ Sr) in I as [I K]. split; [exact K|]. split; [exact Gq|]. eauto.
    - intros (q & K & Gq & [(r & I & <-)|(h & I & <-)]).
      + assert (Ir := proj2 (Er r) (conj I K)). unfold refs_of in Ir. apply in_flat_map in Ir as (m & Im & Hm).
        exists m. split; [exact Im|]. exists (rq r). split; [|exact Gq]. unfold has_query.
        destruct (m_ref m); [|destruct Hm]. now destruct Hm as [<-|[]].
      + destruct (Q2 h) as (m & Im & Hm); [apply Ri, (Grouping.selects_in _ _ _ Sh); auto|].
        exists m. split; [apply in_or_app; auto|]. exists (hq (sc_base h)). auto.
  Qed.
End Keys.

Lemma box_local {Q} (cq : Cmp Q) : local (RE := devent Q) ev_query ev_query (box_search cq).
Proof.
  constructor.
  - intros refs h l r (_ & M & _) I. now apply M in I as (_ & E & _).
  - intros P refs refs' h l S Ph (N & M & So). split; [exact N|]. split; [|exact So].
    intros r. rewrite M, (Grouping.selects_in _ _ _ S). split; [|tauto].
    intros (I & E & K). split; [|auto]. split; [exact I|]. now rewrite E.
Qed.

Lemma exact_local {Q L} : local (RE := event Q L) (E := event Q L) ev_query ev_query exact_search.
Proof.
  constructor.
  - intros refs h l r [[I ->]|[_ ->]] K; [|destruct K]. now destruct K as [<-|[]].
  - intros P refs refs' h l S Ph [[I ->]|[N ->]]; [left|right]; (split; [|reflexivity]); rewrite (Grouping.selects_in _ _ _ S); tauto.
Qed.

Lemma exact_base {E} refs (h h' : scored E) l : sc_base h = sc_base h' -> exact_search refs h l -> exact_search refs h' l.
Proof. unfold exact_search. now intros <-. Qed.

(** ** Means *)

Section Means.
  Context {A : Arith} {RE HE : Type} (score : HE -> f32) (T : Trans A) (srt : sort_fn).
  Notation M := (match_t RE HE).

  Lemma average_sum (vs : list (num A)) : average vs = mean_of A (fold_left (a_add A) vs (a0 A)) (List.length vs).
  Proof. destruct vs; reflexivity. Qed.

  Lemma mean_ap_average (gs : list (list M)) c i t v vs : mean_ap A score srt gs c i t false = Ok v ->
    Forall2 (fun g x => global_ap A score g c i t = Ok x) gs vs -> v = average vs.
  Proof.
    rewrite average_sum. unfold mean_ap. intros E F. rewrite <- (Curves.Forall2_len _ _ _ F).
    enough (H : forall s, ofold (fun s g => obind (maybe_sort score srt false g) (fun g' => obind (global_ap A score g' c i t)
      (fun ap => Ok (a_add A s ap)))) gs s = Ok (fold_left (a_add A) vs s)).
    { rewrite H in E. cbn [obind] in E. now injection E as <-. }
    clear E. induction F as [|g x gs vs Hg F IH]; intros s; [reflexivity|]. cbn [ofold maybe_sort obind fold_left].
    rewrite Hg. cbn [obind]. apply IH.
  Qed.

  Lemma mean_ndcg_average (gs : list (list M)) c v : mean_ndcg A T score srt gs c false = Ok v ->
    v = average (map (fun g => global_ndcg A T score g c) gs).
  Proof.
    rewrite average_sum, map_length. unfold mean_ndcg. intros E.
    enough (H : forall s, ofold (fun s g => obind (maybe_sort score srt false g) (fun g' =>
      Ok (a_add A s (global_ndcg A T score g' c)))) gs s = Ok (fold_left (a_add A) (map (fun g => global_ndcg A T score g c) gs) s)).
    { rewrite H in E. cbn [obind] in E. now injection E as <-. }
    clear E. induction gs as [|g gs IH]; intros s; [reflexivity|]. cbn [ofold maybe_sort obind fold_left map]. apply IH.
  Qed.
End Means.

(** ** Two evaluations of the same events *)

Lemma bytes_dec (x y : bytes) : {x = y} + {x <> y}.
Proof. repeat decide equality. Qed.

Section Again.
  Context {Q RE E : Type}.
  Notation HE := (scored E).
  Notation M := (match_t RE HE).
  Variables (ce : Cmp E) (He : total_order ce) (cr : Cmp RE) (Hr : total_order cr).
  Variables (rq : RE -> Q) (hq : E -> Q).
  Variables (S : EvSet RE HE) (R : list RE -> HE -> list RE -> Prop) (HS : finds S R).
  Variable scorer : RE -> HE -> match_error.
  Hypothesis HR : forall refs h h' l, sc_base h = sc_base h' -> R refs h l -> R refs h' l.
  Hypothesis Hsc : forall r h h', sc_base h = sc_base h' -> scorer r h = scorer r h'.

  Lemma evaluation_again crit f refs hyps ms log groups ms' log' groups' : (forall h, In h hyps -> is_finite (sc_score h) = true) ->
    evaluation (c_lt ce) (c_lt cr) rq hq R scorer crit f refs hyps ms log groups ->
    evaluation (c_lt ce) (c_lt cr) rq hq R scorer crit f refs hyps ms' log' groups' ->
    forall c, points sc_score c ms = points sc_score c ms'.
  Proof.
    intros Fi Ev Ev' c.
    assert (D : crit = lit "desc" \/ crit = lit "asc" -> points sc_score c ms = points sc_score c ms').
    { intros C.
      destruct (Runs.evaluations_equal ce He cr Hr rq hq S R HS scorer HR Hsc crit f refs refs hyps hyps ms log groups ms' log' groups'
        C (fun x => iff_refl _) (Permutation_refl _)) as (F & _); auto.
      { intros h Ih. apply Rescore.finite_not_nan. now apply Fi. }
      exact (Rescore.sim_points equal_hyps sc_score sc_score (fun x y => f32_eq x y = true) Runs.eq_tie Runs.equal_score eq_refl ms ms' c F). }
    destruct (bytes_dec crit (lit "desc")) as [C|C1]; [auto|]. destruct (bytes_dec crit (lit "asc")) as [C|C2]; [auto|]. clear D.
    f_equal.
    destruct Ev as (r1 & h1 & rank & taken & found & missed & Sr & Sh & Rk & Mt & So & Mi & -> & _).
    destruct Ev' as (r2 & h2 & rank' & taken' & found' & missed' & Sr' & Sh' & Rk' & Mt' & So' & Mi' & -> & _).
    rewrite (selects_fun _ _ _ _ Sr' Sr) in *. rewrite (selects_fun _ _ _ _ Sh' Sh) in *.
    destruct Rk as [(C & _)|[(C & _)|(_ & _ & ->)]]; try contradiction.
    destruct Rk' as [(C & _)|[(C & _)|(_ & _ & ->)]]; try contradiction.
    destruct (Matching.matching_unique S R HS scorer r1 r1 h1 (fun x => iff_refl _) _ _ _ _ _ _ Mt Mt') as (<- & <- & _).
    assert (missed' = missed) as ->.
    { apply (Sets.ssorted_unique (c_lt cr) (to_irrefl _ Hr)); auto.
      - intros x y z. apply (to_trans _ Hr).
      - intros x. rewrite Mi, Mi'. reflexivity. }
    reflexivity.
  Qed.
End Again.

(** Orders that agree on the events give the same evaluations. *)
Lemma evaluation_orders {Q RE E} lte lte' ltr ltr' (rq : RE -> Q) (hq : E -> Q) R scorer crit f refs hyps ms log groups :
  (forall h h', In h hyps -> In h' hyps -> lte (sc_base h) (sc_base h') = lte' (sc_base h) (sc_base h')) ->
  (forall r r', In r refs -> In r' refs -> ltr r r' = ltr' r r') ->
  evaluation lte ltr rq hq R scorer crit f refs hyps ms log groups -> evaluation lte' ltr' rq hq R scorer crit f refs hyps ms log groups.
Proof.
  intros Hh Hr (r1 & h1 & rank & taken & found & missed & Sr & Sh & Rk & Mt & So & Mi & Em & G).
  exists r1, h1, rank, taken, found, missed. split; [exact Sr|]. split; [exact Sh|]. split; [|split; [exact Mt|split; [|auto]]].
  - destruct (Evaluation.ranking_in lte crit _ _ Rk) as [Ri _].
    assert (Ih : forall h, In h rank -> In h hyps) by (intros h I; apply Ri in I; now apply (Grouping.selects_in _ _ _ Sh) in I).
    destruct Rk as [(C & P & S)|[(C & P & S)|C]]; [left|right; left|right; right; exact C]; (split; [exact C|]); (split; [exact P|]);
      revert S; apply Ties.sorted_weaken; intros x y Ix Iy [K1 K2]; (split; [exact K1|]); intros K; rewrite <- Hh; auto.
  - revert So. apply Ties.sorted_weaken. intros x y Ix Iy. rewrite Hr; auto; apply (Grouping.selects_in _ _ _ Sr), Mi; assumption.
Qed.

(** The ids are those of the events, whatever else. *)
Lemma ids_agree qf refs hyps id id' : Instances.ids_of qf refs hyps id -> Instances.ids_of qf refs hyps id' ->
  (forall r, In r refs -> renamed id r = renamed id' r) /\
  (forall h, In h hyps -> renamed id (sc_base h) = renamed id' (sc_base h)).
Proof.
  intros (t1 & t2 & M1 & M2) (t1' & t2' & M1' & M2'). rewrite M1 in M1'. injection M1' as E1 <-. rewrite M2 in M2'. injection M2' as E2 _.
  assert (K : forall X Y (f g : X -> Y) l, map f l = map g l -> forall x, In x l -> f x = g x).
  { clear. intros X Y f g. induction l as [|a l IH]; intros E x I; [destruct I|]. injection E as E1 E2. destruct I as [<-|I]; auto. }
  split; [exact (K _ _ _ _ _ E1)|]. intros h I. exact (f_equal sc_base (K _ _ _ _ _ E2 h I)).
Qed.

(** ** The runs *)

Section Runs.
  Context {A : Arith} (T : Trans A) (srt : sort_fn) (Hs : sort_contract srt).
  Variables (rngs : Z -> rng) (show_int : Z -> bytes) (show_f64 : f64 -> bytes).

  Lemma reported_prints {RE E} w c (ms log : list (match_t RE (scored E))) groups l r : Instances.reported T srt w c ms log groups l r ->
    exists v1 v2 v4, prints l v1 v2 (global_ndcg A T sc_score ms (cf_collapse c)) v4 /\
      global_ap A sc_score ms (cf_collapse c) (cf_interp c) (cf_trapezoid c) = Ok v1 /\
      mean_ap A sc_score srt groups (cf_collapse c) (cf_interp c) (cf_trapezoid c) false = Ok v2 /\
      mean_ndcg A T sc_score srt groups (cf_collapse c) false = Ok v4.
  Proof.
    intros (v1 & v2 & v4 & curves & e & _ & H1 & H2 & H4 & O & C). exists v1, v2, v4. split; [|auto].
    unfold prints. rewrite <- Runs.printed_outputs, O, !Runs.printed_app, Runs.printed_dumped.
    rewrite (Runs.printed_curves _ _ _ _ _ _ C), app_nil_r. reflexivity.
  Qed.

  (** From the statistics of the parts to the means. *)
  Lemma parts_means {K RE E} w c (ms log : list (match_t RE (scored E))) groups l r (keys : list K) (part : K -> num A -> num A -> Prop) :
    Instances.reported T srt w c ms log groups l r ->
    Forall2 (fun k g => exists v n, part k v n /\ n = global_ndcg A T sc_score g (cf_collapse c) /\
      global_ap A sc_score g (cf_collapse c) (cf_interp c) (cf_trapezoid c) = Ok v) keys groups ->
    exists vs ns gap gndcg, prints l gap (average vs) gndcg (average ns) /\
      Forall2 (fun k vn => part k (fst vn) (snd vn)) keys (combine vs ns) /\ List.length vs = List.length ns.
  Proof.
    intros Rp F. destruct (reported_prints _ _ _ _ _ _ _ Rp) as (v1 & v2 & v4 & Pr & H1 & H2 & H4).
    apply (mean_ndcg_average sc_score T srt) in H4. subst v4.
    assert (exists vs, Forall2 (fun g x => global_ap A sc_score g (cf_collapse c) (cf_interp c) (cf_trapezoid c) = Ok x) groups vs /\
      Forall2 (fun k vn => part k (fst vn) (snd vn)) keys (combine vs (map (fun g => global_ndcg A T sc_score g (cf_collapse c)) groups)) /\
      List.length vs = List.length groups) as (vs & F1 & F2 & L).
    { clear - F. induction F as [|k g keys groups (v & n & P & -> & G) F (vs & F1 & F2 & L)].
      - exists []. repeat split; constructor.
      - exists (v :: vs). split; [now constructor|]. split; [|cbn; now rewrite L]. cbn. now constructor. }
    rewrite (mean_ap_average sc_score srt groups _ _ _ _ _ H2 F1) in *.
    eexists vs, _, v1, _. split; [exact Pr|]. split; [exact F2|]. now rewrite map_length.
  Qed.

  Lemma points_ap {RE HE} (score : HE -> f32) (g g' : list (match_t RE HE)) c i t : points score c g = points score c g' ->
    global_ap A score g c i t = global_ap A score g' c i t.
  Proof. intros H. unfold global_ap, precision_recall_matches. now rewrite H. Qed.

  Lemma points_ndcg {RE HE} (score : HE -> f32) (g g' : list (match_t RE HE)) c : points score c g = points score c g' ->
    global_ndcg A T score g c = global_ndcg A T score g' c.
  Proof. intros H. unfold global_ndcg. now rewrite H. Qed.

  (** The file of the second run keeps the same events whatever else. *)
  Lemma kept_events {Q RE E} (lte : E -> E -> bool) (ltr : RE -> RE -> bool) (rq : RE -> Q) (hq : E -> Q) R scorer crit f refs hyps ms log groups :
    evaluation lte ltr rq hq R scorer crit f refs hyps ms log groups ->
    exists refs' hyps', selects (fun r => kept f (rq r)) refs refs' /\ selects (fun h => kept f (hq (sc_base h))) hyps hyps'.
  Proof. intros (r1 & h1 & _ & _ & _ & _ & Sr & Sh & _). eauto. Qed.

  Notation icdar := (icdar17 A T srt rngs show_int show_f64).

  Lemma icdar_parts (pns : bytes -> bytes) (argss : bytes -> list bytes) (ws : bytes -> world) (cs : bytes -> config) (fs : bytes -> query_file bytes)
    w pn args c refs hyps f :
    command args c -> no_bootstrap c -> inputs shaped_text scored_shaped_text w c refs hyps f ->
    (forall k, present f refs hyps k -> only f k (fs k) /\ command (argss k) (cs k) /\ no_bootstrap (cs k) /\ same_settings c (cs k) /\
      inputs shaped_text scored_shaped_text (ws k) (cs k) refs hyps (fs k)) ->
    exists ks vs ns gap gndcg, NoDup ks /\ (forall k, In k ks <-> present f refs hyps k) /\
      prints (fst (icdar w pn args)) gap (average vs) gndcg (average ns) /\
      Forall2 (fun k vn => exists m m', prints (fst (icdar (ws k) (pns k) (argss k))) (fst vn) m (snd vn) m') ks (combine vs ns) /\
      List.length vs = List.length ns.
  Proof.
    intros Cm NB I Hk. destruct (icdar w pn args) as [l r] eqn:Et.
    destruct (Instances.icdar_run T srt Hs rngs show_int show_f64 w pn args c refs hyps f l r Cm NB I Et) as (ms & log & gs & Fi & Ev & Rp).
    destruct (evaluation_keys (c_lt cmp_shaped) cmp_shaped Order.total_order_shaped ev_query ev_query (evset_docbox srt cmp_str) (box_search cmp_str)
      (Matching.finds_docbox srt cmp_str Hs Order.total_order_str) _ (box_local cmp_str) _ _ _ _ _ _ _ Ev) as (keys & Nk & Fk & _ & Ik).
    cbn [fst]. exists keys.
    destruct (parts_means w c ms log gs l r keys (fun k v n => exists m m', prints (fst (icdar (ws k) (pns k) (argss k))) v m n m') Rp)
      as (vs & ns & gap & gndcg & Pr & F & L).
    { assert (Hk' : forall k, In k keys -> present f refs hyps k) by (intros k K; now apply Ik). clear Ik Nk Rp.
      assert (exists gs0, icdar17_evaluation (cf_sort c) f refs hyps ms log gs0) as [gs0 Ev0] by eauto. clear Ev.
      induction Fk as [|k g keys gs Sg Fk IH]; constructor; [|apply IH; intros k' K; apply Hk'; simpl; auto].
      destruct (Hk k) as (On & Cm' & NB' & (S1 & S2 & S3 & S4) & I'); [apply Hk'; simpl; auto|].
      destruct (icdar (ws k) (pns k) (argss k)) as [l' r'] eqn:Et'.
      destruct (Instances.icdar_run T srt Hs rngs show_int show_f64 (ws k) (pns k) (argss k) (cs k) refs hyps (fs k) l' r' Cm' NB' I' Et')
        as (ms' & log' & gs' & _ & Ev' & Rp').
      destruct (kept_events _ _ _ _ _ _ _ _ _ _ _ _ _ Ev') as (refs2 & hyps2 & Sr & Sh).
      destruct (evaluation_part bytes_dec _ _ _ _ _ _ (box_local cmp_str) _ f k (fs k) refs hyps ms log _ g refs2 hyps2 On Ev0 Sg Sr Sh)
        as (log2 & gs2 & Ev2).
      rewrite S1 in Ev2. assert (Pt := evaluation_again cmp_shaped Order.total_order_shaped cmp_shaped Order.total_order_shaped ev_query ev_query
        (evset_docbox srt cmp_str) (box_search cmp_str) (Matching.finds_docbox srt cmp_str Hs Order.total_order_str)
        (fun r h => ioh_scorer cmp_str f32_half r (sc_base h)) Runs.box_search_base
        (fun r h h' B => f_equal (fun x => ioh_scorer cmp_str f32_half r x) B) _ _ _ _ _ _ _ _ _ _ Fi Ev2 Ev' (cf_collapse c)).
      destruct (reported_prints _ _ _ _ _ _ _ Rp') as (v1 & v2 & v4 & Pr' & H1 & _).
      rewrite <- S2, <- S3, <- S4 in *. eexists v1, _. split; [exists v2, v4; exact Pr'|].
      split; [symmetry; exact (points_ndcg _ _ _ _ Pt)|]. now rewrite (points_ap _ _ _ _ _ _ Pt). }
    exists vs, ns, gap, gndcg. split; [exact Nk|]. split; [exact Ik|]. auto.
  Qed.

  Notation simple := (simple_kws A T srt rngs show_int show_f64).

  Lemma simple_parts (pns : bytes -> bytes) (argss : bytes -> list bytes) (ws : bytes -> world) (cs : bytes -> config)
    (fs : bytes -> query_file bytes) qf w pn args c refs hyps f :
    command args c -> no_bootstrap c -> inputs str_event_text scored_str_event_text w c refs hyps f ->
    (Z.of_nat (strings refs hyps f) <= 2147483648)%Z ->
    (forall k, present f refs hyps k -> only f k (fs k) /\ command (argss k) (cs k) /\ no_bootstrap (cs k) /\ same_settings c (cs k) /\
      inputs str_event_text scored_str_event_text (ws k) (cs k) refs hyps (fs k) /\ (Z.of_nat (strings refs hyps (fs k)) <= 2147483648)%Z) ->
    exists ks vs ns gap gndcg, NoDup ks /\ (forall k, In k ks <-> present f refs hyps k) /\
      prints (fst (simple qf w pn args)) gap (average vs) gndcg (average ns) /\
      Forall2 (fun k vn => exists m m', prints (fst (simple qf (ws k) (pns k) (argss k))) (fst vn) m (snd vn) m') ks (combine vs ns) /\
      List.length vs = List.length ns.
  Proof.
    intros Cm NB I Ls Hk. destruct (simple qf w pn args) as [l r] eqn:Et. rewrite Instances.simple_tool in Et.
    destruct (Instances.simple_run_ids T srt Hs rngs show_int show_f64 w qf pn args c refs hyps f l r Cm NB I Et Ls) as (id & ms & log & gs & Id & Inj & Fi & Ev & Rp).
    destruct (evaluation_keys (c_lt (Results.by_id id)) (Results.by_id id) (Results.by_id_total id Inj) ev_query ev_query (evset_generic (Results.by_id id)) exact_search
      (Matching.finds_generic (Results.by_id id) (Results.by_id_total id Inj)) (fun r h => trivial_scorer cmp_str cmp_str r (sc_base h)) exact_local _ _ _ _ _ _ _ Ev) as (keys & Nk & Fk & _ & Ik).
    cbn [fst]. exists keys.
    destruct (parts_means w c _ _ _ l r keys (fun k v n => exists m m', prints (fst (simple qf (ws k) (pns k) (argss k))) v m n m') Rp)
      as (vs & ns & gap & gndcg & Pr & F & L).
    { assert (Hk' : forall k, In k keys -> present f refs hyps k) by (intros k K; now apply Ik). clear Ik Nk Rp.
      assert (exists gs0, simple_evaluation id (cf_sort c) f refs hyps ms log gs0) as [gs0 Ev0] by eauto. clear Ev.
      induction Fk as [|k g keys gs Sg Fk IH]; cbn [map]; constructor; [|apply IH; intros k' K; apply Hk'; simpl; auto].
      destruct (Hk k) as (On & Cm' & NB' & (S1 & S2 & S3 & S4) & I' & Ls'); [apply Hk'; simpl; auto|].
      destruct (simple qf (ws k) (pns k) (argss k)) as [l' r'] eqn:Et'. rewrite Instances.simple_tool in Et'.
      destruct (Instances.simple_run_ids T srt Hs rngs show_int show_f64 (ws k) qf (pns k) (argss k) (cs k) refs hyps (fs k) l' r' Cm' NB' I' Et' Ls')
        as (id' & ms' & log' & gs' & Id' & Inj' & _ & Ev' & Rp').
      destruct (kept_events _ _ _ _ _ _ _ _ _ _ _ _ _ Ev') as (refs2 & hyps2 & Sr & Sh).
      destruct (evaluation_part bytes_dec _ _ _ _ _ _ exact_local _ f k (fs k) refs hyps ms log _ g refs2 hyps2 On Ev0 Sg Sr Sh)
        as (log2 & gs2 & Ev2).
      rewrite <- S1 in Ev'.
      destruct (ids_agree qf refs hyps id' id Id' Id) as [Ar Ah].
      apply (evaluation_orders _ (c_lt (Results.by_id id)) _ (c_lt (Results.by_id id))) in Ev';
        [|intros h h' Ih Ih'; unfold Results.by_id; cbn [c_lt]; now rewrite (Ah h Ih), (Ah h' Ih')
         |intros x x' Ix Ix'; unfold Results.by_id; cbn [c_lt]; now rewrite (Ar x Ix), (Ar x' Ix')].
      assert (Pt := evaluation_again (Results.by_id id) (Results.by_id_total id Inj) (Results.by_id id) (Results.by_id_total id Inj) ev_query ev_query
        (evset_generic (Results.by_id id)) exact_search (Matching.finds_generic (Results.by_id id) (Results.by_id_total id Inj))
        (fun r h => trivial_scorer cmp_str cmp_str r (sc_base h)) exact_base
        (fun r h h' B => f_equal (fun x => trivial_scorer cmp_str cmp_str r x) B) _ _ _ _ _ _ _ _ _ _ Fi Ev2 Ev' (cf_collapse c)).
      assert (Pt' : points sc_score (cf_collapse c) (map (renamed_match id) g) = points sc_score (cf_collapse c) (map (renamed_match id') ms')).
      { transitivity (points sc_score (cf_collapse c) g); [apply Runs.points_renamed; reflexivity|].
        rewrite Pt. symmetry. apply Runs.points_renamed. reflexivity. }
      destruct (reported_prints _ _ _ _ _ _ _ Rp') as (v1 & v2 & v4 & Pr' & H1 & _).
      rewrite <- S2, <- S3, <- S4 in *. eexists v1, _. split; [exists v2, v4; exact Pr'|].
      split; [symmetry; exact (points_ndcg _ _ _ _ Pt')|]. now rewrite (points_ap _ _ _ _ _ _ Pt'). }
    exists vs, ns, gap, gndcg. split; [exact Nk|]. split; [exact Ik|]. auto.
  Qed.
End Runs.

(** ** Real means *)

Lemma prints_fun {A : Arith} {RE HE} (l : list (effect A (RE := RE) (HE := HE))) v n v' n' :
  (exists m m', prints l v m n m') -> (exists m m', prints l v' m n' m') -> v = v' /\ n = n'.
Proof. unfold prints. intros (m & m1 & E) (m' & m1' & E'). rewrite E in E'. split; congruence. Qed.

Lemma average_mean (vs : list R) : is_mean vs (average (A := RArith) vs).
Proof.
  destruct vs as [|v vs]; [left; auto|right]. split; [discriminate|]. unfold average. cbn [a_div a_nat RArith].
  assert (S : forall (l : list R) (s : R), (fold_left (a_add RArith) l s : R) = (s + sum_of (fun v => v) l)%R).
  { clear. induction l as [|x l IH]; intros s; [change (@eq R s (s + 0)%R); ring|]. cbn [fold_left]. rewrite IH.
    change (s + x + sum_of (fun v => v) l = s + (x + sum_of (fun v => v) l))%R. ring. }
  rewrite S. change (a0 RArith) with 0%R. generalize (sum_of (fun v => v) (v :: vs)). intros t.
  change ((0 + t) / INR (List.length (v :: vs)) * INR (List.length (v :: vs)) = t)%R. field. apply not_0_INR. discriminate.
Qed.

Lemma is_mean_perm l l' m : Permutation l l' -> is_mean l m -> is_mean l' m.
Proof.
  intros P [[-> ->]|[N E]].
  - left. split; [now apply Permutation_nil|reflexivity].
  - right. split; [intros ->; apply N; now apply Permutation_nil, Permutation_sym|].
    rewrite <- (Permutation_length P), E. now apply Curves.sum_of_perm.
Qed.

Lemma real_means {K} (part : K -> R -> R -> Prop) ks ks' vns vs ns :
  (forall k v n v' n', part k v n -> part k v' n' -> v = v' /\ n = n') -> NoDup ks -> NoDup ks' -> (forall k, In k ks <-> In k ks') ->
  Forall2 (fun k vn => part k (fst vn) (snd vn)) ks vns -> Forall2 (fun k vn => part k (fst vn) (snd vn)) ks' (combine vs ns) ->
  List.length vs = List.length ns ->
  is_mean (map fst vns) (average (A := RArith) vs) /\ is_mean (map snd vns) (average (A := RArith) ns).
Proof.
  intros Fu N N' I F F' L.
  assert (P : Permutation ks' ks) by (apply NoDup_Permutation; auto; intros k; now rewrite I).
  destruct (Ties.Forall2_perm _ _ _ P _ F') as (vns' & Pv & F2).
  assert (vns' = vns) as ->.
  { clear - F F2 Fu. revert vns' F2. induction F as [|k [v n] ks vns Hk F IH]; intros vns' F2; inversion F2 as [|? [v' n'] ? l Hk' F3]; subst; auto.
    destruct (Fu k _ _ _ _ Hk Hk') as [E1 E2]. cbn in E1, E2. subst. f_equal. auto. }
  split; (eapply is_mean_perm; [|apply average_mean]).
  - rewrite <- (Permutation_map fst Pv). now rewrite (Runs.map_fst_combine vs ns L).
  - rewrite <- (Permutation_map snd Pv). clear - L. revert ns L. induction vs as [|v vs IH]; intros [|n ns] L; try discriminate; [reflexivity|].
    cbn. constructor. apply IH. now injection L.
Qed.

(** ** One group *)

Section OneGroup.
  Context {Q RE E : Type}.
  Notation M := (match_t RE (scored E)).
  Variables (rq : RE -> Q) (hq : E -> Q).

  Lemma one_group f (ms : list M) keys groups k : NoDup keys -> (forall x, In x keys -> x = k) -> ms <> [] ->
    (forall m, In m ms -> exists x, In x keys /\ match_group rq hq f m x) ->
    Forall2 (fun k g => selects (fun m => match_group rq hq f m k) ms g) keys groups -> groups = [ms].
  Proof.
    intros N One Ne Hm F. destruct keys as [|a keys].
    { exfalso. destruct ms as [|m ms]; [now apply Ne|]. destruct (Hm m) as (x & [] & _). now left. }
    assert (a = k) as -> by (apply One; now left).
    destruct keys as [|b keys].
    - inversion F as [|? g ? gs S F']; subst. inversion F'; subst. f_equal.
      assert (A : selects (fun m => match_group rq hq f m k) ms ms).
      { apply selects_all. intros m I. destruct (Hm m I) as (x & [<-|[]] & K). exact K. }
      exact (selects_fun _ _ _ _ S A).
    - exfalso. inversion N as [|? ? K _]; subst. apply K. left. apply One. right. now left.
  Qed.
End OneGroup.

(** The mean of one number. *)
Lemma average_one_real (v : R) : average (A := RArith) [v] = v.
Proof. change ((0 + v) / 1 = v)%R. field. Qed.

Lemma average_one_double (v : f64) : is_finite v = true -> is_finite (average (A := DArith) [v]) = true /\ (B2R (average (A := DArith) [v]) = B2R v)%R.
Proof.
  intros F. change (average (A := DArith) [v]) with (f64_div (f64_add (f64_of_Z 0) v) (f64_of_Z 1)).
  assert (G : generic_format radix2 (FLT_exp (-1074) 53) (B2R v)) by apply (generic_format_B2R 53 1024 v).
  assert (B : (Rabs (B2R v) < bpow radix2 1024)%R) by apply abs_B2R_lt_emax.
  assert (Z0 : (B2R (f64_of_Z 0) = 0)%R) by reflexivity.
  assert (Z1 : (B2R (f64_of_Z 1) = 1)%R) by (vm_compute; lra).
  assert (P := Bplus_correct 53 1024 prec64 emax64 mode_NE (f64_of_Z 0) v eq_refl F).
  rewrite Z0, Rplus_0_l, (round_generic _ _ _ _ G), (Rlt_bool_true _ _ B) in P. destruct P as (P1 & P2 & _).
  assert (D := Bdiv_correct 53 1024 prec64 emax64 mode_NE (f64_add (f64_of_Z 0) v) (f64_of_Z 1)).
  unfold f64_add, f64_div in *. rewrite P1, Z1 in D. unfold Rdiv in D.
  rewrite Rinv_1, Rmult_1_r, (round_generic _ _ _ _ G), (Rlt_bool_true _ _ B) in D.
  destruct D as (D1 & D2 & _); [lra|]. rewrite D1, D2, P2. auto.
Qed.

Section OneRun.
  Context {A : Arith} (T : Trans A) (srt : sort_fn) (Hs : sort_contract srt).
  Variables (rngs : Z -> rng) (show_int : Z -> bytes) (show_f64 : f64 -> bytes).

  Lemma reported_one {RE E} w c (ms log : list (match_t RE (scored E))) groups l r : Instances.reported T srt w c ms log groups l r ->
    groups = [ms] -> exists v n, prints l v (average [v]) n (average [n]) /\
      global_ap A sc_score ms (cf_collapse c) (cf_interp c) (cf_trapezoid c) = Ok v.
  Proof.
    intros Rp ->. destruct (reported_prints T srt _ _ _ _ _ _ _ Rp) as (v1 & v2 & v4 & Pr & H1 & H2 & H4).
    apply (mean_ndcg_average sc_score T srt) in H4. subst v4.
    rewrite (mean_ap_average sc_score srt [ms] _ _ _ _ [v1] H2) in Pr by (repeat constructor; exact H1). eauto.
  Qed.

  Lemma no_keys {Q RE E} (rq : RE -> Q) (hq : E -> Q) f (keys : list Q) groups : 
    Forall2 (fun k g => selects (fun m : match_t RE (scored E) => match_group rq hq f m k) [] g) keys groups ->
    grouping rq hq f [] groups -> keys = [].
  Proof.
    intros Fk (ks & keys' & F1 & Fs & F2). inversion F1; subst.
    inversion Fs as [E1 E2|l ? ? ? ? E1|l ? ? ? ? E1]; [|destruct l; discriminate|destruct l; discriminate].
    subst. inversion F2; subst. now inversion Fk.
  Qed.

  Lemma evaluation_grouping {Q RE E} (lte : E -> E -> bool) (ltr : RE -> RE -> bool) (rq : RE -> Q) (hq : E -> Q) R scorer crit f refs hyps ms log groups :
    evaluation lte ltr rq hq R scorer crit f refs hyps ms log groups -> grouping rq hq f ms groups.
  Proof. intros (? & ? & ? & ? & ? & ? & _ & _ & _ & _ & _ & _ & _ & G). exact G. Qed.

  Lemma icdar_one w pn args c refs hyps f : command args c -> no_bootstrap c -> inputs shaped_text scored_shaped_text w c refs hyps f ->
    one_group_only f refs hyps ->
    exists v n (ms : list (match_t shaped (scored shaped))),
      prints (fst (icdar17 A T srt rngs show_int show_f64 w pn args)) v (average [v]) n (average [n]) /\
      global_ap A sc_score ms (cf_collapse c) (cf_interp c) (cf_trapezoid c) = Ok v /\
      (forall m, In m ms -> zero_one (m_err m)) /\ (List.length ms <= List.length refs + List.length hyps)%nat.
  Proof.
    intros Cm NB I (k & Pk & One). destruct (icdar17 A T srt rngs show_int show_f64 w pn args) as [l r] eqn:Et.
    destruct (Instances.icdar_run T srt Hs rngs show_int show_f64 w pn args c refs hyps f l r Cm NB I Et) as (ms & log & gs & Fi & Ev & Rp).
    destruct (evaluation_keys (c_lt cmp_shaped) cmp_shaped Order.total_order_shaped ev_query ev_query (evset_docbox srt cmp_str) (box_search cmp_str)
      (Matching.finds_docbox srt cmp_str Hs Order.total_order_str) _ (box_local cmp_str) _ _ _ _ _ _ _ Ev) as (keys & Nk & Fk & Hm & Ik).
    destruct (reported_one w c ms log gs l r Rp) as (v & n & Pr & G).
    { apply (one_group ev_query ev_query f ms keys gs k Nk); auto.
      - intros x K. now apply One, Ik.
      - intros ->. apply Ik in Pk. rewrite (no_keys _ _ _ _ _ Fk (evaluation_grouping _ _ _ _ _ _ _ _ _ _ _ _ _ Ev)) in Pk. destruct Pk. }
    exists v, n, ms. split; [exact Pr|]. split; [exact G|]. split.
    - apply (Evaluation.eval_zero_one _ cmp_shaped _ _ _ _ _ _ _ _ _ _ _ Ev). intros x h. apply Instances.zero_one_ioh.
    - apply (Evaluation.eval_length _ cmp_shaped Order.total_order_shaped _ _ (evset_docbox srt cmp_str) _
        (Matching.finds_docbox srt cmp_str Hs Order.total_order_str) _ _ _ _ _ _ _ _ Ev).
  Qed.

  Lemma simple_one qf w pn args c refs hyps f : command args c -> no_bootstrap c -> inputs str_event_text scored_str_event_text w c refs hyps f ->
    (Z.of_nat (strings refs hyps f) <= 2147483648)%Z -> one_group_only f refs hyps ->
    exists v n (ms : list (match_t (event Z Z) (scored (event Z Z)))),
      prints (fst (simple_kws A T srt rngs show_int show_f64 qf w pn args)) v (average [v]) n (average [n]) /\
      global_ap A sc_score ms (cf_collapse c) (cf_interp c) (cf_trapezoid c) = Ok v /\
      (forall m, In m ms -> zero_one (m_err m)) /\ (List.length ms <= List.length refs + List.length hyps)%nat.
  Proof.
    intros Cm NB I Ls (k & Pk & One). destruct (simple_kws A T srt rngs show_int show_f64 qf w pn args) as [l r] eqn:Et.
    rewrite Instances.simple_tool in Et.
    destruct (Instances.simple_run T srt Hs rngs show_int show_f64 w qf pn args c refs hyps f l r Cm NB I Et Ls) as (id & ms & log & gs & Inj & Fi & Ev & Rp).
    destruct (evaluation_keys (c_lt (Results.by_id id)) (Results.by_id id) (Results.by_id_total id Inj) ev_query ev_query (evset_generic (Results.by_id id)) exact_search
      (Matching.finds_generic (Results.by_id id) (Results.by_id_total id Inj)) (fun r h => trivial_scorer cmp_str cmp_str r (sc_base h)) exact_local
      _ _ _ _ _ _ _ Ev) as (keys & Nk & Fk & Hm & Ik).
    assert (gs = [ms]) as ->.
    { apply (one_group ev_query ev_query f ms keys gs k Nk); auto.
      - intros x K. now apply One, Ik.
      - intros ->. apply Ik in Pk. rewrite (no_keys _ _ _ _ _ Fk (evaluation_grouping _ _ _ _ _ _ _ _ _ _ _ _ _ Ev)) in Pk. destruct Pk. }
    destruct (reported_one w c _ _ _ l r Rp) as (v & n & Pr & G); [reflexivity|].
    exists v, n, (map (renamed_match id) ms). split; [exact Pr|]. split; [exact G|]. rewrite map_length. split.
    - intros m K. apply in_map_iff in K as (m' & <- & K). change (m_err (renamed_match id m')) with (m_err m'). revert m' K.
      apply (Evaluation.eval_zero_one _ (Results.by_id id) _ _ _ _ _ _ _ _ _ _ _ Ev). intros x h. apply Instances.zero_one_trivial.
    - apply (Evaluation.eval_length _ (Results.by_id id) (Results.by_id_total id Inj) _ _ (evset_generic (Results.by_id id)) _
        (Matching.finds_generic (Results.by_id id) (Results.by_id_total id Inj)) _ _ _ _ _ _ _ _ Ev).
  Qed.
End OneRun.
