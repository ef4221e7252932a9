(** Proofs for Spec/Perfect.v. *)
From Coq Require Import Ascii String List Bool ZArith Reals Lia Lra Permutation Sorted.
From Flocq Require Import Core BinarySingleNaN.
From Verif.Model Require Import Cpp Floats Box Events EventSets Matches Matcher Scorers Assessment Bootstrap Mapper Stream
  Reader Options Tool.
From Verif.Spec Require Import Order Objects Sets Matching Scorers Grouping Collapse Metrics Curves Reader Options Tool Parts Found Again Perfect.
From Verif.Proofs Require Order Geometry Scorers Matching Ndcg Grouping Evaluation Results Runs Instances Parts Ties Raised Added Lifted.
From Verif.Proofs Require Gain.
From Verif.Proofs Require Import FloatFacts Metrics Curves Collapse AveragePrecision Better Hoist Queries Insert Unfound Found Settings.
Import ListNotations.
Local Open Scope R_scope.

(** ** Lists of hits *)

Definition all_hits {RE HE} (l : list (match_t RE HE)) : Prop := l <> [] /\ forall m, In m l -> is_hit m.

Lemma average_one (vs : list R) : vs <> [] -> (forall v, In v vs -> v = 1) -> average (A := RArith) vs = 1.
Proof.
  intros N H. rewrite Raised.average_R. assert (E : sum_of (fun v => v) vs = INR (List.length vs)).
  { clear N. induction vs as [|v vs IH]; [reflexivity|]. cbn [List.length]. rewrite S_INR. unfold sum_of in *. cbn [map fold_right]. rewrite IH by (intros x I; apply H; now right).
    rewrite (H v (or_introl eq_refl)). ring. }
  rewrite E. assert (K : INR (List.length vs) <> 0) by (apply not_0_INR; destruct vs; [congruence|discriminate]).
  change (@eq R (INR (List.length vs) / INR (List.length vs)) 1). now field.
Qed.

Section Lists.
  Context {RE E : Type}.
  Notation M := (match_t RE (scored E)).

  Lemma counts_hits (l : list M) : all_hits l -> (forall m, In m l -> zero_one (m_err m)) ->
    alarms l = 0%nat /\ hits l = List.length l /\ Metrics.refs l = List.length l /\ (0 < List.length l)%nat.
  Proof.
    intros [N H] Z. assert (L : (0 < List.length l)%nat) by (destruct l; [congruence|cbn; lia]). clear N.
    enough (K : alarms l = 0%nat /\ hits l = List.length l /\ Metrics.refs l = List.length l) by tauto. clear L.
    induction l as [|m l IH]; [repeat split|]. destruct (IH (fun x I => H x (or_intror I)) (fun x I => Z x (or_intror I))) as (A1 & A2 & A3).
    destruct (kinds m (Z m (or_introl eq_refl))) as (K1 & K2 & K3 & K4 & K5). assert (Hm := H m (or_introl eq_refl)).
    assert (Eh := proj2 K4 Hm). assert (Ef : is_fpb m = false).
    { destruct (is_fpb m); [|reflexivity]. assert (Q := proj1 K5 eq_refl). destruct Hm as [Q' _]. unfold is_fp in Q. rewrite Q' in Q. discriminate. }
    unfold alarms, hits, Metrics.refs in *. cbn [filter List.length]. rewrite total_cons, Eh, Ef, A3. cbn [List.length]. rewrite A1, A2. split; [reflexivity|]. split; [reflexivity|].
    rewrite Eh in K1. destruct Hm as [_ Q]. rewrite Q, f32_0_R in K1. assert (me_nr (m_err m) = 1%nat) by (apply INR_eq; cbn [INR]; lra). lia.
  Qed.

  Lemma hits_value cb i t n (l : list M) : all_hits l -> sound n l -> (cb = true -> Z.of_nat n <= 2 ^ 24)%Z -> ap cb i t l = 1.
  Proof.
    intros H (Z & Rk & Le) B. destruct (counts_hits l H Z) as (C1 & C2 & C3 & C4). unfold ap.
    destruct (points_stand sc_score cb l Z) as (rs & F & Ec & _ & Bd); [intros K; split; [exact Rk|specialize (B K); lia]|].
    destruct (value_found i t _ Bd) as (_ & V2 & _). destruct (stand_sums rs _ F) as (S1 & _ & _). rewrite Ec in *. rewrite S1, (Gain.points_refs sc_score), C2, C3 in V2.
    assert (Cr := clean_runs rs _ F 0). change (INR 0) with 0 in Cr. assert (Pn := lt_0_INR _ C4).
    enough (K : value i t (points sc_score cb l) * INR (List.length l) = INR (List.length l)) by (apply (Rmult_eq_reg_r (INR (List.length l))); lra).
    apply V2, Cr. intros u r v -> _. rewrite concat_app in Ec. cbn [concat] in Ec. rewrite <- Ec in C1. rewrite !alarms_app in C1. rewrite concat_app, alarms_app. cbn [concat].
    rewrite app_nil_r. lia.
  Qed.

  Lemma hits_gain cb n (l : list M) : all_hits l -> sound n l -> (cb = true -> Z.of_nat n <= 2 ^ 24)%Z -> gain cb l = 1.
  Proof.
    intros H (Z & Rk & Le) B. destruct (counts_hits l H Z) as (_ & _ & C3 & C4). destruct H as [_ H].
    assert (K : gain false l = 1).
    { apply (Ndcg.ndcg_perfect _ _ sc_score l Z); [lia|]. split.
      - intros m I Q. destruct (H m I) as [_ Q']. unfold is_fn in Q. rewrite Q' in Q. discriminate.
      - intros u a v b w -> Q _. destruct (H a ltac:(apply in_elt)) as [Q' _]. unfold is_fp in Q. rewrite Q' in Q. discriminate. }
    destruct cb; [|exact K]. rewrite <- K. apply (Ndcg.ndcg_pure _ _ sc_score l Z Rk); [specialize (B eq_refl); lia|]. intros a b Ia Ib _ _ _. split; auto.
  Qed.
End Lists.

Lemma seen_none {A} (l s : list A) : first_seen l s -> s = [] -> l = [].
Proof. induction 1 as [|l s x F IH I|l s x F IH N]; intros E; [reflexivity|subst s; destruct I|destruct s; discriminate]. Qed.

(** ** Evaluations *)

Section Evaluations.
  Context {RE E : Type}.
  Notation HE := (scored E).
  Notation M := (match_t RE HE).
  Variables (lte : E -> E -> bool) (cr : Cmp RE) (Hr : total_order cr).
  Variables (rq : RE -> bytes) (hq : E -> bytes).
  Variables (S : EvSet RE HE) (R : list RE -> HE -> list RE -> Prop) (HS : finds S R).
  Variable scorer : RE -> HE -> match_error.
  Hypothesis Hac : forall r h, acceptable scorer r h -> scorer r h = MatchError f32_0 f32_0.
  Notation eval := (evaluation lte (c_lt cr) rq hq R scorer).

  Lemma matching_all refs rank taken (ms log : list M) : matching R scorer refs rank taken ms log ->
    (forall h l, In h rank -> R refs h l -> exists r, In r l /\ acceptable scorer r h) ->
    (forall m, In m ms -> is_hit m) /\
    forall r h, In h rank -> (forall l, R refs h l -> exists l', l = r :: l' /\ acceptable scorer r h) -> In r taken.
  Proof.
    intros Mt. induction Mt as [|hyps taken ms log h l t m g Mt IH Rl D]; intros H; [split; [intros m []|intros r h []]|].
    destruct IH as [I1 I2]; [intros x k I; apply H, in_or_app; now left|]. assert (Hh := H h l ltac:(apply in_or_app; right; now left) Rl). split.
    - intros x I. apply in_app_or in I as [I|I]; [auto|]. destruct D as [before r after ms' E1 A _ _ _|N|ms' _ _ _]; [|destruct Hh as (r & J & A); now elim (N r J)|destruct I].
      destruct I as [<-|[]]. split; cbn [match_pair m_err]; now rewrite (Hac _ _ A).
    - intros r x I Q. apply in_or_app. apply in_app_or in I as [I|[<-|[]]]; [left; eauto|]. destruct (Q l Rl) as (l' & -> & A).
      destruct D as [before y after ms' E1 A' _ B _|N|ms' _ B _]; [|now elim (N r (or_introl eq_refl))|left; apply B; [now left|exact A]].
      destruct before as [|z before]; cbn [app] in E1; injection E1 as <- E1; [right; now left|]. left. apply B; [now left|exact A].
  Qed.

  Lemma evaluation_perfect crit f refs hyps (ms log : list M) gs : (forall h, In h hyps -> is_finite (sc_score h) = true) ->
    eval crit f refs hyps ms log gs -> (exists r, In r refs /\ kept f (rq r)) ->
    (forall refs' h l, (forall r, In r refs' <-> In r refs /\ kept f (rq r)) -> In h hyps -> kept f (hq (sc_base h)) -> R refs' h l -> exists r, In r l /\ acceptable scorer r h) ->
    (forall refs' r, (forall r, In r refs' <-> In r refs /\ kept f (rq r)) -> In r refs' ->
      exists h, In h hyps /\ kept f (hq (sc_base h)) /\ forall l, R refs' h l -> exists l', l = r :: l' /\ acceptable scorer r h) ->
    let n := (List.length refs + List.length hyps)%nat in
    (all_hits ms /\ sound n ms) /\ gs <> [] /\ forall g, In g gs -> all_hits g /\ sound n g.
  Proof.
    intros Fi Ev (r0 & Ir0 & Kr0) H1 H2 n. destruct (evaluation_found lte cr Hr rq hq S R HS scorer Hac _ _ _ _ _ _ _ Fi Ev) as (Z & Rk & Le & _).
    assert (Gr := Parts.evaluation_grouping _ _ _ _ _ _ _ _ _ _ _ _ _ Ev).
    destruct (Evaluation.eval_refs lte cr Hr rq hq S R HS scorer _ _ _ _ _ _ _ Ev) as [_ N2].
    assert (Ah : forall m, In m ms -> is_hit m).
    { destruct Ev as (r1 & h1 & rank & taken & found & missed & Sr & Sh & Rr & Mt & So & Mi & -> & G).
      destruct (Evaluation.ranking_in lte _ _ _ Rr) as [Ri _]. assert (Q := Grouping.selects_in _ _ _ Sr). assert (Qh := Grouping.selects_in _ _ _ Sh).
      destruct (matching_all _ _ _ _ _ Mt) as [M1 M2].
      { intros h l I Rl. apply Ri, Qh in I as [I K]. eauto. }
      assert (Em : missed = []).
      { destruct missed as [|x missed]; [reflexivity|]. destruct (proj1 (Mi x) (or_introl eq_refl)) as [I N]. elim N.
        destruct (H2 r1 x Q I) as (h & Ih & Kh & A). apply (M2 x h); [apply Ri, Qh; auto|exact A]. }
      subst missed. cbn [map]. rewrite app_nil_r. exact M1. }
    assert (Nm : ms <> []).
    { intros ->. destruct (proj2 (N2 r0) (conj Ir0 Kr0)). }
    split; [split; [split; auto|split; auto]|]. split.
    - intros ->. destruct Gr as (ks & keys & F1 & Fs & F2). inversion F2; subst. destruct F1 as [|m k ms ks Mk F1]; [congruence|]. discriminate (seen_none _ _ Fs eq_refl).
    - intros g Ig. assert (Sg : g <> [] /\ exists P, selects P ms g).
      { destruct Gr as (ks & keys & _ & _ & F2). clear - F2 Ig. induction F2 as [|k x keys gs Hk F2 IH]; [destruct Ig|]. destruct Ig as [->|Ig]; [destruct Hk; eauto|auto]. }
      destruct Sg as (Ng & P & Sg). assert (In' : forall m, In m g -> In m ms) by (intros m J; now apply (Grouping.selects_in _ _ _ Sg) in J).
      split; [split; [exact Ng|intros m J; auto]|]. split; [intros m J; auto|]. split; [intros m J; apply Rk; auto|]. assert (K := Lifted.selects_length _ _ _ Sg). lia.
  Qed.
End Evaluations.

(** ** Runs *)

Section Tools.
  Variables (srt : sort_fn) (Hs : sort_contract srt).
  Variables (rngs : Z -> rng) (show_int : Z -> bytes) (show_f64 : f64 -> bytes).
  Notation icdar := (icdar17 RArith RTrans srt rngs show_int show_f64).
  Notation simple := (simple_kws RArith RTrans srt rngs show_int show_f64).

  Lemma prints_perfect {RE E X Y} c n (ms : list (match_t RE (scored E))) (gs : list (list (match_t RE (scored E)))) (l : list (effect RArith (RE := X) (HE := Y))) :
    prints (A := RArith) l (ap (cf_collapse c) (cf_interp c) (cf_trapezoid c) ms) (average (A := RArith) (map (ap (cf_collapse c) (cf_interp c) (cf_trapezoid c)) gs))
      (gain (cf_collapse c) ms) (average (A := RArith) (map (gain (cf_collapse c)) gs)) ->
    (all_hits ms /\ sound n ms) -> gs <> [] -> (forall g, In g gs -> all_hits g /\ sound n g) -> (cf_collapse c = true -> Z.of_nat n <= 2 ^ 24)%Z ->
    prints (A := RArith) l 1 1 1 1.
  Proof.
    intros P [H S] N G B.
    rewrite (hits_value _ _ _ n ms H S B), (hits_gain _ n ms H S B) in P. rewrite !average_one in P; [exact P|now destruct gs| |now destruct gs|].
    - intros v I. apply in_map_iff in I as (g & <- & I). destruct (G g I). now apply (hits_gain _ n).
    - intros v I. apply in_map_iff in I as (g & <- & I). destruct (G g I). now apply (hits_value _ _ _ n).
  Qed.

  Lemma simple_hits id crit f refs hyps (ms log : list (match_t (event bytes bytes) (scored (event bytes bytes)))) gs : (forall s s', id s = id s' -> s = s') ->
    (forall h, In h hyps -> is_finite (sc_score h) = true) -> simple_evaluation id crit f refs hyps ms log gs -> submits_references f refs hyps ->
    let n := (List.length refs + List.length hyps)%nat in
    (all_hits ms /\ sound n ms) /\ gs <> [] /\ forall g, In g gs -> all_hits g /\ sound n g.
  Proof.
    intros Inj Fi Ev [Ex Sub].
    assert (Hac : forall r (h : scored (event bytes bytes)), acceptable (fun r h => trivial_scorer cmp_str cmp_str r (sc_base h)) r h ->
      trivial_scorer cmp_str cmp_str r (sc_base h) = MatchError f32_0 f32_0).
    { intros x h A. apply Added.trivial_acceptable in A. subst x. apply Added.trivial_same. }
    apply (evaluation_perfect (c_lt (Results.by_id id)) (Results.by_id id) (Results.by_id_total id Inj) ev_query ev_query
      (evset_generic (Results.by_id id)) exact_search (Matching.finds_generic _ (Results.by_id_total id Inj))
      (fun r h => trivial_scorer cmp_str cmp_str r (sc_base h)) Hac _ _ _ _ _ _ _ Fi Ev Ex).
    - intros refs' h k Q Ih Kh [[J ->]|[J ->]]; [exists (sc_base h); split; [now left|unfold acceptable; now rewrite Added.trivial_same]|].
      elim J. apply Q. split; [|exact Kh]. apply Sub; [exact Kh|]. now apply in_map.
    - intros refs' x Q Ix. destruct (proj1 (Q x) Ix) as [Jx Kx]. apply Sub in Jx; [|exact Kx]. apply in_map_iff in Jx as (h & <- & Ih). exists h. split; [exact Ih|]. split; [exact Kx|].
      intros k [[J ->]|[J ->]]; [|contradiction]. exists []. split; [reflexivity|unfold acceptable; now rewrite Added.trivial_same].
  Qed.

  Lemma simple_perfect qf w pn args c refs hyps f : command args c -> no_bootstrap c ->
    inputs str_event_text scored_str_event_text w c refs hyps f -> (Z.of_nat (strings refs hyps f) <= 2147483648)%Z ->
    submits_references f refs hyps -> (cf_collapse c = true -> Z.of_nat (List.length refs + List.length hyps) <= 2 ^ 24)%Z ->
    prints (A := RArith) (fst (simple qf w pn args)) 1 1 1 1.
  Proof.
    intros Cm NB I Ls Sub B. destruct (simple qf w pn args) as [l e] eqn:Et. rewrite Instances.simple_tool in Et. cbn [fst].
    destruct (Instances.simple_run_ids RTrans srt Hs rngs show_int show_f64 w qf pn args c refs hyps f l e Cm NB I Et Ls) as (id & ms & log & gs & Id & Inj & Fi & Ev & Rp).
    destruct (simple_hits id _ _ _ _ _ _ _ Inj Fi Ev Sub) as (A1 & A2 & A3).
    refine (prints_perfect c _ ms gs l _ A1 A2 A3 B). assert (Pr := reported_values srt _ _ _ _ _ _ _ Rp). unfold ap, gain in *. rewrite !map_map in Pr.
    assert (N : forall (v : list counts -> R), map (fun x => v (points sc_score (cf_collapse c) (map (renamed_match id) x))) gs = map (fun x => v (points sc_score (cf_collapse c) x)) gs).
    { intros v. apply map_ext. intros x. now rewrite Ties.points_names. }
    rewrite !Ties.points_names, !N in Pr. exact Pr.
  Qed.

  Lemma icdar_hits crit f refs hyps ms log gs : (forall h, In h hyps -> is_finite (sc_score h) = true) ->
    icdar17_evaluation crit f refs hyps ms log gs -> all_found f refs hyps ->
    (forall r, In r refs -> fits (ev_loc r)) -> (forall h, In h hyps -> fits (ev_loc (sc_base h))) ->
    let n := (List.length refs + List.length hyps)%nat in
    (all_hits ms /\ sound n ms) /\ gs <> [] /\ forall g, In g gs -> all_hits g /\ sound n g.
  Proof.
    intros Fi Ev (Ex & H1 & H2) Fr Fh.
    assert (Acc : forall r h, In r refs -> In h hyps -> shares_half r h -> acceptable (fun r h => ioh_scorer cmp_str f32_half r (sc_base h)) r h).
    { intros r h Ir Ih (Eq & a & i & Ca & Sh & P1 & P2). apply Added.ioh_acceptable. exact (Scorers.ioh_accepts cmp_str Order.total_order_str r (sc_base h) i a (Fr r Ir) (Fh h Ih) Sh Ca Eq P1 P2). }
    assert (Ov : forall r h, In r refs -> In h hyps -> shares (ev_loc r) (ev_loc (sc_base h)) (overlap (sc_base h) r)).
    { intros r h Ir Ih. apply Scorers.shares_intro; [now apply Fr|now apply Fh|reflexivity]. }
    assert (Same : forall r h refs' k, In r refs' -> In r refs -> In h hyps -> shares_half r h -> box_search cmp_str refs' h k -> In r k).
    { intros r h refs' k Ir' Ir Ih (Eq & a & i & Ca & Sh & P1 & P2) (_ & Mem & _). apply Mem. split; [exact Ir'|]. split; [exact Eq|].
      assert (P : (0 < overlap (sc_base h) r)%Z) by (rewrite <- (Geometry.cell_count_unique _ _ _ Sh (Ov r h Ir Ih)); lia). split; [|exact P].
      unfold overlap, docbox_inter in P. destruct (str_eq (db_doc (ev_loc r)) (db_doc (ev_loc (sc_base h)))) eqn:Ed; [now apply Geometry.str_eq_spec in Ed|lia]. }
    apply (evaluation_perfect (c_lt cmp_shaped) cmp_shaped Order.total_order_shaped ev_query ev_query
      (evset_docbox srt cmp_str) (box_search cmp_str) (Matching.finds_docbox srt cmp_str Hs Order.total_order_str)
      (fun r h => ioh_scorer cmp_str f32_half r (sc_base h)) 
      (fun r h A => proj1 (Added.ioh_acceptable r h) A) _ _ _ _ _ _ _ Fi Ev Ex).
    - intros refs' h k Q Ih Kh Rk. destruct (H1 h Ih Kh) as (r & Ir & Sh). exists r. split; [|now apply Acc].
      apply (Same r h refs' k); auto. apply Q. split; [exact Ir|]. exact (eq_ind_r (kept f) Kh (proj1 Sh)).
    - intros refs' r Q Ir. destruct (H2 r) as (h & Ih & Sh & Cl); [now apply Q|]. assert (Jr := proj1 (Q r) Ir). exists h. split; [exact Ih|]. split; [exact (eq_ind _ (kept f) (proj2 Jr) _ (proj1 Sh))|].
      intros k Rk. assert (Ik := Same r h refs' k Ir (proj1 Jr) Ih Sh Rk). destruct Rk as (Nd & Mem & So).
      destruct k as [|x k]; [destruct Ik|]. destruct Ik as [->|Ik]; [exists k; split; [reflexivity|apply Acc; tauto]|]. exfalso.
      destruct (proj1 (Mem x) (or_introl eq_refl)) as (Ix & Ex' & _). apply Q in Ix. inversion So as [|? ? So' Fo]; subst. rewrite Forall_forall in Fo.
      assert (L : (overlap (sc_base h) x < overlap (sc_base h) r)%Z).
      { apply (Cl x); [apply Ix| |exact (eq_trans Ex' (eq_sym (proj1 Sh)))| |]; [intros ->; inversion Nd; contradiction|apply Ov; tauto|apply Ov; tauto]. }
      destruct (Fo r Ik) as [O|[O _]]; [exact (Z.lt_asymm _ _ O L)|exact (Z.lt_neq _ _ L O)].
  Qed.

  Lemma icdar_perfect w pn args c refs hyps f : command args c -> no_bootstrap c ->
    inputs shaped_text scored_shaped_text w c refs hyps f -> all_found f refs hyps ->
    (forall r, In r refs -> fits (ev_loc r)) -> (forall h, In h hyps -> fits (ev_loc (sc_base h))) ->
    (cf_collapse c = true -> Z.of_nat (List.length refs + List.length hyps) <= 2 ^ 24)%Z ->
    prints (A := RArith) (fst (icdar w pn args)) 1 1 1 1.
  Proof.
    intros Cm NB I Af Fr Fh B. destruct (icdar w pn args) as [l e] eqn:Et. cbn [fst].
    destruct (Instances.icdar_run RTrans srt Hs rngs show_int show_f64 w pn args c refs _ f l e Cm NB I Et) as (ms & log & gs & Fi & Ev & Rp).
    destruct (icdar_hits _ _ _ _ _ _ _ Fi Ev Af Fr Fh) as (A1 & A2 & A3).
    exact (prints_perfect c _ ms gs l (reported_values srt _ _ _ _ _ _ _ Rp) A1 A2 A3 B).
  Qed.
End Tools.

(** The references themselves. *)
Lemma references_found f (refs : list (event bytes docbox)) hyps : submits_references f refs hyps -> (forall r, In r refs -> fits (ev_loc r)) ->
  (forall r, wanted f refs r -> exists a, covers (ev_loc r) a /\ (0 < a)%Z) ->
  (forall r r', wanted f refs r -> wanted f refs r' -> r' <> r -> ev_query r' = ev_query r -> not_within (ev_loc r) (ev_loc r')) -> all_found f refs hyps.
Proof.
  intros [Ex Sub] Fr Ca Nw.
  assert (Self : forall r (h : scored (event bytes docbox)), wanted f refs r -> sc_base h = r -> shares_half r h).
  { intros r h W <-. destruct (Ca _ W) as (a & C & P). split; [reflexivity|]. exists a, a. split; [exact C|]. split; [|lia]. destruct C as (l & N & M & L). exists l.
    split; [exact N|]. split; [intros p; rewrite M; tauto|exact L]. }
  split; [exact Ex|]. split.
  - intros h Ih Kh. exists (sc_base h). assert (Ir : In (sc_base h) refs) by (apply Sub; [exact Kh|now apply in_map]). split; [exact Ir|]. apply Self; [split; auto|reflexivity].
  - intros r W. destruct W as [Ir Kr]. assert (Ih := proj1 (Sub r Kr) Ir). apply in_map_iff in Ih as (h & Eh & Ih). exists h. split; [exact Ih|].
    assert (W : wanted f refs r) by (split; auto). split; [now apply Self|]. intros r' i i' Ir' Ne Eq S1 S2. subst r. destruct (Ca _ W) as (a & C & P).
    assert (W' : wanted f refs r') by (split; [exact Ir'|now rewrite Eq]). assert (L := Nw _ _ W W' Ne Eq a i' C S2).
    assert (Ei : i = a); [|lia]. apply (Geometry.cell_count_unique _ _ _ S1). destruct C as (l & N & M & Ll). exists l. split; [exact N|]. split; [intros p; rewrite M; tauto|exact Ll].
Qed.
