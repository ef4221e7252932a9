(** Consequences of the runs: renaming, the dump, hits, curves and the order
    of the lines. *)
From Coq Require Import Ascii String List Bool ZArith Lia QArith Qreals Reals Permutation Sorted.
From Flocq Require Import BinarySingleNaN.
From Verif.Model Require Import Cpp Floats Events EventSets Matches Matcher Scorers Assessment Bootstrap Mapper Stream
  Reader Options Tool.
From Verif.Spec Require Import Order Sets Matching Grouping Collapse Metrics Curves Reader Options Tool.
From Verif.Proofs Require Import Queries Tool Finish Programs.
From Verif.Proofs Require Reader Grouping Mapper Sets Order Matching Rescore Metrics Curves MeanCurve Evaluation Ids Instances Rational.
Import ListNotations.
Local Open Scope nat_scope.
Local Open Scope list_scope.

(** ** The metrics do not see names *)

Section Renaming.
  Context {RE HE RE' HE' : Type} (f : RE -> RE') (g : HE -> HE').
  Variables (score : HE -> f32) (score' : HE' -> f32).
  Hypothesis Hs : forall h, score' (g h) = score h.
  Notation mm := (map_match f g).

  Lemma score_renamed m : match_score score' (mm m) = match_score score m.
  Proof. unfold match_score, map_match. cbn [m_hyp]. destruct (m_hyp m); simpl; auto. Qed.

  Lemma points_renamed c ms : points score' c (map mm ms) = points score c ms.
  Proof.
    destruct c; cbn [points].
    - destruct ms as [|m ms]; [reflexivity|]. cbn [map collapse_matches]. rewrite score_renamed.
      change (m_err (mm m)) with (m_err m). generalize (counts_of (m_err m)), (match_score score m).
      induction ms as [|x ms IH]; intros k s; [reflexivity|]. cbn [map collapse_loop]. rewrite score_renamed.
      change (m_err (mm x)) with (m_err x). destruct (f32_ne _ _); now rewrite IH.
    - unfold get_match_errors. rewrite map_map. reflexivity.
  Qed.

  Lemma pr_renamed A c i ms :
    precision_recall_matches A score' (map mm ms) c i = precision_recall_matches A score ms c i.
  Proof. unfold precision_recall_matches. now rewrite points_renamed. Qed.

  Lemma global_ap_renamed A c i t ms : global_ap A score' (map mm ms) c i t = global_ap A score ms c i t.
  Proof. unfold global_ap. now rewrite pr_renamed. Qed.

  Lemma global_ndcg_renamed A T c ms : global_ndcg A T score' (map mm ms) c = global_ndcg A T score ms c.
  Proof. unfold global_ndcg. now rewrite points_renamed. Qed.

  Lemma fold_map {X Y S} (k : X -> Y) (op : S -> Y -> outcome S) (op' : S -> X -> outcome S) l :
    (forall s x, op s (k x) = op' s x) -> forall s, ofold op (map k l) s = ofold op' l s.
  Proof.
    intros H. induction l as [|x l IH]; intros s; [reflexivity|]. cbn [map ofold]. rewrite H.
    destruct (op' s x); cbn [obind]; auto.
  Qed.

  Lemma mean_ap_renamed A srt c i t gs : mean_ap A score' srt (map (map mm) gs) c i t false = mean_ap A score srt gs c i t false.
  Proof.
    unfold mean_ap. rewrite map_length. cbn [maybe_sort]. f_equal. apply fold_map. intros s x. cbn [obind].
    now rewrite global_ap_renamed.
  Qed.

  Lemma mean_ndcg_renamed A T srt c gs : mean_ndcg A T score' srt (map (map mm) gs) c false = mean_ndcg A T score srt gs c false.
  Proof.
    unfold mean_ndcg. rewrite map_length. cbn [maybe_sort]. f_equal. apply fold_map. intros s x. cbn [obind].
    now rewrite global_ndcg_renamed.
  Qed.
End Renaming.

(** ** Curves *)

Lemma map_fst_combine {X Y} (xs : list X) (ys : list Y) : List.length xs = List.length ys -> map fst (combine xs ys) = xs.
Proof. revert ys. induction xs as [|x xs IH]; intros [|y ys] L; simpl in *; try discriminate; auto. f_equal. apply IH. lia. Qed.

(** The points of the curve files in terms of the specification. *)
Section Curves.
  Context {RE E : Type}.
  Notation M := (match_t RE (scored E)).

  Definition fine (c : config) (l : list M) : Prop := (forall m, In m l -> zero_one (m_err m)) /\
    (cf_collapse c = true -> ranked sc_score l /\ (Z.of_nat (List.length l) <= 2 ^ 24)%Z).

  Lemma global_points_spec c (ms : list M) pts : fine c ms -> Finish.global_points (A := RArith) c ms pts -> global_curve c ms pts.
  Proof.
    intros [F1 F2] (ys & -> & L & H). unfold global_curve.
    destruct (precision_recall_matches RArith sc_score ms (cf_collapse c) (cf_interp c)) as [pr rc] eqn:Ep.
    assert (C := Evaluation.curve_of_spec sc_score _ _ ms F1 F2 pr rc Ep).
    change (num RArith) with R in *. set (xs := even_points RArith (Z.to_nat (cf_curve c))) in *.
    assert (L' : List.length xs = List.length ys) by (symmetry; exact L).
    split; [refine (eq_ind_r (evenly_spaced _) _ (map_fst_combine xs ys L')); apply MeanCurve.even_points_even|].
    exists pr, rc. split; [exact C|]. intros x y I.
    destruct C as (rs & ps & raw & _ & _ & _ & _ & L1 & L2 & _).
    destruct (Curves.sample_curve_spec (cf_trapezoid c) rc pr xs) as (out & Eo & Fo).
    { change (num RArith) with R in *. lia. }
    { apply Curves.sorted_lt_le, Curves.even_points_sorted. }
    assert (out = ys) by (apply (f_equal (fun o => match o with Ok v => v | _ => [] end)) in H;
      rewrite Eo in H; exact H). subst out.
    clear - Fo I. induction Fo as [|a b l l' H F IH]; [destruct I|]. destruct I as [I|I]; [injection I as -> ->; exact H|auto].
  Qed.

  Lemma mean_points_spec w c (gs : list (list M)) pts : gs <> [] -> cf_mrp c <> [] -> w_writable w (cf_mrp c) = true ->
    (forall g, In g gs -> fine c g) -> Finish.mean_points (A := RArith) w c gs pts -> mean_curve c gs pts.
  Proof.
    intros N N' W F (ys & _ & _ & H). specialize (H N').
    destruct (MeanCurve.mean_curve_spec sc_score w c gs N N' W) as (pts' & H' & Ev & Vs).
    rewrite H in H'. injection H' as <-. split; [exact Ev|].
    exists (map (fun g => precision_recall_matches RArith sc_score g (cf_collapse c) (cf_interp c)) gs). split.
    - clear - F. induction gs as [|g gs IH]; constructor.
      + destruct (precision_recall_matches RArith sc_score g (cf_collapse c) (cf_interp c)) as [pr rc] eqn:Ep.
        destruct (F g (or_introl eq_refl)) as [F1 F2]. exact (Evaluation.curve_of_spec sc_score _ _ g F1 F2 pr rc Ep).
      + apply IH. intros; apply F. now right.
    - intros x y I. destruct (Vs x y I) as (vs & Fv & Mv). exists vs. split; [|exact Mv].
      clear - Fv. induction Fv as [|g v gs vs K Fv IH]; constructor; auto.
  Qed.
End Curves.

(** ** The dump *)

Section Dump.
  Context {A : Arith} {RE HE : Type}.
  Notation eff := (effect A (RE := RE) (HE := HE)).
  Notation Prog := (prog A (RE := RE) (HE := HE)).

  Variable w : world.
  Variable c : config.

  Lemma only_curves_app (a b : list eff) : only_curves w c a -> only_curves w c b -> only_curves w c (a ++ b).
  Proof. intros H K n d I. apply in_app_or in I as [I|I]; [exact (H n d I)|exact (K n d I)]. Qed.

  Lemma only_curves_outputs (a : list eff) : only_curves w c a -> only_curves w c (outputs a).
  Proof. intros H n d I. apply filter_In in I as [I _]. exact (H n d I). Qed.

  Lemma only_curves_bind {X Y} (p : Prog X) (f : X -> Prog Y) : only_curves w c (fst p) -> (forall x, only_curves w c (fst (f x))) ->
    only_curves w c (fst (pbind A p f)).
  Proof.
    intros H K. destruct p as [l [x|e]]; [rewrite pbind_inl; cbn [fst] in *; now apply only_curves_app|exact H].
  Qed.
End Dump.

Section DumpEnd.
  Context {A : Arith} (T : Trans A) {Q RE E : Type}.
  Notation HE := (scored E).
  Notation M := (match_t RE HE).
  Variables (srt : sort_fn) (rngs : Z -> rng).
  Variables (cq : Cmp Q) (rq : RE -> Q) (hq : E -> Q).
  Variable w : world.
  Variable c : config.
  Notation hqs := (fun h : HE => hq (sc_base h)).

  Lemma only_curves_stat name ci (gs : list (list M)) plain on :
    only_curves w c (fst (compute_statistic A srt rngs name c ci gs plain on)).
  Proof.
    destruct (statistic_cases srt rngs c name ci gs plain on) as [(v & iv & -> & _)|(e & -> & _)]; intros n d I; [|destruct I].
    destruct I as [I|[]]. discriminate.
  Qed.

  Lemma only_curves_curve name (p : prog A (RE := RE) (HE := HE) unit) P : name <> [] -> name = cf_grp c \/ name = cf_mrp c ->
    curve_result w name p P -> only_curves w c (fst p).
  Proof.
    intros N K [(W & pts & -> & _)|(_ & ->)]; intros n d I; [|destruct I]. destruct I as [I|[]]. injection I as <- <-. eauto.
  Qed.

  Lemma only_curves_report m (ms : list M) gs : group_matches cq rq hqs ms m = Ok gs ->
    only_curves w c (fst (report A T srt rngs cq rq hqs sc_score w c m ms)).
  Proof.
    intros G. unfold report. rewrite G. cbn [run]. rewrite pbind_nil.
    repeat (apply only_curves_bind; [apply only_curves_stat|intros _]). apply only_curves_bind; [|intros _].
    - destruct (cf_grp c) as [|x nm] eqn:N; [intros ? ? []|]. eapply only_curves_curve; [| |apply global_curve_ok]; [| |congruence]; [congruence|auto].
    - destruct (cf_mrp c) as [|x nm] eqn:N; [intros ? ? []|]. eapply only_curves_curve; [| |apply mean_curve_ok]; [| |congruence]; [congruence|auto].
  Qed.

  Lemma finish_dump m n (ms log : list M) gs : group_matches cq rq hqs ms m = Ok gs ->
    (total (fun x => me_nh (m_err x)) ms <= n)%nat -> (cf_dump c <> [] -> w_writable w (cf_dump c) = true) ->
    exists rest, outputs (fst (finish T srt rngs cq rq hq w c m n ms log)) = dumped c ms log ++ rest /\ only_curves w c rest.
  Proof.
    intros G L W. unfold finish. destruct (dump_cases (A := A) w c ms log) as [(N & W' & _)|(_ & E1)]; [rewrite (W N) in W'; discriminate|].
    rewrite E1, pbind_inl. destruct (check_ok (A := A) n ms L) as (D & E2 & OD). rewrite E2, pbind_inl. cbn [fst snd].
    assert (OS : outputs (A := A) (dumped c ms log) = dumped c ms log) by (unfold dumped; destruct (cf_dump c); reflexivity).
    rewrite !outputs_app, OS, OD. eexists. split; [reflexivity|]. apply only_curves_outputs.
    apply only_curves_bind; [apply (only_curves_report m ms gs G)|]. intros x ? ? [].
  Qed.
End DumpEnd.

Section DumpRun.
  Context {A : Arith} (T : Trans A) {Q RE E ER EE St : Type}.
  Notation HE := (scored E).
  Variables (srt : sort_fn) (Hs : sort_contract srt).
  Variable rngs : Z -> rng.
  Variables (show_int : Z -> bytes) (show_f64 : f64 -> bytes).
  Variable lim : bool.
  Variables (cq : Cmp Q) (Hq : total_order cq).
  Variables (cr : Cmp RE) (Hr : total_order cr).
  Variables (ce : Cmp E) (He : total_order ce).
  Variables (rq : RE -> Q) (hq : E -> Q).
  Variables (S : EvSet RE HE) (R : list RE -> HE -> list RE -> Prop) (HS : finds S R).
  Variable scorer : RE -> HE -> match_error.
  Variables (rd_r : istream -> ER * istream) (text_r : bytes -> ER -> Prop).
  Variables (rd_h : istream -> scored EE * istream) (text_h : bytes -> scored EE -> Prop).
  Hypothesis Fr : format rd_r text_r.
  Hypothesis Fh : format rd_h text_h.
  Hypothesis Finite : forall b e, text_h b e -> is_finite (sc_score e) = true.
  Variable mr : St -> ER -> outcome (RE * St).
  Variable mh : St -> scored EE -> outcome (HE * St).
  Variable mq : St -> bytes -> outcome (Q * St).
  Hypothesis Tr : forall st x, tame lim (mr st x).
  Hypothesis Th : forall st x, tame lim (mh st x).
  Hypothesis Tq : forall st x, tame lim (mq st x).
  Hypothesis Keeps : forall st x y st', mh st x = Ok (y, st') -> sc_score y = sc_score x.
  Variable desc : bytes.
  Variable w : world.
  Variable st0 : St.
  Notation tool := (Programs.tool T srt rngs show_int show_f64 cq cr ce rq hq S scorer rd_r rd_h mr mh mq desc w st0).

  (** With or without bootstrapping. *)
  Lemma main_dump pn args c raw_r raw_h f l r : command args c -> inputs text_r text_h w c raw_r raw_h f ->
    tool pn args = (l, r) ->
    (lim = true /\ r = inr (FThrow RangeError) /\ outputs l = []) \/
    exists refs hyps f' st1 st2 st3 ms log groups rest,
      map_all mr st0 raw_r = Ok (refs, st1) /\ map_all mh st1 raw_h = Ok (hyps, st2) /\
      map_file mq st2 f = Ok (f', st3) /\
      (forall h, In h hyps -> is_finite (sc_score h) = true) /\
      evaluation (c_lt ce) (c_lt cr) rq hq R scorer (cf_sort c) f' refs hyps ms log groups /\
      outputs l = dumped c ms log ++ rest /\ only_curves w c rest.
  Proof.
    intros Cm I Et.
    destruct (tool_cases T srt rngs show_int show_f64 cq cr ce rq hq S scorer rd_r rd_h mr mh mq desc w st0 pn args)
      as [([_ B] & _)|[(B & _)|(c' & b & B & E1)]].
    - destruct (B c Cm).
    - exfalso. apply help_parse in B as [s B]. apply command_parse in Cm as (s' & Cm & _). congruence.
    - rewrite <- (command_fun _ _ _ Cm B) in E1. clear c' B. rewrite E1 in Et.
      destruct (body_final T srt Hs rngs lim cq Hq cr Hr ce He rq hq S R HS scorer rd_r text_r rd_h text_h Fr Fh Finite
                  mr mh mq Tr Th Tq Keeps w c st0 b) as [(_ & _ & _ & Bad)|[(Lm & E2 & O)|(D & rest & E2 & O & _ & G)]].
      + destruct (inputs_not_rejected rd_r rd_h text_r text_h w c _ _ _ Fr Fh I Bad).
      + left. rewrite Et in *. cbn [fst snd] in *. auto.
      + right. rewrite E2 in Et. injection Et as <- <-.
        destruct G as (raw_r' & raw_h' & f0 & refs & hyps & f' & st1 & st2 & st3 & m & n & ms & log & groups & G).
        destruct G as (G1 & G2 & G3 & G4 & G5 & G6 & G7 & G8 & G9 & G10 & Gm & Tn & ->).
        assert (I' : inputs text_r text_h w c raw_r' raw_h' f0) by (constructor; try assumption; apply I).
        destruct (inputs_fun rd_r rd_h text_r text_h w c _ _ _ _ _ _ Fr Fh I I') as (<- & <- & <-).
        destruct (finish_dump T srt rngs cq rq hq w c m n ms log groups Gm Tn (in_dump _ _ _ _ _ _ _ I)) as (rest & Or & Nr).
        exists refs, hyps, f', st1, st2, st3, ms, log, groups, rest.
        rewrite outputs_app, O. cbn [app]. auto 10.
  Qed.

  (** Nothing is written without inputs. *)
  Lemma main_outputs pn args l r : tool pn args = (l, r) -> outputs l <> [] ->
    exists c raw_r raw_h f, command args c /\ inputs text_r text_h w c raw_r raw_h f.
  Proof.
    intros Et N.
    destruct (tool_cases T srt rngs show_int show_f64 cq cr ce rq hq S scorer rd_r rd_h mr mh mq desc w st0 pn args)
      as [(_ & d1 & d2 & E1)|[(_ & d & E1)|(c & b & B & E1)]]; rewrite E1 in Et.
    - injection Et as <- <-. destruct (N eq_refl).
    - injection Et as <- <-. destruct (N eq_refl).
    - destruct (body_final T srt Hs rngs lim cq Hq cr Hr ce He rq hq S R HS scorer rd_r text_r rd_h text_h Fr Fh Finite
                  mr mh mq Tr Th Tq Keeps w c st0 b) as [(E2 & O & _)|[(Lm & E2 & O)|(D & rest & E2 & O & _ & G)]].
      + rewrite Et in O. destruct (N O).
      + rewrite Et in O. destruct (N O).
      + rewrite E2 in Et. injection Et as <- <-. assert (G' := G).
        destruct G as (raw_r' & raw_h' & f0 & refs & hyps & f' & st1 & st2 & st3 & m & n & ms & log & groups & G).
        destruct G as (G1 & G2 & G3 & G4 & G5 & G6 & G7 & G8 & G9 & G10 & Gm & Tn & ->).
        exists c, raw_r', raw_h', f0. split; [exact B|]. constructor; try assumption.
        destruct (dump_cases (A := A) w c ms log) as [(Nd & W & E3)|(W & _)]; [|exact W].
        exfalso. apply N. rewrite outputs_app, O. unfold finish. rewrite E3. reflexivity.
  Qed.
End DumpRun.

(** ** The order of the lines *)

Lemma selects_perm {X} (P : X -> Prop) l l' : Permutation l l' -> forall s, selects P l s ->
  exists s', selects P l' s' /\ Permutation s s'.
Proof.
  induction 1 as [|x l l' H IH|x y l|l l2 l3 H1 IH1 H2 IH2]; intros s S.
  - exists s. auto.
  - inversion S as [|? ? s0 Px S0|? ? s0 Px S0]; subst; destruct (IH _ S0) as (s' & A & B).
    + exists (x :: s'). split; [now constructor|now constructor].
    + exists s'. split; [now constructor|exact B].
  - inversion S as [|? ? s0 Px S0|? ? s0 Px S0]; subst; inversion S0; subst;
      match goal with K : selects P l ?k |- _ => rename k into t; rename K into St end.
    + exists (x :: y :: t). split; [now repeat constructor|constructor].
    + exists (y :: t). split; [now repeat constructor|reflexivity].
    + exists (x :: t). split; [now repeat constructor|reflexivity].
    + exists t. split; [now repeat constructor|reflexivity].
  - destruct (IH1 _ S) as (s2 & A & B). destruct (IH2 _ A) as (s3 & C & D). exists s3. split; [exact C|]. now transitivity s2.
Qed.

Lemma Forall2_snoc {X Y} (P : X -> Y -> Prop) l x l' : Forall2 P (l ++ [x]) l' ->
  exists k y, l' = k ++ [y] /\ Forall2 P l k /\ P x y.
Proof.
  intros H. apply Forall2_app_inv_l in H as (k & r & A & B & ->). inversion B as [|? y ? r' Hy Hr]; subst.
  inversion Hr; subst. eauto 6.
Qed.

Section Order.
  Context {Q RE E : Type}.
  Notation HE := (scored E).
  Notation M := (match_t RE HE).
  Variables (ce : Cmp E) (He : total_order ce) (cr : Cmp RE) (Hr : total_order cr).
  Variables (rq : RE -> Q) (hq : E -> Q).
  Variables (S : EvSet RE HE) (R : list RE -> HE -> list RE -> Prop) (HS : finds S R).
  Variable scorer : RE -> HE -> match_error.
  Hypothesis HR : forall refs h h' l, sc_base h = sc_base h' -> R refs h l -> R refs h' l.
  Hypothesis Hsc : forall r h h', sc_base h = sc_base h' -> scorer r h = scorer r h'.

  Lemma below_lt a b : numeric a -> numeric b -> not_below (c_lt ce) a b -> scored_lt ce a b = false.
  Proof.
    intros Na Nb [H K]. apply not_true_iff_false. rewrite Order.scored_lt_spec by assumption.
    intros [L|[L1 L2]]; [congruence|]. rewrite (K L1) in L2. discriminate.
  Qed.

  Lemma ranks_equal crit hyps hyps' rank rank' : crit = lit "desc" \/ crit = lit "asc" ->
    (forall h, In h hyps -> numeric h) -> Permutation hyps hyps' ->
    ranking (c_lt ce) crit hyps rank -> ranking (c_lt ce) crit hyps' rank' -> Forall2 equal_hyps rank rank'.
  Proof.
    intros C N P K K'.
    assert (exists lt, swo_on lt rank /\ sorted_by lt rank /\ sorted_by lt rank' /\ Permutation rank rank' /\
      (forall h, In h rank -> numeric h) /\
      (forall a b, lt a b = false /\ lt b a = false -> scored_lt ce a b = false /\ scored_lt ce b a = false))
      as (lt & W & S1 & S2 & Pr & Nr & HL).
    { assert (G : Permutation hyps rank -> Permutation hyps' rank' -> Permutation rank rank' /\
        (forall h, In h rank -> numeric h) /\ (forall h, In h rank' -> numeric h)).
      { intros P1 P2. assert (P3 : Permutation rank rank') by (rewrite <- P1, <- P2; exact P). split; [exact P3|].
        assert (Nr : forall h, In h rank -> numeric h).
        { intros h I. apply N. eapply Permutation_in; [apply Permutation_sym; exact P1|exact I]. }
        split; [exact Nr|]. intros h I. apply Nr. eapply Permutation_in; [apply Permutation_sym; exact P3|exact I]. }
      destruct K as [(E1 & P1 & S1)|[(E1 & P1 & S1)|(N1 & N2 & _)]]; [| |destruct C; contradiction];
      (destruct K' as [(E2 & P2 & S2)|[(E2 & P2 & S2)|(N1 & N2 & _)]]; [| |destruct C; contradiction]);
      try (rewrite E1 in E2; discriminate); destruct (G P1 P2) as (P3 & Nr & Nr').
      - exists (flip_lt (scored_lt ce)). split; [apply Order.swo_flip, (Order.swo_scored ce He); exact Nr|].
        split; [revert S1; apply sorted_imp; intros a b Ia Ib; apply below_lt; auto|].
        split; [revert S2; apply sorted_imp; intros a b Ia Ib; apply below_lt; auto|].
        split; [exact P3|]. split; [exact Nr|]. unfold flip_lt. tauto.
      - exists (scored_lt ce). split; [apply (Order.swo_scored ce He); exact Nr|].
        split; [revert S1; apply sorted_imp; intros a b Ia Ib; apply below_lt; auto|].
        split; [revert S2; apply sorted_imp; intros a b Ia Ib; apply below_lt; auto|].
        split; [exact P3|]. split; [exact Nr|]. auto. }
    assert (F := Rescore.sorted_equiv lt rank rank' W Pr S1 S2).
    assert (Nr' : forall h, In h rank' -> numeric h).
    { intros h I. apply Nr. eapply Permutation_in; [apply Permutation_sym; exact Pr|exact I]. }
    clear - F HL He Nr Nr'. induction F as [|a b l l' H F IH]; constructor.
    - apply HL in H. apply (Order.scored_trichotomy ce He) in H; [|apply Nr; simpl; auto|apply Nr'; simpl; auto].
      apply (Order.scored_eq_spec ce He) in H. split; apply H.
    - apply IH; intros; [apply Nr|apply Nr']; simpl; auto.
  Qed.

  Lemma logged_equal h h' l ms : sc_base h = sc_base h' -> same_number (sc_score h) (sc_score h') ->
    logged scorer h l ms -> exists ms', logged scorer h' l ms' /\ Forall2 equal_matches ms ms'.
  Proof.
    intros B Sn. induction 1 as [|r l ms H K IH|r l ms H K IH].
    - exists []. split; constructor.
    - destruct IH as (ms' & A & F). exists (match_pair r h' (scorer r h') :: ms'). split.
      + constructor; [|exact A]. unfold acceptable in *. now rewrite <- (Hsc r h h' B).
      + constructor; [|exact F]. split; [reflexivity|]. split; [simpl; now apply Hsc|]. split; assumption.
    - destruct IH as (ms' & A & F). exists ms'. split; [|exact F]. constructor; [|exact A].
      unfold acceptable in *. now rewrite <- (Hsc r h h' B).
  Qed.

  Lemma acceptable_equal r h h' : sc_base h = sc_base h' -> acceptable scorer r h <-> acceptable scorer r h'.
  Proof. intros B. unfold acceptable. now rewrite (Hsc r h h' B). Qed.

  Lemma decided_equal taken h h' l t m g : equal_hyps h h' -> decided scorer taken h l t m g ->
    exists m' g', decided scorer taken h' l t m' g' /\ Forall2 equal_matches m m' /\ Forall2 equal_matches g g'.
  Proof.
    intros [B Sn] [bf r af ms El Ac Nt Bf Lg|Fa|ms Ex Al Lg].
    - destruct (logged_equal h h' bf ms B Sn Lg) as (ms' & A & F).
      exists [match_pair r h' (scorer r h')], ms'. split; [|split; [|exact F]].
      + apply (hit _ _ _ _ bf r af); auto; [now rewrite <- (acceptable_equal r h h' B)|].
        intros x I K. apply Bf; [exact I|]. now rewrite (acceptable_equal x h h' B).
      + constructor; [|constructor]. split; [reflexivity|]. split; [simpl; now apply Hsc|]. split; assumption.
    - exists [make_fp h'], []. split; [|split; [|constructor]].
      + constructor. intros x I K. apply (Fa x I). now rewrite (acceptable_equal x h h' B).
      + constructor; [|constructor]. split; [reflexivity|]. split; [reflexivity|]. split; assumption.
    - destruct (logged_equal h h' l ms B Sn Lg) as (ms' & A & F).
      exists [], ms'. split; [|split; [constructor|exact F]]. constructor; auto.
      + destruct Ex as (x & I & K). exists x. split; [exact I|]. now rewrite <- (acceptable_equal x h h' B).
      + intros x I K. apply Al; [exact I|]. now rewrite (acceptable_equal x h h' B).
  Qed.

  Lemma matching_equal refs hyps taken ms log : matching R scorer refs hyps taken ms log ->
    forall hyps', Forall2 equal_hyps hyps hyps' ->
    exists ms' log', matching R scorer refs hyps' taken ms' log' /\ Forall2 equal_matches ms ms' /\ Forall2 equal_matches log log'.
  Proof.
    induction 1 as [|hyps taken ms log h l t m g H IH Hl Hd]; intros hyps' F.
    - inversion F; subst. exists [], []. repeat split; constructor.
    - apply Forall2_snoc in F as (k & h' & -> & F & Eh). destruct (IH k F) as (ms' & log' & A & B & C).
      destruct (decided_equal taken h h' l t m g Eh Hd) as (m' & g' & A' & B' & C').
      exists (ms' ++ m'), (log' ++ g'). split; [|split; apply Forall2_app; assumption].
      apply (next_hyp _ _ _ _ _ _ _ _ l); auto. apply (HR refs h h'); [apply Eh|exact Hl].
  Qed.

  Lemma match_group_equal f (m m' : M) k : equal_matches m m' -> match_group rq hq f m k -> match_group rq hq f m' k.
  Proof.
    intros (E1 & _ & E3) (q & H & K). exists q. split; [|exact K]. unfold has_query in *. rewrite <- E1.
    destruct (m_ref m); [exact H|]. destruct (m_hyp m) as [h|], (m_hyp m') as [h'|]; try contradiction.
    destruct E3 as [<- _]. exact H.
  Qed.

  Lemma equal_sym (m m' : M) : equal_matches m m' -> equal_matches m' m.
  Proof.
    intros (E1 & E2 & E3). split; [auto|]. split; [auto|].
    destruct (m_hyp m) as [h|], (m_hyp m') as [h'|]; try contradiction; auto.
    destruct E3 as [A B]. split; [auto|]. unfold same_number in *. now rewrite Order.f32_eq_sym.
  Qed.

  Lemma selects_equal (P : M -> Prop) ms ms' : (forall m m', equal_matches m m' -> P m -> P m') -> Forall2 equal_matches ms ms' ->
    forall g g', selects P ms g -> selects P ms' g' -> Forall2 equal_matches g g'.
  Proof.
    intros HP. induction 1 as [|m m' ms ms' Hm F IH]; intros g g' K K'; inversion K; inversion K'; subst; try constructor; auto.
    - exfalso. eauto.
    - exfalso. apply equal_sym in Hm. eauto.
  Qed.

  Lemma groups_equal f ms ms' groups groups' : Forall2 equal_matches ms ms' ->
    grouping rq hq f ms groups -> grouping rq hq f ms' groups' -> Forall2 (Forall2 equal_matches) groups groups'.
  Proof.
    intros F (ks & keys & F1 & Fs & F2) (ks' & keys' & F1' & Fs' & F2').
    assert (ks' = ks).
    { clear - F F1 F1'. revert ks ks' F1 F1'. induction F as [|m m' ms ms' Hm F IH]; intros ks ks' F1 F1';
        inversion F1 as [|? k ? ks0 Hk Hks]; inversion F1' as [|? k' ? ks0' Hk' Hks']; subst; auto.
      f_equal; [|eauto]. apply (match_group_equal f m m' k Hm) in Hk. exact (Evaluation.match_group_fun rq hq f m' k' k Hk' Hk). }
    subst ks'. rewrite <- (Mapper.first_seen_unique ks keys keys' Fs Fs') in F2'. clear - F F2 F2'.
    revert groups' F2'. induction F2 as [|k g keys groups [_ H] F2 IH]; intros groups' F2'; inversion F2' as [|? g' ? gs' [_ H'] F3]; subst; constructor; auto.
    revert H H'. apply (selects_equal (fun m => match_group rq hq f m k)); [|exact F].
    intros m m' Hm. now apply match_group_equal.
  Qed.

  Lemma evaluations_equal crit f refs refs' hyps hyps' ms log groups ms' log' groups' : crit = lit "desc" \/ crit = lit "asc" ->
    same_elements refs refs' -> Permutation hyps hyps' -> (forall h, In h hyps -> numeric h) ->
    evaluation (c_lt ce) (c_lt cr) rq hq R scorer crit f refs hyps ms log groups ->
    evaluation (c_lt ce) (c_lt cr) rq hq R scorer crit f refs' hyps' ms' log' groups' ->
    Forall2 equal_matches ms ms' /\ Forall2 equal_matches log log' /\ Forall2 (Forall2 equal_matches) groups groups'.
  Proof.
    intros C Se P N (r1 & h1 & rank & taken & found & missed & Sr & Sh & Rk & Mt & So & Mi & -> & G)
      (r2 & h2 & rank' & taken' & found' & missed' & Sr' & Sh' & Rk' & Mt' & So' & Mi' & -> & G').
    assert (Ser : same_elements r1 r2).
    { intros x. rewrite (Grouping.selects_in _ _ _ Sr), (Grouping.selects_in _ _ _ Sr'), (Se x). reflexivity. }
    destruct (selects_perm _ _ _ P _ Sh) as (h2' & Sh2 & Ph). rewrite (selects_fun _ _ _ _ Sh2 Sh') in Ph. clear h2' Sh2.
    assert (Nh : forall h, In h h1 -> numeric h) by (intros h I; apply N; now apply (Grouping.selects_in _ _ _ Sh) in I).
    assert (Fr := ranks_equal crit h1 h2 rank rank' C Nh Ph Rk Rk').
    destruct (matching_equal _ _ _ _ _ Mt rank' Fr) as (found2 & log2 & Mt2 & F1 & F2).
    destruct (Matching.matching_unique S R HS scorer r1 r2 rank' Ser _ _ _ _ _ _ Mt2 Mt') as (<- & -> & ->).
    assert (missed' = missed) as ->.
    { apply (Sets.ssorted_unique (c_lt cr) (to_irrefl _ Hr)); auto.
      - intros x y z. apply (to_trans _ Hr).
      - intros x. rewrite Mi, Mi', (Ser x). reflexivity. }
    assert (F : Forall2 equal_matches (found ++ map make_fn missed) (found' ++ map make_fn missed)).
    { apply Forall2_app; [exact F1|]. clear. induction missed; constructor; auto. repeat split. }
    split; [exact F|]. split; [exact F2|]. exact (groups_equal f _ _ _ _ F G G').
  Qed.
End Order.

(** The statistics see equal matches only. *)
Section EqualMetrics.
  Context {RE E : Type}.
  Notation M := (match_t RE (scored E)).

  Lemma eq_tie x y x' y' : f32_eq x x' = true -> f32_eq y y' = true -> f32_eq x y = f32_eq x' y'.
  Proof. apply Rescore.f32_eq_congr. Qed.

  Lemma equal_score (h h' : scored E) : equal_hyps h h' -> f32_eq (sc_score h) (sc_score h') = true.
  Proof. intros [_ H]. exact H. Qed.

  Definition equal_pr A (l l' : list M) c i (H : Forall2 equal_matches l l') :=
    Rescore.sim_precision_recall equal_hyps sc_score sc_score (fun x y => f32_eq x y = true) eq_tie equal_score eq_refl A l l' c i H.
  Definition equal_global_ap A (l l' : list M) c i t (H : Forall2 equal_matches l l') :=
    Rescore.sim_global_ap equal_hyps sc_score sc_score (fun x y => f32_eq x y = true) eq_tie equal_score eq_refl A l l' c i t H.
  Definition equal_global_ndcg A T (l l' : list M) c (H : Forall2 equal_matches l l') :=
    Rescore.sim_global_ndcg equal_hyps sc_score sc_score (fun x y => f32_eq x y = true) eq_tie equal_score eq_refl A T l l' c H.
  Definition equal_mean_ap A srt (l l' : list (list M)) c i t (H : Forall2 (Forall2 equal_matches) l l') :=
    Rescore.sim_mean_ap equal_hyps sc_score sc_score (fun x y => f32_eq x y = true) eq_tie equal_score eq_refl A srt l l' c i t H.
  Definition equal_mean_ndcg A T srt (l l' : list (list M)) c (H : Forall2 (Forall2 equal_matches) l l') :=
    Rescore.sim_mean_ndcg equal_hyps sc_score sc_score (fun x y => f32_eq x y = true) eq_tie equal_score eq_refl A T srt l l' c H.

  Lemma equal_mean_curve A w w' c (l l' : list (list M)) : w_writable w = w_writable w' -> Forall2 (Forall2 equal_matches) l l' ->
    write_mean_curve A sc_score w c l = write_mean_curve A (RE := RE) sc_score w' c l'.
  Proof.
    intros Hw H. unfold write_mean_curve. rewrite (Curves.Forall2_len _ _ _ H), Hw.
    match goal with |- pbind A (run A (omap ?f l)) _ = _ => assert (O : omap f l = omap f l') end.
    { induction H as [|g g' l l' Hg H IH]; [reflexivity|]. cbn [omap]. rewrite (equal_pr A g g' _ _ Hg), IH. reflexivity. }
    rewrite O. reflexivity.
  Qed.
End EqualMetrics.

(** ** Hits by comparing events *)

Section Hits.
  Context {Q L : Type} (cq : Cmp Q) (Hq : total_order cq) (cl : Cmp L) (Hl : total_order cl).
  Notation Ev := (event Q L).
  Notation tr := (fun (r : Ev) (h : scored Ev) => trivial_scorer cq cl r (sc_base h)).

  Lemma trivial_same e : trivial_scorer cq cl e e = MatchError (f32_of_Z 0) (f32_of_Z 0).
  Proof. unfold trivial_scorer. now rewrite (proj2 (to_eq _ Hl _ _) eq_refl), (proj2 (to_eq _ Hq _ _) eq_refl). Qed.

  Lemma trivial_accepts h : acceptable tr (sc_base h) h.
  Proof. unfold acceptable. rewrite trivial_same. reflexivity. Qed.

  Lemma first_rules_spec refs rank taken found log : matching exact_search tr refs rank taken found log ->
    first_rules refs rank found log /\ forall x, In x taken <-> In x refs /\ exists h, In h rank /\ sc_base h = x.
  Proof.
    induction 1 as [|rank taken ms log h l t m g H [IH1 IH2] Hf Hd].
    - split; [constructor|]. intros x. split; [intros []|intros (_ & h & [] & _)].
    - assert (Ac := trivial_accepts h). split.
      + constructor; [exact IH1|].
        destruct Hf as [[Ir ->]|[Ir ->]].
        * destruct Hd as [bf r af lg El Hac Nt Bf Lg|Fa|lg Ex Al Lg].
          -- destruct bf as [|b bf]; [|destruct bf; discriminate]. injection El as <- <-. inversion Lg; subst.
             rewrite trivial_same. constructor; [exact Ir|].
             intros h' I K. apply Nt. apply IH2. split; [exact Ir|]. eauto.
          -- destruct (Fa (sc_base h) (or_introl eq_refl) Ac).
          -- inversion Lg as [|r l ms' A1 A2|r l ms' A1 A2]; subst; [|contradiction]. inversion A2; subst.
             rewrite trivial_same. constructor; [exact Ir|].
             destruct (proj1 (IH2 (sc_base h)) (Al _ (or_introl eq_refl) Ac)) as (_ & h' & I & K). eauto.
        * destruct Hd as [bf r af lg El Hac Nt Bf Lg|Fa|lg Ex Al Lg].
          -- destruct bf; discriminate.
          -- now constructor.
          -- destruct Ex as (x & [] & _).
      + intros x. rewrite in_app_iff, IH2. split.
        * intros [[I (h' & I' & K)]|I].
          -- split; [exact I|]. exists h'. split; [apply in_or_app; auto|exact K].
          -- destruct Hf as [[Ir ->]|[Ir ->]].
             ++ destruct Hd as [bf r af lg El Hac Nt Bf Lg|Fa|lg Ex Al Lg]; [|destruct I|destruct I].
                destruct I as [<-|[]]. destruct bf as [|b bf]; [|destruct bf; discriminate]. injection El as <- <-.
                split; [exact Ir|]. exists h. split; [apply in_or_app; simpl; auto|reflexivity].
             ++ destruct Hd as [bf r af lg El Hac Nt Bf Lg|Fa|lg Ex Al Lg]; [|destruct I|destruct I].
                destruct bf; discriminate.
        * intros (I & h' & I' & K). apply in_app_or in I' as [I'|[<-|[]]]; [left; eauto|]. subst x.
          destruct Hf as [[Ir ->]|[Ir ->]]; [|contradiction].
          destruct Hd as [bf r af lg El Hac Nt Bf Lg|Fa|lg Ex Al Lg].
          -- destruct bf as [|b bf]; [|destruct bf; discriminate]. injection El as <- <-. right. now left.
          -- destruct (Fa (sc_base h) (or_introl eq_refl) Ac).
          -- left. apply IH2. apply Al; simpl; auto.
  Qed.
End Hits.

(** ** The two programs *)

Section Both.
  Context {A : Arith} (T : Trans A).
  Variables (srt : sort_fn) (Hs : sort_contract srt).
  Variable rngs : Z -> rng.
  Variables (show_int : Z -> bytes) (show_f64 : f64 -> bytes).

  Notation icdar := (icdar17 A T srt rngs show_int show_f64).
  Notation simple := (simple_kws A T srt rngs show_int show_f64).

  Lemma icdar_dump w pn args c refs hyps f l r : command args c ->
    inputs shaped_text scored_shaped_text w c refs hyps f -> icdar w pn args = (l, r) ->
    exists ms log groups rest, (forall h, In h hyps -> is_finite (sc_score h) = true) /\
      icdar17_evaluation (cf_sort c) f refs hyps ms log groups /\
      outputs l = dumped c ms log ++ rest /\ only_curves w c rest.
  Proof.
    intros Cm I Et. rewrite Instances.icdar17_tool in Et.
    destruct (main_dump T srt Hs rngs show_int show_f64 false cmp_str Order.total_order_str
      cmp_shaped Order.total_order_shaped cmp_shaped Order.total_order_shaped ev_query ev_query
      (evset_docbox srt cmp_str) (box_search cmp_str) (Matching.finds_docbox srt cmp_str Hs Order.total_order_str)
      (fun r h => ioh_scorer cmp_str f32_half r (sc_base h))
      read_shaped shaped_text (read_scored read_shaped) scored_shaped_text Reader.fm_shaped Reader.fm_scored_shaped Instances.finite_shaped
      identity_mapper identity_mapper identity_mapper Instances.tame_identity Instances.tame_identity Instances.tame_identity Instances.keeps_identity
      _ w tt pn args c refs hyps f l r Cm I Et) as [[K _]|H]; [discriminate|].
    destruct H as (refs' & hyps' & f' & st1 & st2 & st3 & ms & log & groups & rest & M1 & M2 & M3 & Fi & Ev & O & Nd).
    rewrite Instances.map_all_id in M1. injection M1 as <- <-. rewrite Instances.map_all_id in M2. injection M2 as <- <-.
    rewrite Instances.map_file_id in M3. injection M3 as <- <-.
    exists ms, log, groups, rest. auto.
  Qed.

  Lemma simple_dump qf w pn args c refs hyps f l r : command args c ->
    inputs str_event_text scored_str_event_text w c refs hyps f -> simple qf w pn args = (l, r) ->
    (r = inr (FThrow RangeError) /\ outputs l = []) \/
    exists id ms log groups rest, (forall s s', id s = id s' -> s = s') /\
      (forall h, In h hyps -> is_finite (sc_score h) = true) /\
      simple_evaluation id (cf_sort c) f refs hyps ms log groups /\
      outputs l = dumped c (map (renamed_match id) ms) (map (renamed_match id) log) ++ rest /\ only_curves w c rest.
  Proof.
    intros Cm I Et. rewrite Instances.simple_tool in Et.
    destruct (main_dump T srt Hs rngs show_int show_f64 true cmp_Z Order.total_order_Z
      cmp_int_event Instances.total_order_int_event cmp_int_event Instances.total_order_int_event ev_query ev_query
      (evset_generic cmp_int_event) exact_search (Matching.finds_generic cmp_int_event Instances.total_order_int_event)
      (fun r h => trivial_scorer cmp_Z cmp_Z r (sc_base h))
      read_str_event str_event_text (read_scored read_str_event) scored_str_event_text Reader.fm_str_event Reader.fm_scored_str_event Instances.finite_str
      (event_to_int qf Instances.int_max) (scored_mapper (event_to_int qf Instances.int_max)) (string_to_int Instances.int_max)
      (Instances.tame_event qf) (Instances.tame_scored qf) Instances.tame_string (Instances.keeps_scored qf)
      _ w [] pn args c refs hyps f l r Cm I Et) as [(_ & K)|H]; [left; exact K|right].
    destruct H as (refs' & hyps' & f' & st1 & st2 & st3 & ms & log & groups & rest & M1 & M2 & M3 & Fi & Ev & O & Nd).
    destruct (Ids.run_ids Instances.int_max qf _ _ _ _ _ _ _ _ _ M1 M2 M3) as (id & Inj & -> & -> & ->).
    destruct (Instances.simple_back id _ _ _ _ _ _ _ Inj Ev) as (ms' & log' & groups' & -> & -> & -> & Ev').
    exists id, ms', log', groups', rest. split; [exact Inj|]. split; [|auto].
    intros h Ih. exact (Fi (map_scored (renamed id) h) (in_map _ _ _ Ih)).
  Qed.

  (** The points of curve files are determined. *)
  Lemma curve_file_fun {RE HE} w (name : bytes) (P : list (num A * num A) -> Prop) (l l' : list (effect A (RE := RE) (HE := HE))) b b' :
    (name <> [] -> forall p p', P p -> P p' -> p = p') -> curve_file w name P l b -> curve_file w name P l' b' -> l = l' /\ b = b'.
  Proof. intros U [] []; try congruence; auto. split; [|reflexivity]. do 3 f_equal. auto. Qed.

  Lemma curve_files_fun {RE HE} w c (PG PM : list (num A * num A) -> Prop) (l l' : list (effect A (RE := RE) (HE := HE))) e e' :
    (forall p p', PG p -> PG p' -> p = p') -> (cf_mrp c <> [] -> forall p p', PM p -> PM p' -> p = p') ->
    curve_files w c PG PM l e -> curve_files w c PG PM l' e' -> l = l' /\ e = e'.
  Proof.
    intros U1 U2 [g m b Hg Hm|g Hg] [g' m' b' Hg' Hm'|g' Hg'];
      destruct (curve_file_fun _ _ _ _ _ _ _ (fun _ => U1) Hg Hg') as [-> K]; try discriminate.
    - destruct (curve_file_fun _ _ _ _ _ _ _ U2 Hm Hm') as [-> <-]. auto.
    - auto.
  Qed.

  Lemma global_points_fun {RE E} c (ms : list (match_t RE (scored E))) p p' :
    global_points (A := A) c ms p -> global_points c ms p' -> p = p'.
  Proof.
    intros (ys & -> & _ & H) (ys' & -> & _ & H'). destruct (precision_recall_matches A sc_score ms (cf_collapse c) (cf_interp c)).
    congruence.
  Qed.

  Lemma mean_points_fun {RE E} w c (gs : list (list (match_t RE (scored E)))) : cf_mrp c <> [] -> forall p p',
    mean_points (A := A) w c gs p -> mean_points w c gs p' -> p = p'.
  Proof.
    intros N p p' (ys & _ & _ & H) (ys' & _ & _ & H'). specialize (H N). specialize (H' N).
    assert (K : [EWrite (RE := RE) (HE := scored E) (cf_mrp c) (FCurve p)] = [EWrite (cf_mrp c) (FCurve p')]) by congruence.
    injection K. auto.
  Qed.

  Lemma reported_equal {RE E} w w' c (ms log ms' log' : list (match_t RE (scored E))) groups groups' l r l' r' :
    w_writable w = w_writable w' ->
    Forall2 equal_matches ms ms' -> Forall2 (Forall2 equal_matches) groups groups' ->
    Instances.reported T srt w c ms log groups l r -> Instances.reported T srt w' c ms' log' groups' l' r' ->
    r = r' /\ exists rest, outputs l = dumped c ms log ++ rest /\ outputs l' = dumped c ms' log' ++ rest.
  Proof.
    intros Hw F1 F2 (v1 & v2 & v4 & cv & e & -> & V1 & V2 & V4 & O & C) (v1' & v2' & v4' & cv' & e' & -> & V1' & V2' & V4' & O' & C').
    assert (Pg : forall p, global_points (A := A) c ms' p -> global_points (A := A) c ms p).
    { intros p (ys & K1 & K2 & K3). exists ys. split; [exact K1|]. split; [exact K2|]. now rewrite (equal_pr A ms ms' _ _ F1). }
    assert (Pm : forall p, mean_points (A := A) w' c groups' p -> mean_points w c groups p).
    { intros p (ys & K1 & K2 & K3). exists ys. split; [exact K1|]. split; [exact K2|].
      intros N. rewrite (equal_mean_curve A w w' c groups groups' Hw F2). auto. }
    assert (C2 : curve_files w c (global_points c ms) (mean_points w c groups) cv' e').
    { assert (G : forall name (P P' : list (num A * num A) -> Prop) k b, (forall p, P' p -> P p) -> curve_file w' name P' k b -> curve_file (A := A) (RE := RE) (HE := scored E) w name P k b).
      { intros name P P' k b HP []; [constructor; assumption|constructor; auto; now rewrite Hw|constructor; [assumption|now rewrite Hw]]. }
      destruct C' as [g m b Hg Hm|g Hg].
      - apply (cf_both w c _ _ g m b); eapply G; eauto.
      - apply cf_global; eapply G; eauto. }
    destruct (curve_files_fun w c _ _ cv cv' e e' (global_points_fun c ms) (mean_points_fun w c groups) C C2) as [<- <-].
    split; [reflexivity|]. rewrite (equal_global_ap A ms ms' _ _ _ F1), V1' in V1. injection V1 as <-.
    rewrite (equal_mean_ap A srt groups groups' _ _ _ F2), V2' in V2. injection V2 as <-.
    rewrite (equal_mean_ndcg A T srt groups groups' _ F2), V4' in V4. injection V4 as <-.
    rewrite (equal_global_ndcg A T ms ms' _ F1) in O. eauto.
  Qed.

  Lemma box_search_base refs (h h' : scored shaped) l : sc_base h = sc_base h' -> box_search cmp_str refs h l -> box_search cmp_str refs h' l.
  Proof. intros B K. destruct h as [b s], h' as [b' s']. cbn in B. subst b'. exact K. Qed.

  Lemma icdar_lines w w' pn args c refs hyps refs' hyps' f l r l' r' : command args c -> no_bootstrap c ->
    cf_sort c = lit "desc" \/ cf_sort c = lit "asc" ->
    inputs shaped_text scored_shaped_text w c refs hyps f -> inputs shaped_text scored_shaped_text w' c refs' hyps' f ->
    w_writable w = w_writable w' -> same_elements refs refs' -> Permutation hyps hyps' ->
    icdar w pn args = (l, r) -> icdar w' pn args = (l', r') ->
    r = r' /\ exists ms log ms' log' rest, Forall2 equal_matches ms ms' /\ Forall2 equal_matches log log' /\
      outputs l = dumped c ms log ++ rest /\ outputs l' = dumped c ms' log' ++ rest.
  Proof.
    intros Cm NB Sc I I' Hw Se P Et Et'.
    destruct (Instances.icdar_run T srt Hs rngs show_int show_f64 w pn args c refs hyps f l r Cm NB I Et) as (ms & log & gs & Fi & Ev & Rp).
    destruct (Instances.icdar_run T srt Hs rngs show_int show_f64 w' pn args c refs' hyps' f l' r' Cm NB I' Et') as (ms' & log' & gs' & Fi' & Ev' & Rp').
    destruct (evaluations_equal cmp_shaped Order.total_order_shaped cmp_shaped Order.total_order_shaped ev_query ev_query
      (evset_docbox srt cmp_str) (box_search cmp_str) (Matching.finds_docbox srt cmp_str Hs Order.total_order_str)
      (fun r h => ioh_scorer cmp_str f32_half r (sc_base h)) box_search_base
      (fun r h h' B => f_equal (fun x => ioh_scorer cmp_str f32_half r x) B)
      (cf_sort c) f refs refs' hyps hyps' ms log gs ms' log' gs' Sc Se P) as (F1 & F2 & F3); auto.
    { intros h Ih. apply Rescore.finite_not_nan. now apply Fi. }
    destruct (reported_equal w w' c ms log ms' log' gs gs' l r l' r' Hw F1 F3 Rp Rp') as (-> & rest & O & O').
    split; [reflexivity|]. exists ms, log, ms', log', rest. auto.
  Qed.
End Both.

(** ** Rational and real statistics *)

Section Printed.
  Context {A : Arith} {RE HE : Type}.
  Notation eff := (effect A (RE := RE) (HE := HE)).

  Lemma printed_outputs (l : list eff) : printed (outputs l) = printed l.
  Proof. induction l as [|[d|n v iv|n x] l IH]; simpl; [reflexivity|exact IH|now rewrite <- IH|exact IH]. Qed.

  Lemma printed_app (a b : list eff) : printed (a ++ b) = printed a ++ printed b.
  Proof. apply flat_map_app. Qed.

  Lemma printed_dumped c (ms log : list (match_t RE HE)) : printed (A := A) (dumped c ms log) = [].
  Proof. unfold dumped. destruct (cf_dump c); reflexivity. Qed.

  Lemma printed_curves w c PG PM (l : list eff) e : curve_files w c PG PM l e -> printed l = [].
  Proof.
    assert (K : forall name (P : list (num A * num A) -> Prop) (k : list eff) b, curve_file w name P k b -> printed k = []) by (intros name P k b []; reflexivity).
    intros [g m b Hg Hm|g Hg]; [rewrite printed_app|]; rewrite (K _ _ _ _ Hg); [exact (K _ _ _ _ Hm)|reflexivity].
  Qed.
End Printed.

Section RationalRun.
  Context (TQ : Trans QArith_) (TR : Trans RArith) {Q RE E ER EE St : Type}.
  Notation HE := (scored E).
  Variables (srt : sort_fn) (Hs : sort_contract srt).
  Variable rngs : Z -> rng.
  Variables (show_int : Z -> bytes) (show_f64 : f64 -> bytes).
  Variables (cq : Cmp Q) (Hq : total_order cq).
  Variables (cr : Cmp RE) (Hr : total_order cr).
  Variables (ce : Cmp E) (He : total_order ce).
  Variables (rq : RE -> Q) (hq : E -> Q).
  Variables (S : EvSet RE HE) (R : list RE -> HE -> list RE -> Prop) (HS : finds S R).
  Variable scorer : RE -> HE -> match_error.
  Hypothesis HR : forall refs h h' l, sc_base h = sc_base h' -> R refs h l -> R refs h' l.
  Hypothesis Hsc : forall r h h', sc_base h = sc_base h' -> scorer r h = scorer r h'.
  Variables (rd_r : istream -> ER * istream) (text_r : bytes -> ER -> Prop).
  Variables (rd_h : istream -> scored EE * istream) (text_h : bytes -> scored EE -> Prop).
  Hypothesis Fr : format rd_r text_r.
  Hypothesis Fh : format rd_h text_h.
  Hypothesis Finite : forall b e, text_h b e -> is_finite (sc_score e) = true.
  Variable mr : St -> ER -> outcome (RE * St).
  Variable mh : St -> scored EE -> outcome (HE * St).
  Variable mq : St -> bytes -> outcome (Q * St).
  Hypothesis Tr : forall st x, tame false (mr st x).
  Hypothesis Th : forall st x, tame false (mh st x).
  Hypothesis Tq : forall st x, tame false (mq st x).
  Hypothesis Keeps : forall st x y st', mh st x = Ok (y, st') -> sc_score y = sc_score x.
  Variable desc : bytes.
  Variable w : world.
  Variable st0 : St.
  Notation tool T := (Programs.tool T srt rngs show_int show_f64 cq cr ce rq hq S scorer rd_r rd_h mr mh mq desc w st0).

  Lemma main_rational pn args c lq v1 v2 v3 v4 ends : command args c -> no_bootstrap c ->
    cf_sort c = lit "desc" \/ cf_sort c = lit "asc" ->
    tool TQ pn args = (lq, ends) ->
    printed lq = [(lit "gAP", v1); (lit "mAP", v2); (lit "gNDCG", v3); (lit "mNDCG", v4)] ->
    exists l e n3 n4, tool TR pn args = (l, inr e) /\
      printed l = [(lit "gAP", Q2R v1); (lit "mAP", Q2R v2); (lit "gNDCG", n3); (lit "mNDCG", n4)].
  Proof.
    intros Cm NB Sc EQ PQ. destruct (tool TR pn args) as [l r] eqn:EL.
    destruct (main_outputs TQ srt Hs rngs show_int show_f64 false cq Hq cr Hr ce He rq hq S R HS scorer rd_r text_r rd_h text_h Fr Fh Finite
                  mr mh mq Tr Th Tq Keeps desc w st0 pn args lq ends EQ) as (c' & raw_r & raw_h & f & Cm' & I).
    { intros K. rewrite <- printed_outputs, K in PQ. discriminate. }
    rewrite (command_fun _ _ _ Cm' Cm) in *. clear c' Cm'.
    destruct (main_run TQ srt Hs rngs show_int show_f64 false cq Hq cr Hr ce He rq hq S R HS scorer rd_r text_r rd_h text_h Fr Fh Finite
                  mr mh mq Tr Th Tq Keeps desc w st0 pn args c raw_r raw_h f lq ends Cm NB I EQ) as [(_ & _ & K)|H].
    { rewrite <- printed_outputs, K in PQ. discriminate. }
    destruct H as (refs & hyps & f' & st1 & st2 & st3 & m & ms & log & gs & x1 & x2 & x4 & cv & e & H).
    destruct H as (_ & M1 & M2 & M3 & _ & Fi & Ev & _ & V1 & V2 & V4 & O & Cv).
    destruct (main_run TR srt Hs rngs show_int show_f64 false cq Hq cr Hr ce He rq hq S R HS scorer rd_r text_r rd_h text_h Fr Fh Finite
                  mr mh mq Tr Th Tq Keeps desc w st0 pn args c raw_r raw_h f l r Cm NB I EL) as [(Lm & K1 & K2)|H].
    { discriminate. }
    destruct H as (refs' & hyps' & f2 & st1' & st2' & st3' & m' & ms' & log' & gs' & y1 & y2 & y4 & cv' & e' & H).
    destruct H as (-> & N1 & N2 & N3 & _ & Fi' & Ev' & _ & W1 & W2 & W4 & O' & Cv').
    rewrite M1 in N1. injection N1 as <- <-. rewrite M2 in N2. injection N2 as <- <-. rewrite M3 in N3. injection N3 as <- <-.
    destruct (evaluations_equal ce He cr Hr rq hq S R HS scorer HR Hsc (cf_sort c) f' refs refs hyps hyps
      ms log gs ms' log' gs' Sc (fun x => iff_refl _) (Permutation_refl _)) as (F1 & F2 & F3); auto.
    { intros h Ih. apply Rescore.finite_not_nan. now apply Fi. }
    rewrite <- (equal_global_ap RArith ms ms' _ _ _ F1), Rational.global_ap_Q, V1 in W1. injection W1 as <-.
    rewrite <- (equal_mean_ap RArith srt gs gs' _ _ _ F3), Rational.mean_ap_Q, V2 in W2. injection W2 as <-.
    rewrite <- printed_outputs, O, !printed_app, printed_dumped, (printed_curves _ _ _ _ _ _ Cv) in PQ.
    cbn in PQ. injection PQ as <- <- _ _.
    exists l, e'. do 2 eexists. split; [reflexivity|].
    rewrite <- printed_outputs, O', !printed_app, printed_dumped, (printed_curves _ _ _ _ _ _ Cv'). reflexivity.
  Qed.
End RationalRun.

Section BothRational.
  Context (TQ : Trans QArith_) (TR : Trans RArith).
  Variables (srt : sort_fn) (Hs : sort_contract srt).
  Variable rngs : Z -> rng.
  Variables (show_int : Z -> bytes) (show_f64 : f64 -> bytes).
  Variable w : world.

  Lemma icdar_rational pn args c lq v1 v2 v3 v4 ends : command args c -> no_bootstrap c ->
    cf_sort c = lit "desc" \/ cf_sort c = lit "asc" ->
    icdar17 QArith_ TQ srt rngs show_int show_f64 w pn args = (lq, ends) ->
    printed lq = [(lit "gAP", v1); (lit "mAP", v2); (lit "gNDCG", v3); (lit "mNDCG", v4)] ->
    exists l e n3 n4, icdar17 RArith TR srt rngs show_int show_f64 w pn args = (l, inr e) /\
      printed l = [(lit "gAP", Q2R v1); (lit "mAP", Q2R v2); (lit "gNDCG", n3); (lit "mNDCG", n4)].
  Proof.
    intros Cm NB Sc Eq Pq. rewrite Instances.icdar17_tool in Eq. rewrite Instances.icdar17_tool.
    exact (main_rational TQ TR srt Hs rngs show_int show_f64 cmp_str Order.total_order_str
      cmp_shaped Order.total_order_shaped cmp_shaped Order.total_order_shaped ev_query ev_query
      (evset_docbox srt cmp_str) (box_search cmp_str) (Matching.finds_docbox srt cmp_str Hs Order.total_order_str)
      (fun r h => ioh_scorer cmp_str f32_half r (sc_base h)) box_search_base
      (fun r h h' B => f_equal (fun x => ioh_scorer cmp_str f32_half r x) B)
      read_shaped shaped_text (read_scored read_shaped) scored_shaped_text Reader.fm_shaped Reader.fm_scored_shaped Instances.finite_shaped
      identity_mapper identity_mapper identity_mapper Instances.tame_identity Instances.tame_identity Instances.tame_identity Instances.keeps_identity
      _ w tt pn args c lq v1 v2 v3 v4 ends Cm NB Sc Eq Pq).
  Qed.
End BothRational.
