(** Proofs about runs that keep the same events. *)
From Coq Require Import Ascii String List Bool ZArith Lia Permutation Sorted.
From Flocq Require Import BinarySingleNaN.
From Verif.Model Require Import Cpp Floats Box Events EventSets Matches Matcher Scorers Assessment Bootstrap Mapper Stream Reader Options Tool.
From Verif.Spec Require Import Order Objects Sets Matching Scorers Grouping Collapse Metrics Reader Options Tool Where Selected.
From Verif.Proofs Require Import Queries Tool Programs Where.
From Verif.Proofs Require Parts Reader Instances Grouping Mapper Matching Order Rescore Ids Evaluation Finish.
Import ListNotations.
Local Open Scope list_scope.

(** ** Groups by other keys *)

Lemma first_seen_related {X Y} (rho : X -> Y -> Prop) : (forall a a' b b', rho a b -> rho a' b' -> (a = a' <-> b = b')) -> forall l s, first_seen l s -> forall l', Forall2 rho l l' ->
  exists s', first_seen l' s' /\ Forall2 rho s s'.
Proof.
  intros B l s H. induction H as [|l s x H IH I|l s x H IH I]; intros l' F.
  - inversion F; subst. exists []. split; constructor.
  - apply Forall2_app_inv_l in F as (u & v & F1 & F2 & ->). inversion F2 as [|? y ? v' Rx F3]; subst. inversion F3; subst.
    destruct (IH u F1) as (s' & S' & Fs). exists s'. split; [|exact Fs]. apply fs_old; [exact S'|].
    clear - B I Fs Rx. induction Fs as [|a b s s' Ra Fs IH]; [destruct I|]. destruct I as [->|I]; [|right; auto]. left. apply (B x x b y Ra Rx). reflexivity.
  - apply Forall2_app_inv_l in F as (u & v & F1 & F2 & ->). inversion F2 as [|? y ? v' Rx F3]; subst. inversion F3; subst.
    destruct (IH u F1) as (s' & S' & Fs). exists (s' ++ [y]). split; [|apply Forall2_app; [exact Fs|repeat constructor; exact Rx]].
    apply fs_new; [exact S'|]. intros J. apply I. clear - B J Fs Rx. induction Fs as [|a b s s' Ra Fs IH]; [destruct J|].
    destruct J as [->|J]; [|right; auto]. left. apply (B a x y y Ra Rx). reflexivity.
Qed.

Lemma selects_same {X} (P P' : X -> Prop) l s s' : (forall x, In x l -> (P x <-> P' x)) -> selects P l s -> selects P' l s' -> s = s'.
Proof.
  intros H S. revert s'. induction S as [|x l s A S IH|x l s A S IH]; intros s' S'; inversion S'; subst; auto.
  - f_equal. apply IH; [|assumption]. intros; apply H; now right.
  - exfalso. apply H in A; [contradiction|now left].
  - exfalso. apply A. apply H; [now left|assumption].
  - apply IH; [|assumption]. intros; apply H; now right.
Qed.

Section Groups.
  Context {Q RE HE : Type} (cq : Cmp Q) (Hq : total_order cq) (rq : RE -> Q) (hq : HE -> Q).

  Lemma group_matches_same (m m' : list (Q * Q)) (ms : list (match_t RE HE)) (D : Q -> Prop) : NoDup (map fst m) -> NoDup (map fst m') ->
    (forall x, In x ms -> exists q, D q /\ has_query rq hq x q) ->
    (forall q q', D q -> D q' -> (group_of cq m q = group_of cq m q' <-> group_of cq m' q = group_of cq m' q')) ->
    group_matches cq rq hq ms m = group_matches cq rq hq ms m'.
  Proof.
    intros N N' Hx Hd.
    assert (Hex : forall x, In x ms -> exists q, has_query rq hq x q) by (intros x I; destruct (Hx x I) as (q & _ & H); eauto).
    destruct (Grouping.forall_grouped cq Hq rq hq m N ms Hex) as [ks K]. destruct (Grouping.forall_grouped cq Hq rq hq m' N' ms Hex) as [ks' K'].
    destruct (Grouping.groups_spec cq Hq rq hq m N ms ks K) as (keys & gs & E & Fs & Fg).
    destruct (Grouping.groups_spec cq Hq rq hq m' N' ms ks' K') as (keys' & gs' & E' & Fs' & Fg'). rewrite E, E'. f_equal.
    set (rho := fun k k' => exists q, D q /\ group_of cq m q = k /\ group_of cq m' q = k').
    assert (B : forall a a' b b', rho a b -> rho a' b' -> (a = a' <-> b = b')).
    { intros a a' b b' (q & Dq & <- & <-) (q' & Dq' & <- & <-). now apply Hd. }
    assert (Fr : Forall2 rho ks ks').
    { clear - K K' Hx N N' Hq. revert ks' K'. induction K as [|x k l ks G K IH]; intros ks' K'; inversion K' as [|? k' ? l' G' K2]; subst; constructor.
      - destruct (Hx x (or_introl eq_refl)) as (q & Dq & Hq1). destruct G as (q1 & A1 & G), G' as (q2 & A2 & G').
        rewrite (Grouping.has_query_unique rq hq x _ _ A1 Hq1) in G. rewrite (Grouping.has_query_unique rq hq x _ _ A2 Hq1) in G'.
        exists q. split; [exact Dq|]. split; [now apply (Grouping.group_of_spec cq Hq m N)|now apply (Grouping.group_of_spec cq Hq m' N')].
      - apply IH; [intros; apply Hx; now right|exact K2]. }
    destruct (first_seen_related rho B ks keys Fs ks' Fr) as (k2 & Fs2 & Fk). rewrite (Mapper.first_seen_unique _ _ _ Fs2 Fs') in Fk. clear k2 Fs2.
    assert (Hk : forall x k k', In x ms -> rho k k' -> (grouped rq hq m x k <-> grouped rq hq m' x k')).
    { intros x k k' I (q & Dq & <- & <-). destruct (Hx x I) as (q1 & Dq1 & A). assert (Hd1 := Hd q1 q Dq1 Dq). unfold grouped. split.
      - intros (q2 & A2 & G). rewrite (Grouping.has_query_unique rq hq x _ _ A2 A) in G. apply (Grouping.group_of_spec cq Hq m N) in G.
        exists q1. split; [exact A|]. apply (Grouping.group_of_spec cq Hq m' N'). tauto.
      - intros (q2 & A2 & G). rewrite (Grouping.has_query_unique rq hq x _ _ A2 A) in G. apply (Grouping.group_of_spec cq Hq m' N') in G.
        exists q1. split; [exact A|]. apply (Grouping.group_of_spec cq Hq m N). tauto. }
    clear - Fg Fg' Fk Hk. revert gs gs' Fg Fg'. induction Fk as [|k k' keys keys' Rk Fk IH]; intros gs gs' Fg Fg'; inversion Fg as [|? g ? gs1 [_ S1] F1]; inversion Fg' as [|? g' ? gs2 [_ S2] F2]; subst; [reflexivity|].
    f_equal; [|now apply IH]. apply (selects_same _ _ _ _ _ (fun x I => Hk x k k' I Rk) S1 S2).
  Qed.
End Groups.

(** ** Runs *)

Section Kept.
  Context {A : Arith} (T : Trans A) {Q RE E ER EE St : Type}.
  Notation HE := (scored E).
  Variables (srt : sort_fn) (Hs : sort_contract srt).
  Variable rngs : Z -> rng.
  Variables (show_int : Z -> bytes) (show_f64 : f64 -> bytes).
  Variables (cq : Cmp Q) (Hq : total_order cq).
  Variables (cr : Cmp RE) (Hr : total_order cr).
  Variables (ce : Cmp E) (He : total_order ce).
  Variables (rq : RE -> Q) (hq : E -> Q).
  Variables (S : EvSet RE HE) (R : list RE -> HE -> list RE -> Prop) (HS : finds S R).
  Hypothesis Sub : forall refs h l r, R refs h l -> In r l -> In r refs.
  Variable scorer : RE -> HE -> match_error.
  Variables (rd_r : istream -> ER * istream) (text_r : bytes -> ER -> Prop).
  Variables (rd_h : istream -> scored EE * istream) (text_h : bytes -> scored EE -> Prop).
  Hypothesis Fr : format rd_r text_r.
  Hypothesis Fh : format rd_h text_h.
  Variables (mr : St -> ER -> outcome (RE * St)) (mh : St -> scored EE -> outcome (HE * St)) (mq : St -> bytes -> outcome (Q * St)).
  Variable desc : bytes.

  Notation M := (match_t RE HE).
  Notation hqs := (fun h : HE => hq (sc_base h)).
  Notation Prog := (prog A (RE := RE) (HE := HE)).

  (** From the kept events on. *)
  Definition evaluate (w : world) (c : config) (m : list (Q * Q)) (refs : list RE) (hyps : list HE) : Prog unit :=
    pbind A (sort_hyps A srt (c_lt (cmp_scored ce)) (cf_sort c) hyps) (fun sorted =>
    pbind A (run A (match_inputs (c_lt cr) S scorer refs sorted)) (fun '(matches, mt) =>
    finish T srt rngs cq rq hq w c m (List.length sorted) matches (mt_repeated mt))).

  Lemma lines_map_all fs : forall m st, lines_map cq mq fs m st =
    obind (map_all (map_all mq) st fs) (fun r => Ok (fold_left (fun m l => add_group cq l m) (fst r) m, snd r)).
  Proof.
    induction fs as [|ws fs IH]; intros m st; cbn [lines_map map_all]; [reflexivity|].
    destruct (map_all mq st ws) as [[y s]| |e]; cbn [obind fst snd]; try reflexivity. rewrite IH.
    destruct (map_all (map_all mq) s fs) as [[l t]| |e]; reflexivity.
  Qed.

  Lemma queries_map_holds f st f' st' : (forall fs, f = QueryGroups fs -> forall x, In x fs -> (2 <= List.length x)%nat) -> map_file mq st f = Ok (f', st') ->
    exists m, queries_map cq mq f st = Ok (m, st') /\ holds m f'.
  Proof.
    intros L H. destruct f as [|ws|fs]; cbn [map_file] in H; cbn [queries_map].
    - injection H as <- <-. exists []. split; [reflexivity|apply holds_none].
    - destruct (map_all mq st ws) as [[y s]| |e]; try discriminate. injection H as <- <-. cbn [obind fst snd]. eexists. split; [reflexivity|]. now apply holds_set.
    - rewrite lines_map_all. destruct (map_all (map_all mq) st fs) as [[y s]| |e] eqn:E1; try discriminate. injection H as <- <-. cbn [obind fst snd].
      eexists. split; [reflexivity|]. apply holds_groups; [exact Hq|]. intros l I.
      assert (K : Forall2 (fun a b => List.length b = List.length a) fs y).
      { clear - E1. revert st y s E1. induction fs as [|x fs IH]; intros st y s E1; cbn [map_all] in E1; [injection E1 as <- _; constructor|].
        destruct (map_all mq st x) as [[v u]| |] eqn:E2; try discriminate. destruct (map_all (map_all mq) u fs) as [[vs u']| |] eqn:E3; try discriminate.
        injection E1 as <- _. constructor; [exact (map_all_length mq x st _ E2)|eapply IH, E3]. }
      assert (L' := L fs eq_refl). clear - K I L'. induction K as [|a b fs y E K IH]; [destruct I|]. destruct I as [<-|I]; [rewrite E; apply L'; now left|]. apply IH; [exact I|].
      intros x J. apply L'. now right.
  Qed.

  Lemma filter_kept c m f refs hyps kr kh : holds m f -> selects (fun r => kept f (rq r)) refs kr -> selects (fun h => kept f (hqs h)) hyps kh ->
    quiet (filter_inputs A cq rq hqs c m refs hyps) (pret A (kr, kh)).
  Proof.
    intros H Sr Sh. unfold filter_inputs. assert (Hn := holds_nil m f H). destruct m as [|kv m'] eqn:Em.
    - assert (K : forall q g, ~ assigns f q g) by now apply Hn.
      rewrite (selects_fun _ _ _ _ Sr (selects_all _ refs (fun x _ => or_intror K))), (selects_fun _ _ _ _ Sh (selects_all _ hyps (fun x _ => or_intror K))). apply quiet_refl.
    - rewrite <- Em in *. assert (NE : m <> []) by (rewrite Em; discriminate).
      assert (F1 := filter_events_ok cq Hq rq m f refs H NE). assert (F2 := filter_events_ok cq Hq hqs m f hyps H NE).
      rewrite (selects_fun _ _ _ _ Sr F1), (selects_fun _ _ _ _ Sh F2).
      destruct (Nat.eqb (List.length refs) _), (Nat.eqb (List.length hyps) _), (cf_querygroups c); now split.
  Qed.

  Lemma tool_kept w c raw_r raw_h f st0 pn args refs s1 hyps s2 f' s3 kr kh : command args c -> inputs text_r text_h w c raw_r raw_h f ->
    map_all mr st0 raw_r = Ok (refs, s1) -> map_all mh s1 raw_h = Ok (hyps, s2) -> map_file mq s2 f = Ok (f', s3) ->
    selects (fun r => kept f' (rq r)) refs kr -> selects (fun h => kept f' (hqs h)) hyps kh ->
    exists m, holds m f' /\ quiet (tool T srt rngs show_int show_f64 cq cr ce rq hq S scorer rd_r rd_h mr mh mq desc w st0 pn args) (evaluate w c m kr kh).
  Proof.
    intros Cm I Er Eh Ef Sr Sh. apply command_parse in Cm as (s & Ps & Ec).
    destruct (queries_map_holds f s2 f' s3) as (m & Em & Hm); [|exact Ef|].
    { intros fs -> x J. assert (N := in_queries _ _ _ _ _ _ _ I). inversion N; subst. auto. }
    exists m. split; [exact Hm|].
    unfold tool, tool_main, parse_command_line. cbv zeta. rewrite parse_same, Ps. unfold pret at 1. rewrite pbind_nil. rewrite <- Ec. clear Ps Ec s.
    assert (B1 : forall X Y (o : outcome X) (x : X) (p : Prog X) (k : X -> Prog Y), o = Ok x -> quiet p (run A o) -> quiet (pbind A p k) (k x)).
    { intros X Y o x p k -> K. eapply quiet_trans; [apply quiet_bind; [exact K|intros z; apply quiet_refl]|]. cbn [run]. rewrite pbind_nil. apply quiet_refl. }
    eapply quiet_trans; [apply (B1 _ _ _ _ _ _ Er), (load_refs_quiet rd_r text_r text_h Fr mr w c raw_r raw_h f st0 I)|]. cbv beta iota.
    eapply quiet_trans; [apply (B1 _ _ _ _ _ _ Eh), (load_hyps_quiet text_r rd_h text_h Fh mh w c _ raw_r raw_h f s1 I)|]. cbv beta iota.
    eapply quiet_trans; [apply (B1 _ _ _ _ _ _ Em), (load_queries_quiet cq text_r text_h mq w c raw_r raw_h f s2 I)|]. cbv beta iota.
    eapply quiet_trans; [apply quiet_bind; [exact (filter_kept c m f' refs hyps kr kh Hm Sr Sh)|intros z; apply quiet_refl]|].
    unfold pret at 1. rewrite pbind_nil. cbv beta iota. unfold evaluate. apply quiet_bind; [apply quiet_refl|]. intros sorted.
    apply quiet_diag. apply quiet_refl.
  Qed.

  (** The matches can be assessed. *)
  Definition assessable (k : nat) (ms : list M) : Prop :=
    ranked sc_score ms /\ (forall x, In x ms -> zero_one (m_err x)) /\ (List.length ms <= k)%nat.

  (** The matches do not depend on the file of queries. *)
  Lemma evaluate_finish crit kr kh : (forall h, In h kh -> is_finite (sc_score h) = true) ->
    exists n ms log, (total (fun x => me_nh (m_err x)) ms <= n)%nat /\
      (forall x, In x ms -> exists q, ((exists r, In r kr /\ rq r = q) \/ (exists h, In h kh /\ hq (sc_base h) = q)) /\ has_query rq hqs x q) /\
      ((forall r h, zero_one (scorer r h)) -> assessable (List.length kr + List.length kh) ms) /\
      forall w c m, cf_sort c = crit -> quiet (evaluate w c m kr kh) (finish T srt rngs cq rq hq w c m n ms log).
  Proof.
    intros Fi. assert (exists l rank, sort_hyps A (RE := RE) srt (c_lt (cmp_scored ce)) crit kh = (l, inl rank) /\ outputs l = [] /\ Permutation kh rank) as (l & rank & Es & Ol & Pm).
    { unfold sort_hyps. assert (W : swo_on (scored_lt ce) kh) by (apply (Order.swo_scored ce He); intros h I; apply Rescore.finite_not_nan; now apply Fi).
      change (c_lt (cmp_scored ce)) with (scored_lt ce). destruct (str_eq crit (lit "desc")).
      - assert (W' := Order.swo_flip _ _ W). rewrite (Order.std_sort_ok srt _ _ W'). destruct (Hs HE _ kh W') as [P _]. do 2 eexists. split; [reflexivity|]. split; [reflexivity|exact P].
      - destruct (str_eq crit (lit "asc")).
        + rewrite (Order.std_sort_ok srt _ _ W). destruct (Hs HE _ kh W) as [P _]. do 2 eexists. split; [reflexivity|]. split; [reflexivity|exact P].
        + destruct (str_eq crit (lit "none")); do 2 eexists; (split; [reflexivity|]); (split; [reflexivity|apply Permutation_refl]). }
    destruct (Matching.result_shape cr Hr S R HS scorer (matcher_new S) kr rank) as (taken & found & missed & mt & Run & Mt & Sm & Im).
    exists (List.length rank), (found ++ map make_fn missed), (mt_repeated mt). split; [exact (Matching.count_hyps cr Hr S R HS scorer _ _ _ _ _ Run)|]. split.
    - intros x I. destruct (Matching.result_pairs cr Hr S R HS scorer _ _ _ _ _ Run x I) as [(r & h & l0 & -> & Ih & Rl & Ir & _)|[(h & l0 & -> & Ih & _)|(r & -> & Ir)]].
      + exists (rq r). split; [left; exists r; split; [exact (Sub _ _ _ _ Rl Ir)|reflexivity]|reflexivity].
      + exists (hq (sc_base h)). split; [right; exists h; split; [exact (Permutation_in _ (Permutation_sym Pm) Ih)|reflexivity]|reflexivity].
      + exists (rq r). split; [left; exists r; split; [exact Ir|reflexivity]|reflexivity].
    - split.
      { intros Z01. destruct (Matching.result_refs cr Hr S R HS scorer _ _ _ _ _ Run) as [Nd Se].
        assert (L1 := Matching.matching_length R scorer _ _ _ _ _ Mt). assert (L2 := Permutation_length Pm). split; [|split].
        - intros x I. destruct (Matching.result_pairs cr Hr S R HS scorer _ _ _ _ _ Run x I) as [(r & h & l0 & -> & Ih & _)|[(h & l0 & -> & Ih & _)|(r & -> & _)]]; unfold Collapse.rank; cbn [m_hyp match_pair make_fp make_fn]; try reflexivity;
            apply Rescore.finite_not_nan, Fi, (Permutation_in _ (Permutation_sym Pm) Ih).
        - intros x I. destruct (Matching.result_pairs cr Hr S R HS scorer _ _ _ _ _ Run x I) as [(r & h & l0 & -> & _)|[(h & l0 & -> & _)|(r & -> & _)]]; [apply Z01| |]; split; simpl; auto.
        - rewrite app_length, map_length. assert (L3 : (List.length missed <= List.length kr)%nat); [|lia]. apply NoDup_incl_length.
          + rewrite Matching.refs_app, Matching.refs_fn in Nd. clear - Nd. induction (refs_of found) as [|y k IH]; [exact Nd|]. inversion Nd. auto.
          + intros r I. now apply Im in I as [I _]. }
      intros w c m Ec. unfold evaluate. rewrite Ec, Es. unfold match_inputs. rewrite pbind_inl, Run. cbn [run]. rewrite pbind_nil. cbv beta iota.
      split; [cbn [fst]; rewrite Tool.outputs_app, Ol; reflexivity|reflexivity].
  Qed.

  (** The groups of the matches are the same. *)
  Lemma finish_same w w' c c' m m' n ms log : same_settings c c' -> w_writable w = w_writable w' ->
    group_matches cq rq hqs ms m = group_matches cq rq hqs ms m' ->
    finish T srt rngs cq rq hq w c m n ms log = finish T srt rngs cq rq hq w' c' m' n ms log.
  Proof.
    intros Ss Hw G. destruct c, c'. unfold same_settings in Ss. cbn in Ss. decompose [and] Ss. subst.
    unfold finish, dump_matches, report, write_global_curve, write_mean_curve. rewrite Hw. cbn [cf_dump cf_grp cf_mrp cf_collapse cf_interp cf_trapezoid cf_ci_gap cf_ci_map cf_ci_gndcg cf_ci_mndcg cf_samples cf_seed cf_alpha cf_curve]. rewrite G. reflexivity.
  Qed.

  (** What does not depend on the groups. *)

  Lemma finish_global w w' c c' m m' n ms log l r l' r' : same_settings c c' -> w_writable w = w_writable w' -> no_bootstrap c -> NoDup (map fst m) -> NoDup (map fst m') ->
    (cf_dump c <> [] -> w_writable w (cf_dump c) = true) -> (total (fun x => me_nh (m_err x)) ms <= n)%nat -> (forall x, In x ms -> exists q, has_query rq hqs x q) ->
    finish T srt rngs cq rq hq w c m n ms log = (l, r) -> finish T srt rngs cq rq hq w' c' m' n ms log = (l', r') ->
    r = r' /\ exists v1 v2 v3 v4 v2' v4' g k k',
      outputs l = dumped c ms log ++ [EStat (lit "gAP") v1 None; EStat (lit "mAP") v2 None; EStat (lit "gNDCG") v3 None; EStat (lit "mNDCG") v4 None] ++ g ++ k /\
      outputs l' = dumped c ms log ++ [EStat (lit "gAP") v1 None; EStat (lit "mAP") v2' None; EStat (lit "gNDCG") v3 None; EStat (lit "mNDCG") v4' None] ++ g ++ k' /\
      (forall e, In e (k ++ k') -> exists pts, e = EWrite (cf_mrp c) (FCurve pts)).
  Proof.
    intros Ss Hw NB N N' Dm Tn Q1.
    assert (exists gs, group_matches cq rq hqs ms m = Ok gs) as [gs G].
    { destruct (Grouping.forall_grouped cq Hq rq hqs m N ms Q1) as [ks K]. destruct (Grouping.groups_spec cq Hq rq hqs m N ms ks K) as (keys & gs & Eg & _). eauto. }
    assert (exists gs, group_matches cq rq hqs ms m' = Ok gs) as [gs' G'].
    { destruct (Grouping.forall_grouped cq Hq rq hqs m' N' ms Q1) as [ks K]. destruct (Grouping.groups_spec cq Hq rq hqs m' N' ms ks K) as (keys & gs' & Eg & _). eauto. }
    rewrite (finish_same w' w c' c m' m' n ms log) by (auto; unfold same_settings in *; intuition congruence).
    destruct (Finish.finish_stats T srt rngs cq rq hq w c m n ms log gs G Tn NB Dm) as (D & v1 & v2 & v3 & v4 & OD & V1 & V2 & V3 & V4 & ->).
    destruct (Finish.finish_stats T srt rngs cq rq hq w c m' n ms log gs' G' Tn NB Dm) as (D' & v1' & v2' & v3' & v4' & OD' & V1' & V2' & V3' & V4' & ->).
    rewrite V1 in V1'. injection V1' as <-. rewrite V3 in V3'. subst v3'.
    rewrite !pbind_inl.
    assert (Od : outputs (A := A) (dumped c ms log) = dumped c ms log) by (unfold dumped; destruct (cf_dump c); reflexivity).
    destruct (Finish.curve_part (cf_grp c) (write_global_curve A sc_score w c ms)) as [g a] eqn:Eg.
    assert (Og : outputs g = g).
    { unfold Finish.curve_part in Eg. destruct (cf_grp c) as [|x nm] eqn:Ng; [injection Eg as <- _; reflexivity|].
      destruct (Finish.global_curve_ok (A := A) sc_score w c ms) as [(_ & pts & Ew & _)|(_ & Ew)]; [congruence|rewrite Ew in Eg; injection Eg as <- _; reflexivity..]. }
    assert (Mc : forall gs0 : list (list M), exists (k : list (effect A (RE := RE) (HE := HE))) (b : unit + fin), Finish.curve_part (cf_mrp c) (write_mean_curve A sc_score w c gs0) = (k, b) /\ outputs k = k /\ (forall e, In e k -> exists pts, e = EWrite (cf_mrp c) (FCurve pts)) /\
      b = match cf_mrp c with [] => inl tt | _ => if w_writable w (cf_mrp c) then inl tt else inr (FThrow IosFailure) end).
    { intros gs0. unfold Finish.curve_part. destruct (cf_mrp c) as [|x nm] eqn:Nm; [do 2 eexists; split; [reflexivity|]; split; [reflexivity|]; split; [easy|reflexivity]|]. rewrite <- Nm.
      destruct (Finish.mean_curve_ok (A := A) sc_score w c gs0) as [(Wr & pts & Ew & _)|(Wr & Ew)]; [congruence|..]; rewrite Ew, Wr; do 2 eexists; (split; [reflexivity|]); (split; [reflexivity|]); (split; [|reflexivity]).
      - intros e [<-|[]]. eauto.
      - easy. }
    destruct (Mc gs) as (k & b & Ek & Ok_ & Pk & Eb), (Mc gs') as (k' & b' & Ek' & Ok' & Pk' & Eb'). rewrite <- Eb in Eb'. subst b'. rewrite Ek, Ek'.
    destruct a as [[]|e]; [destruct b as [[]|e]|]; unfold stop; rewrite ?pbind_inl; cbn [pbind fst snd]; intros [= <- <-] [= <- <-]; (split; [reflexivity|]).
    - exists v1, v2, v3, v4, v2', v4', g, k, k'. rewrite !Tool.outputs_app, OD, OD', Od, Og, Ok_, Ok'. cbn [app outputs filter]. rewrite ?app_nil_r, <- ?app_assoc. split; [reflexivity|]. split; [reflexivity|].
      intros e I. apply in_app_or in I as [I|I]; auto.
    - exists v1, v2, v3, v4, v2', v4', g, k, k'. rewrite !Tool.outputs_app, OD, OD', Od, Og, Ok_, Ok'. cbn [app outputs filter]. rewrite ?app_nil_r, <- ?app_assoc. split; [reflexivity|]. split; [reflexivity|].
      intros e' I. apply in_app_or in I as [I|I]; auto.
    - exists v1, v2, v3, v4, v2', v4', g, [], []. rewrite !Tool.outputs_app, OD, OD', Od, Og. cbn [app outputs filter]. rewrite ?app_nil_r, <- ?app_assoc. split; [reflexivity|]. split; [reflexivity|]. easy.
  Qed.
End Kept.

(** ** The programs *)

Lemma selects_map {X Y} (f : X -> Y) (P : X -> Prop) (P' : Y -> Prop) l s : (forall x, In x l -> (P x <-> P' (f x))) -> selects P l s -> selects P' (map f l) (map f s).
Proof.
  intros H S. induction S as [|x l s A S IH|x l s A S IH]; cbn [map]; [constructor| |].
  - apply sel_yes; [apply H; [now left|exact A]|]. apply IH. intros; apply H; now right.
  - apply sel_no; [intros K; apply A, H; [now left|exact K]|]. apply IH. intros; apply H; now right.
Qed.

Lemma box_sub refs h l r : box_search cmp_str refs h l -> In r l -> In r refs.
Proof. intros (_ & H & _) I. now apply H in I. Qed.

Lemma exact_sub {E} (refs : list E) h l r : exact_search refs h l -> In r l -> In r refs.
Proof. intros [[H ->]|[_ ->]] I; [destruct I as [<-|[]]; exact H|destruct I]. Qed.

Section Programs.
  Context {A : Arith} (T : Trans A) (srt : sort_fn) (Hs : sort_contract srt) (rngs : Z -> rng) (show_int : Z -> bytes) (show_f64 : f64 -> bytes).
  Notation hqs := (fun h => ev_query (sc_base h)).

  Lemma hyps_finite {E} (text : bytes -> scored E -> Prop) {ER} (text_r : bytes -> ER -> Prop) w c refs hyps f : (forall b e, text b e -> is_finite (sc_score e) = true) ->
    inputs text_r text w c refs hyps f -> forall h, In h hyps -> is_finite (sc_score h) = true.
  Proof. intros F I. destruct (in_hyps _ _ _ _ _ _ _ I) as (b & _ & Ef). exact (events_file_finite text F b hyps Ef). Qed.

  Lemma icdar_both w w' pn pn' args args' c c' refs hyps f refs' hyps' f' kr kh : command args c -> command args' c' -> cf_sort c = cf_sort c' ->
    inputs shaped_text scored_shaped_text w c refs hyps f -> inputs shaped_text scored_shaped_text w' c' refs' hyps' f' ->
    keeps f refs kr hyps kh -> keeps f' refs' kr hyps' kh ->
    exists n ms log m m', (total (fun x => me_nh (m_err x)) ms <= n)%nat /\
      (forall x, In x ms -> exists q, asked kr kh q /\ has_query ev_query hqs x q) /\ assessable (List.length kr + List.length kh) ms /\ holds m f /\ holds m' f' /\
      quiet (icdar17 A T srt rngs show_int show_f64 w pn args) (finish T srt rngs cmp_str ev_query ev_query w c m n ms log) /\
      quiet (icdar17 A T srt rngs show_int show_f64 w' pn' args') (finish T srt rngs cmp_str ev_query ev_query w' c' m' n ms log).
  Proof.
    intros Cm Cm' Es I I' [Sr Sh] [Sr' Sh']. rewrite !Instances.icdar17_tool.
    assert (Fi : forall h, In h kh -> is_finite (sc_score h) = true).
    { intros h J. apply (hyps_finite scored_shaped_text shaped_text w c refs hyps f Instances.finite_shaped I). now apply (Grouping.selects_in _ _ _ Sh) in J. }
    assert (HS := Matching.finds_docbox srt cmp_str Hs Order.total_order_str).
    destruct (evaluate_finish T srt Hs rngs cmp_str cmp_shaped Order.total_order_shaped cmp_shaped Order.total_order_shaped ev_query ev_query _ _ HS box_sub
      (fun r h => ioh_scorer cmp_str f32_half r (sc_base h)) (cf_sort c) kr kh Fi) as (n & ms & log & Tn & Q1 & As & Ev).
    destruct (tool_kept T srt rngs show_int show_f64 cmp_str Order.total_order_str cmp_shaped cmp_shaped ev_query ev_query (evset_docbox srt cmp_str)
      (fun r h => ioh_scorer cmp_str f32_half r (sc_base h)) read_shaped shaped_text (read_scored read_shaped) scored_shaped_text Reader.fm_shaped Reader.fm_scored_shaped
      identity_mapper identity_mapper identity_mapper (lit "  Official evaluation tool for ICDAR2017 H-KWS Competition.") w c refs hyps f tt pn args refs tt hyps tt f tt kr kh
      Cm I (Instances.map_all_id tt refs) (Instances.map_all_id tt hyps) (Instances.map_file_id f) Sr Sh) as (m & Hm & Q).
    destruct (tool_kept T srt rngs show_int show_f64 cmp_str Order.total_order_str cmp_shaped cmp_shaped ev_query ev_query (evset_docbox srt cmp_str)
      (fun r h => ioh_scorer cmp_str f32_half r (sc_base h)) read_shaped shaped_text (read_scored read_shaped) scored_shaped_text Reader.fm_shaped Reader.fm_scored_shaped
      identity_mapper identity_mapper identity_mapper (lit "  Official evaluation tool for ICDAR2017 H-KWS Competition.") w' c' refs' hyps' f' tt pn' args' refs' tt hyps' tt f' tt kr kh
      Cm' I' (Instances.map_all_id tt refs') (Instances.map_all_id tt hyps') (Instances.map_file_id f') Sr' Sh') as (m' & Hm' & Q').
    exists n, ms, log, m, m'. split; [exact Tn|]. split; [exact Q1|]. split; [exact (As (fun r h => Instances.zero_one_ioh _ _))|]. split; [exact Hm|]. split; [exact Hm'|].
    split; [exact (quiet_trans _ _ _ Q (Ev w c m eq_refl))|exact (quiet_trans _ _ _ Q' (Ev w' c' m' (eq_sym Es)))].
  Qed.

  Lemma same_map {X Y} (f g : X -> Y) l : map f l = map g l -> forall x, In x l -> f x = g x.
  Proof. induction l as [|y l IH]; intros E x I; [destruct I|]. cbn [map] in E. injection E as E1 E2. destruct I as [<-|I]; auto. Qed.

  Lemma simple_both qf w w' pn pn' args args' c c' refs hyps f f' kr kh : command args c -> command args' c' -> cf_sort c = cf_sort c' ->
    inputs str_event_text scored_str_event_text w c refs hyps f -> inputs str_event_text scored_str_event_text w' c' refs hyps f' ->
    (Z.of_nat (strings refs hyps f) <= 2147483648)%Z -> (Z.of_nat (strings refs hyps f') <= 2147483648)%Z ->
    keeps f refs kr hyps kh -> keeps f' refs kr hyps kh ->
    exists id id' n ms log m m', (forall s s', id s = id s' -> s = s') /\ (forall s s', id' s = id' s' -> s = s') /\ (forall q, asked kr kh q -> id q = id' q) /\
      (total (fun x => me_nh (m_err x)) ms <= n)%nat /\
      (forall x, In x ms -> exists q, asked kr kh q /\ has_query ev_query hqs x (id q)) /\ assessable (List.length kr + List.length kh) ms /\ holds m (map_queries id f) /\ holds m' (map_queries id' f') /\
      quiet (simple_kws A T srt rngs show_int show_f64 qf w pn args) (finish T srt rngs cmp_Z ev_query ev_query w c m n ms log) /\
      quiet (simple_kws A T srt rngs show_int show_f64 qf w' pn' args') (finish T srt rngs cmp_Z ev_query ev_query w' c' m' n ms log).
  Proof.
    intros Cm Cm' Es I I' L L' [Sr Sh] [Sr' Sh']. rewrite !Instances.simple_tool.
    destruct (Ids.run_total Instances.int_max qf refs hyps f) as (mrefs & t1 & mhyps & t2 & mf & t3 & E1 & E2 & E3); [vm_compute; split; [discriminate|reflexivity]|exact L|].
    destruct (Ids.run_total Instances.int_max qf refs hyps f') as (mrefs' & t1' & mhyps' & t2' & mf' & t3' & E1' & E2' & E3'); [vm_compute; split; [discriminate|reflexivity]|exact L'|].
    destruct (Ids.run_ids _ _ _ _ _ _ _ _ _ _ _ E1 E2 E3) as (id & Inj & -> & -> & ->).
    destruct (Ids.run_ids _ _ _ _ _ _ _ _ _ _ _ E1' E2' E3') as (id' & Inj' & -> & -> & ->).
    rewrite E1 in E1'. injection E1' as Er <-. rewrite E2 in E2'. injection E2' as Eh <-.
    assert (Ir : forall r, In r kr -> renamed id r = renamed id' r) by (intros r J; apply (same_map _ _ _ Er); now apply (Grouping.selects_in _ _ _ Sr) in J).
    assert (Ih : forall h, In h kh -> map_scored (renamed id) h = map_scored (renamed id') h) by (intros h J; apply (same_map _ _ _ Eh); now apply (Grouping.selects_in _ _ _ Sh) in J).
    assert (Fi : forall h, In h (map (map_scored (renamed id)) kh) -> is_finite (sc_score h) = true).
    { intros h J. apply in_map_iff in J as (h0 & <- & J). cbn [map_scored sc_score].
      apply (hyps_finite scored_str_event_text str_event_text w c refs hyps f Instances.finite_str I). now apply (Grouping.selects_in _ _ _ Sh) in J. }
    assert (HS := Matching.finds_generic cmp_int_event Instances.total_order_int_event).
    destruct (evaluate_finish T srt Hs rngs cmp_Z cmp_int_event Instances.total_order_int_event cmp_int_event Instances.total_order_int_event ev_query ev_query _ _ HS exact_sub
      (fun r h => trivial_scorer cmp_Z cmp_Z r (sc_base h)) (cf_sort c) (map (renamed id) kr) (map (map_scored (renamed id)) kh) Fi) as (n & ms & log & Tn & Q1 & As & Ev).
    destruct (tool_kept T srt rngs show_int show_f64 cmp_Z Order.total_order_Z cmp_int_event cmp_int_event ev_query ev_query (evset_generic cmp_int_event)
      (fun r h => trivial_scorer cmp_Z cmp_Z r (sc_base h)) read_str_event str_event_text (read_scored read_str_event) scored_str_event_text Reader.fm_str_event Reader.fm_scored_str_event
      (event_to_int qf Instances.int_max) (scored_mapper (event_to_int qf Instances.int_max)) (string_to_int Instances.int_max) (lit "  Perform simple evaluation for segmentation-based keyword spotting.")
      w c refs hyps f [] pn args _ t1 _ t2 _ t3 (map (renamed id) kr) (map (map_scored (renamed id)) kh) Cm I E1 E2 E3) as (m & Hm & Q).
    { exact (selects_map (renamed id) _ (fun r => kept (map_queries id f) (ev_query r)) _ _ (fun r _ => iff_sym (Ids.kept_back id Inj f (ev_query r))) Sr). }
    { exact (selects_map (map_scored (renamed id)) _ (fun h => kept (map_queries id f) (ev_query (sc_base h))) _ _ (fun h _ => iff_sym (Ids.kept_back id Inj f (ev_query (sc_base h)))) Sh). }
    destruct (tool_kept T srt rngs show_int show_f64 cmp_Z Order.total_order_Z cmp_int_event cmp_int_event ev_query ev_query (evset_generic cmp_int_event)
      (fun r h => trivial_scorer cmp_Z cmp_Z r (sc_base h)) read_str_event str_event_text (read_scored read_str_event) scored_str_event_text Reader.fm_str_event Reader.fm_scored_str_event
      (event_to_int qf Instances.int_max) (scored_mapper (event_to_int qf Instances.int_max)) (string_to_int Instances.int_max) (lit "  Perform simple evaluation for segmentation-based keyword spotting.")
      w' c' refs hyps f' [] pn' args' (map (renamed id') refs) t1 (map (map_scored (renamed id')) hyps) t2 (map_queries id' f') t3' (map (renamed id') kr) (map (map_scored (renamed id')) kh) Cm' I') as (m' & Hm' & Q').
    { rewrite <- Er. exact E1. } { rewrite <- Eh. exact E2. } { exact E3'. }
    { exact (selects_map (renamed id') _ (fun r => kept (map_queries id' f') (ev_query r)) _ _ (fun r _ => iff_sym (Ids.kept_back id' Inj' f' (ev_query r))) Sr'). }
    { exact (selects_map (map_scored (renamed id')) _ (fun h => kept (map_queries id' f') (ev_query (sc_base h))) _ _ (fun h _ => iff_sym (Ids.kept_back id' Inj' f' (ev_query (sc_base h)))) Sh'). }
    rewrite <- (map_ext_in _ _ _ Ir), <- (map_ext_in _ _ _ Ih) in Q'.
    exists id, id', n, ms, log, m, m'. split; [exact Inj|]. split; [exact Inj'|]. split.
    { intros q [(r & J & <-)|(h & J & <-)]; [exact (f_equal ev_query (Ir r J))|exact (f_equal (fun h => ev_query (sc_base h)) (Ih h J))]. }
    split; [exact Tn|]. split.
    { intros x J. destruct (Q1 x J) as (q & [(r & Jr & <-)|(h & Jh & <-)] & Hx).
      - apply in_map_iff in Jr as (r0 & <- & Jr). exists (ev_query r0). split; [left; eauto|exact Hx].
      - apply in_map_iff in Jh as (h0 & <- & Jh). exists (ev_query (sc_base h0)). split; [right; eauto|exact Hx]. }
    split. { rewrite !map_length in As. exact (As (fun r h => Instances.zero_one_trivial _ _ _ _)). }
    split; [exact Hm|]. split; [exact Hm'|].
    split; [exact (quiet_trans _ _ _ Q (Ev w c m eq_refl))|exact (quiet_trans _ _ _ Q' (Ev w' c' m' (eq_sym Es)))].
  Qed.

  Lemma together_back (id : bytes -> Z) f q q' : (forall s s', id s = id s' -> s = s') -> (together (map_queries id f) (id q) (id q') <-> together f q q').
  Proof.
    intros Inj. split.
    - intros (g & G1 & G2). destruct (Ids.group_is_image id Inj f q g G1) as (g0 & -> & K). exists g0. split; [exact K|]. now apply (Ids.group_is_back id Inj).
    - intros (g & G1 & G2). exists (id g). split; now apply (Ids.group_is_back id Inj).
  Qed.

  Lemma group_together {Q} (cq : Cmp Q) (Hq : total_order cq) m f q q' : holds m f -> (group_of cq m q = group_of cq m q' <-> together f q q').
  Proof.
    intros H0. unfold together. split.
    - intros Eg. exists (group_of cq m q). split; apply (group_is_holds m f _ _ H0), (Grouping.group_of_spec cq Hq m (proj1 H0)); auto.
    - intros (g & G1 & G2). apply (group_is_holds m f _ _ H0), (Grouping.group_of_spec cq Hq m (proj1 H0)) in G1, G2. congruence.
  Qed.

  Lemma icdar_selected w w' pn pn' args args' c c' refs hyps f refs' hyps' f' kr kh : command args c -> command args' c' -> same_settings c c' -> w_writable w = w_writable w' ->
    inputs shaped_text scored_shaped_text w c refs hyps f -> inputs shaped_text scored_shaped_text w' c' refs' hyps' f' ->
    keeps f refs kr hyps kh -> keeps f' refs' kr hyps' kh -> same_groups kr kh f f' ->
    quiet (icdar17 A T srt rngs show_int show_f64 w pn args) (icdar17 A T srt rngs show_int show_f64 w' pn' args').
  Proof.
    intros Cm Cm' Ss Hw I I' K K' G. assert (Es : cf_sort c = cf_sort c') by apply Ss.
    destruct (icdar_both w w' pn pn' args args' c c' refs hyps f refs' hyps' f' kr kh Cm Cm' Es I I' K K') as (n & ms & log & m & m' & Tn & Q1 & As & Hm & Hm' & Q & Q').
    eapply quiet_trans; [exact Q|]. eapply quiet_trans; [|exact (quiet_sym _ _ Q')].
    rewrite (finish_same T srt rngs cmp_str ev_query ev_query w w' c c' m m' n ms log Ss Hw); [apply quiet_refl|].
    apply (group_matches_same cmp_str Order.total_order_str ev_query hqs m m' ms (asked kr kh) (proj1 Hm) (proj1 Hm') Q1).
    intros q q' Dq Dq'. rewrite (group_together cmp_str Order.total_order_str m f q q' Hm), (group_together cmp_str Order.total_order_str m' f' q q' Hm'). now apply G.
  Qed.

  Lemma simple_selected qf w w' pn pn' args args' c c' refs hyps f f' kr kh : command args c -> command args' c' -> same_settings c c' -> w_writable w = w_writable w' ->
    inputs str_event_text scored_str_event_text w c refs hyps f -> inputs str_event_text scored_str_event_text w' c' refs hyps f' ->
    (Z.of_nat (strings refs hyps f) <= 2147483648)%Z -> (Z.of_nat (strings refs hyps f') <= 2147483648)%Z ->
    keeps f refs kr hyps kh -> keeps f' refs kr hyps kh -> same_groups kr kh f f' ->
    quiet (simple_kws A T srt rngs show_int show_f64 qf w pn args) (simple_kws A T srt rngs show_int show_f64 qf w' pn' args').
  Proof.
    intros Cm Cm' Ss Hw I I' L L' K K' G. assert (Es : cf_sort c = cf_sort c') by apply Ss.
    destruct (simple_both qf w w' pn pn' args args' c c' refs hyps f f' kr kh Cm Cm' Es I I' L L' K K') as (id & id' & n & ms & log & m & m' & Inj & Inj' & Ie & Tn & Q1 & As & Hm & Hm' & Q & Q').
    eapply quiet_trans; [exact Q|]. eapply quiet_trans; [|exact (quiet_sym _ _ Q')].
    rewrite (finish_same T srt rngs cmp_Z ev_query ev_query w w' c c' m m' n ms log Ss Hw); [apply quiet_refl|].
    apply (group_matches_same cmp_Z Order.total_order_Z ev_query hqs m m' ms (fun z => exists q, asked kr kh q /\ z = id q) (proj1 Hm) (proj1 Hm')).
    { intros x J. destruct (Q1 x J) as (q & Aq & Hx). exists (id q). eauto. }
    intros z z' (q & Dq & ->) (q' & Dq' & ->). rewrite (group_together cmp_Z Order.total_order_Z m _ _ _ Hm), (group_together cmp_Z Order.total_order_Z m' _ _ _ Hm').
    rewrite (together_back id f q q' Inj), (Ie q Dq), (Ie q' Dq'), (together_back id' f' q q' Inj'). now apply G.
  Qed.
End Programs.

(** ** Files of queries *)

Lemma kept_cases w c f q : names_queries w c f -> kept f q \/ ~ kept f q.
Proof.
  intros N. destruct (queries_map_holds cmp_str Order.total_order_str identity_mapper f tt f tt) as (m & _ & Hm).
  { intros fs -> x J. inversion N; subst. auto. }
  { apply Instances.map_file_id. }
  assert (K := map_find_holds cmp_str Order.total_order_str m f q Hm). assert (Z := holds_nil m f Hm).
  destruct (map_find (c_eq cmp_str) q m) as [g|]; [left; left; eauto|].
  destruct m as [|p m]; [left; right; now apply Z|]. right. intros [[g G]|G]; [exact (K g G)|]. apply Z in G. discriminate.
Qed.

Lemma keeps_exists {L} w c f (refs : list (event bytes L)) hyps : names_queries w c f -> exists kr kh, keeps f refs kr hyps kh.
Proof.
  intros N. destruct (Parts.selects_exists (fun r => kept f (ev_query r)) refs) as [kr Sr]; [intros; now apply (kept_cases w c)|].
  destruct (Parts.selects_exists (fun h => kept f (ev_query (sc_base h))) hyps) as [kh Sh]; [intros; now apply (kept_cases w c)|].
  exists kr, kh. now split.
Qed.

Lemma selects_iff {X} (P P' : X -> Prop) l s : (forall x, In x l -> (P x <-> P' x)) -> selects P l s -> selects P' l s.
Proof. intros H S. assert (K := selects_map (fun x => x) P P' l s H S). now rewrite !map_id in K. Qed.

Lemma keeps_iff {Q L} (f f' : query_file Q) (refs kr : list (event Q L)) hyps kh : (forall q, kept f q <-> kept f' q) -> keeps f refs kr hyps kh -> keeps f' refs kr hyps kh.
Proof. intros H [Sr Sh]. split; [eapply selects_iff, Sr|eapply selects_iff, Sh]; intros; apply H. Qed.

Lemma listed_kept {Q} (f f' : query_file Q) : (forall q, (exists g, assigns f q g) <-> (exists g, assigns f' q g)) -> forall q, kept f q <-> kept f' q.
Proof.
  intros H q. unfold kept. rewrite (H q). assert (K : (forall q' g, ~ assigns f q' g) <-> (forall q' g, ~ assigns f' q' g)).
  { split; intros N q' g G; [destruct (proj2 (H q') (ex_intro _ g G)) as [g' G']|destruct (proj1 (H q') (ex_intro _ g G)) as [g' G']]; exact (N q' g' G'). }
  tauto.
Qed.

Lemma partition_listed {Q} (f f' : query_file Q) : (forall q q', listed_together f q q' <-> listed_together f' q q') -> forall q, (exists g, assigns f q g) <-> (exists g, assigns f' q g).
Proof.
  intros H q. split; intros [g G].
  - destruct (proj1 (H q q)) as (g' & G' & _); [exists g; auto|eauto].
  - destruct (proj2 (H q q)) as (g' & G' & _); [exists g; auto|eauto].
Qed.

Lemma kept_all {Q} (f : query_file Q) q : kept f q -> (forall q' g, ~ assigns f q' g) \/ exists g, assigns f q g.
Proof. intros [K|K]; auto. Qed.

Lemma together_none {Q} (f : query_file Q) q q' : (forall q g, ~ assigns f q g) -> (together f q q' <-> q = q').
Proof.
  intros N. split.
  - intros (g & [G|[_ ->]] & [G'|[_ ->]]); try (now apply N in G); try (now apply N in G'); reflexivity.
  - intros <-. exists q. split; right; split; auto.
Qed.

Lemma together_listed {Q} (f : query_file Q) q q' : (exists g, assigns f q g) -> (exists g, assigns f q' g) -> (together f q q' <-> listed_together f q q').
Proof.
  intros [x X] [y Y]. split.
  - intros (g & [G|[G _]] & [G'|[G' _]]); [exists g; auto|exfalso; eapply G', Y|exfalso; eapply G, X..].
  - intros (g & G & G'). exists g. split; now left.
Qed.

Lemma partition_groups {Q L} (f f' : query_file Q) (refs kr : list (event Q L)) hyps kh : (forall q q', listed_together f q q' <-> listed_together f' q q') -> keeps f refs kr hyps kh -> same_groups kr kh f f'.
Proof.
  intros H [Sr Sh] q q' Aq Aq'. assert (Li := partition_listed f f' H).
  assert (Kq : forall q, asked kr kh q -> kept f q).
  { intros q0 [(r & J & <-)|(h & J & <-)]; [now apply (Grouping.selects_in _ _ _ Sr) in J|now apply (Grouping.selects_in _ _ _ Sh) in J]. }
  destruct (kept_all f q (Kq q Aq)) as [N|X].
  - rewrite (together_none f q q' N), (together_none f' q q'); [reflexivity|]. intros q0 g G. destruct (proj2 (Li q0)) as [g' G']; [eauto|]. exact (N _ _ G').
  - destruct (kept_all f q' (Kq q' Aq')) as [N|Y]; [destruct X as [g G]; exfalso; exact (N _ _ G)|].
    rewrite (together_listed f q q' X Y), (together_listed f' q q' (proj1 (Li q) X) (proj1 (Li q') Y)). apply H.
Qed.

Lemma set_groups {Q L} (qs : list Q) (kr : list (event Q L)) kh : (forall q, asked kr kh q -> kept (QuerySet qs) q) -> same_groups kr kh (QuerySet qs) NoQueries.
Proof.
  intros K q q' Aq _. rewrite (together_none (Q := Q) NoQueries q q') by (intros ? ? []). split.
  - intros (g & [[_ E1]|[_ E1]] & [[_ E2]|[_ E2]]); congruence.
  - intros <-. destruct (K q Aq) as [[g G]|N]; [exists g; split; now left|]. exists q. split; right; split; auto; intros g; apply N.
Qed.

Lemma none_kept {Q L} (refs : list (event Q L)) hyps : keeps NoQueries refs refs hyps hyps.
Proof.
  assert (K : forall X (P : X -> Prop) l, (forall x, P x) -> selects P l l) by (intros X P l H; induction l; constructor; auto).
  split; apply K; intros x; right; intros q g [].
Qed.

Lemma asked_kept {Q L} (f : query_file Q) (refs kr : list (event Q L)) hyps kh q : keeps f refs kr hyps kh -> asked kr kh q -> kept f q.
Proof.
  intros [Sr Sh] [(r & J & <-)|(h & J & <-)]; [now apply (Grouping.selects_in _ _ _ Sr) in J|now apply (Grouping.selects_in _ _ _ Sh) in J].
Qed.

(** ** The programs *)

Section Files.
  Context {A : Arith} (T : Trans A) (srt : sort_fn) (Hs : sort_contract srt) (rngs : Z -> rng) (show_int : Z -> bytes) (show_f64 : f64 -> bytes).

  Lemma icdar_partition w w' pn pn' args args' c c' refs hyps f f' : command args c -> command args' c' -> same_settings c c' -> w_writable w = w_writable w' ->
    inputs shaped_text scored_shaped_text w c refs hyps f -> inputs shaped_text scored_shaped_text w' c' refs hyps f' ->
    (forall q q', listed_together f q q' <-> listed_together f' q q') ->
    same_results (icdar17 A T srt rngs show_int show_f64 w pn args) (icdar17 A T srt rngs show_int show_f64 w' pn' args').
  Proof.
    intros Cm Cm' Ss Hw I I' H. destruct (keeps_exists w c f refs hyps (in_queries _ _ _ _ _ _ _ I)) as (kr & kh & K).
    apply (icdar_selected T srt Hs rngs show_int show_f64 w w' pn pn' args args' c c' refs hyps f refs hyps f' kr kh); auto.
    - apply (keeps_iff f f'); [exact (listed_kept f f' (partition_listed f f' H))|exact K].
    - exact (partition_groups f f' refs kr hyps kh H K).
  Qed.

  Lemma simple_partition qf w w' pn pn' args args' c c' refs hyps f f' : command args c -> command args' c' -> same_settings c c' -> w_writable w = w_writable w' ->
    inputs str_event_text scored_str_event_text w c refs hyps f -> inputs str_event_text scored_str_event_text w' c' refs hyps f' ->
    (Z.of_nat (strings refs hyps f) <= 2147483648)%Z -> (Z.of_nat (strings refs hyps f') <= 2147483648)%Z ->
    (forall q q', listed_together f q q' <-> listed_together f' q q') ->
    same_results (simple_kws A T srt rngs show_int show_f64 qf w pn args) (simple_kws A T srt rngs show_int show_f64 qf w' pn' args').
  Proof.
    intros Cm Cm' Ss Hw I I' L L' H. destruct (keeps_exists w c f refs hyps (in_queries _ _ _ _ _ _ _ I)) as (kr & kh & K).
    apply (simple_selected T srt Hs rngs show_int show_f64 qf w w' pn pn' args args' c c' refs hyps f f' kr kh); auto.
    - apply (keeps_iff f f'); [exact (listed_kept f f' (partition_listed f f' H))|exact K].
    - exact (partition_groups f f' refs kr hyps kh H K).
  Qed.

  Lemma icdar_filtered w w' pn pn' args args' c c' refs hyps qs kr kh : command args c -> command args' c' -> same_settings c c' -> w_writable w = w_writable w' ->
    inputs shaped_text scored_shaped_text w c refs hyps (QuerySet qs) -> inputs shaped_text scored_shaped_text w' c' kr kh NoQueries ->
    keeps (QuerySet qs) refs kr hyps kh ->
    same_results (icdar17 A T srt rngs show_int show_f64 w pn args) (icdar17 A T srt rngs show_int show_f64 w' pn' args').
  Proof.
    intros Cm Cm' Ss Hw I I' K.
    apply (icdar_selected T srt Hs rngs show_int show_f64 w w' pn pn' args args' c c' refs hyps (QuerySet qs) kr kh NoQueries kr kh); auto; [apply none_kept|].
    apply set_groups. intros q. exact (asked_kept _ refs kr hyps kh q K).
  Qed.

  Lemma simple_all qf w w' pn pn' args args' c c' refs hyps qs : command args c -> command args' c' -> same_settings c c' -> w_writable w = w_writable w' ->
    inputs str_event_text scored_str_event_text w c refs hyps (QuerySet qs) -> inputs str_event_text scored_str_event_text w' c' refs hyps NoQueries ->
    (Z.of_nat (strings refs hyps (QuerySet qs)) <= 2147483648)%Z -> (forall q, asked refs hyps q -> In q qs) ->
    same_results (simple_kws A T srt rngs show_int show_f64 qf w pn args) (simple_kws A T srt rngs show_int show_f64 qf w' pn' args').
  Proof.
    intros Cm Cm' Ss Hw I I' L H.
    assert (K : keeps (QuerySet qs) refs refs hyps hyps).
    { assert (Y : forall X (P : X -> Prop) l, (forall x, In x l -> P x) -> selects P l l).
      { intros X P l. induction l as [|x l IH]; intros Z; constructor; [now apply Z; left|apply IH; intros; now apply Z; right]. }
      split; apply Y; intros x J; left; exists (ev_query x) || exists (ev_query (sc_base x)); cbn [assigns]; split; auto; apply H; [left|right]; eauto. }
    apply (simple_selected T srt Hs rngs show_int show_f64 qf w w' pn pn' args args' c c' refs hyps (QuerySet qs) NoQueries refs hyps); auto; [|apply none_kept|].
    - unfold strings in *. cbn in *. lia.
    - apply set_groups. intros q. exact (asked_kept _ refs refs hyps hyps q K).
  Qed.

  Lemma quiet_finish {RE E} (c : config) (p p' x x' : prog A (RE := RE) (HE := scored E) unit) : quiet p x -> quiet p' x' -> same_global c x x' -> same_global c p p'.
  Proof.
    intros [H1 H2] [H1' H2'] [Er (ms & log & v1 & v2 & v3 & v4 & v2' & v4' & g & k & k' & O & O' & K)]. split; [congruence|].
    exists ms, log, v1, v2, v3, v4, v2', v4', g, k, k'. rewrite H1, H1'. auto.
  Qed.

  Lemma icdar_global w w' pn pn' args args' c c' refs hyps f f' : command args c -> command args' c' -> same_settings c c' -> w_writable w = w_writable w' -> no_bootstrap c ->
    inputs shaped_text scored_shaped_text w c refs hyps f -> inputs shaped_text scored_shaped_text w' c' refs hyps f' ->
    (forall q, (exists g, assigns f q g) <-> (exists g, assigns f' q g)) ->
    same_global c (icdar17 A T srt rngs show_int show_f64 w pn args) (icdar17 A T srt rngs show_int show_f64 w' pn' args').
  Proof.
    intros Cm Cm' Ss Hw NB I I' H. destruct (keeps_exists w c f refs hyps (in_queries _ _ _ _ _ _ _ I)) as (kr & kh & K).
    assert (Es : cf_sort c = cf_sort c') by apply Ss.
    destruct (icdar_both T srt Hs rngs show_int show_f64 w w' pn pn' args args' c c' refs hyps f refs hyps f' kr kh Cm Cm' Es I I' K
      (keeps_iff f f' _ _ _ _ (listed_kept f f' H) K)) as (n & ms & log & m & m' & Tn & Q1 & As & Hm & Hm' & Q & Q').
    apply (quiet_finish c _ _ _ _ Q Q').
    destruct (finish T srt rngs cmp_str ev_query ev_query w c m n ms log) as [l r] eqn:E1. destruct (finish T srt rngs cmp_str ev_query ev_query w' c' m' n ms log) as [l' r'] eqn:E2.
    destruct (finish_global T srt rngs cmp_str Order.total_order_str ev_query ev_query w w' c c' m m' n ms log l r l' r' Ss Hw NB (proj1 Hm) (proj1 Hm') (in_dump _ _ _ _ _ _ _ I) Tn) as (Er & v1 & v2 & v3 & v4 & v2' & v4' & g & k & k' & O & O' & Kk); auto.
    { intros x J. destruct (Q1 x J) as (q & _ & Hx). eauto. }
    split; [exact Er|]. exists ms, log, v1, v2, v3, v4, v2', v4', g, k, k'. auto.
  Qed.

  Lemma simple_global qf w w' pn pn' args args' c c' refs hyps f f' : command args c -> command args' c' -> same_settings c c' -> w_writable w = w_writable w' -> no_bootstrap c ->
    inputs str_event_text scored_str_event_text w c refs hyps f -> inputs str_event_text scored_str_event_text w' c' refs hyps f' ->
    (Z.of_nat (strings refs hyps f) <= 2147483648)%Z -> (Z.of_nat (strings refs hyps f') <= 2147483648)%Z ->
    (forall q, (exists g, assigns f q g) <-> (exists g, assigns f' q g)) ->
    same_global c (simple_kws A T srt rngs show_int show_f64 qf w pn args) (simple_kws A T srt rngs show_int show_f64 qf w' pn' args').
  Proof.
    intros Cm Cm' Ss Hw NB I I' L L' H. destruct (keeps_exists w c f refs hyps (in_queries _ _ _ _ _ _ _ I)) as (kr & kh & K).
    assert (Es : cf_sort c = cf_sort c') by apply Ss.
    destruct (simple_both T srt Hs rngs show_int show_f64 qf w w' pn pn' args args' c c' refs hyps f f' kr kh Cm Cm' Es I I' L L' K
      (keeps_iff f f' _ _ _ _ (listed_kept f f' H) K)) as (id & id' & n & ms & log & m & m' & Inj & Inj' & Ie & Tn & Q1 & As & Hm & Hm' & Q & Q').
    apply (quiet_finish c _ _ _ _ Q Q').
    destruct (finish T srt rngs cmp_Z ev_query ev_query w c m n ms log) as [l r] eqn:E1. destruct (finish T srt rngs cmp_Z ev_query ev_query w' c' m' n ms log) as [l' r'] eqn:E2.
    destruct (finish_global T srt rngs cmp_Z Order.total_order_Z ev_query ev_query w w' c c' m m' n ms log l r l' r' Ss Hw NB (proj1 Hm) (proj1 Hm') (in_dump _ _ _ _ _ _ _ I) Tn) as (Er & v1 & v2 & v3 & v4 & v2' & v4' & g & k & k' & O & O' & Kk); auto.
    { intros x J. destruct (Q1 x J) as (q & _ & Hx). eauto. }
    split; [exact Er|]. exists ms, log, v1, v2, v3, v4, v2', v4', g, k, k'. auto.
  Qed.
End Files.
