(** The text a run writes: files and standard output. *)
From Coq Require Import Ascii String List Bool ZArith Reals Lra Lia.
From Flocq Require Import Core BinarySingleNaN.
From Verif.Model Require Import Cpp Floats Events EventSets Matches Matcher Scorers Assessment Bootstrap Stream Output Tool Text.
From Verif.Spec Require Import Order Matching Grouping Collapse Metrics Double Reader Tool Results Text.
From Verif.Proofs Require Order Matching Rescore Grouping Evaluation Reader Instances Finish Double Metrics Text Digits Results Printed Curves Runs.
From Verif.Proofs Require Import Dump Runs.
Import ListNotations.
Local Open Scope list_scope.

(** ** The matches of an evaluation can be written *)

Section All.
  Context {Q RE E : Type}.
  Variables (lte : E -> E -> bool) (cr : Cmp RE) (Hr : total_order cr) (rq : RE -> Q) (hq : E -> Q).
  Variables (S : EvSet RE (scored E)) (R : list RE -> scored E -> list RE -> Prop) (HS : finds S R).
  Variable scorer : RE -> scored E -> match_error.

  Lemma eval_all crit f refs hyps ms log groups m :
    evaluation lte (c_lt cr) rq hq R scorer crit f refs hyps ms log groups -> In m ms \/ In m log ->
    (exists r h, m = match_pair r h (scorer r h) /\ In r refs /\ In h hyps) \/
    (exists h, m = make_fp h /\ In h hyps) \/ (exists r, m = make_fn r /\ In r refs).
  Proof.
    intros Ev I.
    destruct (Evaluation.eval_refs lte cr Hr rq hq S R HS scorer crit f refs hyps ms log groups Ev) as [_ Er].
    assert (Hrefs : forall r m', In m' ms -> m_ref m' = Some r -> In r refs).
    { intros r m' K Em. apply Er. unfold refs_of. apply in_flat_map. exists m'. split; [exact K|]. rewrite Em. simpl. auto. }
    destruct I as [I|I].
    - destruct (Evaluation.eval_members lte cr rq hq R scorer crit f refs hyps ms log groups Ev m I) as [(r & h & -> & K)|[(h & -> & K)|(r & ->)]].
      + left. exists r, h. split; [reflexivity|]. split; [|exact K]. now apply (Hrefs r _ I).
      + right. left. eauto.
      + right. right. exists r. split; [reflexivity|]. now apply (Hrefs r _ I).
    - left. destruct Ev as (refs' & hyps' & rank & taken & found & missed & Sr & Sh & Rk & Mt & So & Im & -> & G).
      destruct (Matching.matching_log R scorer _ _ _ _ _ Mt m I) as (r & h & -> & Ih & _ & It).
      exists r, h. split; [reflexivity|]. split.
      + destruct (Matching.matching_taken S R HS scorer _ _ _ _ _ Mt) as (T1 & _ & _).
        apply T1 in It. now apply (Grouping.selects_in _ _ _ Sr) in It.
      + destruct (Evaluation.ranking_in _ _ _ _ Rk) as [Ri _]. apply Ri in Ih. now apply (Grouping.selects_in _ _ _ Sh) in Ih.
  Qed.
End All.

Lemma zero_one_finite e : zero_one e -> is_finite (me_fp e) = true /\ is_finite (me_fn e) = true.
Proof. intros [[-> | ->] [-> | ->]]; split; reflexivity. Qed.

(** The events of the inputs. *)
Lemma inputs_refs {ER EH} (tr : bytes -> ER -> Prop) (th : bytes -> EH -> Prop) w c refs hyps f r :
  inputs tr th w c refs hyps f -> In r refs -> exists b, tr b r.
Proof.
  intros [_ (b & _ & ls & _ & H) _ _ _] I. assert (F := Reader.events_of_text _ _ _ _ _ H). rewrite Forall_forall in F. auto.
Qed.

Lemma inputs_hyps {ER EH} (tr : bytes -> ER -> Prop) (th : bytes -> EH -> Prop) w c refs hyps f h :
  inputs tr th w c refs hyps f -> In h hyps -> exists b, th b h.
Proof.
  intros [_ _ (b & _ & ls & _ & H) _ _] I. assert (F := Reader.events_of_text _ _ _ _ _ H). rewrite Forall_forall in F. auto.
Qed.

Notation shaped_match_form := (match_form shaped_form (scored_form shaped_form)).
Notation shaped_writable nan := (writable shaped_form (scored_form shaped_form) write_shaped (write_scored nan write_shaped)).
Notation id_writable nan := (writable id_form (scored_form id_form) write_int_event (write_scored nan write_int_event)).

Lemma icdar_writable nan srt w c crit f refs hyps ms log groups : sort_contract srt ->
  inputs shaped_text scored_shaped_text w c refs hyps f -> icdar17_evaluation crit f refs hyps ms log groups ->
  Forall (shaped_writable nan) ms /\ Forall (shaped_writable nan) log.
Proof.
  intros Hs I Ev.
  assert (Fr : forall r, In r refs -> shaped_form (write_shaped r) r).
  { intros r K. destruct (inputs_refs _ _ _ _ _ _ _ r I K) as (b & T).
    destruct (Reader.shaped_text_fields _ _ T) as (H1 & H2 & H3). now apply write_shaped_form. }
  assert (Fh : forall h, In h hyps -> scored_form shaped_form (write_scored nan write_shaped h) h).
  { intros h K. destruct (inputs_hyps _ _ _ _ _ _ _ h I K) as (b & T). assert (T' := Instances.finite_shaped _ _ T).
    destruct T as (l & g & r & _ & T & _ & _). destruct (Reader.shaped_text_fields _ _ T) as (H1 & H2 & H3).
    apply write_scored_form; [now apply write_shaped_form|exact T']. }
  assert (K : forall m, In m ms \/ In m log -> shaped_writable nan m).
  { intros m J. destruct (eval_all (c_lt cmp_shaped) cmp_shaped Order.total_order_shaped ev_query ev_query (evset_docbox srt cmp_str) (box_search cmp_str)
      (Matching.finds_docbox srt cmp_str Hs Order.total_order_str) (fun r h => ioh_scorer cmp_str f32_half r (sc_base h)) crit f refs hyps ms log groups m Ev J)
      as [(r & h & -> & K1 & K2)|[(h & -> & K2)|(r & -> & K1)]]; unfold writable; cbn [m_ref m_hyp m_err match_pair make_fp make_fn].
    - split; [auto|]. split; [auto|]. apply zero_one_finite, Instances.zero_one_ioh.
    - split; [exact Logic.I|]. split; [auto|]. split; reflexivity.
    - split; [auto|]. split; [exact Logic.I|]. split; reflexivity. }
  split; apply Forall_forall; auto.
Qed.

Lemma simple_writable nan id w c crit f refs hyps ms log groups : (forall s s', id s = id s' -> s = s') ->
  inputs str_event_text scored_str_event_text w c refs hyps f -> simple_evaluation id crit f refs hyps ms log groups ->
  Forall (id_writable nan) (map (renamed_match id) ms) /\ Forall (id_writable nan) (map (renamed_match id) log).
Proof.
  intros Inj I Ev.
  assert (Fh : forall h, In h hyps -> is_finite (sc_score h) = true).
  { intros h K. destruct (inputs_hyps _ _ _ _ _ _ _ h I K) as (b & T). exact (Instances.finite_str _ _ T). }
  assert (K : forall m, In m ms \/ In m log -> id_writable nan (renamed_match id m)).
  { intros m J. destruct (eval_all (c_lt (Results.by_id id)) (Results.by_id id) (Results.by_id_total id Inj) ev_query ev_query
      (evset_generic (Results.by_id id)) exact_search
      (Matching.finds_generic (Results.by_id id) (Results.by_id_total id Inj)) (fun r h => trivial_scorer cmp_str cmp_str r (sc_base h))
      crit f refs hyps ms log groups m Ev J)
      as [(r & h & -> & K1 & K2)|[(h & -> & K2)|(r & -> & K1)]]; unfold writable, renamed_match, map_match;
      cbn [m_ref m_hyp m_err match_pair make_fp make_fn option_map].
    - split; [apply write_id_form|]. split; [apply write_scored_form; [apply write_id_form|now apply Fh]|].
      apply zero_one_finite, Instances.zero_one_trivial.
    - split; [exact Logic.I|]. split; [apply write_scored_form; [apply write_id_form|now apply Fh]|]. split; reflexivity.
    - split; [apply write_id_form|]. split; [exact Logic.I|]. split; reflexivity. }
  split; apply Forall_forall; intros m J; apply in_map_iff in J as (m' & <- & J); auto.
Qed.

(** ** Doubles *)

Lemma short_double nan v : double_form short_form 6 (write_short nan v) v.
Proof. destruct v; try exact Logic.I; try reflexivity; now apply Text.write_short_spec. Qed.

Lemma scientific_double nan v : double_form scientific_form 7 (write_scientific nan v) v.
Proof. destruct v; try exact Logic.I; try reflexivity; now apply Text.write_scientific_spec. Qed.

(** ** Files and standard output depend on the outputs only *)

Section Streams.
  Context {RE HE : Type}.
  Variables (nan : bytes) (wr : RE -> bytes) (wh : HE -> bytes).
  Notation eff := (effect DArith (RE := RE) (HE := HE)).

  Lemma stdout_outputs (l : list eff) : stdout_of nan (outputs l) = stdout_of nan l.
  Proof. induction l as [|[d|n v ci|n d] l IH]; cbn; [reflexivity|exact IH| |exact IH]. f_equal. exact IH. Qed.

  Lemma stdout_app (l l' : list eff) : stdout_of nan (l ++ l') = stdout_of nan l ++ stdout_of nan l'.
  Proof. apply flat_map_app. Qed.

  Notation step name := (fun c (e : eff) => match e with
    | EWrite n d => if str_eq n name then Some (write_file nan wr wh d) else c
    | _ => c
    end).

  Lemma file_outputs name (l : list eff) : file_of nan wr wh name (outputs l) = file_of nan wr wh name l.
  Proof.
    unfold file_of. generalize (@None bytes). induction l as [|[d|n v ci|n d] l IH]; intros o; cbn; auto.
  Qed.

  Lemma file_untouched name (l : list eff) : forall o, (forall d, ~ In (EWrite name d) l) -> fold_left (step name) l o = o.
  Proof.
    induction l as [|[d|n v ci|n d] l IH]; intros o N; cbn; [reflexivity| | |].
    1, 2: apply IH; intros d' K; apply (N d'); simpl; auto.
    destruct (str_eq n name) eqn:Ee.
    - apply (to_eq _ Order.total_order_str) in Ee. subst n. destruct (N d). simpl. auto.
    - apply IH. intros d' K; apply (N d'); simpl; auto.
  Qed.

  (** The last of the writes. *)
  Lemma file_last name (l1 l2 : list eff) d : (forall d', ~ In (EWrite name d') l2) ->
    file_of nan wr wh name (l1 ++ EWrite name d :: l2) = Some (write_file nan wr wh d).
  Proof.
    intros N. unfold file_of. rewrite fold_left_app. cbn [fold_left].
    assert (E : str_eq name name = true) by now apply (to_eq _ Order.total_order_str). rewrite E. now apply file_untouched.
  Qed.

  Lemma file_none name (l : list eff) : (forall d, ~ In (EWrite name d) l) -> file_of nan wr wh name l = None.
  Proof. apply file_untouched. Qed.

  (** The file of matches. *)
  Lemma dump_file w c (ms log : list (match_t RE HE)) (l rest : list eff) : cf_dump c <> [] -> cf_dump c <> cf_grp c -> cf_dump c <> cf_mrp c ->
    outputs l = dumped c ms log ++ rest -> only_curves w c rest ->
    file_of nan wr wh (cf_dump c) l = Some (write_dump nan wr wh ms log).
  Proof.
    intros N N1 N2 O C. rewrite <- file_outputs, O. unfold dumped. destruct (cf_dump c) as [|x t] eqn:Ed; [easy|].
    apply (file_last _ [] rest (FDump ms log)). intros d' K. destruct (C _ _ K) as (_ & _ & _ & [H|H]); congruence.
  Qed.

  (** The lines of the statistics. *)
  Lemma stat_line n v ci : exists t, write_stat nan n v ci = t ++ [ascii_of_N 10] /\ stat_form t (n, v, ci).
  Proof.
    unfold write_stat. destruct ci as [[lo up]|].
    - exists (n ++ lit " = " ++ write_short nan v ++ lit " [" ++ write_short nan lo ++ lit ", " ++ write_short nan up ++ lit "]").
      split; [rewrite <- !app_assoc; reflexivity|].
      exists (write_short nan v), (lit " [" ++ write_short nan lo ++ lit ", " ++ write_short nan up ++ lit "]").
      split; [reflexivity|]. split; [apply short_double|]. exists (write_short nan lo), (write_short nan up). auto using short_double.
    - exists (n ++ lit " = " ++ write_short nan v). split; [rewrite <- !app_assoc; reflexivity|].
      exists (write_short nan v), []. split; [now rewrite app_nil_r|]. split; [apply short_double|reflexivity].
  Qed.

  Lemma stdout_stats (l : list eff) : lines_form stat_form (stdout_of nan l) (stats l).
  Proof.
    induction l as [|[d|n v ci|n d] l (ls & E & F)]; cbn; [exists []; auto| | |].
    1, 3: exists ls; auto.
    destruct (stat_line n v ci) as (t & Et & Ft). exists (t :: ls). unfold stdout_of in E. rewrite E, Et. cbn. auto.
  Qed.

  Lemma points_lines pts : lines_form point_form (write_points nan pts) pts.
  Proof.
    induction pts as [|[x y] pts (ls & E & F)]; [exists []; auto|].
    exists ((write_scientific nan x ++ blank ++ write_scientific nan y) :: ls). split.
    - unfold write_points in *. cbn [flat_map fst snd]. rewrite E, <- !app_assoc. reflexivity.
    - constructor; [|exact F]. exists (write_scientific nan x), (write_scientific nan y). auto using scientific_double.
  Qed.

  (** The files of curves. *)
  Lemma curve_file_written w name P (l0 l l2 : list eff) : name <> [] -> w_writable w name = true ->
    (forall d, ~ In (EWrite name d) l2) ->
    curve_file w name P l true -> exists pts, P pts /\ file_of nan wr wh name (l0 ++ l ++ l2) = Some (write_points nan pts).
  Proof.
    intros N W U C. inversion C as [K|pts K1 K2 K3|]; subst; [easy|]. exists pts. split; [exact K3|].
    cbn [app]. now rewrite (file_last name l0 l2 (FCurve pts) U).
  Qed.

  Lemma curve_file_name w name P (l : list eff) b n d : curve_file w name P l b -> In (EWrite n d) l -> n = name.
  Proof. intros [K|pts K1 K2 K3|K1 K2] I; simpl in I; try easy. destruct I as [I|[]]. congruence. Qed.

  Lemma curves_global w c P P' (l0 l : list eff) e : curve_files w c P P' l e -> cf_grp c <> [] -> w_writable w (cf_grp c) = true ->
    cf_grp c <> cf_mrp c -> exists pts, P pts /\ file_of nan wr wh (cf_grp c) (l0 ++ l) = Some (write_points nan pts).
  Proof.
    intros C N W D. inversion C as [g m b C1 C2|g C1]; subst.
    - apply (curve_file_written w _ P l0 g m N W); [|exact C1]. intros d I. apply (curve_file_name w _ _ _ _ _ _ C2) in I. congruence.
    - inversion C1; subst; congruence.
  Qed.

  Lemma curves_mean w c P P' (l0 l : list eff) e : curve_files w c P P' l e -> cf_mrp c <> [] -> w_writable w (cf_mrp c) = true ->
    cf_grp c = [] \/ w_writable w (cf_grp c) = true ->
    exists pts, P' pts /\ file_of nan wr wh (cf_mrp c) (l0 ++ l) = Some (write_points nan pts).
  Proof.
    intros C N W G. inversion C as [g m b C1 C2|g C1]; subst.
    - assert (b = true) as -> by (inversion C2; subst; congruence).
      destruct (curve_file_written w _ P' (l0 ++ g) m [] N W) as (pts & H1 & H2); [intros d []|exact C2|].
      exists pts. split; [exact H1|]. now rewrite <- H2, app_nil_r, app_assoc.
    - inversion C1; subst. destruct G; congruence.
  Qed.
End Streams.

(** ** Numbers shown *)

Lemma shown_close nan (d : f64) e v : within e d v -> exists neg x, short_form (write_short nan d) neg x /\
  (Rabs (x - v) <= e + (Rabs v + e) / 200000)%R.
Proof.
  intros [F W]. exists (Bsign d), (digits 6 (B2R d)). split; [now apply Text.write_short_spec|].
  assert (H := Digits.digits_error 6 Digits.six (B2R d)).
  replace (bpow radix10 (- (6) + 1)) with (/ 100000)%R in H by reflexivity.
  assert (T := Rabs_triang (digits 6 (B2R d) - B2R d) (B2R d - v)).
  replace (digits 6 (B2R d) - B2R d + (B2R d - v))%R with (digits 6 (B2R d) - v)%R in T by ring.
  assert (T' := Rabs_triang (B2R d - v) v). replace (B2R d - v + v)%R with (B2R d) in T' by ring. lra.
Qed.

(** A number with six digits is shown as it is. *)
Lemma shown_exact nan (d : f64) e v : within e d v -> (exists m k, (Z.abs m < 10 ^ 6)%Z /\ v = (IZR m * powerRZ 10 k)%R) ->
  (2000000 * e < v)%R -> short_form (write_short nan d) false v.
Proof.
  intros [F W] (m & k & Hm & Ev) L.
  assert (P : (0 <= e)%R) by (eapply Rle_trans; [apply Rabs_pos|exact W]).
  assert (D : digits 6 (B2R d) = v).
  { apply (Digits.digits_near 6 Digits.six).
    - rewrite Ev, <- (Digits.digits_exact 6 m k Hm). apply (Digits.digits_format 6 Digits.six).
    - lra.
    - replace (bpow radix10 (- (6))) with (/ 1000000)%R by reflexivity. lra. }
  assert (S := Text.write_short_spec nan d F). rewrite D in S.
  replace (Bsign d) with false in S; [exact S|].
  assert (Bp : (0 < B2R d)%R) by (apply Rabs_le_inv in W; lra).
  destruct d as [s|s| |s mm ee Hb]; try discriminate; cbn in Bp |- *; [lra|].
  destruct s; [|reflexivity]. exfalso. assert (K := F2R_lt_0 radix2 (Float radix2 (Zneg mm) ee) ltac:(reflexivity)). cbn in Bp. lra.
Qed.

Lemma shown_double nan (d : f64) e v : within e d v -> shown_near (write_short nan d) e v.
Proof. intros W. split; [now apply shown_close|now apply shown_exact]. Qed.

(** Six digits of a number from 10^(k-1) up to 10^k. *)
Lemma digits_at x k n : (bpow radix10 (k - 1) <= Rabs x < bpow radix10 k)%R -> (Rabs (x * bpow radix10 (6 - k) - IZR n) < / 2)%R ->
  digits 6 x = (IZR n * bpow radix10 (k - 6))%R.
Proof.
  intros B C. unfold digits, round, scaled_mantissa, cexp, F2R, FLX_exp. rewrite (mag_unique radix10 x k B). cbn [Fnum Fexp].
  replace (- (k - 6))%Z with (6 - k)%Z by lia. f_equal. f_equal. now apply Znearest_imp.
Qed.

Lemma shown_rounded nan (d : f64) e v k n : within e d v -> (bpow radix10 (k - 1) + e <= v)%R -> (v + e < bpow radix10 k)%R ->
  (Rabs (v * bpow radix10 (6 - k) - IZR n) + e * bpow radix10 (6 - k) < / 2)%R ->
  short_form (write_short nan d) false (IZR n * bpow radix10 (k - 6)).
Proof.
  intros [F W] L U H. assert (P := bpow_gt_0 radix10 (k - 1)). assert (P' := bpow_gt_0 radix10 (6 - k)).
  assert (Wi := Rabs_le_inv _ _ W).
  assert (D : digits 6 (B2R d) = (IZR n * bpow radix10 (k - 6))%R).
  { apply digits_at.
    - rewrite Rabs_pos_eq by lra. lra.
    - eapply Rle_lt_trans; [|exact H].
      replace (B2R d * bpow radix10 (6 - k) - IZR n)%R with ((v * bpow radix10 (6 - k) - IZR n) + (B2R d - v) * bpow radix10 (6 - k))%R by ring.
      eapply Rle_trans; [apply Rabs_triang|]. apply Rplus_le_compat_l. rewrite Rabs_mult, (Rabs_pos_eq (bpow _ _)) by lra.
      apply Rmult_le_compat_r; lra. }
  assert (S := Text.write_short_spec nan d F). rewrite D in S.
  replace (Bsign d) with false in S; [exact S|].
  assert (Bp : (0 < B2R d)%R) by lra.
  destruct d as [s|s| |s mm ee Hb]; try discriminate; cbn in Bp |- *; [lra|].
  destruct s; [|reflexivity]. exfalso. assert (K := F2R_lt_0 radix2 (Float radix2 (Zneg mm) ee) ltac:(reflexivity)). cbn in Bp. lra.
Qed.

(** The text of a fraction. *)
Lemma fraction_text (f : bytes) m : forallb is_digit f = true -> digits_val f = m -> Ascii.eqb (last f "0"%char) "0"%char = false ->
  (powerRZ 10 (-4) <= Rabs (IZR m * powerRZ 10 (- Z.of_nat (List.length f))) < powerRZ 10 6)%R ->
  short_form (lit "0." ++ f) false (IZR m * powerRZ 10 (- Z.of_nat (List.length f))).
Proof.
  intros D V L B. left. split; [right; exact B|].
  assert (N : f <> []) by (intros ->; discriminate).
  exists (lit "0"), ("."%char :: f), f, m. split; [reflexivity|]. split; [discriminate|].
  split; [intros t E; now injection E as <-|]. split; [split; [right; auto|]|].
  - intros t ->. rewrite last_last in L. discriminate.
  - split; [|reflexivity]. apply Reader.numeral_iff. split; [discriminate|]. split.
    + constructor; [apply Reader.digit_char_p_iff; reflexivity|]. rewrite forallb_forall in D. apply Forall_forall.
      intros c I. apply Reader.digit_char_p_iff. auto.
    + rewrite <- V. reflexivity.
Qed.

(** ** The lines of a run *)

Section Lines.
  Context {RE E : Type}.
  Variable nan : bytes.

  Lemma reported_stdout (T : Trans DArith) srt w c (ms log : list (match_t RE (scored E))) groups l r :
    Instances.reported T srt w c ms log groups l r ->
    exists d1 d2 d4, global_ap DArith sc_score ms (cf_collapse c) (cf_interp c) (cf_trapezoid c) = Ok d1 /\
      mean_ap DArith sc_score srt groups (cf_collapse c) (cf_interp c) (cf_trapezoid c) false = Ok d2 /\
      stats l = [(lit "gAP", d1, None); (lit "mAP", d2, None);
        (lit "gNDCG", global_ndcg DArith T sc_score ms (cf_collapse c), None); (lit "mNDCG", d4, None)].
  Proof.
    intros (v1 & v2 & v4 & cs & e & _ & V1 & V2 & V4 & O & C). exists v1, v2, v4.
    split; [exact V1|]. split; [exact V2|].
    assert (So : forall x : list (effect DArith (RE := RE) (HE := scored E)), stats (outputs x) = stats x).
    { induction x as [|[d|n v ci|n d] x IH]; cbn; [reflexivity|exact IH| |exact IH]. f_equal. exact IH. }
    rewrite <- So, O. unfold stats. rewrite !flat_map_app.
    assert (D : flat_map (fun e : effect DArith (RE := RE) (HE := scored E) => match e with EStat n v ci => [(n, v, ci)] | _ => [] end) (dumped c ms log) = []).
    { unfold dumped. destruct (cf_dump c); reflexivity. }
    rewrite D. cbn [app flat_map]. repeat f_equal.
    assert (Cv : forall name P x b, curve_file w name P x b -> stats (x : list (effect DArith (RE := RE) (HE := scored E))) = []).
    { intros name P x b [K|pts K1 K2 K3|K1 K2]; reflexivity. }
    destruct C as [g m b C1 C2|g C1]; [rewrite flat_map_app; fold (stats g) (stats m); now rewrite (Cv _ _ _ _ C1), (Cv _ _ _ _ C2)|].
    exact (Cv _ _ _ _ C1).
  Qed.

  Lemma stdout_four (l : list (effect DArith (RE := RE) (HE := scored E))) d1 d2 d3 d4 :
    stats l = [(lit "gAP", d1, None); (lit "mAP", d2, None); (lit "gNDCG", d3, None); (lit "mNDCG", d4, None)] ->
    stdout_of nan l = lit "gAP = " ++ write_short nan d1 ++ [ascii_of_N 10] ++ lit "mAP = " ++ write_short nan d2 ++ [ascii_of_N 10] ++
      lit "gNDCG = " ++ write_short nan d3 ++ [ascii_of_N 10] ++ lit "mNDCG = " ++ write_short nan d4 ++ [ascii_of_N 10].
  Proof.
    intros S.
    assert (K : stdout_of nan l = flat_map (fun s : bytes * f64 * option (f64 * f64) => write_stat nan (fst (fst s)) (snd (fst s)) (snd s)) (stats l)).
    { clear S. induction l as [|[d|n v ci|n d] l IH]; cbn; [reflexivity|exact IH| |exact IH]. f_equal. exact IH. }
    rewrite K, S. cbn [flat_map fst snd]. unfold write_stat.
    change (lit "gAP = ") with (lit "gAP" ++ lit " = "). change (lit "mAP = ") with (lit "mAP" ++ lit " = ").
    change (lit "gNDCG = ") with (lit "gNDCG" ++ lit " = "). change (lit "mNDCG = ") with (lit "mNDCG" ++ lit " = ").
    rewrite <- !app_assoc. reflexivity.
  Qed.
End Lines.

Section Runs.
  Variable nan : bytes.
  Context (T : Trans DArith) (srt : sort_fn) (Hs : sort_contract srt) (rngs : Z -> rng)
    (show_int : Z -> bytes) (show_f64 : f64 -> bytes).

  (** Icdar17KwsEval. *)
  Lemma icdar_shown w pn args c refs hyps f l r n :
    command args c -> no_bootstrap c -> inputs shaped_text scored_shaped_text w c refs hyps f -> countable c refs hyps ->
    n = (List.length refs + List.length hyps)%nat -> (Z.of_nat n <= 2 ^ 26)%Z ->
    icdar17 DArith T srt rngs show_int show_f64 w pn args = (l, r) ->
    exists ms log groups v1 v2 v3 v4 d1 d2 d3 d4, icdar17_evaluation (cf_sort c) f refs hyps ms log groups /\
      statistics c ms groups v1 v2 v3 v4 /\ in01 v1 /\ in01 v2 /\
      global_ap RArith sc_score ms (cf_collapse c) (cf_interp c) (cf_trapezoid c) = Ok v1 /\
      mean_ap RArith sc_score srt groups (cf_collapse c) (cf_interp c) (cf_trapezoid c) false = Ok v2 /\
      within (INR n * (INR n + 12) * u64) d1 v1 /\ within ((INR n * (INR n + 13) + 3) * u64) d2 v2 /\
      stats l = [(lit "gAP", d1, None); (lit "mAP", d2, None); (lit "gNDCG", d3, None); (lit "mNDCG", d4, None)].
  Proof.
    intros Cm NB I Cn En Ln Et.
    destruct (Instances.icdar_run T srt Hs rngs show_int show_f64 w pn args c refs hyps f l r Cm NB I Et) as (ms & log & gs & Fi & Ev & Rp).
    destruct (Printed.icdar_fine srt c _ _ _ _ _ _ _ Hs Fi Ev Cn) as (Fm & Fg & Lm & _).
    destruct (reported_stdout T srt w c ms log gs l r Rp) as (d1 & d2 & d4 & D1 & D2 & P).
    assert (Gl : (List.length gs <= List.length ms)%nat)
      by exact (Printed.groups_length _ _ _ _ _ (Printed.icdar_grouping _ _ _ _ _ _ _ Ev)).
    assert (Lg : forall g, In g gs -> (List.length g <= n)%nat).
    { intros g K. destruct (Evaluation.eval_group_in _ _ _ _ _ _ _ _ _ _ _ _ _ Ev g K) as [_ Sg].
      assert (L := Printed.sublist_length _ _ Sg). lia. }
    assert (Lm' : (List.length ms <= n)%nat) by lia.
    assert (Lg' : (List.length gs <= n)%nat) by lia.
    destruct (Printed.stats_double srt c ms gs Fm (fun g K => proj2 (Fg g K)) n Hs Ln Lm' Lg Lg' d1 d2 D1 D2)
      as (v1 & v2 & v3 & v4 & St & O1 & O2 & R1 & R2 & W1 & W2).
    exists ms, log, gs, v1, v2, v3, v4, d1, d2. eexists _, d4. repeat (split; [eassumption|]). exact P.
  Qed.

  (** SimpleKwsEval. *)
  Lemma simple_shown qf w pn args c refs hyps f l r n :
    command args c -> no_bootstrap c -> inputs str_event_text scored_str_event_text w c refs hyps f -> countable c refs hyps ->
    (Z.of_nat (strings refs hyps f) <= 2147483648)%Z ->
    n = (List.length refs + List.length hyps)%nat -> (Z.of_nat n <= 2 ^ 26)%Z ->
    simple_kws DArith T srt rngs show_int show_f64 qf w pn args = (l, r) ->
    exists id ms log groups v1 v2 v3 v4 d1 d2 d3 d4, (forall s s', id s = id s' -> s = s') /\
      simple_evaluation id (cf_sort c) f refs hyps ms log groups /\
      statistics c ms groups v1 v2 v3 v4 /\ in01 v1 /\ in01 v2 /\
      within (INR n * (INR n + 12) * u64) d1 v1 /\ within ((INR n * (INR n + 13) + 3) * u64) d2 v2 /\
      stats l = [(lit "gAP", d1, None); (lit "mAP", d2, None); (lit "gNDCG", d3, None); (lit "mNDCG", d4, None)].
  Proof.
    intros Cm NB I Cn Ls En Ln Et.
    destruct (Instances.simple_run T srt Hs rngs show_int show_f64 w qf pn args c refs hyps f l r Cm NB I Et Ls) as (id & ms & log & gs & Inj & Fi & Ev & Rp).
    destruct (Printed.simple_fine id c _ _ _ _ _ _ _ Inj Fi Ev Cn) as (Fm & Fg & Lm & _).
    destruct (reported_stdout T srt w c _ _ _ l r Rp) as (d1 & d2 & d4 & D1 & D2 & P).
    unfold renamed_match in D1, D2.
    rewrite (global_ap_renamed _ _ sc_score sc_score (Printed.renamed_score id)) in D1.
    rewrite (mean_ap_renamed _ _ sc_score sc_score (Printed.renamed_score id)) in D2.
    assert (Gl : (List.length gs <= List.length ms)%nat)
      by exact (Printed.groups_length _ _ _ _ _ (Printed.simple_grouping _ _ _ _ _ _ _ _ Ev)).
    assert (Lg : forall g, In g gs -> (List.length g <= n)%nat).
    { intros g K. destruct (Evaluation.eval_group_in _ (Results.by_id id) _ _ _ _ _ _ _ _ _ _ _ Ev g K) as [_ Sg].
      assert (L := Printed.sublist_length _ _ Sg). lia. }
    assert (Lm' : (List.length ms <= n)%nat) by lia.
    assert (Lg' : (List.length gs <= n)%nat) by lia.
    destruct (Printed.stats_double srt c ms gs Fm (fun g K => proj2 (Fg g K)) n Hs Ln Lm' Lg Lg' d1 d2 D1 D2)
      as (v1 & v2 & v3 & v4 & St & O1 & O2 & R1 & R2 & W1 & W2).
    exists id, ms, log, gs, v1, v2, v3, v4, d1, d2. eexists _, d4. repeat (split; [eassumption|]). exact P.
  Qed.
End Runs.

(** Two evaluations of the same inputs have the same values. *)
Lemma icdar_same srt crit f refs hyps ms log gs ms' log' gs' : sort_contract srt ->
  crit = lit "desc" \/ crit = lit "asc" -> (forall h, In h hyps -> is_finite (sc_score h) = true) ->
  icdar17_evaluation crit f refs hyps ms log gs -> icdar17_evaluation crit f refs hyps ms' log' gs' ->
  (forall c i t, global_ap RArith sc_score ms c i t = global_ap RArith sc_score ms' c i t) /\
  (forall c i t, mean_ap RArith sc_score srt gs c i t false = mean_ap RArith sc_score srt gs' c i t false).
Proof.
  intros Hs Sc Fi Ev Ev'.
  destruct (evaluations_equal cmp_shaped Order.total_order_shaped cmp_shaped Order.total_order_shaped ev_query ev_query
    (evset_docbox srt cmp_str) (box_search cmp_str) (Matching.finds_docbox srt cmp_str Hs Order.total_order_str)
    (fun r h => ioh_scorer cmp_str f32_half r (sc_base h)) box_search_base
    (fun r h h' B => f_equal (fun x => ioh_scorer cmp_str f32_half r x) B)
    crit f refs refs hyps hyps ms log gs ms' log' gs' Sc (fun x => iff_refl _) (Permutation.Permutation_refl _)) as (F1 & F2 & F3); auto.
  { intros h Ih. apply Rescore.finite_not_nan. now apply Fi. }
  split; intros c i t; [exact (equal_global_ap RArith ms ms' _ _ _ F1)|exact (equal_mean_ap RArith srt gs gs' _ _ _ F3)].
Qed.
