(** C79-C80: the files and the standard output of a run as text. *)
From Coq Require Import Ascii String List Bool ZArith QArith Reals Lra Lia.
From Flocq Require Import Core BinarySingleNaN.
From Verif.Model Require Import Cpp Floats Box Events EventSets Matches Matcher Scorers Assessment Bootstrap Stream Options Output Tool Text.
From Verif.Spec Require Import Order Matching Grouping Collapse Metrics Curves Double Reader Options Gain Tool Results Text.
From Verif.Proofs Require Order Reader Instances Runs Compute Printed Text Digits Dump Written Curves.
From Verif.Props Require Import P17_Tool P18_Results.
Import ListNotations.
Local Open Scope string_scope.
Local Open Scope list_scope.

(** ** C79 *)

(** C79.  The line of a match of Icdar17KwsEval. *)
Theorem c79_shaped nan (m : match_t shaped (scored shaped)) :
  (forall e, m_ref m = Some e \/ option_map sc_base (m_hyp m) = Some e ->
     word (ev_query e) /\ word (db_doc (ev_loc e)) /\ u32_box (db_box (ev_loc e))) ->
  (forall h, m_hyp m = Some h -> is_finite (sc_score h) = true) ->
  is_finite (me_fp (m_err m)) = true -> is_finite (me_fn (m_err m)) = true ->
  match_form shaped_form (scored_form shaped_form) (write_icdar_match nan m) m.
Proof.
  intros W H F1 F2. apply Dump.write_match_form. split; [|split; [|auto]].
  - destruct (m_ref m) as [r|]; [|exact I]. destruct (W r (or_introl eq_refl)) as (W1 & W2 & W3). now apply Dump.write_shaped_form.
  - destruct (m_hyp m) as [h|]; [|exact I]. destruct (W (sc_base h) (or_intror eq_refl)) as (W1 & W2 & W3).
    apply Dump.write_scored_form; [now apply Dump.write_shaped_form|now apply H].
Qed.
Print Assumptions c79_shaped.

(** C79.  The line of a match of SimpleKwsEval. *)
Theorem c79_ids nan (m : match_t (event Z Z) (scored (event Z Z))) :
  (forall h, m_hyp m = Some h -> is_finite (sc_score h) = true) ->
  is_finite (me_fp (m_err m)) = true -> is_finite (me_fn (m_err m)) = true ->
  match_form id_form (scored_form id_form) (write_simple_match nan m) m.
Proof.
  intros H F1 F2. apply Dump.write_match_form. split; [|split; [|auto]].
  - destruct (m_ref m) as [r|]; [|exact I]. apply Dump.write_id_form.
  - destruct (m_hyp m) as [h|]; [|exact I]. apply Dump.write_scored_form; [apply Dump.write_id_form|now apply H].
Qed.
Print Assumptions c79_ids.

(** C79.  A line tells the match, up to the digits of the score and the
    errors. *)
Theorem c79_unambiguous :
  (forall b m m', match_form shaped_form (scored_form shaped_form) b m ->
     match_form shaped_form (scored_form shaped_form) b m' -> same_match m m') /\
  (forall b m m', match_form id_form (scored_form id_form) b m -> match_form id_form (scored_form id_form) b m' -> same_match m m').
Proof.
  split; intros b m m'.
  - exact (Dump.match_unique shaped_form shaped_form 5 Dump.shaped_blanks Dump.shaped_blanks Dump.shaped_fun Dump.shaped_fun b m m').
  - exact (Dump.match_unique id_form id_form 1 Dump.id_blanks Dump.id_blanks Dump.id_fun Dump.id_fun b m m').
Qed.
Print Assumptions c79_unambiguous.

(** C79.  A file tells both lists of matches. *)
Theorem c79_recover :
  (forall b ms rs ms' rs', dump_form shaped_form (scored_form shaped_form) b ms rs ->
     dump_form shaped_form (scored_form shaped_form) b ms' rs' -> Forall2 same_match ms ms' /\ Forall2 same_match rs rs') /\
  (forall b ms rs ms' rs', dump_form id_form (scored_form id_form) b ms rs ->
     dump_form id_form (scored_form id_form) b ms' rs' -> Forall2 same_match ms ms' /\ Forall2 same_match rs rs').
Proof.
  split; apply Dump.dump_unique; apply c79_unambiguous.
Qed.
Print Assumptions c79_recover.

(** C79.  The file of matches of Icdar17KwsEval, if it is not overwritten by a
    curve: the lines of the matches of the evaluation, a separator and the
    lines of the repeated matches. *)
Theorem c79_icdar17 : forall nan (T : Trans DArith) srt rngs show_int show_f64 w pn args c refs hyps f l r, sort_contract srt ->
  command args c -> inputs shaped_text scored_shaped_text w c refs hyps f ->
  cf_dump c <> [] -> cf_dump c <> cf_grp c -> cf_dump c <> cf_mrp c ->
  icdar17 DArith T srt rngs show_int show_f64 w pn args = (l, r) ->
  exists ms log groups b, icdar17_evaluation (cf_sort c) f refs hyps ms log groups /\
    file_of nan write_shaped (write_scored nan write_shaped) (cf_dump c) l = Some b /\
    dump_form shaped_form (scored_form shaped_form) b ms log.
Proof.
  intros nan T srt rngs si sf w pn args c refs hyps f l r Hs Cm I N N1 N2 E.
  destruct (Runs.icdar_dump T srt Hs rngs si sf w pn args c refs hyps f l r Cm I E) as (ms & log & gs & rest & _ & Ev & O & C).
  exists ms, log, gs. eexists. split; [exact Ev|]. split; [exact (Written.dump_file nan _ _ w c ms log l rest N N1 N2 O C)|].
  destruct (Written.icdar_writable nan srt w c _ f refs hyps ms log gs Hs I Ev) as [F1 F2].
  apply Dump.write_dump_form; auto.
  - intros b x. apply Dump.shaped_no_nl.
  - intros b x. apply (Dump.scored_no_nl _ Dump.shaped_no_nl).
Qed.
Print Assumptions c79_icdar17.

(** C79.  The same for SimpleKwsEval, with ids for the strings. *)
Theorem c79_simple : forall nan (T : Trans DArith) srt rngs show_int show_f64 qf w pn args c refs hyps f l r, sort_contract srt ->
  command args c -> inputs str_event_text scored_str_event_text w c refs hyps f ->
  cf_dump c <> [] -> cf_dump c <> cf_grp c -> cf_dump c <> cf_mrp c ->
  simple_kws DArith T srt rngs show_int show_f64 qf w pn args = (l, r) ->
  (r = inr (FThrow RangeError) /\ file_of nan write_int_event (write_scored nan write_int_event) (cf_dump c) l = None) \/
  exists id ms log groups b, (forall s s', id s = id s' -> s = s') /\
    simple_evaluation id (cf_sort c) f refs hyps ms log groups /\
    file_of nan write_int_event (write_scored nan write_int_event) (cf_dump c) l = Some b /\
    dump_form id_form (scored_form id_form) b (map (renamed_match id) ms) (map (renamed_match id) log).
Proof.
  intros nan T srt rngs si sf qf w pn args c refs hyps f l r Hs Cm I N N1 N2 E.
  destruct (Runs.simple_dump T srt Hs rngs si sf qf w pn args c refs hyps f l r Cm I E)
    as [[K O]|(id & ms & log & gs & rest & Inj & _ & Ev & O & C)]; [left|right].
  { split; [exact K|]. rewrite <- Written.file_outputs, O. reflexivity. }
  exists id, ms, log, gs. eexists. split; [exact Inj|]. split; [exact Ev|].
  split; [exact (Written.dump_file nan _ _ w c _ _ l rest N N1 N2 O C)|].
  destruct (Written.simple_writable nan id w c _ f refs hyps ms log gs Inj I Ev) as [F1 F2].
  apply Dump.write_dump_form; auto.
  - intros b x. apply Dump.id_no_nl.
  - intros b x. apply (Dump.scored_no_nl _ Dump.id_no_nl).
Qed.
Print Assumptions c79_simple.

(** The files of the two examples. *)
Definition dumped_text {RE E} (wr : RE -> bytes) (we : E -> bytes) (p : prog DArith (RE := RE) (HE := scored E) unit) : option string :=
  option_map string_of_list_ascii (file_of (lit "nan") wr (write_scored (lit "nan") we) (lit "m") (fst p)).

Example c79_case_shaped :
  dumped_text write_shaped write_shaped (icdar17 DArith TD (@isort) (fun _ => stream (fun _ => O)) (fun _ => []) (fun _ => []) here (lit "prog")
    (map lit ["--dump_matches"; "m"; "r"; "h"])) = Some (
  "Match[Hyp=q1 d1 3 5 400 40 -1, Ref=q1 d1 3 5 400 40, Error=MatchError[fp=0, fn=0, nh=1, nr=1]]" ++ eol ++
  "Match[Hyp=q3 d1 5 5 35 55 -3, Error=MatchError[fp=1, fn=0, nh=1, nr=0]]" ++ eol ++
  "Match[Hyp=q2 d1 50 90 60 35 -4, Ref=q2 d1 6 100 350 35, Error=MatchError[fp=0, fn=0, nh=1, nr=1]]" ++ eol ++
  "Match[Hyp=q2 d1 50 80 60 35 -4, Error=MatchError[fp=1, fn=0, nh=1, nr=0]]" ++ eol ++
  "Match[Hyp=q1 d2 3 5 400 40 -6, Error=MatchError[fp=1, fn=0, nh=1, nr=0]]" ++ eol ++
  "Match[Ref=q1 d1 6 100 350 35, Error=MatchError[fp=0, fn=1, nh=0, nr=1]]" ++ eol ++
  "Match[Ref=q2 d1 3 5 400 40, Error=MatchError[fp=0, fn=1, nh=0, nr=1]]" ++ eol ++
  "Match[Ref=q2 d2 3 5 400 40, Error=MatchError[fp=0, fn=1, nh=0, nr=1]]" ++ eol ++
  "Match[Ref=q99 d99 0 0 300 20, Error=MatchError[fp=0, fn=1, nh=0, nr=1]]" ++ eol ++
  "#### REPEATED MATCHES ####" ++ eol ++
  "## Match[Hyp=q1 d1 3 5 400 40 -2, Ref=q1 d1 3 5 400 40, Error=MatchError[fp=0, fn=0, nh=1, nr=1]]" ++ eol ++
  "## Match[Hyp=q2 d1 50 100 60 35 -5, Ref=q2 d1 6 100 350 35, Error=MatchError[fp=0, fn=0, nh=1, nr=1]]" ++ eol)%string.
Proof. vm_compute. reflexivity. Qed.

Example c79_case_ids :
  dumped_text write_int_event write_int_event (simple_kws DArith TD (@isort) (fun _ => stream (fun _ => O)) (fun _ => []) (fun _ => []) true here (lit "prog")
    (map lit ["--dump_matches"; "m"; "sr"; "sh"])) = Some (
  "Match[Hyp=0 1 0.75, Ref=0 1, Error=MatchError[fp=0, fn=0, nh=1, nr=1]]" ++ eol ++
  "Match[Hyp=3 4 0.25, Error=MatchError[fp=1, fn=0, nh=1, nr=0]]" ++ eol ++
  "Match[Hyp=3 1 -1, Ref=3 1, Error=MatchError[fp=0, fn=0, nh=1, nr=1]]" ++ eol ++
  "Match[Ref=0 2, Error=MatchError[fp=0, fn=1, nh=0, nr=1]]" ++ eol ++
  "#### REPEATED MATCHES ####" ++ eol ++
  "## Match[Hyp=0 1 0.5, Ref=0 1, Error=MatchError[fp=0, fn=0, nh=1, nr=1]]" ++ eol)%string.
Proof. vm_compute. reflexivity. Qed.

(** The hypotheses of the theorems for them. *)
Example c79_inputs :
  (exists c refs hyps, command (map lit ["--dump_matches"; "m"; "r"; "h"]) c /\
    inputs shaped_text scored_shaped_text here c refs hyps NoQueries /\
    cf_dump c = lit "m" /\ cf_grp c = [] /\ cf_mrp c = []) /\
  (exists c refs hyps, command (map lit ["--dump_matches"; "m"; "sr"; "sh"]) c /\
    inputs str_event_text scored_str_event_text here c refs hyps NoQueries /\
    cf_dump c = lit "m" /\ cf_grp c = [] /\ cf_mrp c = []).
Proof.
  split; eexists _, _, _; (split; [apply Compute.config_for_ok; vm_compute; reflexivity|]).
  - split; [apply Compute.icdar_inputs_ok; vm_compute; reflexivity|]. repeat split.
  - split; [apply Compute.simple_inputs_ok; vm_compute; reflexivity|]. repeat split.
Qed.

(** ** C80 *)

(** C80.  The standard output of any run: a line for each statistic, with six
    digits, and with the interval if there is one. *)
Theorem c80_lines nan RE HE (l : list (effect DArith (RE := RE) (HE := HE))) : lines_form stat_form (stdout_of nan l) (stats l).
Proof. apply Written.stdout_stats. Qed.
Print Assumptions c80_lines.

(** C80.  A curve file: a line for each point, with seven digits. *)
Theorem c80_points nan pts : lines_form point_form (write_points nan pts) pts.
Proof. apply Written.points_lines. Qed.
Print Assumptions c80_points.

(** C80.  The whole standard output of Icdar17KwsEval: four lines; gAP and mAP
    are those specified, up to double arithmetic and six digits. *)
Theorem c80_icdar17 : forall nan (T : Trans DArith) srt rngs show_int show_f64 w pn args c refs hyps f l r n, sort_contract srt ->
  command args c -> no_bootstrap c -> inputs shaped_text scored_shaped_text w c refs hyps f -> countable c refs hyps ->
  n = (List.length refs + List.length hyps)%nat -> (Z.of_nat n <= 2 ^ 26)%Z ->
  icdar17 DArith T srt rngs show_int show_f64 w pn args = (l, r) ->
  exists ms log groups v1 v2 v3 v4, icdar17_evaluation (cf_sort c) f refs hyps ms log groups /\
    statistics c ms groups v1 v2 v3 v4 /\ in01 v1 /\ in01 v2 /\ shown_statistics (stdout_of nan l) n v1 v2.
Proof.
  intros nan T srt rngs si sf w pn args c refs hyps f l r n Hs Cm NB I Cn En Ln E.
  destruct (Written.icdar_shown T srt Hs rngs si sf w pn args c refs hyps f l r n Cm NB I Cn En Ln E)
    as (ms & log & gs & v1 & v2 & v3 & v4 & d1 & d2 & d3 & d4 & Ev & St & O1 & O2 & _ & _ & W1 & W2 & Ss).
  exists ms, log, gs, v1, v2, v3, v4. repeat (split; [assumption|]).
  exists (write_short nan d1), (write_short nan d2), (write_short nan d3), (write_short nan d4).
  split; [now apply Written.stdout_four|]. split; now apply Written.shown_double.
Qed.
Print Assumptions c80_icdar17.

(** C80.  The same for SimpleKwsEval. *)
Theorem c80_simple : forall nan (T : Trans DArith) srt rngs show_int show_f64 qf w pn args c refs hyps f l r n, sort_contract srt ->
  command args c -> no_bootstrap c -> inputs str_event_text scored_str_event_text w c refs hyps f -> countable c refs hyps ->
  (Z.of_nat (strings refs hyps f) <= 2147483648)%Z ->
  n = (List.length refs + List.length hyps)%nat -> (Z.of_nat n <= 2 ^ 26)%Z ->
  simple_kws DArith T srt rngs show_int show_f64 qf w pn args = (l, r) ->
  exists id ms log groups v1 v2 v3 v4, (forall s s', id s = id s' -> s = s') /\
    simple_evaluation id (cf_sort c) f refs hyps ms log groups /\
    statistics c ms groups v1 v2 v3 v4 /\ in01 v1 /\ in01 v2 /\ shown_statistics (stdout_of nan l) n v1 v2.
Proof.
  intros nan T srt rngs si sf qf w pn args c refs hyps f l r n Hs Cm NB I Cn Ls En Ln E.
  destruct (Written.simple_shown T srt Hs rngs si sf qf w pn args c refs hyps f l r n Cm NB I Cn Ls En Ln E)
    as (id & ms & log & gs & v1 & v2 & v3 & v4 & d1 & d2 & d3 & d4 & Inj & Ev & St & O1 & O2 & W1 & W2 & Ss).
  exists id, ms, log, gs, v1, v2, v3, v4. repeat (split; [assumption|]).
  exists (write_short nan d1), (write_short nan d2), (write_short nan d3), (write_short nan d4).
  split; [now apply Written.stdout_four|]. split; now apply Written.shown_double.
Qed.
Print Assumptions c80_simple.

(** C80.  For up to 100000 references and hypotheses the number shown is less
    than 10^-5 away from the exact one. *)
Theorem c80_close : forall b n v, (Z.of_nat n <= 100000)%Z -> in01 v ->
  shown_near b (INR n * (INR n + 12) * u64) v \/ shown_near b ((INR n * (INR n + 13) + 3) * u64) v ->
  exists neg x, short_form b neg x /\ (Rabs (x - v) < / 100000)%R.
Proof.
  intros b n v L [O1 O2] H.
  assert (N : (0 <= INR n <= 100000)%R).
  { split; [apply pos_INR|]. rewrite INR_IZR_INZ. now apply IZR_le. }
  assert (U : (0 < u64 <= / 9000000000000000)%R).
  { split; [apply bpow_gt_0|]. change u64 with (/ IZR (2 ^ 53))%R. apply Rinv_le; [lra|]. apply IZR_le. lia. }
  assert (B : (INR n * (INR n + 12) <= 10002000000)%R) by nra.
  assert (B' : (INR n * (INR n + 13) + 3 <= 10002000000)%R) by nra.
  assert (C : forall k, (0 <= k <= 10002000000)%R -> (0 <= k * u64 <= 1 / 800000)%R) by (intros k K; nra).
  assert (D : forall e, (0 <= e <= 1 / 800000)%R -> shown_near b e v -> exists neg x, short_form b neg x /\ (Rabs (x - v) < / 100000)%R).
  { intros e He [(neg & x & S & K) _]. exists neg, x. split; [exact S|]. rewrite (Rabs_pos_eq v) in K by lra. lra. }
  destruct H as [H|H]; (eapply D; [|exact H]); apply C; nra.
Qed.
Print Assumptions c80_close.

(** C80.  On the files of /repo/examples/Icdar17KwsEval the output begins with
    "gAP = 0.25" and "mAP = 0.166667". *)
Theorem c80_shipped : forall nan (T : Trans DArith) srt rngs show_int show_f64 w pn r h l e, sort_contract srt ->
  plain_name r -> plain_name h -> r <> [] -> h <> [] ->
  w_file w r = Some refs_text -> w_file w h = Some hyps_text ->
  icdar17 DArith T srt rngs show_int show_f64 w pn [r; h] = (l, e) ->
  exists t, stdout_of nan l = lit ("gAP = 0.25" ++ eol ++ "mAP = 0.166667" ++ eol ++ "gNDCG = ") ++ t.
Proof.
  intros nan T srt rngs si sf w pn r h l e Hs Pr Ph Nr Nh Fr Fh E.
  destruct (plain_pair r h Pr Ph) as (c & Cm).
  destruct (c73_defaults [r; h] c) as ((r' & Hn) & Cs & Cc & Ci & Ct & NB & Cq & Cg & Cd & Cx & Cy);
    [exact (Forall_cons _ Pr (Forall_cons _ Ph (Forall_nil _)))|exact Cm|].
  destruct Hn as [(Hn & _)|(h' & Hn & C1 & C2)]; [discriminate|]. injection Hn as <- <-.
  assert (exists refs hyps, inputs shaped_text scored_shaped_text w c refs hyps NoQueries /\
    List.length refs = 6%nat /\ List.length hyps = 7%nat) as (refs & hyps & I & Lr & Lh).
  { destruct c73_inputs as [(c' & refs & hyps & Cm' & _ & I' & _ & Lr & Lh) _]. exists refs, hyps. split; [|auto].
    destruct (c73_defaults (map lit ["r"; "h"]) c') as ((r' & Hn) & Cs' & Cc' & Ci' & Ct' & NB' & _);
      [apply plain_rh|exact Cm'|].
    destruct Hn as [(Hn & _)|(h' & Hn & C1' & C2')]; [discriminate|]. injection Hn as <- <-.
    destruct I' as [_ (b & B1 & B2) (b' & B3 & B4) _ _]. constructor.
    - now rewrite C1.
    - rewrite C1' in B1. injection B1 as <-. rewrite C1. eauto.
    - unfold hyp_source in *. rewrite C2' in B3. cbn in B3. injection B3 as <-. rewrite C2. destruct h; [easy|]. eauto.
    - now constructor.
    - now rewrite Cd. }
  assert (Cn : countable c refs hyps) by (intros _; rewrite Lr, Lh; vm_compute; discriminate).
  destruct (Written.icdar_shown T srt Hs rngs si sf w pn [r; h] c refs hyps NoQueries l e 13 Cm NB I Cn) as
    (ms & log & gs & v1 & v2 & v3 & v4 & d1 & d2 & d3 & d4 & Ev & St & O1 & O2 & R1 & R2 & W1 & W2 & Ss); [lia|lia|exact E|].
  destruct (icdar17 RArith RTrans srt rngs si sf w pn [r; h]) as [l' e'] eqn:E'.
  destruct (c73_shipped srt rngs si sf w pn r h l' e' Hs Pr Ph Nr Nh Fr Fh E') as (_ & n3 & n4 & P).
  destruct (Instances.icdar_run RTrans srt Hs rngs si sf w pn [r; h] c refs hyps NoQueries l' e' Cm NB I E') as (ms' & log' & gs' & Fi & Ev' & Rp).
  destruct (Printed.reported_printed RTrans srt w c ms' log' gs' l' e' Rp) as (x1 & x2 & x4 & X1 & X2 & _ & P').
  rewrite P in P'. injection P' as <- <- _ _.
  destruct (Written.icdar_same srt (cf_sort c) NoQueries refs hyps ms log gs ms' log' gs' Hs (or_introl Cs) Fi Ev Ev') as [S1 S2].
  rewrite S1, X1 in R1. injection R1 as <-. rewrite S2, X2 in R2. injection R2 as <-.
  assert (U : (0 < u64 <= / 9000000000000000)%R).
  { split; [apply bpow_gt_0|]. change u64 with (/ IZR (2 ^ 53))%R. apply Rinv_le; [lra|]. apply IZR_le. lia. }
  rewrite (INR_IZR_INZ 13) in W1, W2. change (IZR (Z.of_nat 13)) with 13%R in W1, W2.
  assert (T1 : write_short nan d1 = lit "0.25").
  { apply (Text.short_form_unique _ _ false (IZR 25 * powerRZ 10 (-2))).
    - replace (IZR 25 * powerRZ 10 (-2))%R with (1 / 4)%R by (simpl; lra).
      apply (proj2 (Written.shown_double nan d1 _ _ W1)); [|lra]. exists 25%Z, (-2)%Z. split; [lia|]. simpl. lra.
    - apply (Written.fraction_text (lit "25")); [vm_compute; reflexivity..|simpl; rewrite Rabs_pos_eq; lra]. }
  assert (T2 : write_short nan d2 = lit "0.166667").
  { apply (Text.short_form_unique _ _ false (IZR 166667 * powerRZ 10 (-6))).
    - replace (powerRZ 10 (-6)) with (bpow radix10 (0 - 6)) by (change (bpow radix10 (0 - 6)) with (/ 1000000)%R; simpl; lra).
      apply (Written.shown_rounded nan d2 _ _ 0 166667 W2); change (bpow radix10 (0 - 1)) with (/ 10)%R; change (bpow radix10 0) with 1%R;
        change (bpow radix10 (6 - 0)) with 1000000%R; try lra.
      rewrite Rabs_left; lra.
    - apply (Written.fraction_text (lit "166667")); [vm_compute; reflexivity..|simpl; rewrite Rabs_pos_eq; lra]. }
  rewrite (Written.stdout_four nan l d1 d2 d3 d4 Ss), T1, T2. eexists. reflexivity.
Qed.
Print Assumptions c80_shipped.

(** Points at evenly spaced doubles. *)
Definition spaced_points (n : Z) (pts : list (f64 * f64)) : Prop :=
  sampled n pts /\ forall i p, nth_error pts i = Some p -> is_double (fst p) (nearest64 (INR i / IZR (n - 1))).

Lemma spaced n (ys : list f64) : (0 <= n <= 2 ^ 53)%Z -> List.length ys = List.length (even_points DArith (Z.to_nat n)) ->
  forall i (p : f64 * f64), nth_error (combine (even_points DArith (Z.to_nat n)) ys) i = Some p -> is_double (fst p) (nearest64 (INR i / IZR (n - 1))).
Proof.
  intros N L i p E.
  assert (Ex : nth_error (even_points DArith (Z.to_nat n)) i = Some (fst p)).
  { revert i ys L E. induction (even_points DArith (Z.to_nat n)) as [|x xs IH]; intros i [|y ys] L E; try (destruct i; discriminate).
    destruct i as [|i]; cbn in *; [now injection E as <-|]. apply (IH i ys); [lia|exact E]. }
  destruct (c75_double_x (Z.to_nat n) i (fst p)) as (N1 & _ & D); [lia|exact Ex|].
  rewrite (INR_IZR_INZ (Z.to_nat n - 1)), Nat2Z.inj_sub, Z2Nat.id in D by lia. exact D.
Qed.

(** C80.  The curve files of Icdar17KwsEval, in double arithmetic: a line for
    each sample point, and the first number is the recall. *)
Theorem c80_curves : forall nan (T : Trans DArith) srt rngs show_int show_f64 w pn args c refs hyps f l r, sort_contract srt ->
  command args c -> no_bootstrap c -> inputs shaped_text scored_shaped_text w c refs hyps f -> (0 <= cf_curve c <= 2 ^ 53)%Z ->
  icdar17 DArith T srt rngs show_int show_f64 w pn args = (l, r) ->
  let written name := exists pts b, file_of nan write_shaped (write_scored nan write_shaped) name l = Some b /\
    lines_form point_form b pts /\ spaced_points (cf_curve c) pts in
  (cf_grp c <> [] -> w_writable w (cf_grp c) = true -> cf_grp c <> cf_mrp c -> written (cf_grp c)) /\
  (cf_mrp c <> [] -> w_writable w (cf_mrp c) = true -> cf_grp c = [] \/ w_writable w (cf_grp c) = true -> written (cf_mrp c)).
Proof.
  intros nan T srt rngs si sf w pn args c refs hyps f l r Hs Cm NB I Nc E written.
  destruct (Instances.icdar_run T srt Hs rngs si sf w pn args c refs hyps f l r Cm NB I E) as (ms & log & gs & Fi & Ev & Rp).
  destruct Rp as (v1 & v2 & v4 & curves & e & Er & _ & _ & _ & O & Cv). rewrite app_assoc in O.
  match type of O with _ = ?x ++ _ => set (l0 := x) in O end.
  split; intros N W G; unfold written; rewrite <- Written.file_outputs, O.
  - destruct (Written.curves_global nan write_shaped (write_scored nan write_shaped) w c _ _ l0 curves e Cv N W G) as (pts & P & F).
    exists pts. eexists. split; [exact F|]. split; [apply Written.points_lines|]. destruct (Printed.global_sampled c ms pts P) as [S _].
    split; [exact S|]. destruct P as (ys & -> & L & _). now apply spaced.
  - destruct (Written.curves_mean nan write_shaped (write_scored nan write_shaped) w c _ _ l0 curves e Cv N W G) as (pts & P & F).
    exists pts. eexists. split; [exact F|]. split; [apply Written.points_lines|]. destruct (Printed.mean_sampled w c gs pts P) as [S _].
    split; [exact S|]. destruct P as (ys & -> & L & _). now apply spaced.
Qed.
Print Assumptions c80_curves.

(** C80.  The same for SimpleKwsEval. *)
Theorem c80_curves_simple : forall nan (T : Trans DArith) srt rngs show_int show_f64 qf w pn args c refs hyps f l r, sort_contract srt ->
  command args c -> no_bootstrap c -> inputs str_event_text scored_str_event_text w c refs hyps f -> (0 <= cf_curve c <= 2 ^ 53)%Z ->
  (Z.of_nat (strings refs hyps f) <= 2147483648)%Z ->
  simple_kws DArith T srt rngs show_int show_f64 qf w pn args = (l, r) ->
  let written name := exists pts b, file_of nan write_int_event (write_scored nan write_int_event) name l = Some b /\
    lines_form point_form b pts /\ spaced_points (cf_curve c) pts in
  (cf_grp c <> [] -> w_writable w (cf_grp c) = true -> cf_grp c <> cf_mrp c -> written (cf_grp c)) /\
  (cf_mrp c <> [] -> w_writable w (cf_mrp c) = true -> cf_grp c = [] \/ w_writable w (cf_grp c) = true -> written (cf_mrp c)).
Proof.
  intros nan T srt rngs si sf qf w pn args c refs hyps f l r Hs Cm NB I Nc Ls E written.
  destruct (Instances.simple_run T srt Hs rngs si sf w qf pn args c refs hyps f l r Cm NB I E Ls) as (id & ms & log & gs & Inj & Fi & Ev & Rp).
  destruct Rp as (v1 & v2 & v4 & curves & e & Er & _ & _ & _ & O & Cv). rewrite app_assoc in O.
  match type of O with _ = ?x ++ _ => set (l0 := x) in O end.
  split; intros N W G; unfold written; rewrite <- Written.file_outputs, O.
  - destruct (Written.curves_global nan write_int_event (write_scored nan write_int_event) w c _ _ l0 curves e Cv N W G) as (pts & P & F).
    exists pts. eexists. split; [exact F|]. split; [apply Written.points_lines|]. destruct (Printed.global_sampled c _ pts P) as [S _].
    split; [exact S|]. destruct P as (ys & -> & L & _). now apply spaced.
  - destruct (Written.curves_mean nan write_int_event (write_scored nan write_int_event) w c _ _ l0 curves e Cv N W G) as (pts & P & F).
    exists pts. eexists. split; [exact F|]. split; [apply Written.points_lines|]. destruct (Printed.mean_sampled w c _ pts P) as [S _].
    split; [exact S|]. destruct P as (ys & -> & L & _). now apply spaced.
Qed.
Print Assumptions c80_curves_simple.

(** The output for the example of SimpleKwsEval, without and with an interval,
    and a curve file. *)
Definition simple_double (args : list string) :=
  fst (simple_kws DArith TD (@isort) (fun _ => stream (fun n => Nat.modulo n 3)) (fun _ => []) (fun _ => []) true here (lit "prog") (map lit args)).

Example c80_case_stdout :
  substring 0 25 (string_of_list_ascii (stdout_of (lit "nan") (simple_double ["sr"; "sh"]))) =
    ("gAP = 0.555556" ++ eol ++ "mAP = 0.5" ++ eol)%string /\
  substring 0 36 (string_of_list_ascii (stdout_of (lit "nan")
    (simple_double ["--bootstrap_ci_gap"; "true"; "--bootstrap_samples"; "4"; "sr"; "sh"]))) =
    ("gAP = 0.555556 [0.611111, 0.611111]" ++ eol)%string /\
  option_map string_of_list_ascii (file_of (lit "nan") write_int_event (write_scored (lit "nan") write_int_event) (lit "g")
    (simple_double ["--output_grp"; "g"; "--rp_curve_samples"; "4"; "sr"; "sh"])) =
    Some ("0.000000e+00 1.000000e+00" ++ eol ++ "3.333333e-01 1.000000e+00" ++ eol ++
          "6.666667e-01 6.666667e-01" ++ eol ++ "1.000000e+00 0.000000e+00" ++ eol)%string.
Proof. vm_compute. auto. Qed.

(** The hypotheses for c80_close and the curves. *)
Example c80_inputs : (exists c refs hyps,
  command (map lit ["--output_grp"; "g"; "--output_mrp"; "m"; "--rp_curve_samples"; "4"; "sr"; "sh"]) c /\ no_bootstrap c /\
  inputs str_event_text scored_str_event_text here c refs hyps NoQueries /\ countable c refs hyps /\
  (Z.of_nat (strings refs hyps NoQueries) <= 2147483648)%Z /\ (Z.of_nat (List.length refs + List.length hyps) <= 100000)%Z /\
  cf_curve c = 4%Z /\ cf_grp c = lit "g" /\ cf_mrp c = lit "m" /\ w_writable here (lit "g") = true /\ w_writable here (lit "m") = true) /\
  in01 (1 / 4) /\ shown_near (lit "0.25") (INR 13 * (INR 13 + 12) * u64) (1 / 4).
Proof.
  split; [|split; [split; lra|]].
  - eexists _, _, _. split; [apply Compute.config_for_ok; vm_compute; reflexivity|]. split; [repeat split|].
    split; [apply Compute.simple_inputs_ok; vm_compute; reflexivity|]. split; [intros _; vm_compute; discriminate|].
    split; [vm_compute; discriminate|]. split; [vm_compute; discriminate|]. repeat split.
  - assert (F : short_form (lit "0.25") false (1 / 4)).
    { replace (1 / 4)%R with (IZR 25 * powerRZ 10 (-2))%R by (simpl; lra).
      apply (Written.fraction_text (lit "25")); [vm_compute; reflexivity..|simpl; rewrite Rabs_pos_eq; lra]. }
    split; [|auto]. exists false, (1 / 4)%R. split; [exact F|].
    assert (U : (0 < u64)%R) by apply bpow_gt_0. rewrite (INR_IZR_INZ 13). change (IZR (Z.of_nat 13)) with 13%R.
    replace (1 / 4 - 1 / 4)%R with 0%R by lra. rewrite Rabs_R0, Rabs_pos_eq; lra.
Qed.
