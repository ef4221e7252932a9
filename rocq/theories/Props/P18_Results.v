(** C73-C76: results of the evaluation tools. *)
From Coq Require Import Ascii String List Bool ZArith QArith Reals Qreals Lra Lia Permutation Sorted.
From Coq.Floats Require SpecFloat.
From Flocq Require Import Core BinarySingleNaN.
From Verif.Model Require Import Cpp Floats Events EventSets Matches Matcher Scorers Assessment Bootstrap Mapper Stream Reader Options Tool.
From Verif.Spec Require Import Order Matching Grouping Collapse Metrics Curves Double Reader Options Gain Tool Results.
From Verif.Proofs Require Order Reader Queries Tool Finish Programs Evaluation Instances Runs Compute Lines Results Gain Printed Metrics Double.
From Verif.Props Require Import P17_Tool.
Import ListNotations.
Local Open Scope string_scope.
Local Open Scope list_scope.

(** ** C73 *)

(** C73.  The statistics Icdar17KwsEval prints are, in exact arithmetic, the
    specified ones of the matches of its evaluation, with the options of the
    command line. *)
Theorem c73_icdar17 : forall srt rngs show_int show_f64 w pn args c refs hyps f l r, sort_contract srt ->
  command args c -> no_bootstrap c -> inputs shaped_text scored_shaped_text w c refs hyps f -> countable c refs hyps ->
  icdar17 RArith RTrans srt rngs show_int show_f64 w pn args = (l, r) ->
  exists ms log groups v1 v2 v3 v4, icdar17_evaluation (cf_sort c) f refs hyps ms log groups /\
    statistics c ms groups v1 v2 v3 v4 /\
    printed l = [(lit "gAP", v1); (lit "mAP", v2); (lit "gNDCG", v3); (lit "mNDCG", v4)].
Proof.
  intros srt rngs si sf w pn args c refs hyps f l r Hs Cm NB I Cn E.
  destruct (Instances.icdar_run RTrans srt Hs rngs si sf w pn args c refs hyps f l r Cm NB I E) as (ms & log & gs & Fi & Ev & Rp).
  destruct (Printed.icdar_fine srt c _ _ _ _ _ _ _ Hs Fi Ev Cn) as (Fm & Fg & _ & _).
  destruct (Printed.reported_printed RTrans srt w c ms log gs l r Rp) as (v1 & v2 & v4 & V1 & V2 & V4 & P).
  exists ms, log, gs, v1, v2, (global_ndcg RArith RTrans sc_score ms (cf_collapse c)), v4. split; [exact Ev|].
  split; [|exact P]. apply (Printed.stats_spec srt); auto. intros g K. apply (Fg g K).
Qed.
Print Assumptions c73_icdar17.

(** C73.  The same for SimpleKwsEval, in terms of strings. *)
Theorem c73_simple : forall srt rngs show_int show_f64 qf w pn args c refs hyps f l r, sort_contract srt ->
  command args c -> no_bootstrap c -> inputs str_event_text scored_str_event_text w c refs hyps f -> countable c refs hyps ->
  (Z.of_nat (strings refs hyps f) <= 2147483648)%Z ->
  simple_kws RArith RTrans srt rngs show_int show_f64 qf w pn args = (l, r) ->
  exists id ms log groups v1 v2 v3 v4, (forall s s', id s = id s' -> s = s') /\
    simple_evaluation id (cf_sort c) f refs hyps ms log groups /\
    statistics c ms groups v1 v2 v3 v4 /\
    printed l = [(lit "gAP", v1); (lit "mAP", v2); (lit "gNDCG", v3); (lit "mNDCG", v4)].
Proof.
  intros srt rngs si sf qf w pn args c refs hyps f l r Hs Cm NB I Cn Ls E.
  destruct (Instances.simple_run RTrans srt Hs rngs si sf w qf pn args c refs hyps f l r Cm NB I E Ls) as (id & ms & log & gs & Inj & Fi & Ev & Rp).
  destruct (Printed.simple_fine id c _ _ _ _ _ _ _ Inj Fi Ev Cn) as (Fm & Fg & _ & _).
  destruct (Printed.simple_printed id RTrans srt w c ms log gs l r Rp) as (v1 & v2 & v4 & V1 & V2 & V4 & P).
  exists id, ms, log, gs, v1, v2, (global_ndcg RArith RTrans sc_score ms (cf_collapse c)), v4. split; [exact Inj|]. split; [exact Ev|].
  split; [|exact P]. apply (Printed.stats_spec srt); auto. intros g K. apply (Fg g K).
Qed.
Print Assumptions c73_simple.

(** C73.  In double arithmetic the printed gAP and mAP are finite numbers at
    most n (n + 12) 2^-53 and (n (n + 13) + 3) 2^-53 away from the specified
    ones, for n references and hypotheses. *)
Theorem c73_double : forall (T : Trans DArith) srt rngs show_int show_f64 w pn args c refs hyps f l r n, sort_contract srt ->
  command args c -> no_bootstrap c -> inputs shaped_text scored_shaped_text w c refs hyps f -> countable c refs hyps ->
  n = (List.length refs + List.length hyps)%nat -> (Z.of_nat n <= 2 ^ 26)%Z ->
  icdar17 DArith T srt rngs show_int show_f64 w pn args = (l, r) ->
  exists ms log groups v1 v2 v3 v4 d1 d2 rest, icdar17_evaluation (cf_sort c) f refs hyps ms log groups /\
    statistics c ms groups v1 v2 v3 v4 /\
    printed l = [(lit "gAP", d1); (lit "mAP", d2)] ++ rest /\
    within (INR n * (INR n + 12) * u64) d1 v1 /\ within ((INR n * (INR n + 13) + 3) * u64) d2 v2.
Proof.
  intros T srt rngs si sf w pn args c refs hyps f l r n Hs Cm NB I Cn En Ln E.
  destruct (Instances.icdar_run T srt Hs rngs si sf w pn args c refs hyps f l r Cm NB I E) as (ms & log & gs & Fi & Ev & Rp).
  destruct (Printed.icdar_fine srt c _ _ _ _ _ _ _ Hs Fi Ev Cn) as (Fm & Fg & Lm & _).
  destruct (Printed.reported_printed T srt w c ms log gs l r Rp) as (d1 & d2 & d4 & D1 & D2 & _ & P).
  assert (Gl : (List.length gs <= List.length ms)%nat)
    by exact (Printed.groups_length _ _ _ _ _ (Printed.icdar_grouping _ _ _ _ _ _ _ Ev)).
  assert (Lg : forall g, In g gs -> (List.length g <= n)%nat).
  { intros g K. destruct (Evaluation.eval_group_in _ _ _ _ _ _ _ _ _ _ _ _ _ Ev g K) as [_ Sg].
    assert (L := Printed.sublist_length _ _ Sg). lia. }
  assert (Lm' : (List.length ms <= n)%nat) by lia.
  assert (Lg' : (List.length gs <= n)%nat) by lia.
  destruct (Printed.stats_double srt c ms gs Fm (fun g K => proj2 (Fg g K)) n Hs Ln Lm' Lg Lg' d1 d2 D1 D2)
    as (v1 & v2 & v3 & v4 & St & _ & _ & _ & _ & W1 & W2).
  exists ms, log, gs, v1, v2, v3, v4, d1, d2. eexists. split; [exact Ev|]. split; [exact St|]. split; [exact P|]. auto.
Qed.
Print Assumptions c73_double.

(** An argument that is not an option. *)
Definition plain_name (n : bytes) : Prop := ~ dashed n /\ ~ In (ascii_of_N 0) n.

(** C73.  A command line that only names the files asks for the statistics of
    the collapsed ranking by decreasing scores, with interpolated precision and
    trapezoids, of all queries, with no intervals and no files. *)
Theorem c73_defaults : forall args c, Forall plain_name args -> command args c ->
  (exists r, args = [r] /\ cf_ref c = r /\ cf_hyp c = [] \/ exists h, args = [r; h] /\ cf_ref c = r /\ cf_hyp c = h) /\
  cf_sort c = lit "desc" /\ cf_collapse c = true /\ cf_interp c = true /\ cf_trapezoid c = true /\ no_bootstrap c /\
  cf_queryset c = [] /\ cf_querygroups c = [] /\ cf_dump c = [] /\ cf_grp c = [] /\ cf_mrp c = [].
Proof.
  intros args c F (asg & rest & s & (post & Oi & Se) & L & As & ->).
  assert (asg = [] /\ post = args) as [-> ->].
  { destruct Oi as [a|a asg h post Oi|a o a' b a'' asg h post No Ov Oi]; [auto| |].
    - inversion F as [|? ? [D _] _]; subst. destruct D. eexists. reflexivity.
    - inversion F as [|? ? [D _] _]; subst. destruct D. destruct No. eexists. reflexivity. }
  assert (rest = args) as ->.
  { destruct Se as [|a args D|args]; auto. inversion F as [|? ? [D _] _]; subst. destruct D. eexists. reflexivity. }
  destruct args as [|r [|h [|x args]]]; cbn [List.length] in L; try lia; cbn in As.
  - inversion As as [|? ? ? v ? ? V A2]; subst. inversion A2; subst. inversion V; subst. split; [exists r; left; auto|]. repeat split.
  - inversion As as [|? ? ? v ? ? V A2]; subst. inversion A2 as [|? ? ? v' ? ? V' A3]; subst. inversion A3; subst. inversion V; subst. inversion V'; subst.
    split; [exists r; right; exists h; auto|]. repeat split.
Qed.
Print Assumptions c73_defaults.

Lemma plain_pair r h : plain_name r -> plain_name h -> exists c, command [r; h] c.
Proof.
  intros [Dr Nr] [Dh Nh]. eexists. exists [], [r; h]. eexists. split; [|split; [|split; [|reflexivity]]].
  - exists [r; h]. split; [constructor|]. apply se_stop. auto.
  - simpl. lia.
  - cbn. econstructor; [apply vt_str; exact Nr|]. econstructor; [apply vt_str; exact Nh|]. constructor.
Qed.

Lemma plain_rh : Forall plain_name (map lit ["r"; "h"]).
Proof.
  repeat apply Forall_cons; try apply Forall_nil; (split; [intros [t K]; discriminate|]);
    cbv; intros K; repeat (destruct K as [K|K]; [discriminate|]); exact K.
Qed.

(** C73.  On the files of /repo/examples/Icdar17KwsEval with the default
    options gAP is 1/4 and mAP is 1/6. *)
Theorem c73_shipped : forall srt rngs show_int show_f64 w pn r h l e, sort_contract srt ->
  plain_name r -> plain_name h -> r <> [] -> h <> [] ->
  w_file w r = Some refs_text -> w_file w h = Some hyps_text ->
  icdar17 RArith RTrans srt rngs show_int show_f64 w pn [r; h] = (l, e) ->
  e = inr (FExit 0) /\
  exists v3 v4, printed l = [(lit "gAP", (1 / 4)%R); (lit "mAP", (1 / 6)%R); (lit "gNDCG", v3); (lit "mNDCG", v4)].
Proof.
  intros srt rngs si sf w pn r h l e Hs Pr Ph Nr Nh Fr Fh E.
  destruct (plain_pair r h Pr Ph) as (c & Cm).
  destruct (c73_defaults [r; h] c) as ((r' & Hn) & Cs & Cc & Ci & Ct & NB & Cq & Cg & Cd & Cx & Cy);
    [exact (Forall_cons _ Pr (Forall_cons _ Ph (Forall_nil _)))|exact Cm|].
  destruct Hn as [(Hn & _)|(h' & Hn & C1 & C2)]; [discriminate|]. injection Hn as <- <-.
  assert (exists c' refs hyps f, command (map lit ["r"; "h"]) c' /\ inputs shaped_text scored_shaped_text here c' refs hyps f /\
    f = NoQueries) as (c' & refs & hyps & f & Cm' & I' & ->).
  { eexists _, _, _, _. split; [apply Compute.config_for_ok; vm_compute; reflexivity|].
    split; [apply Compute.icdar_inputs_ok; vm_compute; reflexivity|reflexivity]. }
  destruct (c73_defaults (map lit ["r"; "h"]) c') as ((r' & Hn) & Cs' & Cc' & Ci' & Ct' & NB' & _);
    [apply plain_rh|exact Cm'|].
  destruct Hn as [(Hn & _)|(h' & Hn & C1' & C2')]; [discriminate|]. injection Hn as <- <-.
  assert (I : inputs shaped_text scored_shaped_text w c refs hyps NoQueries).
  { destruct I' as [_ (b & B1 & B2) (b' & B3 & B4) _ _]. constructor.
    - now rewrite C1.
    - rewrite C1' in B1. injection B1 as <-. rewrite C1. eauto.
    - unfold hyp_source in *. rewrite C2' in B3. cbn in B3. injection B3 as <-. rewrite C2. destruct h; [easy|]. eauto.
    - now constructor.
    - now rewrite Cd. }
  split.
  - destruct (c68_success RArith RTrans srt rngs si sf w pn [r; h] c refs hyps NoQueries Hs Cm NB I (or_introl Cx) (or_introl Cy)) as [K _].
    rewrite E in K. exact K.
  - destruct (try_icdar17 ["r"; "h"]) as [l' e'] eqn:E'.
    assert (P' : exists v3 v4, printed l' = [(lit "gAP", 1 # 4); (lit "mAP", 1 # 6); (lit "gNDCG", v3); (lit "mNDCG", v4)]%Q).
    { change l' with (fst (l', e')). rewrite <- E'. eexists _, _. vm_compute. reflexivity. }
    destruct P' as (v3 & v4 & P').
    destruct (Printed.icdar_values TQ RTrans srt (@isort) rngs (fun _ => stream (fun _ => O)) si sf (fun _ => []) (fun _ => []) w here pn (lit "prog")
      [r; h] (map lit ["r"; "h"]) c c' refs hyps NoQueries l e l' e' (1 # 4)%Q (1 # 6)%Q v3 v4) as (n3 & n4 & P); auto; try congruence.
    + apply Order.isort_contract.
    + exists n3, n4. rewrite P. unfold Q2R. simpl. replace (1 * / 4)%R with (1 / 4)%R by lra. replace (1 * / 6)%R with (1 / 6)%R by lra. reflexivity.
Qed.
Print Assumptions c73_shipped.

(** The hypotheses: the shipped example and the example of SimpleKwsEval, with
    few events. *)
Example c73_inputs :
  (exists c refs hyps, command (map lit ["r"; "h"]) c /\ no_bootstrap c /\
    inputs shaped_text scored_shaped_text here c refs hyps NoQueries /\ countable c refs hyps /\
    List.length refs = 6%nat /\ List.length hyps = 7%nat) /\
  (exists c refs hyps, command (map lit ["sr"; "sh"]) c /\ no_bootstrap c /\
    inputs str_event_text scored_str_event_text here c refs hyps NoQueries /\ countable c refs hyps /\
    (Z.of_nat (strings refs hyps NoQueries) <= 2147483648)%Z /\ List.length refs = 3%nat /\ List.length hyps = 4%nat).
Proof.
  split; eexists _, _, _; (split; [apply Compute.config_for_ok; vm_compute; reflexivity|]; split; [repeat split|]).
  - split; [apply Compute.icdar_inputs_ok; vm_compute; reflexivity|]. split; [|split; reflexivity].
    intros _. vm_compute. discriminate.
  - split; [apply Compute.simple_inputs_ok; vm_compute; reflexivity|]. split; [|split; [|split; reflexivity]].
    + intros _. vm_compute. discriminate.
    + vm_compute. discriminate.
Qed.

(** What rational arithmetic gives for them; and double, where gAP is exactly
    1/4 and mAP the double nearest to 1/6. *)
Example c73_values :
  firstn 2 (printed (fst (try_icdar17 ["r"; "h"]))) = [(lit "gAP", 1 # 4); (lit "mAP", 1 # 6)]%Q /\
  firstn 2 (printed (fst (try_simple ["sr"; "sh"]))) = [(lit "gAP", 5 # 9); (lit "mAP", 1 # 2)]%Q.
Proof. vm_compute. auto. Qed.

Definition TD : Trans DArith := mkTrans DArith (fun x => x) (fun n => a_nat DArith n).

Example c73_double_values :
  map (fun p : bytes * f64 => B2SF (snd p))
    (firstn 2 (printed (fst (icdar17 DArith TD (@isort) (fun _ => stream (fun _ => O)) (fun _ => []) (fun _ => []) here (lit "prog") (map lit ["r"; "h"]))))) =
  [SpecFloat.S754_finite false 4503599627370496 (-54); SpecFloat.S754_finite false 6004799503160661 (-55)].
Proof. vm_compute. reflexivity. Qed.

(** ** C74 *)

(** C74.  The matches of SimpleKwsEval are, with ids for the strings, those of
    comparing strings: in the ranking, a hypothesis is a hit if its query and
    location are a reference and it is the first with them, left out and put
    into the log if it is a later one, and a false alarm if they are no
    reference; the references with no hypothesis follow as misses. *)
Theorem c74_simple : forall A (T : Trans A) srt rngs show_int show_f64 qf w pn args c refs hyps f l r, sort_contract srt ->
  command args c -> inputs str_event_text scored_str_event_text w c refs hyps f ->
  simple_kws A T srt rngs show_int show_f64 qf w pn args = (l, r) ->
  (r = inr (FThrow RangeError) /\ outputs l = []) \/
  exists id refs' hyps' rank found missed log groups rest, (forall s s', id s = id s' -> s = s') /\
    selects (fun e => kept f (ev_query e)) refs refs' /\
    selects (fun h => kept f (ev_query (sc_base h))) hyps hyps' /\
    ranking (fun x y => c_lt cmp_int_event (renamed id x) (renamed id y)) (cf_sort c) hyps' rank /\
    first_rules refs' rank found log /\
    (forall e, In e missed <-> In e refs' /\ forall h, In h rank -> sc_base h <> e) /\ NoDup missed /\
    grouping ev_query ev_query f (found ++ map make_fn missed) groups /\
    outputs l = dumped c (map (renamed_match id) (found ++ map make_fn missed)) (map (renamed_match id) log) ++ rest /\
    only_curves w c rest.
Proof.
  intros A T srt rngs si sf qf w pn args c refs hyps f l r Hs Cm I E.
  destruct (Runs.simple_dump T srt Hs rngs si sf qf w pn args c refs hyps f l r Cm I E)
    as [K|(id & ms & log & gs & rest & Inj & _ & Ev & O & Nd)]; [left; exact K|right].
  destruct Ev as (refs' & hyps' & rank & taken & found & missed & S1 & S2 & Rk & Mt & Ss & Ms & -> & Gr).
  destruct (Runs.first_rules_spec cmp_str Order.total_order_str cmp_str Order.total_order_str _ _ _ _ _ Mt) as [Fr Tk].
  exists id, refs', hyps', rank, found, missed, log, gs, rest.
  repeat (split; [assumption|]). split; [|split; [|auto]].
  - intros e. rewrite Ms, Tk. split.
    + intros [K N]. split; [exact K|]. intros h Ih Eh. apply N. eauto.
    + intros [K N]. split; [exact K|]. intros [_ (h & Ih & Eh)]. exact (N h Ih Eh).
  - clear - Ss. induction Ss as [|x l Ss IH F]; constructor; auto. intros K. rewrite Forall_forall in F. apply F in K.
    rewrite (to_irrefl _ Instances.total_order_int_event) in K. discriminate.
Qed.
Print Assumptions c74_simple.

(** The hypotheses and a run in which one hypothesis is a repetition. *)
Example c74_case :
  (exists c refs hyps, command (map lit ["--dump_matches"; "m"; "sr"; "sh"]) c /\
    inputs str_event_text scored_str_event_text here c refs hyps NoQueries /\ List.length hyps = 4%nat) /\
  match dump_in (fst (try_simple ["--dump_matches"; "m"; "sr"; "sh"])) with
  | Some (_, ms, log) => map (fun m => (m_ref m, option_map sc_base (m_hyp m))) ms =
      [(Some (Event 0 1), Some (Event 0 1)); (None, Some (Event 3 4)); (Some (Event 3 1), Some (Event 3 1)); (Some (Event 0 2), None)]%Z /\
      map (fun m => (m_ref m, option_map sc_base (m_hyp m))) log = [(Some (Event 0 1), Some (Event 0 1))]%Z
  | None => False
  end.
Proof.
  split.
  - eexists _, _, _. split; [apply Compute.config_for_ok; vm_compute; reflexivity|].
    split; [apply Compute.simple_inputs_ok; vm_compute; reflexivity|reflexivity].
  - vm_compute. auto.
Qed.

(** ** C75 *)

(** C75.  Writing a curve: nothing is opened for an empty name or lists of
    different lengths; otherwise one line for each point. *)
Theorem c75_write : forall A name (x y : list (num A)),
  (name = [] \/ List.length x <> List.length y -> forall can_open, write_curve A can_open name x y = Throw InvalidArgument) /\
  (name <> [] -> List.length x = List.length y -> forall can_open,
    write_curve A can_open name x y = if can_open name then Ok (combine x y) else Throw IosFailure) /\
  (forall can_open pts, write_curve A can_open name x y = Ok pts -> can_open name = true /\ map fst pts = x /\ map snd pts = y).
Proof.
  intros A name x y. split; [|split].
  - intros H can. unfold write_curve. destruct name; [reflexivity|]. destruct H as [H|H]; [discriminate|].
    destruct (Nat.eqb_spec (List.length x) (List.length y)); [contradiction|reflexivity].
  - intros N L can. unfold write_curve. destruct name; [easy|]. now rewrite L, Nat.eqb_refl.
  - intros can pts. unfold write_curve. destruct name; [discriminate|].
    destruct (Nat.eqb_spec (List.length x) (List.length y)) as [L|L]; [|discriminate].
    destruct (can _); [|discriminate]. intros H. injection H as <-. split; [reflexivity|].
    revert y L. induction x as [|x0 x IH]; intros [|y0 y] L; try discriminate; [auto|]. injection L as L.
    cbn. destruct (IH y L) as [-> ->]. auto.
Qed.
Print Assumptions c75_write.

(** C75.  The curve files of Icdar17KwsEval, in exact arithmetic: after the
    four statistics the global curve of the matches, then the mean curve of the
    groups, at evenly spaced points; a file that cannot be written ends the run
    with an exception. *)
Theorem c75_icdar17 : forall srt rngs show_int show_f64 w pn args c refs hyps f l r, sort_contract srt ->
  command args c -> no_bootstrap c -> inputs shaped_text scored_shaped_text w c refs hyps f -> countable c refs hyps ->
  icdar17 RArith RTrans srt rngs show_int show_f64 w pn args = (l, r) ->
  exists ms log groups stats curves e, icdar17_evaluation (cf_sort c) f refs hyps ms log groups /\
    outputs l = dumped c ms log ++ stats ++ curves /\ stat_names stats = [lit "gAP"; lit "mAP"; lit "gNDCG"; lit "mNDCG"] /\ r = inr e /\
    curve_files (A := RArith) w c (global_curve c ms) (fun pts => groups <> [] -> mean_curve c groups pts) curves e.
Proof.
  intros srt rngs si sf w pn args c refs hyps f l r Hs Cm NB I Cn E.
  destruct (Instances.icdar_run RTrans srt Hs rngs si sf w pn args c refs hyps f l r Cm NB I E) as (ms & log & gs & Fi & Ev & Rp).
  destruct (Printed.icdar_fine srt c _ _ _ _ _ _ _ Hs Fi Ev Cn) as (Fm & Fg & _ & _).
  destruct Rp as (v1 & v2 & v4 & curves & e & Er & _ & _ & _ & O & Cv).
  exists ms, log, gs. eexists. exists curves, e. split; [exact Ev|]. split; [exact O|]. split; [reflexivity|]. split; [exact Er|].
  revert Cv. apply Printed.curve_files_weaken.
  - intros _ _ p. now apply Runs.global_points_spec.
  - intros N W p Mp NE. apply (Runs.mean_points_spec w); auto. intros g K. apply (Fg g K).
Qed.
Print Assumptions c75_icdar17.

(** C75.  The same for SimpleKwsEval. *)
Theorem c75_simple : forall srt rngs show_int show_f64 qf w pn args c refs hyps f l r, sort_contract srt ->
  command args c -> no_bootstrap c -> inputs str_event_text scored_str_event_text w c refs hyps f -> countable c refs hyps ->
  (Z.of_nat (strings refs hyps f) <= 2147483648)%Z ->
  simple_kws RArith RTrans srt rngs show_int show_f64 qf w pn args = (l, r) ->
  exists id ms log groups stats curves e, (forall s s', id s = id s' -> s = s') /\
    simple_evaluation id (cf_sort c) f refs hyps ms log groups /\
    outputs l = dumped c (map (renamed_match id) ms) (map (renamed_match id) log) ++ stats ++ curves /\
    stat_names stats = [lit "gAP"; lit "mAP"; lit "gNDCG"; lit "mNDCG"] /\ r = inr e /\
    curve_files (A := RArith) w c (global_curve c ms) (fun pts => groups <> [] -> mean_curve c groups pts) curves e.
Proof.
  intros srt rngs si sf qf w pn args c refs hyps f l r Hs Cm NB I Cn Ls E.
  destruct (Instances.simple_run RTrans srt Hs rngs si sf w qf pn args c refs hyps f l r Cm NB I E Ls) as (id & ms & log & gs & Inj & Fi & Ev & Rp).
  destruct (Printed.simple_fine id c _ _ _ _ _ _ _ Inj Fi Ev Cn) as (Fm & Fg & _ & _).
  destruct Rp as (v1 & v2 & v4 & curves & e & Er & _ & _ & _ & O & Cv).
  exists id, ms, log, gs. eexists. exists curves, e. split; [exact Inj|]. split; [exact Ev|]. split; [exact O|]. split; [reflexivity|]. split; [exact Er|].
  revert Cv. apply Printed.curve_files_weaken.
  - intros _ _ p Gp. apply Runs.global_points_spec; [exact Fm|]. revert Gp. apply Printed.global_points_renamed.
  - intros N W p Mp NE. apply (Runs.mean_points_spec w); auto; [intros g K; apply (Fg g K)|].
    revert Mp. apply Printed.mean_points_renamed.
Qed.
Print Assumptions c75_simple.

(** C75.  In any arithmetic the files have one line for each sample point, none
    for fewer than two; both programs write them after the statistics. *)
Theorem c75_lines : forall A (T : Trans A) srt rngs show_int show_f64 w pn args c refs hyps f l r, sort_contract srt ->
  command args c -> no_bootstrap c -> inputs shaped_text scored_shaped_text w c refs hyps f ->
  icdar17 A T srt rngs show_int show_f64 w pn args = (l, r) ->
  exists ms log stats curves e, outputs l = dumped c ms log ++ stats ++ curves /\
    stat_names stats = [lit "gAP"; lit "mAP"; lit "gNDCG"; lit "mNDCG"] /\ r = inr e /\
    curve_files w c (sampled (cf_curve c)) (sampled (cf_curve c)) curves e.
Proof.
  intros A T srt rngs si sf w pn args c refs hyps f l r Hs Cm NB I E.
  destruct (Instances.icdar_run T srt Hs rngs si sf w pn args c refs hyps f l r Cm NB I E) as (ms & log & gs & Fi & Ev & Rp).
  destruct Rp as (v1 & v2 & v4 & curves & e & Er & _ & _ & _ & O & Cv).
  exists ms, log. eexists. exists curves, e. split; [exact O|]. split; [reflexivity|]. split; [exact Er|].
  revert Cv. apply Printed.curve_files_weaken; intros _ _ p K.
  - apply (Printed.global_sampled c ms p K).
  - apply (Printed.mean_sampled w c gs p K).
Qed.
Print Assumptions c75_lines.

(** C75.  In double arithmetic the x values are the doubles nearest to the
    evenly spaced numbers. *)
Theorem c75_double_x : forall n i x, (Z.of_nat n <= 2 ^ 53)%Z -> nth_error (even_points DArith n) i = Some x ->
  (1 < n)%nat /\ (i < n)%nat /\ is_double x (nearest64 (INR i / INR (n - 1))).
Proof.
  intros n i x L E. unfold even_points in E. destruct (Nat.ltb_spec 1 n) as [N|N]; [|destruct i; discriminate].
  apply Metrics.nth_error_map_seq_inv in E as [Li ->]. split; [exact N|]. split; [exact Li|].
  cbn [a_div a_nat DArith].
  destruct (Double.wholef_nat i) as [F1 V1]; [lia|]. destruct (Double.wholef_nat (n - 1)) as [F2 V2]; [lia|].
  destruct (Double.div01 (f64_of_Z (Z.of_nat i)) (f64_of_Z (Z.of_nat (n - 1)))) as [F V]; auto.
  - rewrite V1, V2. split; apply IZR_le; lia.
  - rewrite V2. apply IZR_lt. lia.
  - split; [exact F|]. rewrite V, V1, V2, <- !INR_IZR_INZ. reflexivity.
Qed.
Print Assumptions c75_double_x.

(** C75.  With no match at all the mean curve is not a number at every point
    (it should be the mean of no curves): a run of double arithmetic with empty
    files. *)
Definition curve_in {A RE HE} (l : list (effect A (RE := RE) (HE := HE))) : list (bytes * list (num A * num A)) :=
  flat_map (fun e => match e with EWrite n (FCurve pts) => [(n, pts)] | _ => [] end) l.

Theorem c75_no_matches_refuted : exists args c,
  command args c /\ no_bootstrap c /\ inputs shaped_text scored_shaped_text here c [] [] NoQueries /\
  exists name pts, curve_in (fst (icdar17 DArith TD (@isort) (fun _ => stream (fun _ => O)) (fun _ => []) (fun _ => []) here (lit "prog") args)) = [(name, pts)] /\
    List.length pts = 3%nat /\ forall x y, In (x, y) pts -> is_nan (y : f64) = true.
Proof.
  exists (map lit ["--output_mrp"; "m"; "--rp_curve_samples"; "3"; "empty"; "empty"]). eexists.
  split; [apply Compute.config_for_ok; vm_compute; reflexivity|]. split; [repeat split|].
  split; [apply Compute.icdar_inputs_ok; vm_compute; reflexivity|].
  set (cs := curve_in _).
  assert (H : map (fun c : bytes * list (f64 * f64) => map (fun p => is_nan (snd p)) (snd c)) cs = [[true; true; true]])
    by (vm_compute; reflexivity).
  clearbody cs. destruct cs as [|[n pts] [|? ?]]; try discriminate. exists n, pts. split; [reflexivity|].
  injection H as H. split; [assert (L := f_equal (@List.length bool) H); rewrite map_length in L; exact L|].
  intros x y K. assert (I : In (is_nan (y : f64)) [true; true; true]).
  { exact (eq_ind _ (In (is_nan (y : f64))) (in_map (fun p : f64 * f64 => is_nan (snd p)) pts (x, y) K) _ H). }
  simpl in I. intuition congruence.
Qed.
Print Assumptions c75_no_matches_refuted.

(** Both curves of the shipped example at three points, and the hypotheses. *)
Example c75_case :
  curve_in (fst (try_icdar17 ["--output_grp"; "g"; "--output_mrp"; "m"; "--rp_curve_samples"; "3"; "r"; "h"])) =
    [(lit "g", [(0, 1); (1 # 2, 0); (1, 0)]); (lit "m", [(0, 5 # 8); (1 # 2, 1 # 4); (1, 0)])]%Q /\
  curve_in (fst (try_icdar17 ["--output_grp"; "g"; "--rp_curve_samples"; "1"; "r"; "h"])) = [(lit "g", [])] /\
  exists c refs hyps, command (map lit ["--output_grp"; "g"; "--output_mrp"; "m"; "--rp_curve_samples"; "3"; "r"; "h"]) c /\
    no_bootstrap c /\ cf_curve c = 3%Z /\ inputs shaped_text scored_shaped_text here c refs hyps NoQueries /\ countable c refs hyps.
Proof.
  split; [vm_compute; reflexivity|]. split; [vm_compute; reflexivity|]. eexists _, _, _.
  split; [apply Compute.config_for_ok; vm_compute; reflexivity|]. split; [repeat split|]. split; [reflexivity|].
  split; [apply Compute.icdar_inputs_ok; vm_compute; reflexivity|]. intros _. vm_compute. discriminate.
Qed.

(** ** C76 *)

(** C76.  The file of matches is the first output, holds the matches of the
    evaluation and the repeated ones, and no other is written; with or without
    bootstrapping. *)
Theorem c76_icdar17 : forall A (T : Trans A) srt rngs show_int show_f64 w pn args c refs hyps f l r, sort_contract srt ->
  command args c -> inputs shaped_text scored_shaped_text w c refs hyps f ->
  icdar17 A T srt rngs show_int show_f64 w pn args = (l, r) ->
  exists ms log groups rest, icdar17_evaluation (cf_sort c) f refs hyps ms log groups /\
    outputs l = dumped c ms log ++ rest /\ only_curves w c rest.
Proof.
  intros A T srt rngs si sf w pn args c refs hyps f l r Hs Cm I E.
  destruct (Runs.icdar_dump T srt Hs rngs si sf w pn args c refs hyps f l r Cm I E) as (ms & log & gs & rest & _ & Ev & O & N).
  exists ms, log, gs, rest. auto.
Qed.
Print Assumptions c76_icdar17.

(** C76.  The same for SimpleKwsEval. *)
Theorem c76_simple : forall A (T : Trans A) srt rngs show_int show_f64 qf w pn args c refs hyps f l r, sort_contract srt ->
  command args c -> inputs str_event_text scored_str_event_text w c refs hyps f ->
  simple_kws A T srt rngs show_int show_f64 qf w pn args = (l, r) ->
  (r = inr (FThrow RangeError) /\ outputs l = []) \/
  exists id ms log groups rest, (forall s s', id s = id s' -> s = s') /\
    simple_evaluation id (cf_sort c) f refs hyps ms log groups /\
    outputs l = dumped c (map (renamed_match id) ms) (map (renamed_match id) log) ++ rest /\ only_curves w c rest.
Proof.
  intros A T srt rngs si sf qf w pn args c refs hyps f l r Hs Cm I E.
  destruct (Runs.simple_dump T srt Hs rngs si sf qf w pn args c refs hyps f l r Cm I E)
    as [K|(id & ms & log & gs & rest & Inj & _ & Ev & O & N)]; [left; exact K|right].
  exists id, ms, log, gs, rest. auto.
Qed.
Print Assumptions c76_simple.

(** The dump of the shipped example has nine matches and two repeated ones. *)
Example c76_case :
  match dump_in (fst (try_icdar17 ["--dump_matches"; "m"; "--bootstrap_ci_gap"; "true"; "--bootstrap_samples"; "2"; "r"; "h"])) with
  | Some (n, ms, log) => n = lit "m" /\ List.length ms = 9%nat /\ List.length log = 2%nat
  | None => False
  end /\
  exists c refs hyps, command (map lit ["--dump_matches"; "m"; "--bootstrap_ci_gap"; "true"; "--bootstrap_samples"; "2"; "r"; "h"]) c /\
    inputs shaped_text scored_shaped_text here c refs hyps NoQueries.
Proof.
  split; [vm_compute; auto|]. eexists _, _, _.
  split; [apply Compute.config_for_ok; vm_compute; reflexivity|]. apply Compute.icdar_inputs_ok; vm_compute; reflexivity.
Qed.
