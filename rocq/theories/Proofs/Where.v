(** Proofs about runs that read the same inputs from other places. *)
From Coq Require Import Ascii String List Bool ZArith Lia.
From Verif.Model Require Import Cpp Floats Box Events EventSets Matches Matcher Scorers Assessment Bootstrap Mapper Stream Reader Options Tool.
From Verif.Spec Require Import Order Objects Sets Matching Scorers Grouping Reader Options Tool Where.
From Verif.Proofs Require Import Queries Tool Programs.
From Verif.Proofs Require Reader Instances Names.
Import ListNotations.
Local Open Scope list_scope.

Section Quiet.
  Context {A : Arith} {RE HE : Type}.
  Notation P X := (prog A (RE := RE) (HE := HE) X).

  (** The same but for the messages. *)
  Definition quiet {X} (p p' : P X) : Prop := outputs (fst p) = outputs (fst p') /\ snd p = snd p'.

  Lemma quiet_refl {X} (p : P X) : quiet p p.
  Proof. now split. Qed.

  Lemma quiet_bind {X Y} (p p' : P X) (k k' : X -> P Y) : quiet p p' -> (forall x, quiet (k x) (k' x)) -> quiet (pbind A p k) (pbind A p' k').
  Proof.
    destruct p as [l [x|e]], p' as [l' [x'|e']]; intros [O E] K; cbn [fst snd] in O, E; try discriminate.
    - injection E as <-. destruct (K x) as [O' E']. unfold quiet, pbind. destruct (k x) as [u a], (k' x) as [u' a']. cbn [fst snd] in *.
      rewrite !Tool.outputs_app. split; congruence.
    - injection E as <-. split; [exact O|reflexivity].
  Qed.

  Lemma quiet_diag {X} d (p p' : P X) : quiet p p' -> quiet (pbind A (emit A (EDiag d)) (fun _ => p)) p'.
  Proof. intros [O E]. unfold quiet, emit, pbind. destruct p as [l a]. exact (conj O E). Qed.

  Lemma quiet_sym {X} (p p' : P X) : quiet p p' -> quiet p' p.
  Proof. intros [O E]. now split. Qed.

  Lemma quiet_trans {X} (p p' p'' : P X) : quiet p p' -> quiet p' p'' -> quiet p p''.
  Proof. intros [O E] [O' E']. split; congruence. Qed.
End Quiet.

Section Places.
  Context {A : Arith} (T : Trans A) {Q RE E ER EE St : Type}.
  Notation HE := (scored E).
  Variable srt : sort_fn.
  Variable rngs : Z -> rng.
  Variables (show_int : Z -> bytes) (show_f64 : f64 -> bytes).
  Variables (cq : Cmp Q) (cr : Cmp RE) (ce : Cmp E).
  Variables (rq : RE -> Q) (hq : E -> Q).
  Variable S : EvSet RE HE.
  Variable scorer : RE -> HE -> match_error.
  Variables (rd_r : istream -> ER * istream) (text_r : bytes -> ER -> Prop).
  Variables (rd_h : istream -> scored EE * istream) (text_h : bytes -> scored EE -> Prop).
  Hypothesis Fr : format rd_r text_r.
  Hypothesis Fh : format rd_h text_h.
  Variables (mr : St -> ER -> outcome (RE * St)) (mh : St -> scored EE -> outcome (HE * St)) (mq : St -> bytes -> outcome (Q * St)).
  Variable desc : bytes.

  Lemma load_refs_quiet w c raw_r raw_h f st : inputs text_r text_h w c raw_r raw_h f ->
    quiet (HE := HE) (load_refs A (fun f st => read_file rd_r mr f [] st) w c st) (run A (map_all mr st raw_r)).
  Proof.
    intros [N (b & B & Rb) _ _ _]. unfold load_refs. destruct (cf_ref c) as [|x nm] eqn:Nm; [contradiction|]. rewrite <- Nm in *. rewrite B. cbn [read_file].
    rewrite (Tool.read_good rd_r text_r mr b st raw_r [] Fr Rb). destruct (map_all mr st raw_r) as [[l s]| |e]; now split.
  Qed.

  Lemma load_hyps_quiet w c a raw_r raw_h f st : inputs text_r text_h w c raw_r raw_h f ->
    quiet (RE := RE) (load_hyps A (fun f st => read_file rd_h mh f [] st) (fun b st => read_stream rd_h mh (open_stream b) [] st) w a c st) (run A (map_all mh st raw_h)).
  Proof.
    intros [_ _ (b & B & Rb) _ _].
    assert (E1 : forall w0 s, match cf_hyp c with [] => read_stream rd_h mh (open_stream (w_stdin w0)) [] s
               | x :: l => read_file rd_h mh (w_file w0 (x :: l)) [] s end = read_file rd_h mh (hyp_source w0 c) [] s) by (intros; unfold hyp_source; now destruct (cf_hyp c)).
    unfold load_hyps. rewrite !E1, B. cbn [read_file].
    rewrite (Tool.read_good rd_h text_h mh b st raw_h [] Fh Rb). destruct (map_all mh st raw_h) as [[l s]| |e]; now split.
  Qed.

  (** The map of the lines of a file of groups. *)
  Fixpoint lines_map (fs : list (list bytes)) (m : list (Q * Q)) (st : St) : outcome (list (Q * Q) * St) :=
    match fs with
    | [] => Ok (m, st)
    | ws :: fs => obind (map_all mq st ws) (fun r => lines_map fs (add_group cq (fst r) m) (snd r))
    end.

  Lemma group_lines_quiet name ls fs : Forall2 words ls fs -> Forall (fun ws => 2 <= length ws)%nat fs -> forall m st,
    quiet (RE := RE) (HE := HE) (group_lines A cq mq name ls m st) (run A (lines_map fs m st)).
  Proof.
    intros W. induction W as [|l ws ls fs Wl W IH]; intros Fo m st; cbn [group_lines lines_map]; [apply quiet_refl|].
    inversion Fo as [|x y L F']; subst. rewrite (words_of_ok l ws Wl). cbn [run]. rewrite !pbind_nil, !map_words_all.
    destruct (map_all mq st ws) as [[y s]| |e] eqn:Em; cbn [run pbind obind fst snd]; [|apply quiet_refl|apply quiet_refl].
    assert (Ly : length y = length ws).
    { clear - Em. revert st y s Em. induction ws as [|x ws IH]; intros st y s Em; cbn [map_all] in Em; [now injection Em as <- _|].
      destruct (mq st x) as [[v u]| |]; try discriminate. destruct (map_all mq u ws) as [[vs u']| |] eqn:E'; try discriminate.
      injection Em as <- _. cbn [length]. f_equal. eapply IH, E'. }
    rewrite Ly. destruct (Nat.ltb (length ws) 2) eqn:Lt; [apply Nat.ltb_lt in Lt; lia|].
    specialize (IH F' (add_group cq y m) s). destruct (group_lines A cq mq name ls _ s) as [u a]. exact IH.
  Qed.

  (** The map of a file of queries. *)
  Definition queries_map (f : query_file bytes) (st : St) : outcome (list (Q * Q) * St) :=
    match f with
    | NoQueries => Ok ([], st)
    | QuerySet ws => obind (map_all mq st ws) (fun r => Ok (fold_left (fun m q => map_set (c_eq cq) q q m) (fst r) [], snd r))
    | QueryGroups fs => lines_map fs [] st
    end.

  Lemma load_queries_quiet w c raw_r raw_h f st : inputs text_r text_h w c raw_r raw_h f ->
    quiet (RE := RE) (HE := HE) (load_queries A cq mq w c st) (run A (queries_map f st)).
  Proof.
    intros I. assert (N := in_queries _ _ _ _ _ _ _ I). unfold load_queries.
    destruct N as [N1 N2|b ws N1 N2 B W|b ls fs N1 B L W F].
    - rewrite N1, N2. apply quiet_refl.
    - rewrite N1. destruct (cf_queryset c) as [|x name] eqn:N3; [contradiction|]. rewrite <- N3 in *. unfold load_query_set.
      rewrite B, (words_of_ok b ws W). cbn [run queries_map]. rewrite !pbind_nil, !map_words_all.
      destruct (map_all mq st ws) as [[y s]| |e]; cbn [run pbind obind fst snd]; now split.
    - destruct (cf_querygroups c) as [|x name] eqn:N3; [contradiction|]. rewrite <- N3 in *. unfold load_query_groups.
      rewrite B, (lines_of_ok b ls L). cbn [run queries_map]. rewrite !pbind_nil.
      assert (K := group_lines_quiet (cf_querygroups c) ls fs W (proj2 (Forall_forall _ _) F) [] st). destruct (group_lines A cq mq (cf_querygroups c) ls [] st) as [l1 [[m1 s1]|e1]];
        destruct K as [K1 K2]; cbn [fst snd] in K1, K2.
      + destruct (lines_map fs [] st) as [[m2 s2]| |e2]; cbn [run snd fst] in K2, K1; try discriminate. injection K2 as <- <-.
        unfold quiet, pbind, pret, emit. cbn [fst snd run app]. rewrite Tool.outputs_app, K1. now split.
      + split; [exact K1|exact K2].
  Qed.

  Lemma filter_quiet c c' m refs hyps : quiet (filter_inputs A cq rq (fun h : HE => hq (sc_base h)) c m refs hyps) (filter_inputs A cq rq (fun h : HE => hq (sc_base h)) c' m refs hyps).
  Proof.
    unfold filter_inputs. destruct m as [|p m]; [apply quiet_refl|].
    apply quiet_bind; [apply quiet_refl|intros _]. apply quiet_bind; [apply quiet_refl|intros _].
    apply quiet_bind; [|intros _; apply quiet_refl]. destruct (cf_querygroups c), (cf_querygroups c'); now split.
  Qed.

  Lemma tool_places w w' c c' raw_r raw_h f st0 pn pn' args args' : command args c -> command args' c' -> same_settings c c' ->
    inputs text_r text_h w c raw_r raw_h f -> inputs text_r text_h w' c' raw_r raw_h f -> w_writable w = w_writable w' ->
    quiet (tool T srt rngs show_int show_f64 cq cr ce rq hq S scorer rd_r rd_h mr mh mq desc w st0 pn args)
      (tool T srt rngs show_int show_f64 cq cr ce rq hq S scorer rd_r rd_h mr mh mq desc w' st0 pn' args').
  Proof.
    intros Cm Cm' Ss I I' Hw. apply command_parse in Cm as (s & Ps & Ec). apply command_parse in Cm' as (s' & Ps' & Ec').
    unfold tool, tool_main, parse_command_line. cbv zeta. rewrite !parse_same, Ps, Ps'. unfold pret at 1 2. rewrite !pbind_nil. rewrite <- Ec, <- Ec'. clear Ps Ec s Ps' Ec' s'.
    apply quiet_bind; [eapply quiet_trans; [exact (load_refs_quiet w c raw_r raw_h f st0 I)|apply quiet_sym; exact (load_refs_quiet w' c' raw_r raw_h f st0 I')]|]. intros [refs s1].
    apply quiet_bind; [eapply quiet_trans; [exact (load_hyps_quiet w c _ raw_r raw_h f s1 I)|apply quiet_sym; exact (load_hyps_quiet w' c' _ raw_r raw_h f s1 I')]|]. intros [hyps s2].
    apply quiet_bind; [eapply quiet_trans; [exact (load_queries_quiet w c raw_r raw_h f s2 I)|apply quiet_sym; exact (load_queries_quiet w' c' raw_r raw_h f s2 I')]|]. intros [m s3].
    apply quiet_bind; [apply filter_quiet|]. intros [refs' hyps'].
    destruct c, c'. unfold same_settings in Ss. cbn in Ss. decompose [and] Ss. subst.
    unfold dump_matches, report, write_global_curve, write_mean_curve. rewrite Hw. apply quiet_refl.
  Qed.
End Places.

Section Programs.
  Context {A : Arith} (T : Trans A) (srt : sort_fn) (rngs : Z -> rng) (show_int : Z -> bytes) (show_f64 : f64 -> bytes).

  Lemma icdar_places w w' pn pn' args args' c c' refs hyps f : command args c -> command args' c' -> same_settings c c' ->
    inputs shaped_text scored_shaped_text w c refs hyps f -> inputs shaped_text scored_shaped_text w' c' refs hyps f -> w_writable w = w_writable w' ->
    quiet (icdar17 A T srt rngs show_int show_f64 w pn args) (icdar17 A T srt rngs show_int show_f64 w' pn' args').
  Proof.
    rewrite !Instances.icdar17_tool.
    apply (tool_places T srt rngs show_int show_f64 _ _ _ _ _ _ _ read_shaped shaped_text (read_scored read_shaped) scored_shaped_text Reader.fm_shaped Reader.fm_scored_shaped).
  Qed.

  Lemma simple_places qf w w' pn pn' args args' c c' refs hyps f : command args c -> command args' c' -> same_settings c c' ->
    inputs str_event_text scored_str_event_text w c refs hyps f -> inputs str_event_text scored_str_event_text w' c' refs hyps f -> w_writable w = w_writable w' ->
    quiet (simple_kws A T srt rngs show_int show_f64 qf w pn args) (simple_kws A T srt rngs show_int show_f64 qf w' pn' args').
  Proof.
    rewrite !Instances.simple_tool.
    apply (tool_places T srt rngs show_int show_f64 _ _ _ _ _ _ _ read_str_event str_event_text (read_scored read_str_event) scored_str_event_text Reader.fm_str_event Reader.fm_scored_str_event).
  Qed.

  (** With the same command line, the messages are the same as well. *)
  Lemma icdar_files w w' pn args c refs hyps f : command args c ->
    inputs shaped_text scored_shaped_text w c refs hyps f -> inputs shaped_text scored_shaped_text w' c refs hyps f -> w_writable w = w_writable w' ->
    icdar17 A T srt rngs show_int show_f64 w pn args = icdar17 A T srt rngs show_int show_f64 w' pn args.
  Proof.
    intros Cm I I' Hw. rewrite !Instances.icdar17_tool.
    assert (Id : forall (X : Type) (x : X * unit), exists v u, x = (v, u)) by (intros X [v u]; eauto).
    assert (I2 : inputs shaped_text scored_shaped_text w' c refs hyps (map_queries (fun s => s) f)).
    { replace (map_queries (fun s => s) f) with f; [exact I'|]. destruct f as [|qs|ls]; cbn [map_queries]; [reflexivity|now rewrite map_id|].
      f_equal. clear. induction ls as [|l ls IH]; [reflexivity|]. cbn [map]. rewrite map_id. now f_equal. }
    assert (Rf : forall X (o : outcome (X * unit)), Names.agree eq o o) by (intros X [[x s]| |e]; repeat split).
    apply (Names.tool_two T srt rngs show_int show_f64 _ _ _ _ _ _ _ read_shaped shaped_text (read_scored read_shaped) scored_shaped_text
      Reader.fm_shaped Reader.fm_scored_shaped _ _ _ _ eq w w' c refs refs hyps hyps f (fun s => s) I I2 Hw); try (intros; subst; apply Rf); auto.
  Qed.

  Lemma simple_files qf w w' pn args c refs hyps f : command args c ->
    inputs str_event_text scored_str_event_text w c refs hyps f -> inputs str_event_text scored_str_event_text w' c refs hyps f -> w_writable w = w_writable w' ->
    simple_kws A T srt rngs show_int show_f64 qf w pn args = simple_kws A T srt rngs show_int show_f64 qf w' pn args.
  Proof.
    intros Cm I I' Hw. apply (Names.simple_names T srt rngs show_int show_f64 qf w w' pn args c refs hyps f (fun s => s) Cm I); [|exact Hw|intros s t _ _ E; exact E].
    assert (M1 : forall l : list (event bytes bytes), map (Spec.Names.map_event (fun s => s) (fun s => s)) l = l).
    { induction l as [|[q x] l IH]; [reflexivity|]. cbn [map]. now rewrite IH. }
    assert (M2 : forall l : list (scored (event bytes bytes)), map (map_scored (Spec.Names.map_event (fun s => s) (fun s => s))) l = l).
    { induction l as [|[[q x] s] l IH]; [reflexivity|]. cbn [map]. now rewrite IH. }
    rewrite M1, M2. replace (map_queries (fun s => s) f) with f; [exact I'|]. destruct f as [|qs|ls]; cbn [map_queries]; [reflexivity|now rewrite map_id|].
    f_equal. clear. induction ls as [|l ls IH]; [reflexivity|]. cbn [map]. rewrite map_id. now f_equal.
  Qed.
End Programs.
