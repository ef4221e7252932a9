(** Whole runs of the tools. *)
From Coq Require Import Ascii String List Bool ZArith Lia Permutation Sorted.
From Flocq Require Import BinarySingleNaN.
From Verif.Model Require Import Cpp Floats Events EventSets Matches Matcher Assessment Bootstrap Mapper Stream
  Reader Options Tool.
From Verif.Spec Require Import Order Matching Grouping Collapse Metrics Curves Reader Options Tool.
From Verif.Proofs Require Import Queries Tool Finish.
From Verif.Proofs Require Options.
Import ListNotations.

(** ** The command line *)

Lemma parse_same d pn args s : parse (tool_parser d pn) args s = parse tool_options args s.
Proof. reflexivity. Qed.

Lemma tool_ok : parser_ok tool_options.
Proof.
  apply Options.registered_ok with (prog := []) (desc := []).
  - unfold tool_options, tool_parser, option_table. cbn [fold_left].
    repeat (apply rg_opt_arg || apply rg_arg || apply rg_option). apply rg_new.
  - repeat constructor; simpl; try lia; exact I.
Qed.

Lemma tool_args : List.length (p_args tool_options) = 1%nat /\ List.length (p_opt_args tool_options) = 1%nat.
Proof. split; vm_compute; reflexivity. Qed.

Lemma command_parse args c : command args c <-> exists s, parse tool_options args initial_store = PTrue s /\ c = config_of s.
Proof.
  destruct tool_args as [N1 N2]. unfold command. split.
  - intros (asg & rest & s & S & L & A & ->). exists s. split; [|reflexivity].
    apply (Options.parse_true _ tool_ok). apply Options.assigned_app in A as (s1 & A1 & A2).
    exists asg, rest, s1. split; [exact S|]. split; [exact A1|]. split; [rewrite N1, N2; lia|exact A2].
  - intros (s & P & ->). apply (Options.parse_true _ tool_ok) in P as (asg & rest & s1 & S & A & L & A').
    exists asg, rest, s. split; [exact S|]. split; [rewrite N1, N2 in L; lia|]. split; [|reflexivity].
    apply Options.assigned_app. eauto.
Qed.

Lemma help_parse args : asks_help args <-> exists s, parse tool_options args initial_store = PExit s.
Proof.
  unfold asks_help. split.
  - intros (asg & rest & s & S & A). exists s. apply (Options.parse_exit _ tool_ok). eauto.
  - intros (s & P). apply (Options.parse_exit _ tool_ok) in P as (asg & rest & S & A). eauto.
Qed.

Lemma bad_parse args : bad_command args <-> exists e s, parse tool_options args initial_store = PFalse e s.
Proof.
  unfold bad_command. split.
  - intros [H K]. destruct (parse tool_options args initial_store) as [s|e s|s] eqn:P; [|eauto|].
    + exfalso. apply (K (config_of s)). apply command_parse. eauto.
    + exfalso. apply H. apply help_parse. eauto.
  - intros (e & s & P). split; [intros H; apply help_parse in H as [? H]|intros c H; apply command_parse in H as (? & H & _)]; congruence.
Qed.

Lemma command_fun args c c' : command args c -> command args c' -> c = c'.
Proof. intros H K. apply command_parse in H as (s & P & ->). apply command_parse in K as (s' & P' & ->). congruence. Qed.

Section Program.
  Context {A : Arith} (T : Trans A) {Q RE E ER EE St : Type}.
  Notation HE := (scored E).
  Variables (srt : sort_fn) (Hs : sort_contract srt).
  Variable rngs : Z -> rng.
  Variables (show_int : Z -> bytes) (show_f64 : f64 -> bytes).
  Variable lim : bool.
  Variables (cq : Cmp Q) (Hq : total_order cq).
  Variables (cr : Cmp RE) (Hr : total_order cr).
  Variables (ce : Cmp E) (He : total_order ce).
  Variables (rq : RE -> Q) (hq : E -> Q).
  Variables (S : EvSet RE HE) (R : list RE -> HE -> list RE -> Prop) (HS : finds S R).
  Variable scorer : RE -> HE -> match_error.
  Variables (rd_r : istream -> ER * istream) (text_r : bytes -> ER -> Prop).
  Variables (rd_h : istream -> scored EE * istream) (text_h : bytes -> scored EE -> Prop).
  Hypothesis Fr : format rd_r text_r.
  Hypothesis Fh : format rd_h text_h.
  Hypothesis Finite : forall b e, text_h b e -> is_finite (sc_score e) = true.
  Variable mr : St -> ER -> outcome (RE * St).
  Variable mh : St -> scored EE -> outcome (HE * St).
  Variable mq : St -> bytes -> outcome (Q * St).
  Hypothesis Tr : forall st x, tame lim (mr st x).
  Hypothesis Th : forall st x, tame lim (mh st x).
  Hypothesis Tq : forall st x, tame lim (mq st x).
  Hypothesis Keeps : forall st x y st', mh st x = Ok (y, st') -> sc_score y = sc_score x.
  Variable desc : bytes.
  Variable w : world.
  Variable st0 : St.

  Notation M := (match_t RE HE).
  Notation hqs := (fun h : HE => hq (sc_base h)).
  Notation Prog := (prog A (RE := RE) (HE := HE)).

  Definition tool (pn : bytes) (args : list bytes) : Prog unit :=
    tool_main A T srt rngs show_int show_f64 cq (c_lt cr) (c_lt (cmp_scored ce)) rq hqs sc_score S scorer
      (fun f st => read_file rd_r mr f [] st) (fun f st => read_file rd_h mh f [] st)
      (fun b st => read_stream rd_h mh (open_stream b) [] st) mq desc w pn args st0.

  Notation Body c := (body T srt rngs cq cr ce rq hq S scorer rd_r rd_h mr mh mq w c st0).
  Notation Arrived c := (arrived T srt rngs cq cr ce rq hq R scorer text_r text_h mr mh mq w c st0).

  Lemma tool_cases pn args :
    (bad_command args /\ exists d1 d2, tool pn args = ([EDiag d1; EDiag d2], inr (FExit 1))) \/
    (asks_help args /\ exists d, tool pn args = ([EDiag d], inr (FExit 0))) \/
    (exists c b, command args c /\ tool pn args = Body c b).
  Proof.
    unfold tool, tool_main, parse_command_line. cbv zeta. rewrite parse_same.
    destruct (parse tool_options args initial_store) as [s|e s|s] eqn:P.
    - right. right. exists (config_of s), (Nat.eqb (List.length args) 1).
      split; [apply command_parse; eauto|]. unfold pret at 1. rewrite pbind_nil. reflexivity.
    - left. split; [apply bad_parse; eauto|]. eexists _, _. reflexivity.
    - right. left. split; [apply help_parse; eauto|]. eexists. reflexivity.
  Qed.

  Lemma arrived_inputs c p : Arrived c p -> (cf_dump c <> [] -> w_writable w (cf_dump c) = true) ->
    exists raw_r raw_h f, inputs text_r text_h w c raw_r raw_h f.
  Proof.
    intros (raw_r & raw_h & f & _ & _ & _ & _ & _ & _ & _ & _ & _ & _ & _ & N & Rr & Rh & Nq & _) D.
    exists raw_r, raw_h, f. constructor; assumption.
  Qed.

  Lemma main_status pn args l r : tool pn args = (l, r) -> exists e, r = inr e /\
    (forall z, e = FExit z -> z = 0%Z \/ z = 1%Z) /\
    (exists rest, four_names = stat_names l ++ rest) /\
    (e = FExit 0 -> (asks_help args /\ outputs l = []) \/ stat_names l = four_names) /\
    (asks_help args -> e = FExit 0) /\
    (e = FExit 1 -> bad_command args \/ exists c, command args c /\ rejected text_r text_h w c) /\
    (bad_command args \/ (exists c, command args c /\ rejected text_r text_h w c) ->
       e = FExit 1 \/ lim = true /\ e = FThrow RangeError /\ outputs l = []) /\
    (e = FExit 1 -> outputs l = [] /\ l <> []).
  Proof.
    intros Et. destruct (tool_cases pn args) as [(B & d1 & d2 & E1)|[(B & d & E1)|(c & b & B & E1)]]; rewrite E1 in Et.
    - injection Et as <- <-. eexists. split; [reflexivity|]. split; [intros z K; injection K; auto|].
      split; [exists four_names; reflexivity|]. split; [discriminate|].
      split; [intros K; destruct B; contradiction|]. split; [auto|]. split; [auto|]. split; [reflexivity|discriminate].
    - injection Et as <- <-. eexists. split; [reflexivity|]. split; [intros z K; injection K; auto|].
      split; [exists four_names; reflexivity|]. split; [auto|]. split; [auto|]. split; [discriminate|]. split; [|discriminate].
      intros [[K _]|(c & K & _)]; [contradiction|]. apply help_parse in B as [s B]. apply command_parse in K as (s' & K & _). congruence.
    - assert (NH : asks_help args -> False).
      { intros K. apply help_parse in K as [s K]. apply command_parse in B as (s' & B & _). congruence. }
      assert (NB : bad_command args -> False) by (intros [_ K]; now apply (K c)).
      destruct (body_final T srt Hs rngs lim cq Hq cr Hr ce He rq hq S R HS scorer rd_r text_r rd_h text_h Fr Fh Finite
                  mr mh mq Tr Th Tq Keeps w c st0 b) as [(E2 & O & NE & Bad)|[(Lm & E2 & O)|(D & rest & E2 & O & NE & G)]].
      + rewrite Et in *. cbn [fst snd] in *. subst r. eexists. split; [reflexivity|]. split; [intros z K; injection K; auto|].
        split; [exists four_names; rewrite <- names_outputs, O; reflexivity|]. split; [discriminate|].
        split; [intros K; destruct (NH K)|]. split; [eauto|]. split; [auto|]. auto.
      + rewrite Et in *. cbn [fst snd] in *. subst r. eexists. split; [reflexivity|]. split; [discriminate|].
        split; [exists four_names; rewrite <- names_outputs, O; reflexivity|]. split; [discriminate|].
        split; [intros K; destruct (NH K)|]. split; [discriminate|]. split; [auto|]. discriminate.
      + assert (G' := G). rewrite E2 in Et. injection Et as <- <-.
        destruct G as (raw_r & raw_h & f & refs & hyps & f' & st1 & st2 & st3 & m & n & ms & log & groups & G).
        destruct G as (_ & _ & _ & _ & _ & _ & _ & _ & _ & _ & Gm & Tn & ->).
        destruct (finish_any T srt rngs cq rq hq w c m n ms log groups Gm Tn) as (l & e & -> & K). cbn [fst snd] in *.
        assert (ND : stat_names D = []) by (rewrite <- names_outputs, O; reflexivity).
        exists e. split; [reflexivity|]. rewrite names_app, ND, outputs_app, O. cbn [app].
        destruct K as [(K1 & K2 & -> & K4 & K5)|(K1 & rest & K2 & K3)].
        * split; [intros z K; injection K; auto|].
          split; [exists four_names; rewrite <- names_outputs, K4; reflexivity|]. split; [discriminate|].
          split; [intros K; destruct (NH K)|]. split.
          { intros _. right. exists c. split; [exact B|]. unfold rejected. tauto. }
          split; [auto|]. intros _. split; [exact K4|]. intros C. apply app_eq_nil in C. tauto.
        * split; [destruct K3 as [[-> _]|[->|[x ->]]]; intros z C; inversion C; auto|].
          split; [eauto|]. split.
          { intros ->. right. destruct K3 as [[_ ->]|[K3|[x K3]]]; try discriminate. now rewrite app_nil_r in K2. }
          split; [intros C; destruct (NH C)|].
          split; [destruct K3 as [[-> _]|[->|[x ->]]]; discriminate|].
          split; [|destruct K3 as [[-> _]|[->|[x ->]]]; discriminate].
          intros [C|(c' & C & Bad)]; [destruct (NB C)|]. exfalso. rewrite (command_fun _ _ _ C B) in Bad.
          destruct (arrived_inputs c _ G' K1) as (x & y & z & I).
          exact (inputs_not_rejected rd_r rd_h text_r text_h w c x y z Fr Fh I Bad).
  Qed.

  (** With good inputs a run arrives at the matches. *)
  Lemma main_reach pn args c raw_r raw_h f l r : command args c -> inputs text_r text_h w c raw_r raw_h f ->
    tool pn args = (l, r) ->
    (lim = true /\ r = inr (FThrow RangeError) /\ outputs l = []) \/
    exists refs hyps f' st1 st2 st3 m n ms log groups D,
      map_all mr st0 raw_r = Ok (refs, st1) /\ map_all mh st1 raw_h = Ok (hyps, st2) /\
      map_file mq st2 f = Ok (f', st3) /\ holds m f' /\
      (forall h, In h hyps -> is_finite (sc_score h) = true) /\
      evaluation (c_lt ce) (c_lt cr) rq hq R scorer (cf_sort c) f' refs hyps ms log groups /\
      group_matches cq rq hqs ms m = Ok groups /\
      (total (fun x => me_nh (m_err x)) ms <= n)%nat /\ outputs D = [] /\
      l = D ++ fst (finish T srt rngs cq rq hq w c m n ms log) /\
      r = snd (finish T srt rngs cq rq hq w c m n ms log).
  Proof.
    intros Cm I Et. destruct (tool_cases pn args) as [([_ B] & _)|[(B & _)|(c' & b & B & E1)]].
    - destruct (B c Cm).
    - exfalso. apply help_parse in B as [s B]. apply command_parse in Cm as (s' & Cm & _). congruence.
    - rewrite <- (command_fun _ _ _ Cm B) in E1. clear c' B. rewrite E1 in Et.
      destruct (body_final T srt Hs rngs lim cq Hq cr Hr ce He rq hq S R HS scorer rd_r text_r rd_h text_h Fr Fh Finite
                  mr mh mq Tr Th Tq Keeps w c st0 b) as [(_ & _ & _ & Bad)|[(Lm & E2 & O)|(D & rest & E2 & O & _ & G)]].
      + destruct (inputs_not_rejected rd_r rd_h text_r text_h w c _ _ _ Fr Fh I Bad).
      + left. rewrite Et in *. cbn [fst snd] in *. auto.
      + right. rewrite E2 in Et. injection Et as <- <-.
        destruct G as (raw_r' & raw_h' & f0 & refs & hyps & f' & st1 & st2 & st3 & m & n & ms & log & groups & G).
        destruct G as (G1 & G2 & G3 & G4 & G5 & G6 & G7 & G8 & G9 & G10 & Gm & Tn & ->).
        assert (I' : inputs text_r text_h w c raw_r' raw_h' f0) by (constructor; try assumption; apply I).
        destruct (inputs_fun rd_r rd_h text_r text_h w c _ _ _ _ _ _ Fr Fh I I') as (<- & <- & <-).
        exists refs, hyps, f', st1, st2, st3, m, n, ms, log, groups, D.
        repeat (split; [assumption || reflexivity|]). reflexivity.
  Qed.

  Lemma main_run pn args c raw_r raw_h f l r : command args c -> no_bootstrap c -> inputs text_r text_h w c raw_r raw_h f ->
    tool pn args = (l, r) ->
    (lim = true /\ r = inr (FThrow RangeError) /\ outputs l = []) \/
    exists refs hyps f' st1 st2 st3 m ms log groups v1 v2 v4 curves e,
      r = inr e /\
      map_all mr st0 raw_r = Ok (refs, st1) /\ map_all mh st1 raw_h = Ok (hyps, st2) /\
      map_file mq st2 f = Ok (f', st3) /\ holds m f' /\
      (forall h, In h hyps -> is_finite (sc_score h) = true) /\
      evaluation (c_lt ce) (c_lt cr) rq hq R scorer (cf_sort c) f' refs hyps ms log groups /\
      group_matches cq rq hqs ms m = Ok groups /\
      global_ap A sc_score ms (cf_collapse c) (cf_interp c) (cf_trapezoid c) = Ok v1 /\
      mean_ap A sc_score srt groups (cf_collapse c) (cf_interp c) (cf_trapezoid c) false = Ok v2 /\
      mean_ndcg A T sc_score srt groups (cf_collapse c) false = Ok v4 /\
      outputs l = dumped c ms log ++ [EStat (lit "gAP") v1 None; EStat (lit "mAP") v2 None;
                   EStat (lit "gNDCG") (global_ndcg A T sc_score ms (cf_collapse c)) None;
                   EStat (lit "mNDCG") v4 None] ++ curves /\
      curve_files w c (global_points c ms) (mean_points w c groups) curves e.
  Proof.
    intros Cm NB I Et. destruct (main_reach pn args c raw_r raw_h f l r Cm I Et) as [H|H]; [now left|right].
    destruct H as (refs & hyps & f' & st1 & st2 & st3 & m & n & ms & log & groups & D & M1 & M2 & M3 & Hm & Fi & Ev & Gm & Tn & O & -> & ->).
    destruct (finish_run T srt rngs cq rq hq w c m n ms log groups Gm Tn NB (in_dump _ _ _ _ _ _ _ I))
      as (l & e & v1 & v2 & v4 & curves & -> & V1 & V2 & V4 & OL & C).
    exists refs, hyps, f', st1, st2, st3, m, ms, log, groups, v1, v2, v4, curves, e. cbn [fst snd].
    rewrite outputs_app, O. cbn [app]. repeat (split; [assumption || reflexivity|]). exact C.
  Qed.

  (** Without bootstrapping, nothing is undefined. *)
  Lemma main_defined pn args l r : tool pn args = (l, r) ->
    (forall c, command args c -> no_bootstrap c) ->
    r = inr (FExit 0) \/ r = inr (FExit 1) \/ (lim = true /\ r = inr (FThrow RangeError)) \/
    (r = inr (FThrow IosFailure) /\ stat_names l = four_names /\ exists c, command args c /\
       (cf_grp c <> [] /\ w_writable w (cf_grp c) = false \/ cf_mrp c <> [] /\ w_writable w (cf_mrp c) = false)).
  Proof.
    intros Et NB. destruct (tool_cases pn args) as [(_ & d1 & d2 & E1)|[(_ & d & E1)|(c & b & B & E1)]]; rewrite E1 in Et.
    - injection Et as <- <-. auto.
    - injection Et as <- <-. auto.
    - destruct (body_final T srt Hs rngs lim cq Hq cr Hr ce He rq hq S R HS scorer rd_r text_r rd_h text_h Fr Fh Finite
                  mr mh mq Tr Th Tq Keeps w c st0 b) as [(E2 & _)|[(Lm & E2 & O)|(D & rest & E2 & O & _ & G)]].
      + rewrite Et in E2. auto.
      + rewrite Et in E2. auto.
      + rewrite E2 in Et. injection Et as <- <-. assert (G' := G).
        destruct G as (raw_r' & raw_h' & f0 & refs & hyps & f' & st1 & st2 & st3 & m & n & ms & log & groups & G).
        destruct G as (_ & _ & _ & _ & _ & _ & _ & _ & _ & _ & Gm & Tn & ->).
        assert (ND : stat_names D = []) by (rewrite <- names_outputs, O; reflexivity).
        destruct (dump_cases (A := A) w c ms log) as [(N & W & E3)|(W & _)].
        * unfold finish. rewrite E3. cbn [pbind fst snd]. auto.
        * destruct (finish_run T srt rngs cq rq hq w c m n ms log groups Gm Tn (NB c B) W)
            as (l & e & v1 & v2 & v4 & curves & -> & V1 & V2 & V4 & OL & C). cbn [fst snd].
          assert (SN : stat_names curves = [] -> stat_names (D ++ l) = four_names).
          { intros K. rewrite names_app, ND, <- names_outputs, OL, !names_app, K.
            unfold dumped. destruct (cf_dump c); reflexivity. }
          assert (CN : forall name P k b', curve_file (A := A) (RE := RE) (HE := HE) w name P k b' -> stat_names k = [] /\
            (b' = false -> name <> [] /\ w_writable w name = false)).
          { intros name P k b' []; split; try reflexivity; try discriminate. auto. }
          destruct C as [g k b' Cg Ck|g Cg]; destruct (CN _ _ _ _ Cg) as [N1 F1].
          -- destruct (CN _ _ _ _ Ck) as [N2 F2]. destruct b'; [auto|]. right. right. right.
             split; [reflexivity|]. split; [apply SN; now rewrite names_app, N1, N2|]. exists c. split; [exact B|]. auto.
          -- right. right. right. split; [reflexivity|]. split; [auto|]. exists c. split; [exact B|]. auto.
  Qed.
End Program.

(** ** Enough ids *)

(** A mapper that never runs out of ids. *)
Definition total_map {X Y St} (d : X -> Y) (m : St -> X -> outcome (Y * St)) (st : St) (x : X) : outcome (Y * St) :=
  match m st x with Ok p => Ok p | _ => Ok (d x, st) end.

Lemma total_same {X Y St} (d : X -> Y) (m : St -> X -> outcome (Y * St)) l : forall st p,
  map_all m st l = Ok p -> map_all (total_map d m) st l = Ok p.
Proof.
  induction l as [|x l IH]; intros st p H; simpl in *; [exact H|].
  unfold total_map at 1. destruct (m st x) as [[y st']| |]; try discriminate.
  destruct (map_all m st' l) as [[l' st'']| |] eqn:K; try discriminate.
  now rewrite (IH st' _ K).
Qed.

Lemma total_same2 {X Y St} (d : X -> Y) (m : St -> X -> outcome (Y * St)) l : forall st p,
  map_all (map_all m) st l = Ok p -> map_all (map_all (total_map d m)) st l = Ok p.
Proof.
  induction l as [|x l IH]; intros st p H; simpl in *; [exact H|].
  destruct (map_all m st x) as [[y st']| |] eqn:K1; try discriminate. rewrite (total_same d m x st _ K1).
  destruct (map_all (map_all m) st' l) as [[l' st'']| |] eqn:K; try discriminate.
  now rewrite (IH st' _ K).
Qed.

Section Enough.
  Context {A : Arith} (T : Trans A) {Q RE E ER EE St : Type}.
  Notation HE := (scored E).
  Variables (srt : sort_fn) (Hs : sort_contract srt).
  Variable rngs : Z -> rng.
  Variables (show_int : Z -> bytes) (show_f64 : f64 -> bytes).
  Variables (cq : Cmp Q) (cr : Cmp RE) (ce : Cmp E).
  Variables (rq : RE -> Q) (hq : E -> Q).
  Variable S : EvSet RE HE.
  Variable scorer : RE -> HE -> match_error.
  Variables (rd_r : istream -> ER * istream) (text_r : bytes -> ER -> Prop).
  Variables (rd_h : istream -> scored EE * istream) (text_h : bytes -> scored EE -> Prop).
  Hypothesis Fr : format rd_r text_r.
  Hypothesis Fh : format rd_h text_h.
  Variables (mr mr' : St -> ER -> outcome (RE * St)).
  Variables (mh mh' : St -> scored EE -> outcome (HE * St)).
  Variables (mq : St -> bytes -> outcome (Q * St)) (dq : bytes -> Q).
  Variable desc : bytes.
  Variable w : world.
  Variable st0 : St.

  Lemma group_lines_ext name ls fs : Forall2 words ls fs -> forall m st p,
    map_all (map_all mq) st fs = Ok p ->
    group_lines A (RE := RE) (HE := HE) cq mq name ls m st = group_lines A cq (total_map dq mq) name ls m st.
  Proof.
    intros W. induction W as [|l ws ls fs Wl W IH]; intros m st p H; cbn [group_lines]; [reflexivity|].
    rewrite (words_of_ok l ws Wl). cbn [run]. rewrite !pbind_nil, !map_words_all.
    cbn [map_all] in H. destruct (map_all mq st ws) as [[y st']| |] eqn:K1; try discriminate.
    rewrite (total_same dq mq ws st _ K1). cbn [run]. rewrite !pbind_nil.
    destruct (map_all (map_all mq) st' fs) as [[l' st'']| |] eqn:K; try discriminate.
    destruct (Nat.ltb _ _); [reflexivity|]. eapply IH. exact K.
  Qed.

  Lemma load_queries_ext c st f p : names_queries w c f -> Tool.map_file mq st f = Ok p ->
    load_queries A (RE := RE) (HE := HE) cq mq w c st = load_queries A cq (total_map dq mq) w c st.
  Proof.
    intros N H. unfold load_queries. destruct N as [N1 N2|b ws N1 N2 B W|b ls fs N1 B L W F].
    - rewrite N1, N2. reflexivity.
    - rewrite N1. destruct (cf_queryset c) as [|x name] eqn:N3; [contradiction|]. rewrite <- N3 in *. unfold load_query_set.
      rewrite B, (words_of_ok b ws W). cbn [run]. rewrite !pbind_nil, !map_words_all.
      simpl in H. destruct (map_all mq st ws) as [[y st']| |] eqn:K1; try discriminate.
      rewrite (total_same dq mq ws st _ K1). reflexivity.
    - destruct (cf_querygroups c) as [|x name] eqn:N3; [contradiction|]. rewrite <- N3 in *. unfold load_query_groups.
      rewrite B, (lines_of_ok b ls L). cbn [run]. rewrite !pbind_nil.
      simpl in H. destruct (map_all (map_all mq) st fs) as [[y st']| |] eqn:K1; try discriminate.
      now rewrite (group_lines_ext (cf_querygroups c) ls fs W [] st _ K1).
  Qed.

  Lemma tool_ext pn args c raw_r raw_h f refs st1 hyps st2 p : command args c -> inputs text_r text_h w c raw_r raw_h f ->
    map_all mr st0 raw_r = Ok (refs, st1) -> map_all mr' st0 raw_r = Ok (refs, st1) ->
    map_all mh st1 raw_h = Ok (hyps, st2) -> map_all mh' st1 raw_h = Ok (hyps, st2) ->
    Tool.map_file mq st2 f = Ok p ->
    tool T srt rngs show_int show_f64 cq cr ce rq hq S scorer rd_r rd_h mr mh mq desc w st0 pn args =
    tool T srt rngs show_int show_f64 cq cr ce rq hq S scorer rd_r rd_h mr' mh' (total_map dq mq) desc w st0 pn args.
  Proof.
    intros Cm I R1 R2 H1 H2 F. apply command_parse in Cm as (s & Ps & ->).
    unfold tool, tool_main, parse_command_line. cbv zeta. rewrite parse_same, Ps. unfold pret. rewrite !pbind_nil.
    set (c := config_of s) in *. destruct I as [I1 (b & B & Rb) (b' & B' & Hb) I4 _].
    assert (LR : forall m : St -> ER -> outcome (RE * St), map_all m st0 raw_r = Ok (refs, st1) ->
      load_refs A (HE := HE) (fun f st => read_file rd_r m f [] st) w c st0 =
      ([EDiag (DNumRefs (List.length refs))], inl (refs, st1))).
    { intros m Hm. unfold load_refs. destruct (cf_ref c) as [|x nm] eqn:N; [contradiction|]. rewrite <- N in *.
      rewrite B. cbn [read_file]. rewrite (Tool.read_good rd_r text_r m b st0 raw_r [] Fr Rb), Hm. reflexivity. }
    assert (LH : forall m : St -> scored EE -> outcome (HE * St), map_all m st1 raw_h = Ok (hyps, st2) ->
      load_hyps A (RE := RE) (fun f st => read_file rd_h m f [] st) (fun b st => read_stream rd_h m (open_stream b) [] st) w
        (Nat.eqb (List.length args) 1) c st1 =
      ([EDiag (DNumHyps (List.length hyps))], inl (hyps, st2))).
    { intros m Hm. unfold load_hyps.
      replace (match cf_hyp c with [] => read_stream rd_h m (open_stream (w_stdin w)) [] st1
               | x :: l => read_file rd_h m (w_file w (x :: l)) [] st1 end)
        with (read_file rd_h m (hyp_source w c) [] st1) by (unfold hyp_source; now destruct (cf_hyp c)).
      rewrite B'. cbn [read_file]. rewrite (Tool.read_good rd_h text_h m b' st1 raw_h [] Fh Hb), Hm. reflexivity. }
    rewrite (LR mr R1), (LR mr' R2), !pbind_inl, (LH mh H1), (LH mh' H2), !pbind_inl.
    now rewrite (load_queries_ext c st2 f p I4 F).
  Qed.
End Enough.
