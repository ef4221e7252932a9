(** C77: the command line of the tools. *)
From Coq Require Import Ascii String List Bool ZArith QArith Reals Lra Lia.
From Flocq Require Import Core BinarySingleNaN.
From Verif.Model Require Import Cpp Floats Stream Options Assessment Tool.
From Verif.Spec Require Import Order Reader Options Tool Command.
From Verif.Proofs Require Geometry Options Programs Command.
Import ListNotations.
Local Open Scope list_scope.

(** C77.  A command line is accepted exactly when it consists of known options
    with acceptable values followed by one or two positional arguments; each
    field of the configuration is then the value given last to its option, or
    the default. *)
Theorem c77_accepted (A : Arith) (RE HE : Type) si sf desc pn args c :
  parse_command_line A (RE := RE) (HE := HE) si sf desc pn args = ([], inl c) <-> asks_for args c.
Proof.
  rewrite <- Command.command_asks, Programs.command_parse. unfold parse_command_line. cbv zeta.
  rewrite Programs.parse_same. destruct (parse tool_options args initial_store) as [s|e s|s].
  - unfold pret. split; [intros E; injection E as <-; eauto|]. intros (s' & E & ->). now injection E as ->.
  - split; [discriminate|]. now intros (s' & E & _).
  - split; [discriminate|]. now intros (s' & E & _).
Qed.
Print Assumptions c77_accepted.

(** C77.  Help is printed, with status 0, exactly when there is a --help among
    known options with acceptable values. *)
Theorem c77_help (A : Arith) (RE HE : Type) si sf desc pn args :
  (exists t, parse_command_line A (RE := RE) (HE := HE) si sf desc pn args = ([EDiag (DHelp t)], inr (FExit 0))) <->
  asks_for_help args.
Proof.
  rewrite <- Command.help_asks, Programs.help_parse. unfold parse_command_line. cbv zeta.
  rewrite Programs.parse_same. destruct (parse tool_options args initial_store) as [s|e s|s].
  - split; [now intros [t E]|]. now intros [s' E].
  - split; [now intros [t E]|]. now intros [s' E].
  - split; [eauto|]. intros _. eexists. reflexivity.
Qed.
Print Assumptions c77_help.

(** C77.  Everything else gets an error message, help and status 1. *)
Theorem c77_rejected (A : Arith) (RE HE : Type) si sf desc pn args :
  (exists e t, parse_command_line A (RE := RE) (HE := HE) si sf desc pn args =
    ([EDiag (DParse e); EDiag (DHelp t)], inr (FExit 1))) <->
  ~ asks_for_help args /\ forall c, ~ asks_for args c.
Proof.
  assert (E : (~ asks_for_help args /\ forall c, ~ asks_for args c) <-> bad_command args).
  { unfold bad_command. rewrite Command.help_asks. split; intros [H K]; split; try exact H; intros c; [rewrite Command.command_asks|rewrite <- Command.command_asks]; apply K. }
  rewrite E, Programs.bad_parse. unfold parse_command_line. cbv zeta.
  rewrite Programs.parse_same. destruct (parse tool_options args initial_store) as [s|e s|s].
  - split; [now intros (e & t & Q)|]. now intros (e & t & Q).
  - split; [eauto|]. intros _. eexists _, _. reflexivity.
  - split; [now intros (e & t & Q)|]. now intros (e & t & Q).
Qed.
Print Assumptions c77_rejected.

(** C77.  The configurations of the theorems about runs are these. *)
Theorem c77_command args c : command args c <-> asks_for args c.
Proof. apply Command.command_asks. Qed.
Print Assumptions c77_command.

(** Options given twice, with and without values, with one dash too few and
    with a negative count. *)
Example c77_case : asks_for
  (map lit ["--query_set"; "old"; "--collapse_matches"; "false"; "--bootstrap_ci_map"; "--bootstrap_seed"; "-1";
            "--query_set"; "new"; "-_sort"; "none"; "--"; "-refs"; "hyps"]%string)
  (Config (lit "-refs") (lit "hyps") (lit "new") [] [] (lit "none") [] [] false true true false true false false
     10000 18446744073709551615 (of_decimal 53 1024 false 5 (-2)) 10000) /\
  asks_for_help (map lit ["--sort"; "asc"; "--help"; "refs"]%string) /\
  ~ asks_for_help (map lit ["--curve_samples"; "3"; "refs"]%string) /\
  (forall c, ~ asks_for (map lit ["--curve_samples"; "3"; "refs"]%string) c).
Proof.
  assert (InO : forall n k, existsb (fun y => str_eq (fst y) n && Command.vtype_eqb (Command.type_of (snd y)) (Command.type_of k)) options = true ->
    In (n, k) options).
  { intros n k E. apply existsb_exists in E as ([m j] & I & E). apply andb_true_iff in E as [E1 E2].
    apply Geometry.str_eq_spec in E1. apply Command.vtype_eqb_ok in E2. cbn in E1, E2. subst m.
    assert (j = k) as -> by (destruct j, k; easy). exact I. }
  assert (Du : forall a, str_eq (firstn 1 a) (lit "-") = false -> ~ dashed a).
  { intros a E [t ->]. cbn in E. discriminate. }
  assert (Bad : bad_command (map lit ["--curve_samples"; "3"; "refs"]%string)).
  { apply Programs.bad_parse. eexists _, _. lazy -[of_decimal]. reflexivity. }
  split; [|split; [|split]].
  - exists (map (fun p => (lit (fst p), lit (snd p))) [("query_set", "old"); ("collapse_matches", "false"); ("bootstrap_ci_map", "");
      ("bootstrap_seed", "-1"); ("query_set", "new"); ("sort", "none")]%string), (map lit ["--"; "-refs"; "hyps"]%string),
      (map lit ["-refs"; "hyps"]%string).
    split; [|split; [|split; [|split]]].
    + apply (ow_value "-"%char (lit "query_set") Text (lit "old")); [apply InO; reflexivity|discriminate|].
      apply (ow_flag "-"%char (lit "collapse_matches") (lit "false")); [apply InO; reflexivity|now apply Du|].
      apply (ow_bare "-"%char (lit "bootstrap_ci_map")); [apply InO; reflexivity|intros v l E; injection E as <- _; now eexists|].
      apply (ow_value "-"%char (lit "bootstrap_seed") Count (lit "-1")); [apply InO; reflexivity|discriminate|].
      apply (ow_value "-"%char (lit "query_set") Text (lit "new")); [apply InO; reflexivity|discriminate|].
      apply (ow_value "_"%char (lit "sort") Text (lit "none")); [apply InO; reflexivity|discriminate|].
      constructor.
    + apply se_dashes.
    + assert (Nn : forall d, forallb (fun c => negb (Ascii.eqb c (ascii_of_N 0))) d = true -> no_nul d).
      { intros d F J. assert (G := proj1 (forallb_forall _ _) F _ J). cbn in G. discriminate. }
      repeat apply Forall_cons; [exists Text|exists Flag|exists Flag|exists Count|exists Text|exists Text|constructor];
        (split; [apply InO; reflexivity|]).
      * now apply Nn.
      * exists false. now left.
      * exists true. now left.
      * eexists. now apply Command.count_lit.
      * now apply Nn.
      * now apply Nn.
    + repeat apply Forall_cons; [| |constructor]; intros J; cbn in J; repeat destruct J as [J|J]; try discriminate J; contradiction.
    + unfold fields. cbn -[of_decimal int_text f64_text flag_text lit]. split; [now right|].
      repeat match goal with |- _ /\ _ => split end; try reflexivity; try apply Command.default_alpha;
        try (apply Command.count_lit; reflexivity); unfold flag_text; tauto.
  - exists [(lit "sort", lit "asc")], [lit "refs"], [lit "refs"]. split; [|split].
    + apply (ow_value "-"%char (lit "sort") Text (lit "asc")); [apply InO; reflexivity|discriminate|].
      apply (ow_help _ _ false). constructor.
    + apply se_stop. left. now apply Du.
    + apply Forall_cons; [|constructor]. exists Text. split; [apply InO; reflexivity|].
      intros J; cbn in J; repeat destruct J as [J|J]; try discriminate J; contradiction.
  - rewrite <- Command.help_asks. apply Bad.
  - intros c. rewrite <- Command.command_asks. apply Bad.
Qed.
