(** C62-C67: the command line. *)
From Coq Require Import Ascii String List Bool ZArith Reals Lra Lia Sorting.Sorted.
From Flocq Require Import Core BinarySingleNaN.
From Verif.Model Require Import Cpp Floats Stream Options Output.
From Verif.Spec Require Import Order Reader Options.
From Verif.Proofs Require Geometry Order Reader Options.
Import ListNotations.
Local Open Scope string_scope.
Local Open Scope list_scope.
Local Open Scope Z_scope.

(** A parser like those of the tools, used in the examples: a string, a
    boolean, a number and a double as options, one mandatory and one optional
    argument. *)
Definition demo : parser :=
  register_opt_argument (lit "limit") (lit "Limit") (TInt fmt_i32) (lit "limit_")
  (register_argument (lit "refs") (lit "References") TStr (lit "refs_")
  (snd (register_option (lit "threshold") (lit "Threshold") TF64 (lit "threshold_")
  (snd (register_option (lit "seed") (lit "Seed") (TInt fmt_u32) (lit "seed_")
  (snd (register_option (lit "name") (lit "Name") TStr (lit "name_")
  (snd (register_option (lit "flag") (lit "Flag") TBool (lit "flag_")
  (parser_new (lit "demo") (lit "A demo"))))))))))).

Lemma demo_ok : parser_ok demo.
Proof.
  split; simpl.
  - repeat constructor; simpl; intros K; repeat destruct K as [K|K]; try discriminate; exact K.
  - repeat constructor; simpl; lia.
Qed.

(** Its variables at the beginning. *)
Definition demo_store : store :=
  [(lit "flag_", VBool false); (lit "name_", VStr (lit "x")); (lit "seed_", VInt 7); (lit "refs_", VStr []);
   (lit "limit_", VInt 10)].

(** ** C62 *)

(** C62.  What the command lines accepted are, and the values they give. *)
Theorem c62_grammar : forall p args s s', parser_ok p ->
  parse p args s = PTrue s' <->
  exists asg rest, opt_section (p_opts p) args asg false rest /\
    (List.length (p_args p) <= List.length rest <= List.length (p_args p) + List.length (p_opt_args p))%nat /\
    assigned s (asg ++ combine (p_args p ++ p_opt_args p) rest) s'.
Proof.
  intros p args s s' OK. rewrite (Options.parse_true p OK). unfold Options.positional. split.
  - intros (asg & rest & s1 & S & A & L & A'). exists asg, rest. split; [exact S|]. split; [exact L|].
    apply Options.assigned_app. eauto.
  - intros (asg & rest & S & L & A). apply Options.assigned_app in A as (s1 & A1 & A2). exists asg, rest, s1. auto.
Qed.
Print Assumptions c62_grammar.

(** C62.  The other command lines give an error (or the help, C65): a wrong
    number of positional arguments, ... *)
Theorem c62_missing : forall p args s n s', parser_ok p ->
  parse p args s = PFalse (MissingArguments n) s' <->
  exists asg rest, opt_section (p_opts p) args asg false rest /\
    (List.length rest < List.length (p_args p))%nat /\ n = (List.length (p_args p) - List.length rest)%nat /\
    assigned s (asg ++ combine (p_args p) rest) s'.
Proof. intros p args s n s' OK. apply (Options.parse_missing p OK). Qed.
Print Assumptions c62_missing.

Theorem c62_too_many : forall p args s max given s', parser_ok p ->
  parse p args s = PFalse (TooManyArguments max given) s' <->
  exists asg rest, opt_section (p_opts p) args asg false rest /\
    max = (List.length (p_args p) + List.length (p_opt_args p))%nat /\ given = List.length rest /\ (max < given)%nat /\
    assigned s (asg ++ combine (p_args p ++ p_opt_args p) rest) s'.
Proof. intros p args s m g s' OK. apply (Options.parse_too_many p OK). Qed.
Print Assumptions c62_too_many.

(** C62.  ... or a positional argument that is not acceptable. *)
Theorem c62_bad_positional : forall p args s i, parser_ok p ->
  (exists s', parse p args s = PFalse (InvalidPositional i) s') <->
  exists asg rest k o b s1, opt_section (p_opts p) args asg false rest /\
    nth_error (p_args p ++ p_opt_args p) k = Some o /\ nth_error rest k = Some b /\ i = S k /\
    assigned s (asg ++ combine (firstn k (p_args p ++ p_opt_args p)) rest) s1 /\
    forall v, ~ value_text (op_arg o) (op_type o) b v.
Proof. intros p args s i OK. apply (Options.parse_bad_positional p OK). Qed.
Print Assumptions c62_bad_positional.

(** Text of a value and value of a text. *)
Theorem c62_value : forall arg t old b v, type_ok t ->
  parse_value arg t old b = (v, true) <-> value_text arg t b v.
Proof. intros arg t old b v T. now apply Options.parse_value_ok. Qed.
Print Assumptions c62_value.

Example c62_case :
  parse demo (map lit ["--flag"; "--name"; "--seed"; "--seed"; "12"; "--flag"; "0"; "--"; "-file"; "-3"]) demo_store =
    PTrue [(lit "flag_", VBool false); (lit "name_", VStr (lit "--seed")); (lit "seed_", VInt 12);
           (lit "refs_", VStr (lit "-file")); (lit "limit_", VInt (-3))] /\
  parse demo (map lit ["--flag"]) demo_store = PFalse (MissingArguments 1) (set_var (lit "flag_") (VBool true) demo_store) /\
  parse demo (map lit ["a"; "2"; "c"; "d"]) demo_store =
    PFalse (TooManyArguments 2 4) (set_var (lit "limit_") (VInt 2) (set_var (lit "refs_") (VStr (lit "a")) demo_store)) /\
  parse demo (map lit ["a"; "2.5"]) demo_store =
    PFalse (InvalidPositional 2) (set_var (lit "limit_") (VInt 2) (set_var (lit "refs_") (VStr (lit "a")) demo_store)) /\
  exists asg, opt_section (p_opts demo) (map lit ["--flag"; "--name"; "--seed"; "--"; "-file"]) asg false [lit "-file"] /\
    map (fun ob => (op_name (fst ob), snd ob)) asg = [(lit "--flag", []); (lit "--name", lit "--seed")].
Proof.
  split; [vm_compute; reflexivity|]. split; [vm_compute; reflexivity|]. split; [vm_compute; reflexivity|].
  split; [vm_compute; reflexivity|].
  eexists. split.
  - exists (map lit ["--"; "-file"]). split; [|apply se_dashes].
    eapply oi_option; [apply no_intro; [left; reflexivity|discriminate|discriminate]
      |apply ov_flag; [reflexivity|intros v args' E; injection E as <- _; now eexists]|].
    eapply oi_option; [apply no_intro; [right; left; reflexivity|discriminate|discriminate]
      |apply ov_given; discriminate|].
    apply oi_end.
  - reflexivity.
Qed.

(** ** C63 *)

(** C63.  A variable not mentioned keeps its value. *)
Theorem c63_unmentioned : forall p args s s' asg rest x, parser_ok p ->
  parse p args s = PTrue s' -> opt_section (p_opts p) args asg false rest ->
  (forall o b, In (o, b) (asg ++ combine (p_args p ++ p_opt_args p) rest) -> op_var o <> x) ->
  get_var x s' = get_var x s.
Proof.
  intros p args s s' asg rest x OK P S N.
  apply c62_grammar in P as (asg' & rest' & S' & _ & A); [|exact OK].
  destruct (Options.section_fun (p_opts p) (Options.ok_nodup p OK) _ _ _ _ _ _ _ S S') as (<- & _ & <-).
  now apply (Options.assigned_other _ _ _ A).
Qed.
Print Assumptions c63_unmentioned.

(** C63.  A variable mentioned has the value of its last mention. *)
Theorem c63_last : forall p args s s' asg rest l1 o b l2, parser_ok p ->
  parse p args s = PTrue s' -> opt_section (p_opts p) args asg false rest ->
  asg ++ combine (p_args p ++ p_opt_args p) rest = l1 ++ (o, b) :: l2 ->
  (forall o' b', In (o', b') l2 -> op_var o' <> op_var o) ->
  exists v, value_text (op_arg o) (op_type o) b v /\ get_var (op_var o) s' = Some v.
Proof.
  intros p args s s' asg rest l1 o b l2 OK P S E N.
  apply c62_grammar in P as (asg' & rest' & S' & _ & A); [|exact OK].
  destruct (Options.section_fun (p_opts p) (Options.ok_nodup p OK) _ _ _ _ _ _ _ S S') as (<- & _ & <-).
  rewrite E in A. now apply (Options.assigned_last s l1 o b l2).
Qed.
Print Assumptions c63_last.

Example c63_case : match parse demo (map lit ["--seed"; "1"; "--seed"; "2"; "refs"]) demo_store with
  | PTrue s' => get_var (lit "seed_") s' = Some (VInt 2) /\ get_var (lit "name_") s' = get_var (lit "name_") demo_store /\
                get_var (lit "limit_") s' = Some (VInt 10)
  | _ => False
  end.
Proof. vm_compute. auto. Qed.

(** ** C64 *)

(** C64.  The integers accepted, and the values stored. *)
Theorem c64_integers : forall arg f old b v, if_min f <= 0 <= if_max f ->
  parse_value arg (TInt f) old b = (v, true) <-> exists n, v = VInt n /\ int_text f b n.
Proof.
  intros arg f old b v HF. rewrite (Options.parse_value_ok arg (TInt f) old b v HF). split.
  - intros V. inversion V; subst. eauto.
  - intros (n & -> & T). now constructor.
Qed.
Print Assumptions c64_integers.

(** C64.  The doubles accepted, and the values stored. *)
Theorem c64_doubles : forall arg old b v,
  parse_value arg TF64 old b = (v, true) <-> exists d, v = VF64 d /\ f64_text b d.
Proof.
  intros arg old b v. rewrite (Options.parse_value_ok arg TF64 old b v I). split.
  - intros V. inversion V; subst. eauto.
  - intros (n & -> & T). now constructor.
Qed.
Print Assumptions c64_doubles.

(** C64.  Numbers in range are read correctly. *)
Theorem c64_in_range : forall arg f old n, if_min f <= 0 <= if_max f -> 0 <= n ->
  (n <= if_max f -> parse_value arg (TInt f) old (write_uint n) = (VInt n, true)) /\
  (if_signed f = true -> if_min f <= - n -> parse_value arg (TInt f) old ("-"%char :: write_uint n) = (VInt (- n), true)).
Proof.
  intros arg f old n HF N. assert (W := Reader.write_uint_numeral n N). split.
  - intros M. apply c64_integers; [exact HF|]. exists n. split; [reflexivity|].
    exists [], false, (write_uint n). split; [reflexivity|]. split; [constructor|]. right. exists n. split; [exact W|].
    unfold int_limited. destruct (if_signed f); [lia|]. now replace (if_max f <? n) with false by lia.
  - intros S M. apply c64_integers; [exact HF|]. exists (- n). split; [reflexivity|].
    exists ["-"%char], true, (write_uint n). split; [reflexivity|]. split; [constructor|]. right. exists n. split; [exact W|].
    unfold int_limited. rewrite S. lia.
Qed.
Print Assumptions c64_in_range.

(** C64.  Anything after the number is refused, as is white space before it. *)
Theorem c64_garbage : forall arg f old s neg ds c t, if_min f <= 0 <= if_max f ->
  sign s neg -> Forall (fun c => exists d, digit_is c d) ds -> (forall d, ~ digit_is c d) ->
  (s ++ ds = [] -> c <> "+"%char /\ c <> "-"%char) ->
  snd (parse_value arg (TInt f) old (s ++ ds ++ c :: t)) = false.
Proof.
  intros arg f old s neg ds c t HF S F C1 C2.
  destruct (parse_value arg (TInt f) old (s ++ ds ++ c :: t)) as [v [|]] eqn:E; [|reflexivity]. exfalso.
  apply c64_integers in E as (n & _ & (s' & neg' & ds' & E & S' & D)); [|exact HF].
  assert (F' : Forall Reader.digit_char_p ds').
  { destruct D as [[-> _]|(m & M & _)]; [constructor|]. now apply Reader.numeral_iff in M. }
  assert (IN : In c (s' ++ ds')) by (rewrite <- E, !in_app_iff; simpl; auto).
  apply in_app_or in IN as [IN|IN].
  2:{ rewrite Forall_forall in F'. apply F' in IN as [d IN]. now apply (C1 d). }
  destruct (Reader.sign_nil_or _ _ S') as [->|(c' & -> & C')]; [easy|]. destruct IN as [->|[]].
  destruct (s ++ ds) as [|x y] eqn:SD; [destruct (C2 eq_refl), C'; contradiction|].
  rewrite app_assoc, SD in E. injection E as -> E.
  assert (IN : In c ds') by (rewrite <- E, in_app_iff; simpl; auto).
  rewrite Forall_forall in F'. apply F' in IN as [d IN]. now apply (C1 d).
Qed.
Print Assumptions c64_garbage.

(** C64, violated.  No number at all is accepted as 0; a number above the
    range is accepted as the limit; a negative number is accepted for an
    unsigned variable. *)
Theorem c64_validated_refuted : forall arg f old, if_min f <= 0 <= if_max f ->
  parse_value arg (TInt f) old [] = (VInt 0, true) /\
  parse_value arg (TInt f) old (lit "-") = (VInt 0, true) /\
  parse_value arg (TInt f) old (lit "+") = (VInt 0, true) /\
  (forall n, if_max f < n -> parse_value arg (TInt f) old (write_uint n) = (VInt (if_max f), true)) /\
  (forall n, if_signed f = true -> - n < if_min f ->
     parse_value arg (TInt f) old ("-"%char :: write_uint n) = (VInt (if_min f), true)) /\
  (forall n, if_signed f = false -> 0 < n <= if_max f ->
     parse_value arg (TInt f) old ("-"%char :: write_uint n) = (VInt (if_max f + 1 - n), true)).
Proof.
  intros arg f old HF.
  assert (K : forall b n, int_text f b n -> parse_value arg (TInt f) old b = (VInt n, true)).
  { intros b n T. apply c64_integers; [exact HF|]. eauto. }
  split. { apply K. exists [], false, []. split; [reflexivity|]. split; [constructor|now left]. }
  split. { apply K. exists ["-"%char], true, []. split; [reflexivity|]. split; [constructor|now left]. }
  split. { apply K. exists ["+"%char], false, []. split; [reflexivity|]. split; [constructor|now left]. }
  split.
  { intros n N. apply K. exists [], false, (write_uint n). split; [reflexivity|]. split; [constructor|]. right.
    exists n. split; [apply Reader.write_uint_numeral; lia|]. unfold int_limited. destruct (if_signed f); [lia|].
    now replace (if_max f <? n) with true by lia. }
  split.
  { intros n SG N. apply K. exists ["-"%char], true, (write_uint n). split; [reflexivity|]. split; [constructor|]. right.
    exists n. split; [apply Reader.write_uint_numeral; lia|]. unfold int_limited. rewrite SG. lia. }
  intros n SG N. apply K. exists ["-"%char], true, (write_uint n). split; [reflexivity|]. split; [constructor|]. right.
  exists n. split; [apply Reader.write_uint_numeral; lia|]. unfold int_limited. rewrite SG.
  replace (if_max f <? n) with false by lia.
  rewrite <- (Z_mod_plus_full (- n) 1), Z.mod_small by lia. lia.
Qed.
Print Assumptions c64_validated_refuted.

(** C64, violated.  The same for doubles: no number, and the beginning of a
    number, are accepted as 0, and a number above the range as the limit. *)
Theorem c64_doubles_refuted : forall arg old,
  parse_value arg TF64 old [] = (VF64 (B754_zero false), true) /\
  (forall n c, 0 <= n -> c = "e"%char \/ c = "E"%char ->
     parse_value arg TF64 old (write_uint n ++ [c]) = (VF64 (B754_zero false), true)) /\
  (forall n, (bpow radix2 1024 <= IZR n)%R -> exists v,
     parse_value arg TF64 old (write_uint n) = (VF64 v, true) /\ is_finite v = true /\ B2R v = max_f64).
Proof.
  intros arg old.
  assert (K : forall b d, f64_text b d -> parse_value arg TF64 old b = (VF64 d, true)).
  { intros b d T. apply c64_doubles. eauto. }
  assert (DEC : forall n, 0 <= n -> decimal_text (write_uint n) false n 0).
  { intros n N. exists [], (write_uint n), [], [], 0. rewrite !app_nil_r. split; [reflexivity|]. split; [constructor|].
    split; [|now left]. exists []. rewrite app_nil_r. split; [now left|]. split; [now apply Reader.write_uint_numeral|reflexivity]. }
  split. { apply K. right. split; [reflexivity|]. apply (uf_start [] false []); [constructor|now left]. }
  split.
  { intros n c N C. apply K. right. split; [reflexivity|].
    assert (NO : forall e, Reader.exp_mark e -> ~ In e (write_uint n)).
    { intros e M IN. apply Reader.write_uint_numeral, Reader.numeral_iff in N as (_ & F & _).
      rewrite Forall_forall in F. now apply (Reader.mark_not_digit e M), F. }
    apply (uf_exp (write_uint n) false n 0 c [] false); [now apply DEC|apply NO; now left|apply NO; now right|exact C|constructor]. }
  intros n N.
  assert (N0 : 0 <= n). { apply le_IZR. pose proof (bpow_gt_0 radix2 1024). simpl. lra. }
  exists (max_float 53 1024 prec64 emax64 false). destruct (Options.max_float_facts false) as (M1 & M2 & M3). cbv zeta in *.
  split; [|split; [exact M1|exact M3]]. apply K. left. exists false, n, 0. split; [now apply DEC|]. split; [exact M1|]. split; [exact M2|].
  cbv zeta. replace (decimal_value false n 0) with (IZR n) by (unfold decimal_value; simpl; ring).
  destruct (Rlt_dec _ _) as [L|L]; [|exact M3]. exfalso.
  assert (B : (bpow radix2 1024 <= nearest_f64 (IZR n))%R).
  { unfold nearest_f64. rewrite <- (round_generic radix2 (FLT_exp (-1074) 53) ZnearestE (bpow radix2 1024)).
    - apply round_le; [apply FLT_exp_valid; reflexivity|apply valid_rnd_N|exact N].
    - apply generic_format_bpow. unfold FLT_exp. lia. }
  pose proof (Rle_abs (nearest_f64 (IZR n))). lra.
Qed.
Print Assumptions c64_doubles_refuted.

Example c64_case :
  parse_value false (TInt fmt_u32) (VInt 5) (lit "4294967295") = (VInt 4294967295, true) /\
  parse_value false (TInt fmt_u32) (VInt 5) (lit "4294967296") = (VInt 4294967295, true) /\
  parse_value false (TInt fmt_u32) (VInt 5) (lit "-1") = (VInt 4294967295, true) /\
  parse_value false (TInt fmt_i32) (VInt 5) (lit "-2147483649") = (VInt (-2147483648), true) /\
  parse_value false (TInt fmt_u32) (VInt 5) (lit "") = (VInt 0, true) /\
  snd (parse_value false (TInt fmt_u32) (VInt 5) (lit "12x")) = false /\
  snd (parse_value false (TInt fmt_u32) (VInt 5) (lit " 12")) = false /\
  match parse_value false TF64 (VInt 5) (lit "0.75") with (VF64 d, true) => B2SF d = SpecFloat.S754_finite false 6755399441055744 (-53) | _ => False end /\
  match parse_value false TF64 (VInt 5) (lit "1e") with (VF64 d, true) => B2SF d = SpecFloat.S754_zero false | _ => False end /\
  snd (parse_value false TF64 (VInt 5) (lit "1.5.2")) = false.
Proof. repeat split; try (vm_compute; reflexivity). Qed.

(** ** C65 *)

(** C65.  With --help among the options, and the options acceptable, the help
    is printed, whatever the positional arguments. *)
Theorem c65_help : forall p args s s', parser_ok p ->
  parse p args s = PExit s' <->
  exists asg rest, opt_section (p_opts p) args asg true rest /\ assigned s asg s'.
Proof. intros p args s s' OK. apply (Options.parse_exit p OK). Qed.
Print Assumptions c65_help.

(** C65.  The first option that is not known or has no acceptable value fails
    the parse, with or without --help. *)
Theorem c65_unknown : forall p args s a s', parser_ok p ->
  parse p args s = PFalse (UnknownOption a) s' <->
  exists asg h post, opt_items (p_opts p) args asg h (a :: post) /\ assigned s asg s' /\ unknown_option (p_opts p) a.
Proof. intros p args s a s' OK. apply (Options.parse_unknown p OK). Qed.
Print Assumptions c65_unknown.

Theorem c65_invalid : forall p args s a, parser_ok p ->
  (exists s', parse p args s = PFalse (InvalidOption a) s') <->
  exists asg h post s1, opt_items (p_opts p) args asg h (a :: post) /\ assigned s asg s1 /\ bad_option (p_opts p) a post.
Proof. intros p args s a OK. apply (Options.parse_invalid p OK). Qed.
Print Assumptions c65_invalid.

Example c65_case :
  parse demo (map lit ["--help"; "--seed"; "3"; "a"; "b"; "c"; "d"]) demo_store = PExit (set_var (lit "seed_") (VInt 3) demo_store) /\
  parse demo (map lit ["--help"; "--sed"; "3"]) demo_store = PFalse (UnknownOption (lit "--sed")) demo_store /\
  parse demo (map lit ["--help"; "--seed"]) demo_store = PFalse (InvalidOption (lit "--seed")) demo_store /\
  parse demo (map lit ["--flag"; "maybe"; "--help"]) demo_store = PFalse (InvalidOption (lit "--flag")) demo_store /\
  parse demo (map lit ["a"; "--help"]) demo_store =
    PFalse (InvalidPositional 2) (set_var (lit "limit_") (VInt 0) (set_var (lit "refs_") (VStr (lit "a")) demo_store)).
Proof. repeat split; vm_compute; reflexivity. Qed.

(** ** C66 *)

(** C66, violated.  The second character of an option does not matter. *)
Theorem c66_two_dashes_refuted : forall p x name args s s', parser_ok p ->
  name <> [] -> name <> lit "help" ->
  let one := ("-"%char :: x :: name) :: args in
  let two := ("-"%char :: "-"%char :: name) :: args in
  (parse p one s = PTrue s' <-> parse p two s = PTrue s') /\ (parse p one s = PExit s' <-> parse p two s = PExit s').
Proof.
  intros p x name args s s' OK N1 N2 one two.
  assert (E : forall c, str_eq ("-"%char :: c :: name) (lit "--") = false /\ str_eq ("-"%char :: c :: name) (lit "--help") = false).
  { intros c. split.
    - destruct (str_eq _ _) eqn:E; [|reflexivity]. apply Geometry.str_eq_spec in E. injection E as _ E. contradiction.
    - destruct (str_eq _ _) eqn:E; [|reflexivity]. apply Geometry.str_eq_spec in E. injection E as _ E. contradiction. }
  assert (R : match parse_options (p_opts p) false one s, parse_options (p_opts p) false two s with
    | ODone h r t, ODone h' r' t' => h = h' /\ r = r' /\ t = t'
    | OError _ _, OError _ _ => True
    | _, _ => False
    end).
  { unfold one, two. cbn [parse_options looks_like_option negb]. rewrite !Ascii.eqb_refl. cbn [negb].
    destruct (E x) as [-> ->]. destruct (E "-"%char) as [-> ->]. cbn [skipn].
    destruct (map_find str_eq name (p_opts p)) as [o|]; [|exact I].
    assert (G : forall (q : store * bool) r, match (let (t, ok) := q in if ok then parse_options (p_opts p) false r t
        else OError (InvalidOption ("-"%char :: x :: name)) t), (let (t, ok) := q in if ok then parse_options (p_opts p) false r t
        else OError (InvalidOption ("-"%char :: "-"%char :: name)) t) with
      | ODone h r t, ODone h' r' t' => h = h' /\ r = r' /\ t = t'
      | OError _ _, OError _ _ => True
      | _, _ => False
      end).
    { intros [t [|]] r; [|exact I]. destruct (parse_options (p_opts p) false r t); auto. }
    destruct (is_boolean o).
    - destruct args as [|v args]; [apply G|]. destruct (not_dash v); apply G.
    - destruct args as [|v args]; [exact I|]. apply G. }
  unfold parse. destruct (parse_options (p_opts p) false one s) as [h r t|e t], (parse_options (p_opts p) false two s) as [h' r' t'|e' t'];
    try contradiction.
  - destruct R as (-> & -> & ->). tauto.
  - split; split; discriminate.
Qed.
Print Assumptions c66_two_dashes_refuted.

(** C66.  A negative number is taken for an option. *)
Theorem c66_negative_refuted : forall p n args s, parser_ok p -> 0 <= n ->
  ~ In (tl (write_uint n)) (map fst (p_opts p)) ->
  parse p (("-"%char :: write_uint n) :: args) s = PFalse (UnknownOption ("-"%char :: write_uint n)) s.
Proof.
  intros p n args s OK N I. apply c65_unknown; [exact OK|].
  exists [], false, args. split; [constructor|]. split; [constructor|].
  apply Reader.write_uint_numeral, Reader.numeral_iff in N as (NE & F & _).
  destruct (write_uint n) as [|c t] eqn:W; [easy|]. inversion F as [|? ? [d [D1 D2]] _]; subst.
  assert (C : c <> "-"%char). { intros ->. change (Z.of_N (N_of_ascii "-")) with 45 in D2. lia. }
  split; [now eexists|]. split; [discriminate|]. split; [intros K; apply C; now injection K|].
  split; [intros K; apply C; now injection K|].
  intros o K. inversion K as [c' name o' IN _ _]; subst. apply I. simpl. change t with (fst (t, o)). now apply in_map.
Qed.
Print Assumptions c66_negative_refuted.

Example c66_case :
  parse demo (map lit ["-xseed"; "12"; "r"]) demo_store = parse demo (map lit ["--seed"; "12"; "r"]) demo_store /\
  parse demo (map lit ["-xseed"; "12"; "r"]) demo_store =
    PTrue (set_var (lit "refs_") (VStr (lit "r")) (set_var (lit "seed_") (VInt 12) demo_store)) /\
  parse demo (map lit ["-xhelp"]) demo_store = PFalse (UnknownOption (lit "-xhelp")) demo_store /\
  parse demo (map lit ["-12"]) demo_store = PFalse (UnknownOption (lit "-12")) demo_store /\
  parse demo (map lit ["--"; "-12"]) demo_store = PTrue (set_var (lit "refs_") (VStr (lit "-12")) demo_store).
Proof. repeat split; vm_compute; reflexivity. Qed.

(** ** C67 *)

(** C67.  When an option is refused, and what is registered otherwise. *)
Theorem c67_register : forall prog desc p name help t var, registered prog desc p ->
  let r := register_option name help t var p in
  let o := Opt false (lit "--" ++ name) help t var in
  (fst r = false <-> name = lit "help" \/ In name (map fst (p_opts p))) /\
  (fst r = false -> snd r = p) /\
  (fst r = true -> p_prog (snd r) = p_prog p /\ p_desc (snd r) = p_desc p /\ p_args (snd r) = p_args p /\
     p_opt_args (snd r) = p_opt_args p /\
     exists l1 l2, p_opts p = l1 ++ l2 /\ p_opts (snd r) = l1 ++ (name, o) :: l2).
Proof.
  intros prog desc p name help t var R. cbv zeta. unfold register_option.
  destruct (str_eq name (lit "help")) eqn:E.
  - apply Geometry.str_eq_spec in E. simpl. split; [tauto|]. split; [reflexivity|discriminate].
  - pose proof (Options.emplace_ok name (Opt false (lit "--" ++ name) help t var) (p_opts p)
      (Options.registered_sorted _ _ _ R)) as K.
    destruct (smap_emplace _ _ _) as [m b]. destruct K as (K1 & K2 & _ & K4 & _).
    assert (NH : name <> lit "help") by (intros ->; discriminate).
    destruct b; simpl.
    + split; [rewrite <- K1; split; [discriminate|intros [?|?]; [contradiction|assumption]]|]. split; [discriminate|]. auto 6.
    + split; [rewrite <- K1; tauto|]. split; [reflexivity|discriminate].
Qed.
Print Assumptions c67_register.

(** C67.  The names are registered in increasing order, hence each once. *)
Theorem c67_sorted : forall prog desc p, registered prog desc p ->
  StronglySorted str_before (map fst (p_opts p)) /\ ~ In (lit "help") (map fst (p_opts p)).
Proof.
  intros prog desc p R. split; [apply (Options.registered_sorted _ _ _ R)|].
  induction R as [|p name help t var R IH| |]; try assumption; [easy|].
  destruct (c67_register prog desc p name help t var R) as (K1 & K2 & K3).
  destruct (fst (register_option name help t var p)) eqn:E.
  - destruct (K3 eq_refl) as (_ & _ & _ & _ & l1 & l2 & E1 & E2). rewrite E2. rewrite E1 in IH.
    rewrite map_app, in_app_iff in *. simpl. intros [I|[I|I]]; [tauto| |tauto].
    destruct K1 as [_ K1]. discriminate K1. now left.
  - now rewrite K2.
Qed.
Print Assumptions c67_sorted.

(** C67.  The help text ends with one line for each option, in this order,
    with the descriptions aligned. *)
Theorem c67_help : forall si sf prog desc p s, registered prog desc p -> p_opts p <> [] ->
  exists pre lines w, parser_help si sf p s = pre ++ lit "Options:" ++ [ascii_of_N 10] ++ concat lines /\
    (forall o, In o (map snd (p_opts p) ++ p_args p ++ p_opt_args p) -> (List.length (op_name o) <= w)%nat) /\
    Forall2 (fun ko line => exists blanks value,
      line = lit "  --" ++ fst ko ++ blanks ++ lit " : " ++ op_help (snd ko) ++ lit " (type = " ++
             type_name (op_type (snd ko)) ++ lit ", value = """ ++ value ++ lit """)" ++ [ascii_of_N 10] /\
      Forall (fun c => c = " "%char) blanks /\ List.length (lit "--" ++ fst ko ++ blanks) = w /\
      forall v, get_var (op_var (snd ko)) s = Some v -> value = show_value si sf v) (p_opts p) lines.
Proof.
  intros si sf prog desc p s R NE.
  destruct (Options.help_text si sf p s NE) as (pre & E).
  exists pre, (map (fun ko => lit "  " ++ opt_help si sf (max_width p) s (snd ko) ++ [nl]) (p_opts p)), (max_width p).
  split; [rewrite E, flat_map_concat_map; reflexivity|]. split; [apply Options.max_width_le|].
  assert (NM : Forall (fun ko => op_name (snd ko) = lit "--" ++ fst ko /\ op_arg (snd ko) = false) (p_opts p))
    by apply (Options.registered_names _ _ _ R).
  assert (LE : Forall (fun ko => (List.length (op_name (snd ko)) <= max_width p)%nat) (p_opts p)).
  { apply Forall_forall. intros ko I. apply Options.max_width_le. apply in_or_app. left. now apply in_map. }
  clear E R NE. induction (p_opts p) as [|[k o] l IH]; cbn [map]; constructor.
  - inversion NM as [|? ? [N1 N2] _]; subst. inversion LE as [|? ? L _]; subst. cbn [fst snd] in *.
    exists (repeat " "%char (max_width p - List.length (op_name o))),
      (match get_var (op_var o) s with Some v => show_value si sf v | None => [] end).
    split; [|split; [|split]].
    + unfold opt_help, pad_right. generalize (repeat " "%char (max_width p - List.length (op_name o))). intros bl.
      rewrite N2, N1. change (lit "  --") with (lit "  " ++ lit "--"). rewrite <- !app_assoc. reflexivity.
    + apply Forall_forall. intros c I. now apply repeat_spec in I.
    + rewrite app_assoc, app_length. rewrite <- N1. rewrite repeat_length. lia.
    + intros v ->. reflexivity.
  - apply IH; [now inversion NM|now inversion LE].
Qed.
Print Assumptions c67_help.

Example c67_case :
  fst (register_option (lit "help") (lit "h") TBool (lit "v") demo) = false /\
  fst (register_option (lit "seed") (lit "h") TBool (lit "v") demo) = false /\
  fst (register_option (lit "other") (lit "h") TBool (lit "v") demo) = true /\
  map fst (p_opts (snd (register_option (lit "other") (lit "h") TBool (lit "v") demo))) =
    map lit ["flag"; "name"; "other"; "seed"; "threshold"] /\
  registered (lit "demo") (lit "A demo") demo.
Proof.
  split; [reflexivity|]. split; [reflexivity|]. split; [reflexivity|]. split; [reflexivity|].
  unfold demo. repeat constructor.
Qed.
