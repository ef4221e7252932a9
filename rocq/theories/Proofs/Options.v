(** Proofs about the command line. *)
From Coq Require Import Ascii String List Bool ZArith Lia Lra Reals Sorting.Sorted.
From Flocq Require Import Core BinarySingleNaN.
From Verif.Model Require Import Cpp Floats Stream Options.
From Verif.Spec Require Import Order Reader Options.
From Verif.Proofs Require Import Geometry Order Sets Reader.
Import ListNotations.
Local Open Scope Z_scope.

(** ** Integers *)

Lemma extract_int_text f b v bad : if_min f <= 0 <= if_max f -> extract_int f b = (v, bad, []) -> int_text f b v.
Proof.
  intros HF. unfold extract_int.
  destruct (read_sign_split b) as (s & B & S). destruct (read_sign b) as [neg b1]. simpl in B, S.
  pose proof (span_digits_split b1) as K. destruct (span_digits b1) as [ds rest]. destruct K as (E1 & F1 & H1).
  intros E. exists s, neg, ds. subst b1. destruct ds as [|d ds].
  - injection E as <- _ ->. rewrite app_nil_r in B. split; [now rewrite app_nil_r|]. auto.
  - assert (N : numeral (d :: ds) (digits_val (d :: ds))) by (apply numeral_iff; now split).
    assert (N0 := numeral_nonneg _ _ N). unfold int_text, int_limited. cbv zeta in E.
    revert N N0 E. generalize (digits_val (d :: ds)). intros n N N0 E.
    assert (R : rest = [] /\ v = int_limited f neg n).
    { unfold int_limited. destruct neg, (if_signed f).
      - destruct (n <=? - if_min f) eqn:C; injection E as <- _ ->; (split; [reflexivity|]); lia.
      - destruct (n <=? if_max f) eqn:C; injection E as <- _ ->; (split; [reflexivity|]).
        + replace (if_max f <? n) with false by lia. reflexivity.
        + replace (if_max f <? n) with true by lia. reflexivity.
      - destruct (n <=? if_max f) eqn:C; injection E as <- _ ->; (split; [reflexivity|]); lia.
      - destruct (n <=? if_max f) eqn:C; injection E as <- _ ->; (split; [reflexivity|]).
        + replace (if_max f <? n) with false by lia. reflexivity.
        + replace (if_max f <? n) with true by lia. reflexivity. }
    destruct R as [-> ->]. rewrite app_nil_r in B. split; [exact B|]. split; [exact S|]. right. eauto.
Qed.

Lemma int_text_extract f b v : if_min f <= 0 <= if_max f -> int_text f b v -> exists bad, extract_int f b = (v, bad, []).
Proof.
  intros HF (s & neg & ds & -> & S & D). unfold extract_int.
  assert (F : Forall digit_char_p ds).
  { destruct D as [[-> _]|(n & N & _)]; [constructor|]. now apply numeral_iff in N. }
  rewrite (read_sign_app s neg ds S).
  - pose proof (span_digits_app ds [] F (head_not_nil _)) as SD. rewrite app_nil_r in SD. rewrite SD.
    destruct D as [[-> ->]|(n & N & ->)]; [eauto|].
    assert (N0 := numeral_nonneg _ _ N). apply numeral_iff in N as (NE & _ & ->).
    destruct ds as [|d ds]; [easy|]. cbv zeta. revert N0. generalize (digits_val (d :: ds)). intros n N0.
    unfold int_limited. destruct neg, (if_signed f).
    + destruct (n <=? - if_min f) eqn:C; eexists; repeat f_equal; lia.
    + destruct (n <=? if_max f) eqn:C; eexists.
      * replace (if_max f <? n) with false by lia. reflexivity.
      * replace (if_max f <? n) with true by lia. reflexivity.
    + destruct (n <=? if_max f) eqn:C; eexists; repeat f_equal; lia.
    + destruct (n <=? if_max f) eqn:C; eexists.
      * replace (if_max f <? n) with false by lia. reflexivity.
      * replace (if_max f <? n) with true by lia. reflexivity.
  - destruct ds as [|d ds]; [apply head_not_nil|]. apply head_not_cons. inversion F; subst. now apply digit_not_sign.
Qed.

(** ** Doubles *)

Lemma f64_fexp x : nearest_f64 x = round radix2 (SpecFloat.fexp 53 1024) ZnearestE x.
Proof. reflexivity. Qed.

Lemma max_float_facts (neg : bool) : let v := max_float 53 1024 prec64 emax64 neg in
  is_finite v = true /\ Bsign v = neg /\ B2R v = if neg then (- max_f64)%R else max_f64.
Proof.
  assert (M : B2R (Bmax_float (prec := 53) (emax := 1024) (prec_gt_0_ := prec64) (prec_lt_emax_ := emax64)) = max_f64).
  { unfold Bmax_float. cbn. unfold F2R, max_f64. simpl Fnum. simpl Fexp.
    change (bpow radix2 1024) with (bpow radix2 (53 + 971)). rewrite bpow_plus.
    rewrite <- (IZR_Zpower radix2 53) by easy. change (Zpower radix2 53) with 9007199254740992.
    change (IZR 9007199254740991) with (IZR (9007199254740992 - 1)). rewrite minus_IZR. ring. }
  destruct neg; cbv zeta; unfold max_float.
  - rewrite is_finite_Bopp, B2R_Bopp, M. repeat split.
  - rewrite M. repeat split.
Qed.

Lemma scan_float_unfinished b : let '(a, rest) := scan_float b in
  fa_any a && (negb (fa_sci a) || fa_eany a) = false -> rest = [] ->
  forall s neg, sign s neg -> unfinished (s ++ b).
Proof.
  unfold scan_float. rewrite scan_mant_false.
  pose proof (span_digits_split b) as K. destruct (span_digits b) as [d1 r1]. destruct K as (-> & F1 & H1).
  assert (EXP : forall fp f rest dot,
    (fp = [] /\ f = [] \/ fp = "."%char :: f) -> Forall digit_char_p f ->
    let '(a', rest') := match rest with
      | c :: t =>
          if (Ascii.eqb c "e"%char || Ascii.eqb c "E"%char) && neb (d1 ++ f) then
            let (eneg, t1) := read_sign t in
            let (ds, rest') := span_digits t1 in
            (FlAcc (digits_val (d1 ++ f)) (Z.of_nat (List.length f)) (neb (d1 ++ f)) dot true
               (match ds with [] => false | _ => true end)
               (if eneg then - digits_val ds else digits_val ds), rest')
          else (FlAcc (digits_val (d1 ++ f)) (Z.of_nat (List.length f)) (neb (d1 ++ f)) dot false false 0, rest)
      | [] => (FlAcc (digits_val (d1 ++ f)) (Z.of_nat (List.length f)) (neb (d1 ++ f)) dot false false 0, rest)
      end in
    fa_any a' && (negb (fa_sci a') || fa_eany a') = false -> rest' = [] ->
    forall s neg, sign s neg -> unfinished (s ++ d1 ++ fp ++ rest)).
  { intros fp f rest dot FP Ff.
    assert (EMPTY : neb (d1 ++ f) = false -> rest = [] -> forall s neg, sign s neg -> unfinished (s ++ d1 ++ fp ++ rest)).
    { intros NB -> s neg S. destruct d1; [|discriminate]. destruct f; [|discriminate]. simpl. rewrite app_nil_r.
      apply (uf_start s neg); [exact S|]. destruct FP as [[-> _]| ->]; auto. }
    destruct rest as [|c t].
    - simpl. rewrite andb_true_r. auto.
    - destruct ((Ascii.eqb c "e"%char || Ascii.eqb c "E"%char) && neb (d1 ++ f)) eqn:C; [|easy].
      apply andb_prop in C as [C N].
      destruct (read_sign_split t) as (s' & T & S'). destruct (read_sign t) as [neg' t1]. simpl in T, S'.
      pose proof (span_digits_split t1) as K. destruct (span_digits t1) as [ds rest']. destruct K as (E1 & F2 & H2).
      simpl. rewrite N. intros V -> s neg S. simpl in V. destruct ds as [|d ds]; [|discriminate].
      simpl in E1. subst t1. rewrite app_nil_r in T. subst t.
      replace (s ++ d1 ++ fp ++ c :: s') with ((s ++ d1 ++ fp) ++ c :: s') by now rewrite <- !app_assoc.
      assert (CM : exp_mark c).
      { apply orb_prop in C as [C|C]; apply Ascii.eqb_eq in C; [now left|now right]. }
      assert (NO : forall e, exp_mark e -> ~ In e (s ++ d1 ++ fp)).
      { intros e M. rewrite !in_app_iff. intros [I|[I|I]].
        - destruct (sign_nil_or _ _ S) as [->|(c' & -> & C')]; [easy|]. destruct I as [->|[]].
          destruct M as [->| ->], C'; discriminate.
        - rewrite Forall_forall in F1. now apply (mark_not_digit e M), F1.
        - destruct FP as [[-> _]| ->]; [easy|]. destruct I as [<-|I]; [now apply mark_not_dot in M|].
          rewrite Forall_forall in Ff. now apply (mark_not_digit e M), Ff. }
      apply (uf_exp _ neg (digits_val (d1 ++ f)) (0 - Z.of_nat (List.length f)) c s' neg').
      + exists s, d1, fp, [], 0. rewrite app_nil_r. split; [reflexivity|]. split; [exact S|]. split; [|now left].
        exists f. split; [exact FP|]. split; [|reflexivity]. apply numeral_iff.
        split; [now destruct (d1 ++ f)|]. split; [|reflexivity]. now apply Forall_app.
      + apply NO. now left.
      + apply NO. now right.
      + exact CM.
      + exact S'. }
  destruct r1 as [|c t].
  - specialize (EXP [] [] [] false (or_introl (conj eq_refl eq_refl)) ltac:(constructor)).
    cbv zeta. cbn [app] in EXP. rewrite !app_nil_r in EXP. rewrite app_nil_r. exact EXP.
  - destruct (Ascii.eqb_spec c "."%char) as [->|NC].
    + pose proof (span_digits_split t) as K. destruct (span_digits t) as [d2 r2]. destruct K as (-> & F2 & H2).
      specialize (EXP ("."%char :: d2) d2 r2 true (or_intror eq_refl) F2).
      assert (E1 : fold_left (fun a c => 10 * a + digit_val c) d2 (fold_left (fun a c => 10 * a + digit_val c) d1 0)
        = digits_val (d1 ++ d2)) by (unfold digits_val; now rewrite fold_left_app).
      assert (E2 : false || neb d1 || neb d2 = neb (d1 ++ d2)) by (destruct d1; reflexivity).
      cbv zeta. rewrite E1, E2. cbn [app] in EXP. exact EXP.
    + specialize (EXP [] [] (c :: t) false (or_introl (conj eq_refl eq_refl)) ltac:(constructor)).
      rewrite !app_nil_r in EXP. cbn [app] in EXP. exact EXP.
Qed.

Lemma first_not_sign ip fp f x m : (fp = [] /\ f = [] \/ fp = "."%char :: f) -> numeral (ip ++ f) m ->
  head_not (fun c => c = "-"%char \/ c = "+"%char) (ip ++ fp ++ x).
Proof.
  intros FP NM. apply numeral_iff in NM as (NN & FD & _). destruct ip as [|c ip].
  - destruct FP as [[_ ->]| ->]; [easy|]. simpl. apply head_not_cons. now intros [?|?].
  - simpl. apply head_not_cons. inversion FD; subst. now apply digit_not_sign.
Qed.

Lemma extract_unfinished b : unfinished b -> extract_float 53 1024 prec64 emax64 b = (B754_zero false, true, []).
Proof.
  intros [s neg fp S FP|b' neg m e c s neg' D NE1 NE2 C S]; unfold extract_float.
  - rewrite (read_sign_app s neg fp S) by (destruct FP as [->| ->]; [apply head_not_nil|apply head_not_cons; now intros [?|?]]).
    destruct FP as [->| ->]; reflexivity.
  - destruct D as (s0 & ip & fp & x & k & -> & S0 & (f & FP & NM & ->) & X).
    assert (E : x = []).
    { destruct X as [[-> _]|(c' & s' & ? & ds & n & -> & [->| ->] & _)]; [reflexivity| |].
      - destruct NE1. rewrite !in_app_iff. simpl. auto.
      - destruct NE2. rewrite !in_app_iff. simpl. auto. }
    subst x. rewrite app_nil_r, <- !app_assoc.
    rewrite (read_sign_app s0 neg _ S0) by now apply (first_not_sign _ _ f _ m).
    unfold scan_float. rewrite scan_mant_false.
    apply numeral_iff in NM as (NN & FD & EM). apply Forall_app in FD as [F1 F2].
    assert (NB : neb (ip ++ f) = true) by now destruct (ip ++ f).
    assert (H1 : head_not digit_char_p (c :: s)) by (apply head_not_cons; now apply mark_not_digit).
    assert (SP : span_digits s = ([], s)).
    { destruct (sign_nil_or _ _ S) as [->|(c' & -> & C')]; [reflexivity|]. simpl.
      destruct C' as [->| ->]; reflexivity. }
    assert (RS : read_sign s = (neg', [])).
    { rewrite <- (app_nil_r s). apply read_sign_app; [exact S|apply head_not_nil]. }
    assert (CE : (Ascii.eqb c "e" || Ascii.eqb c "E") = true) by (destruct C as [->| ->]; reflexivity).
    destruct FP as [[-> ->]| ->].
    + simpl app. rewrite (span_digits_app ip (c :: s) F1 H1). cbv zeta. rewrite app_nil_r in NB.
      destruct (Ascii.eqb_spec c "."%char) as [->|]; [destruct C; discriminate|].
      cbn [orb]. rewrite CE, NB. cbn [andb]. rewrite RS. reflexivity.
    + simpl app. rewrite (span_digits_app ip ("."%char :: f ++ c :: s) F1)
        by (apply head_not_cons; intros K; now apply digit_not_dot in K).
      cbv zeta. change (Ascii.eqb "." ".") with true. cbv iota.
      rewrite (span_digits_app f (c :: s) F2 H1).
      replace (false || neb ip || neb f) with (neb (ip ++ f)) by (destruct ip; reflexivity).
      rewrite CE, NB. cbn [andb]. rewrite RS. reflexivity.
Qed.

Lemma extract_f64_text b v bad : extract_float 53 1024 prec64 emax64 b = (v, bad, []) -> f64_text b v.
Proof.
  unfold extract_float, f64_text.
  destruct (read_sign_split b) as (sg & B & SG). destruct (read_sign b) as [neg b1]. simpl in B, SG.
  pose proof (scan_float_split b1) as K. pose proof (scan_float_unfinished b1) as K'.
  destruct (scan_float b1) as [a rest].
  destruct (fa_any a && (negb (fa_sci a) || fa_eany a)) eqn:OK.
  - destruct (K eq_refl sg neg SG) as (x & XR & D). clear K K'.
    pose proof (decimal_nonneg _ _ _ _ D) as POS.
    pose proof (of_decimal_correct 53 1024 prec64 emax64 neg (fa_mant a) (fa_exp a - fa_frac a) POS) as OD.
    cbv zeta in OD. rewrite <- f64_fexp in OD. intros E. left.
    exists neg, (fa_mant a), (fa_exp a - fa_frac a).
    assert (ER : rest = []).
    { destruct (of_decimal 53 1024 neg (fa_mant a) (fa_exp a - fa_frac a)); now injection E. }
    subst rest. rewrite app_nil_r in XR. rewrite B, XR. split; [exact D|]. cbv zeta.
    destruct (Rlt_dec _ _) as [L|L].
    + rewrite Rlt_bool_true in OD by exact L. destruct OD as (O1 & O2 & O3).
      destruct (of_decimal 53 1024 neg (fa_mant a) (fa_exp a - fa_frac a)); try discriminate;
        injection E as <- _; now repeat split.
    + rewrite Rlt_bool_false in OD by lra. rewrite OD in E. injection E as <- _. apply max_float_facts.
  - intros E. injection E as <- _ ->. right. split; [reflexivity|]. rewrite B. now apply (K' eq_refl eq_refl sg neg).
Qed.

Lemma f64_text_extract b v : f64_text b v -> exists bad, extract_float 53 1024 prec64 emax64 b = (v, bad, []).
Proof.
  intros [(neg & m & e & D & FV & SV & RV)|[-> U]]; [|exists true; now apply extract_unfinished].
  pose proof (decimal_nonneg _ _ _ _ D) as POS.
  pose proof (of_decimal_correct 53 1024 prec64 emax64 neg m e POS) as OD. cbv zeta in OD, RV. rewrite <- f64_fexp in OD.
  destruct D as (s & ip & fp & xx & k & -> & S & (f & FP & NM & ->) & X).
  unfold extract_float. rewrite (read_sign_app s neg (ip ++ fp ++ xx) S) by now apply (first_not_sign _ _ f _ m).
  destruct (scan_float_app ip fp f xx k m [] FP NM X (head_not_nil _)) as (a & E & OK & EM & EE).
  rewrite app_nil_r in E. rewrite E, OK, EM, EE. destruct (Rlt_dec _ _) as [L|L].
  - rewrite Rlt_bool_true in OD by exact L. destruct OD as (O1 & O2 & O3).
    assert (EV : of_decimal 53 1024 neg m (k - Z.of_nat (List.length f)) = v) by (apply B2R_Bsign_inj; congruence).
    rewrite EV. destruct v; try discriminate FV; eauto.
  - rewrite Rlt_bool_false in OD by lra. rewrite OD. exists true.
    destruct (max_float_facts neg) as (M1 & M2 & M3). cbv zeta in *.
    repeat f_equal. apply B2R_Bsign_inj; congruence.
Qed.

(** ** Values *)

Lemma parse_value_ok arg t old b v : type_ok t -> parse_value arg t old b = (v, true) <-> value_text arg t b v.
Proof.
  intros HT. destruct t as [| |f|]; unfold parse_value.
  - unfold parse_bool. split.
    + destruct (_ || _ || _) eqn:T.
      * intros E. injection E as <-. apply vt_true.
        apply orb_prop in T as [T|T]; [apply orb_prop in T as [T|T]|].
        -- apply andb_prop in T as [T1 T2]. apply str_eq_spec in T2. destruct arg; [discriminate|]. auto.
        -- apply str_eq_spec in T. auto.
        -- apply str_eq_spec in T. auto.
      * destruct (str_eq b (lit "false") || str_eq b (lit "0")) eqn:F; [|discriminate].
        intros E. injection E as <-. apply vt_false. apply orb_prop in F as [F|F]; apply str_eq_spec in F; auto.
    + intros V. inversion V as [b' H|b' H| | |]; subst.
      * destruct H as [->|[->|[-> ->]]]; [destruct arg; reflexivity|destruct arg; reflexivity|reflexivity].
      * destruct H as [->| ->]; destruct arg; reflexivity.
  - unfold getline. simpl.
    pose proof (split_at_split nul b) as K. split.
    + destruct (split_at nul b) as [l [r|]] eqn:E; [intros H; destruct l; discriminate|]. destruct K as [-> K].
      intros H. assert (E' : v = VStr l) by (destruct l; now injection H). subst v. now apply vt_str.
    + intros V. inversion V as [| |b' H| |]; subst. change (ascii_of_N 0) with nul in H.
      rewrite (split_at_none nul b H). now destruct b.
  - unfold read_int. simpl. simpl in HT.
    destruct (extract_int f b) as [[x bad] rest] eqn:E. split.
    + intros H. destruct rest; [|discriminate]. injection H as <-. apply vt_int. eapply extract_int_text; eauto.
    + intros V. inversion V as [| | |f' b' x' H|]; subst.
      destruct (int_text_extract f b x' HT H) as [bad' E']. rewrite E' in E. injection E as <- <- <-. reflexivity.
  - unfold read_float. simpl.
    destruct (extract_float 53 1024 prec64 emax64 b) as [[x bad] rest] eqn:E. split.
    + intros H. destruct rest; [|discriminate]. injection H as <-. apply vt_f64. eapply extract_f64_text; eauto.
    + intros V. inversion V as [| | | |b' x' H]; subst.
      destruct (f64_text_extract b x' H) as [bad' E']. rewrite E' in E. injection E as <- <- <-. reflexivity.
Qed.

(** ** The section of options *)

Lemma opt_parse_ok o b s s' : type_ok (op_type o) -> opt_parse o b s = (s', true) <->
  exists v, value_text (op_arg o) (op_type o) b v /\ s' = set_var (op_var o) v s.
Proof.
  intros HT. unfold opt_parse. set (old := match get_var _ _ with Some v => v | None => _ end).
  pose proof (parse_value_ok (op_arg o) (op_type o) old b) as K.
  destruct (parse_value (op_arg o) (op_type o) old b) as [v ok] eqn:E. split.
  - intros H. injection H as <- ->. exists v. split; [|reflexivity]. now apply K.
  - intros (v' & V & ->). apply K in V; [|exact HT]. injection V as -> ->. reflexivity.
Qed.

Lemma value_text_fun arg t b v v' : type_ok t -> value_text arg t b v -> value_text arg t b v' -> v = v'.
Proof.
  intros HT H H'. apply (parse_value_ok arg t (VInt 0)) in H, H'; [|exact HT..]. congruence.
Qed.

Lemma assigned_app s l1 l2 s' : assigned s (l1 ++ l2) s' <-> exists s1, assigned s l1 s1 /\ assigned s1 l2 s'.
Proof.
  revert s. induction l1 as [|[o b] l1 IH]; intros s; simpl.
  - split; [intros H; exists s; split; [constructor|exact H]|intros (s1 & H1 & H2); inversion H1; now subst].
  - split.
    + intros H. inversion H as [|? ? ? v ? ? V A]; subst. apply IH in A as (s1 & A1 & A2).
      exists s1. split; [|exact A2]. econstructor; eauto.
    + intros (s1 & H1 & H2). inversion H1 as [|? ? ? v ? ? V A]; subst. econstructor; eauto. apply IH. eauto.
Qed.

Lemma not_dash_iff v : not_dash v = true <-> ~ dashed v.
Proof.
  destruct v as [|c v]; simpl; split; try easy.
  - intros _ [t T]. discriminate.
  - intros H [t T]. injection T as -> ->. discriminate.
  - intros H. destruct (Ascii.eqb_spec c "-"%char) as [->|]; [|reflexivity]. destruct H. now exists v.
Qed.

Lemma is_boolean_iff o : is_boolean o = true <-> op_type o = TBool.
Proof. unfold is_boolean. destruct (op_type o); split; easy. Qed.

Lemma lit_dd : lit "--" = ["-"%char; "-"%char].
Proof. reflexivity. Qed.

Section Opts.
  Variable opts : list (bytes * opt).
  Hypothesis ND : NoDup (map fst opts).
  Hypothesis TY : Forall (fun o => type_ok (op_type o)) (map snd opts).

  Lemma opts_type n o : In (n, o) opts -> type_ok (op_type o).
  Proof. intros I. rewrite Forall_forall in TY. apply TY, (in_map snd _ _ I). Qed.

  Lemma names_option_find a o : names_option opts a o <->
    looks_like_option a = true /\ str_eq a (lit "--") = false /\ str_eq a (lit "--help") = false /\
    map_find str_eq (skipn 2 a) opts = Some o.
  Proof.
    split.
    - intros [c name o' I N1 N2]. split; [reflexivity|].
      split; [destruct (str_eq _ _) eqn:E; [apply str_eq_spec in E; contradiction|reflexivity]|].
      split; [destruct (str_eq _ _) eqn:E; [apply str_eq_spec in E; contradiction|reflexivity]|].
      simpl. now apply (map_find_nodup str_eq str_eq_spec).
    - intros (L & E1 & E2 & F). destruct a as [|c [|c' name]]; try discriminate.
      simpl in L. apply Ascii.eqb_eq in L. subst c. apply no_intro.
      + apply (map_find_in str_eq str_eq_spec) in F. exact F.
      + intros K. rewrite K, str_eq_refl in E1. discriminate.
      + intros K. rewrite K, str_eq_refl in E2. discriminate.
  Qed.

  Lemma no_option a : ~ dashed a \/ a = lit "-" <-> looks_like_option a = false.
  Proof.
    destruct a as [|c [|c' t]]; simpl.
    - split; [easy|]. intros _. left. intros [t T]. discriminate.
    - split; [easy|]. intros _. destruct (Ascii.eqb_spec c "-"%char) as [->|N]; [now right|]. left. intros [t T].
      now injection T.
    - split.
      + intros [H|H]; [|discriminate]. destruct (Ascii.eqb_spec c "-"%char) as [->|N]; [|reflexivity].
        destruct H. now eexists.
      + intros E. left. intros [t' T]. injection T as -> _. discriminate.
  Qed.

  Lemma option_value_fun o args b args' b' args'' :
    option_value o args b args' -> option_value o args b' args'' -> b = b' /\ args' = args''.
  Proof.
    intros [x B D|v x D] H; inversion H as [y B' D'|v' y D']; subst; auto.
    - destruct D'; [exact B|]. now apply (D _ _ eq_refl).
    - destruct D; [exact B'|]. now apply (D' _ _ eq_refl).
  Qed.

  (** What the loop does with an option. *)
  Lemma parse_options_option a o args h s : names_option opts a o ->
    (forall b args', option_value o args b args' ->
      parse_options opts h (a :: args) s =
      let (s1, ok) := opt_parse o b s in
      if ok then parse_options opts h args' s1 else OError (InvalidOption a) s1) /\
    ((forall b args', ~ option_value o args b args') ->
      parse_options opts h (a :: args) s = OError (InvalidOption a) s).
  Proof.
    intros N. apply names_option_find in N as (L & E1 & E2 & F).
    cbn [parse_options]. rewrite L, E1, E2, F. cbn [negb]. split.
    - intros b args' [x B D|v x D].
      + rewrite (proj2 (is_boolean_iff o) B). destruct x as [|v x]; [reflexivity|].
        destruct (not_dash v) eqn:K; [|reflexivity]. apply not_dash_iff in K. now destruct (K (D _ _ eq_refl)).
      + destruct (is_boolean o) eqn:B; [|reflexivity]. apply is_boolean_iff in B.
        rewrite (proj2 (not_dash_iff v) (D B)). reflexivity.
    - intros H. destruct (is_boolean o) eqn:B.
      + apply is_boolean_iff in B. destruct args as [|v x].
        * exfalso. apply (H [] []). now apply ov_flag.
        * destruct (not_dash v) eqn:K.
          -- exfalso. apply (H v x). apply ov_given. intros _. now apply not_dash_iff.
          -- exfalso. apply (H [] (v :: x)). apply ov_flag; [exact B|]. intros w y E. injection E as <- <-.
             destruct v as [|c v]; [discriminate|]. simpl in K.
             destruct (Ascii.eqb_spec c "-"%char) as [->|]; [now exists v|discriminate].
      + destruct args as [|v x]; [reflexivity|]. exfalso. apply (H v x). apply ov_given. intros K.
        apply is_boolean_iff in K. congruence.
  Qed.

  Lemma option_value_dec o args : (exists b args', option_value o args b args') \/ forall b args', ~ option_value o args b args'.
  Proof.
    destruct (is_boolean o) eqn:B.
    - apply is_boolean_iff in B. left. destruct args as [|v x].
      + exists [], []. now apply ov_flag.
      + destruct (not_dash v) eqn:K.
        * exists v, x. apply ov_given. intros _. now apply not_dash_iff.
        * exists [], (v :: x). apply ov_flag; [exact B|]. intros w y E. injection E as <- <-.
          destruct v as [|c v]; [discriminate|]. simpl in K.
          destruct (Ascii.eqb_spec c "-"%char) as [->|]; [now exists v|discriminate].
    - assert (NB : op_type o <> TBool) by (intros K; apply is_boolean_iff in K; congruence).
      destruct args as [|v x].
      + right. intros b args' H. inversion H. contradiction.
      + left. exists v, x. now apply ov_given.
  Qed.

  Lemma option_value_len o args b args' : option_value o args b args' -> (List.length args' <= List.length args)%nat.
  Proof. intros [x B D|v x D]; simpl; lia. Qed.

  Lemma names_type a o : names_option opts a o -> type_ok (op_type o).
  Proof. intros [c name o' I _ _]. now apply opts_type in I. Qed.

  Lemma items_run args asg hh post : opt_items opts args asg hh post -> forall h s s1, assigned s asg s1 ->
    parse_options opts h args s = parse_options opts (h || hh) post s1.
  Proof.
    induction 1 as [args|args asg hh post H IH|a o args b args' asg hh post N V H IH]; intros h s s1 A.
    - inversion A; subst. now rewrite orb_false_r.
    - rewrite orb_true_r. change (parse_options opts h (lit "--help" :: args) s) with (parse_options opts true args s).
      rewrite (IH true s s1 A). reflexivity.
    - inversion A as [|? ? ? v ? ? T A']; subst.
      rewrite (proj1 (parse_options_option a o args h s N) _ _ V).
      assert (E : opt_parse o b s = (set_var (op_var o) v s, true)).
      { apply opt_parse_ok; [now apply (names_type a)|]. eauto. }
      rewrite E. now apply IH.
  Qed.

  (** Where the loop stops. *)
  Definition stuck (post : list bytes) : Prop :=
    (exists rest, section_end post rest) \/
    exists a args, post = a :: args /\ (unknown_option opts a \/ bad_option opts a args).

  Lemma items_stuck n : forall args, (List.length args <= n)%nat -> forall s,
    exists asg hh post s1, opt_items opts args asg hh post /\ assigned s asg s1 /\ stuck post.
  Proof.
    induction n as [|n IH]; intros args LEN s.
    - destruct args; [|simpl in LEN; lia]. exists [], false, [], s. split; [constructor|]. split; [constructor|]. left. eexists. constructor.
    - destruct args as [|a args]; [exists [], false, [], s; split; [constructor|]; split; [constructor|]; left; eexists; constructor|].
      simpl in LEN. assert (STOP : stuck (a :: args) -> exists asg hh post s1,
        opt_items opts (a :: args) asg hh post /\ assigned s asg s1 /\ stuck post).
      { intros K. exists [], false, (a :: args), s. split; [constructor|]. split; [constructor|exact K]. }
      destruct (looks_like_option a) eqn:L.
      2:{ apply STOP. left. eexists. apply se_stop. now apply no_option. }
      destruct (str_eq a (lit "--")) eqn:E1.
      { apply str_eq_spec in E1. subst a. apply STOP. left. eexists. apply se_dashes. }
      destruct (str_eq a (lit "--help")) eqn:E2.
      { apply str_eq_spec in E2. subst a. destruct (IH args ltac:(lia) s) as (asg & hh & post & s1 & I & A & K).
        exists asg, true, post, s1. split; [now apply oi_help with hh|]. auto. }
      destruct (map_find str_eq (skipn 2 a) opts) as [o|] eqn:F.
      + assert (N : names_option opts a o) by now apply names_option_find.
        assert (T := names_type a o N).
        destruct (option_value_dec o args) as [(b & args' & V)|NV].
        * destruct (opt_parse o b s) as [s1 [|]] eqn:P.
          -- apply opt_parse_ok in P as (v & P & ->); [|exact T].
             pose proof (option_value_len _ _ _ _ V) as LV.
             destruct (IH args' ltac:(lia) (set_var (op_var o) v s)) as (asg & hh & post & s1 & I & A & K).
             exists ((o, b) :: asg), hh, post, s1. split; [now apply oi_option with args'|]. split; [|exact K].
             now apply as_cons with v.
          -- apply STOP. right. exists a, args. split; [reflexivity|]. right. exists o. split; [exact N|].
             intros b' post' v V' TV. destruct (option_value_fun _ _ _ _ _ _ V V') as [<- _].
             assert (E : opt_parse o b s = (set_var (op_var o) v s, true)) by (apply opt_parse_ok; eauto). congruence.
        * apply STOP. right. exists a, args. split; [reflexivity|]. right. exists o. split; [exact N|].
          intros b post' v V _. now apply (NV b post').
      + apply STOP. right. exists a, args. split; [reflexivity|]. left.
        assert (K : ~ (~ dashed a \/ a = lit "-")) by (intros K; apply no_option in K; congruence).
        split; [|split; [|split; [|split]]].
        * destruct a as [|c [|c' t]]; try discriminate. simpl in L. apply Ascii.eqb_eq in L. subst. now eexists.
        * intros E. apply K. now right.
        * intros E. subst a. now rewrite str_eq_refl in E1.
        * intros E. subst a. now rewrite str_eq_refl in E2.
        * intros o N. apply names_option_find in N as (_ & _ & _ & N). congruence.
  Qed.

  Lemma section_end_fun post rest rest' : section_end post rest -> section_end post rest' -> rest = rest'.
  Proof.
    intros [|a args N|args] H; inversion H as [|? ? N'|]; subst; try reflexivity.
    - apply no_option in N. discriminate.
    - apply no_option in N'. discriminate.
  Qed.

  Lemma run_end post rest h s : section_end post rest -> parse_options opts h post s = ODone h rest s.
  Proof.
    intros [|a args N|args]; [reflexivity| |reflexivity].
    apply no_option in N. cbn [parse_options]. now rewrite N.
  Qed.

  Lemma run_unknown a args h s : unknown_option opts a ->
    parse_options opts h (a :: args) s = OError (UnknownOption a) s.
  Proof.
    intros (D & N0 & N1 & N2 & N3). destruct (looks_like_option a) eqn:L.
    2:{ apply no_option in L. tauto. }
    assert (E1 : str_eq a (lit "--") = false).
    { destruct (str_eq a (lit "--")) eqn:E; [|reflexivity]. now apply str_eq_spec in E. }
    assert (E2 : str_eq a (lit "--help") = false).
    { destruct (str_eq a (lit "--help")) eqn:E; [|reflexivity]. now apply str_eq_spec in E. }
    cbn [parse_options]. rewrite L, E1, E2. cbn [negb].
    destruct (map_find str_eq (skipn 2 a) opts) as [o|] eqn:F; [|reflexivity].
    exfalso. apply (N3 o). now apply names_option_find.
  Qed.

  Lemma run_bad a args h s : bad_option opts a args ->
    exists s', parse_options opts h (a :: args) s = OError (InvalidOption a) s'.
  Proof.
    intros (o & N & V). destruct (parse_options_option a o args h s N) as [P1 P2].
    destruct (option_value_dec o args) as [(b & args' & VO)|NV]; [|exists s; now apply P2].
    rewrite (P1 _ _ VO). destruct (opt_parse o b s) as [s1 [|]] eqn:P; [|now eexists].
    apply opt_parse_ok in P as (v & P & _); [|now apply (names_type a)]. now destruct (V b args' v VO).
  Qed.

  Lemma end_stuck_excl post rest a args : section_end post rest -> post = a :: args ->
    ~ unknown_option opts a /\ ~ bad_option opts a args.
  Proof.
    intros S ->. split.
    - intros U. pose proof (run_unknown a args false [] U) as E. rewrite (run_end _ _ false [] S) in E. discriminate.
    - intros U. destruct (run_bad a args false [] U) as [s' E]. rewrite (run_end _ _ false [] S) in E. discriminate.
  Qed.

  Lemma parse_options_done args h s h' rest s' :
    parse_options opts h args s = ODone h' rest s' <->
    exists asg hh, opt_section opts args asg hh rest /\ assigned s asg s' /\ h' = h || hh.
  Proof.
    split.
    - intros E. destruct (items_stuck _ args (le_n _) s) as (asg & hh & post & s1 & I & A & K).
      rewrite (items_run _ _ _ _ I h s s1 A) in E. destruct K as [(rest' & K)|(a & x & -> & [K|K])].
      + rewrite (run_end _ _ _ _ K) in E. injection E as <- <- <-. exists asg, hh. split; [now exists post|]. auto.
      + rewrite run_unknown in E by exact K. discriminate.
      + destruct (run_bad a x (h || hh) s1 K) as [s2 E2]. congruence.
    - intros (asg & hh & (post & I & S) & A & ->). rewrite (items_run _ _ _ _ I h s s' A). now apply run_end.
  Qed.

  Lemma section_fun args asg h rest asg' h' rest' : opt_section opts args asg h rest -> opt_section opts args asg' h' rest' ->
    asg = asg' /\ h = h' /\ rest = rest'.
  Proof.
    intros (post & I & E) (post' & I' & E'). revert asg' h' I'.
    assert (EX : forall args r, section_end args r -> (forall o l a, args = a :: l -> ~ names_option opts a o) /\
      (forall l, args <> lit "--help" :: l)).
    { intros l r S. split.
      - intros o l' a -> N. apply names_option_find in N as (L & N2 & _). inversion S as [|? ? K|]; subst.
        + apply no_option in K. congruence.
        + rewrite str_eq_refl in N2. discriminate.
      - intros l' ->. inversion S as [|? ? K|]; subst. apply no_option in K. discriminate. }
    induction I as [args|args asg h post I IH|a o args b args' asg h post N V I IH]; intros asg' h' I'.
    - destruct (EX _ _ E) as [X1 X2].
      inversion I' as [|? ? ? ? I2|? ? ? ? ? ? ? ? N2 V2 I2]; subst.
      + split; [reflexivity|]. split; [reflexivity|]. now apply (section_end_fun post').
      + now destruct (X2 args0).
      + now destruct (X1 o args0 a eq_refl).
    - inversion I' as [|? ? hx ? I2|? ? ? ? ? ? ? ? N2 V2 I2]; subst.
      + destruct (EX _ _ E') as [_ X2]. now destruct (X2 args).
      + destruct (IH E _ _ I2) as (-> & _ & ->). auto.
      + apply names_option_find in N2 as (_ & _ & N2 & _). rewrite str_eq_refl in N2. discriminate.
    - inversion I' as [|? ? hx ? I2|? o2 ? b2 args2 ? ? ? N2 V2 I2]; subst.
      + destruct (EX _ _ E') as [X1 _]. now destruct (X1 o args a eq_refl).
      + apply names_option_find in N as (_ & _ & N & _). rewrite str_eq_refl in N. discriminate.
      + apply names_option_find in N as (_ & _ & _ & N). apply names_option_find in N2 as (_ & _ & _ & N2).
        rewrite N in N2. injection N2 as <-. destruct (option_value_fun _ _ _ _ _ _ V V2) as [<- <-].
        destruct (IH E _ _ I2) as (-> & -> & ->). auto.
  Qed.

  Lemma parse_options_unknown args h s a s' :
    parse_options opts h args s = OError (UnknownOption a) s' <->
    exists asg hh post, opt_items opts args asg hh (a :: post) /\ assigned s asg s' /\ unknown_option opts a.
  Proof.
    split.
    - intros E. destruct (items_stuck _ args (le_n _) s) as (asg & hh & post & s1 & I & A & K).
      rewrite (items_run _ _ _ _ I h s s1 A) in E. destruct K as [(rest' & K)|(a' & x & -> & [K|K])].
      + rewrite (run_end _ _ _ _ K) in E. discriminate.
      + rewrite run_unknown in E by exact K. injection E as <- <-. eauto 8.
      + destruct (run_bad a' x (h || hh) s1 K) as [s2 E2]. congruence.
    - intros (asg & hh & post & I & A & U). rewrite (items_run _ _ _ _ I h s s' A). now apply run_unknown.
  Qed.

  Lemma parse_options_bad args h s a :
    (exists s', parse_options opts h args s = OError (InvalidOption a) s') <->
    exists asg hh post s1, opt_items opts args asg hh (a :: post) /\ assigned s asg s1 /\ bad_option opts a post.
  Proof.
    split.
    - intros [s' E]. destruct (items_stuck _ args (le_n _) s) as (asg & hh & post & s1 & I & A & K).
      rewrite (items_run _ _ _ _ I h s s1 A) in E. destruct K as [(rest' & K)|(a' & x & -> & [K|K])].
      + rewrite (run_end _ _ _ _ K) in E. discriminate.
      + rewrite run_unknown in E by exact K. discriminate.
      + destruct (run_bad a' x (h || hh) s1 K) as [s2 E2]. rewrite E2 in E. injection E as <- _. eauto 10.
    - intros (asg & hh & post & s1 & I & A & U). rewrite (items_run _ _ _ _ I h s s1 A). now apply run_bad.
  Qed.

  Lemma parse_options_errors args h s e s' : parse_options opts h args s = OError e s' ->
    exists a, e = UnknownOption a \/ e = InvalidOption a.
  Proof.
    intros E. destruct (items_stuck _ args (le_n _) s) as (asg & hh & post & s1 & I & A & K).
    rewrite (items_run _ _ _ _ I h s s1 A) in E. destruct K as [(rest' & K)|(a' & x & -> & [K|K])].
    - rewrite (run_end _ _ _ _ K) in E. discriminate.
    - rewrite run_unknown in E by exact K. injection E as <- _. eauto.
    - destruct (run_bad a' x (h || hh) s1 K) as [s2 E2]. rewrite E2 in E. injection E as <- _. eauto.
  Qed.
End Opts.

(** ** Positional arguments *)

Lemma positional_ok args : Forall (fun o => type_ok (op_type o)) args -> forall vals j s r,
  parse_positional j args vals s = inl r <->
  exists s', assigned s (combine args vals) s' /\ r = (skipn (List.length vals) args, skipn (List.length args) vals, s').
Proof.
  induction 1 as [|a args T F IH]; intros vals j s r.
  - simpl. rewrite skipn_nil. split.
    + intros E. injection E as <-. exists s. split; [constructor|reflexivity].
    + intros (s' & A & ->). inversion A. now subst.
  - destruct vals as [|v vals].
    + simpl. split.
      * intros E. injection E as <-. exists s. split; [constructor|reflexivity].
      * intros (s' & A & ->). inversion A. now subst.
    + cbn [parse_positional combine List.length skipn]. destruct (opt_parse a v s) as [s1 [|]] eqn:P.
      * rewrite IH. apply opt_parse_ok in P as (x & P & ->); [|exact T]. split.
        -- intros (s' & A & ->). exists s'. split; [|reflexivity]. now apply as_cons with x.
        -- intros (s' & A & ->). exists s'. split; [|reflexivity]. inversion A as [|? ? ? x' ? ? P' A']; subst.
           now rewrite (value_text_fun _ _ _ _ _ T P P').
      * split; [discriminate|]. intros (s' & A & ->). inversion A as [|? ? ? x' ? ? P' A']; subst.
        assert (E : opt_parse a v s = (set_var (op_var a) x' s, true)) by (apply opt_parse_ok; eauto). congruence.
Qed.

Lemma positional_error args : forall vals j s e s', parse_positional j args vals s = inr (e, s') ->
  exists i, e = InvalidPositional i.
Proof.
  induction args as [|a args IH]; intros vals j s e s'; simpl; [discriminate|].
  destruct vals as [|v vals]; [discriminate|]. destruct (opt_parse a v s) as [s3 [|]]; [apply IH|].
  intros E. injection E as <- _. eauto.
Qed.

Lemma positional_bad args : Forall (fun o => type_ok (op_type o)) args -> forall vals j s i,
  (exists s', parse_positional j args vals s = inr (InvalidPositional i, s')) <->
  exists k o b s1, nth_error args k = Some o /\ nth_error vals k = Some b /\ i = (j + k + 1)%nat /\
    assigned s (combine (firstn k args) vals) s1 /\ forall v, ~ value_text (op_arg o) (op_type o) b v.
Proof.
  induction 1 as [|a args T F IH]; intros vals j s i.
  - simpl. split; [intros [? ?]; discriminate|]. intros (k & o & b & s1 & N & _). destruct k; discriminate.
  - destruct vals as [|v vals].
    + simpl. split; [intros [? ?]; discriminate|]. intros (k & o & b & s1 & _ & N & _). destruct k; discriminate.
    + cbn [parse_positional]. destruct (opt_parse a v s) as [s1 [|]] eqn:P.
      * rewrite IH. apply opt_parse_ok in P as (x & P & ->); [|exact T]. split.
        -- intros (k & o & b & s1 & N1 & N2 & -> & A & B). exists (S k), o, b, s1. split; [exact N1|]. split; [exact N2|].
           split; [lia|]. split; [|exact B]. simpl. now apply as_cons with x.
        -- intros (k & o & b & s1 & N1 & N2 & -> & A & B). destruct k as [|k].
           ++ injection N1 as ->. injection N2 as ->. now destruct (B x).
           ++ exists k, o, b, s1. split; [exact N1|]. split; [exact N2|]. split; [lia|]. split; [|exact B].
              simpl in A. inversion A as [|? ? ? x' ? ? P' A']; subst. now rewrite (value_text_fun _ _ _ _ _ T P P').
      * split.
        -- intros [s' E]. injection E as <- <-. exists 0%nat, a, v, s. split; [reflexivity|]. split; [reflexivity|].
           split; [lia|]. split; [constructor|]. intros x V.
           assert (E : opt_parse a v s = (set_var (op_var a) x s, true)) by (apply opt_parse_ok; eauto). congruence.
        -- intros (k & o & b & s2 & N1 & N2 & -> & A & B). destruct k as [|k].
           ++ exists s1. now replace (j + 0 + 1)%nat with (j + 1)%nat by lia.
           ++ simpl in A. inversion A as [|? ? ? x' ? ? P' A']; subst.
              assert (E : opt_parse a v s = (set_var (op_var a) x' s, true)) by (apply opt_parse_ok; eauto). congruence.
Qed.

Lemma nth_error_skipn {A} (l : list A) n k : nth_error (skipn n l) k = nth_error l (n + k).
Proof. revert n. induction l as [|a l IH]; intros [|n]; simpl; try reflexivity; [now destruct k|apply IH]. Qed.

Lemma combine_app {A B} (l1 l2 : list A) (r : list B) : (List.length l1 <= List.length r)%nat ->
  combine (l1 ++ l2) r = combine l1 r ++ combine l2 (skipn (List.length l1) r).
Proof.
  revert r. induction l1 as [|a l1 IH]; intros r L; simpl.
  - reflexivity.
  - destruct r as [|b r]; simpl in L; [lia|]. simpl. f_equal. apply IH. lia.
Qed.

Lemma combine_short {A B} (l1 l2 : list A) (r : list B) : (List.length r <= List.length l1)%nat ->
  combine (l1 ++ l2) r = combine l1 r.
Proof.
  revert r. induction l1 as [|a l1 IH]; intros r L; simpl.
  - destruct r; [|simpl in L; lia]. now destruct l2.
  - destruct r as [|b r]; simpl in L; [reflexivity|]. f_equal. apply IH. lia.
Qed.

Lemma combine_long {A B} (l : list A) (r r' : list B) : (List.length l <= List.length r)%nat ->
  combine l (r ++ r') = combine l r.
Proof.
  revert r. induction l as [|a l IH]; intros r L; simpl; [reflexivity|].
  destruct r as [|b r]; simpl in L; [lia|]. simpl. f_equal. apply IH. lia.
Qed.

Lemma assigned_combine_fun args : Forall (fun o => type_ok (op_type o)) args -> forall vals s s1 s2,
  assigned s (combine args vals) s1 -> assigned s (combine args vals) s2 -> s1 = s2.
Proof.
  intros T vals s s1 s2 A1 A2.
  assert (E1 := proj2 (positional_ok _ T vals 0 s _) (ex_intro _ s1 (conj A1 eq_refl))).
  assert (E2 := proj2 (positional_ok _ T vals 0 s _) (ex_intro _ s2 (conj A2 eq_refl))). congruence.
Qed.

(** The number and values of the positional arguments are right. *)
Definition positional (p : parser) (rest : list bytes) (s s' : store) : Prop :=
  (List.length (p_args p) <= List.length rest <= List.length (p_args p) + List.length (p_opt_args p))%nat /\
  assigned s (combine (p_args p ++ p_opt_args p) rest) s'.

Section Parse.
  Variable p : parser.
  Hypothesis OK : parser_ok p.

  Lemma ok_nodup : NoDup (map fst (p_opts p)).
  Proof. apply OK. Qed.

  Lemma ok_types : Forall (fun o => type_ok (op_type o)) (map snd (p_opts p)) /\
    Forall (fun o => type_ok (op_type o)) (p_args p) /\ Forall (fun o => type_ok (op_type o)) (p_opt_args p).
  Proof. destruct OK as [_ T]. rewrite !Forall_app in T. tauto. Qed.

  (** The part of [parse] after the options. *)
  Definition after (rest : list bytes) (s1 : store) : parse_res :=
    match parse_positional 0 (p_args p) rest s1 with
    | inr (e, s2) => PFalse e s2
    | inl (a :: missing, _, s2) => PFalse (MissingArguments (List.length (a :: missing))) s2
    | inl ([], rest2, s2) =>
        match parse_positional (List.length (p_args p)) (p_opt_args p) rest2 s2 with
        | inr (e, s3) => PFalse e s3
        | inl (_, [], s3) => PTrue s3
        | inl (_, extra, s3) =>
            let max_args := (List.length (p_args p) + List.length (p_opt_args p))%nat in
            PFalse (TooManyArguments max_args (max_args + List.length extra)%nat) s3
        end
    end.

  Lemma skipn_nil_iff {A} n (l : list A) : skipn n l = [] <-> (List.length l <= n)%nat.
  Proof.
    split; intros H; [|now apply skipn_all2].
    assert (L := skipn_length n l). rewrite H in L. simpl in L. lia.
  Qed.

  Lemma after_ok rest s s' : after rest s = PTrue s' <-> positional p rest s s'.
  Proof.
    destruct ok_types as (_ & T1 & T2). unfold after, positional.
    pose proof (positional_ok _ T1 rest 0 s) as K1.
    destruct (parse_positional 0 (p_args p) rest s) as [[[miss rest2] s2]|[e s2]].
    - destruct (proj1 (K1 _) eq_refl) as (s2' & A1 & E1). injection E1 as -> -> <-.
      destruct (skipn (List.length rest) (p_args p)) as [|a l] eqn:M.
      + apply skipn_nil_iff in M.
        pose proof (positional_ok _ T2 (skipn (List.length (p_args p)) rest) (List.length (p_args p)) s2) as K2.
        rewrite (combine_app _ _ rest) by exact M.
        destruct (parse_positional (List.length (p_args p)) (p_opt_args p) (skipn (List.length (p_args p)) rest) s2)
          as [[[miss rest3] s3]|[e s3]].
        * destruct (proj1 (K2 _) eq_refl) as (s3' & A2 & E2). injection E2 as -> -> <-.
          destruct (skipn (List.length (p_opt_args p)) (skipn (List.length (p_args p)) rest)) as [|x y] eqn:X.
          -- apply skipn_nil_iff in X. rewrite skipn_length in X. split.
             ++ intros E. injection E as <-. split; [lia|]. apply assigned_app. eauto.
             ++ intros (_ & A). apply assigned_app in A as (s2' & A1' & A2').
                rewrite <- (assigned_combine_fun _ T1 _ _ _ _ A1 A1') in A2'.
                now rewrite (assigned_combine_fun _ T2 _ _ _ _ A2 A2').
          -- split; [discriminate|]. intros (L & _). exfalso.
             assert (X' : skipn (List.length (p_opt_args p)) (skipn (List.length (p_args p)) rest) = [])
               by (apply skipn_nil_iff; rewrite skipn_length; lia). congruence.
        * split; [discriminate|]. intros (L & A). apply assigned_app in A as (s2' & A1' & A2').
          rewrite <- (assigned_combine_fun _ T1 _ _ _ _ A1 A1') in A2'.
          assert (E3 := proj2 (K2 _) (ex_intro _ s' (conj A2' eq_refl))). discriminate.
      + split; [discriminate|]. intros (L & _).
        assert (M' : skipn (List.length rest) (p_args p) = []) by (apply skipn_nil_iff; lia). congruence.
    - split; [discriminate|]. intros (L & A). rewrite combine_app in A by lia.
      apply assigned_app in A as (s2' & A1' & A2').
      assert (E3 := proj2 (K1 _) (ex_intro _ s2' (conj A1' eq_refl))). discriminate.
  Qed.

  Lemma parse_true args s s' : parse p args s = PTrue s' <->
    exists asg rest s1, opt_section (p_opts p) args asg false rest /\ assigned s asg s1 /\ positional p rest s1 s'.
  Proof.
    destruct ok_types as (T0 & _). unfold parse.
    pose proof (parse_options_done (p_opts p) ok_nodup T0 args false s) as K.
    destruct (parse_options (p_opts p) false args s) as [h rest s1|e s1].
    - destruct (proj1 (K _ _ _) eq_refl) as (asg & hh & S & A & ->). simpl orb in *. destruct hh.
      + split; [discriminate|]. intros (asg' & rest' & s1' & S' & A' & P).
        assert (E := proj2 (K false rest' s1') (ex_intro _ asg' (ex_intro _ false (conj S' (conj A' eq_refl))))).
        discriminate.
      + change (after rest s1 = PTrue s' <-> exists asg rest s1, opt_section (p_opts p) args asg false rest /\
          assigned s asg s1 /\ positional p rest s1 s'). rewrite after_ok. split; [eauto 8|].
        intros (asg' & rest' & s1' & S' & A' & P).
        assert (E := proj2 (K false rest' s1') (ex_intro _ asg' (ex_intro _ false (conj S' (conj A' eq_refl))))).
        injection E as <- <-. exact P.
    - split; [discriminate|]. intros (asg' & rest' & s1' & S' & A' & P).
      assert (E := proj2 (K false rest' s1') (ex_intro _ asg' (ex_intro _ false (conj S' (conj A' eq_refl))))).
      discriminate.
  Qed.

  Lemma parse_exit args s s' : parse p args s = PExit s' <->
    exists asg rest, opt_section (p_opts p) args asg true rest /\ assigned s asg s'.
  Proof.
    destruct ok_types as (T0 & _). unfold parse.
    pose proof (parse_options_done (p_opts p) ok_nodup T0 args false s) as K.
    destruct (parse_options (p_opts p) false args s) as [h rest s1|e s1].
    - destruct (proj1 (K _ _ _) eq_refl) as (asg & hh & S & A & ->). simpl orb in *. destruct hh.
      + split; [intros E; injection E as <-; eauto|]. intros (asg' & rest' & S' & A').
        assert (E := proj2 (K true rest' s') (ex_intro _ asg' (ex_intro _ true (conj S' (conj A' eq_refl))))).
        now injection E as _ ->.
      + split.
        * change (after rest s1 = PExit s' -> exists asg rest, opt_section (p_opts p) args asg true rest /\ assigned s asg s').
          unfold after. intros E. exfalso. destruct (parse_positional 0 (p_args p) rest s1) as [[[[|? ?] ?] ?]|[? ?]]; try discriminate.
          destruct (parse_positional _ _ _ _) as [[[? [|? ?]] ?]|[? ?]]; discriminate.
        * intros (asg' & rest' & S' & A').
          assert (E := proj2 (K true rest' s') (ex_intro _ asg' (ex_intro _ true (conj S' (conj A' eq_refl))))).
          discriminate.
    - split; [discriminate|]. intros (asg' & rest' & S' & A').
      assert (E := proj2 (K true rest' s') (ex_intro _ asg' (ex_intro _ true (conj S' (conj A' eq_refl))))).
      discriminate.
  Qed.

  (** Errors in the positional arguments are not errors of options. *)
  Lemma after_errors rest s1 e s2 : after rest s1 = PFalse e s2 -> forall a, e <> UnknownOption a /\ e <> InvalidOption a.
  Proof.
    assert (PP : forall args j vals s e s', parse_positional j args vals s = inr (e, s') -> exists i, e = InvalidPositional i).
    { induction args as [|a args IH]; intros j vals s e0 s'; simpl; [discriminate|].
      destruct vals as [|v vals]; [discriminate|]. destruct (opt_parse a v s) as [s3 [|]]; [apply IH|].
      intros E. injection E as <- _. eauto. }
    unfold after. destruct (parse_positional 0 (p_args p) rest s1) as [[[[|x y] r2] s3]|[e' s3]] eqn:E1.
    - destruct (parse_positional _ _ r2 s3) as [[[m [|u v]] s4]|[e' s4]] eqn:E2; try discriminate.
      + intros E. injection E as <- _. split; discriminate.
      + apply PP in E2 as [i ->]. intros E. injection E as <- _. split; discriminate.
    - intros E. injection E as <- _. split; discriminate.
    - apply PP in E1 as [i ->]. intros E. injection E as <- _. split; discriminate.
  Qed.

  Lemma parse_after args s : exists h rest s1 e, 
    (parse_options (p_opts p) false args s = OError e s1 /\ parse p args s = PFalse e s1) \/
    (parse_options (p_opts p) false args s = ODone h rest s1 /\
     parse p args s = if h then PExit s1 else after rest s1).
  Proof.
    unfold parse. destruct (parse_options (p_opts p) false args s) as [h rest s1|e s1].
    - exists h, rest, s1, (UnknownOption []). right. split; [reflexivity|]. now destruct h.
    - exists false, [], s1, e. now left.
  Qed.

  Lemma parse_unknown args s a s' : parse p args s = PFalse (UnknownOption a) s' <->
    exists asg hh post, opt_items (p_opts p) args asg hh (a :: post) /\ assigned s asg s' /\ unknown_option (p_opts p) a.
  Proof.
    destruct ok_types as (T0 & _). rewrite <- (parse_options_unknown _ ok_nodup T0 args false s a s').
    destruct (parse_after args s) as (h & rest & s1 & e & [[-> ->]|[-> ->]]).
    - split; congruence.
    - split; [|discriminate]. destruct h; [discriminate|]. intros E. apply after_errors with (a := a) in E. now destruct E.
  Qed.

  Lemma parse_invalid args s a : (exists s', parse p args s = PFalse (InvalidOption a) s') <->
    exists asg hh post s1, opt_items (p_opts p) args asg hh (a :: post) /\ assigned s asg s1 /\ bad_option (p_opts p) a post.
  Proof.
    destruct ok_types as (T0 & _). rewrite <- (parse_options_bad _ ok_nodup T0 args false s a).
    destruct (parse_after args s) as (h & rest & s1 & e & [[-> ->]|[-> ->]]).
    - split; intros [s' E]; exists s1; congruence.
    - split; intros [s' E]; [|discriminate]. destruct h; [discriminate|].
      apply after_errors with (a := a) in E. now destruct E.
  Qed.

  Lemma parse_missing args s n s' : parse p args s = PFalse (MissingArguments n) s' <->
    exists asg rest, opt_section (p_opts p) args asg false rest /\
      (List.length rest < List.length (p_args p))%nat /\ n = (List.length (p_args p) - List.length rest)%nat /\
      assigned s (asg ++ combine (p_args p) rest) s'.
  Proof.
    destruct ok_types as (T0 & T1 & T2).
    pose proof (parse_options_done (p_opts p) ok_nodup T0 args false s) as K.
    destruct (parse_after args s) as (h & rest & s1 & e & [[E1 E2]|[E1 E2]]); rewrite E1 in K; rewrite E2.
    - split.
      + intros E. injection E as -> ->. apply parse_options_errors in E1 as (a & [?|?]); try discriminate; [apply ok_nodup|exact T0].
      + intros (asg' & rest' & S' & _ & _ & A'). apply assigned_app in A' as (s2 & A1 & A2).
        assert (E := proj2 (K false rest' s2) (ex_intro _ asg' (ex_intro _ false (conj S' (conj A1 eq_refl))))). discriminate.
    - destruct (proj1 (K _ _ _) eq_refl) as (asg & hh & S & A & EH). simpl in EH. subst hh. destruct h.
      + split; [discriminate|]. intros (asg' & rest' & S' & _ & _ & A'). apply assigned_app in A' as (s2 & A1 & A2).
        assert (E := proj2 (K false rest' s2) (ex_intro _ asg' (ex_intro _ false (conj S' (conj A1 eq_refl))))). discriminate.
      + unfold after. pose proof (positional_ok _ T1 rest 0 s1) as K1. split.
        * destruct (parse_positional 0 (p_args p) rest s1) as [[[miss r2] s2]|[e2 s2]] eqn:P1.
          -- destruct (proj1 (K1 _) eq_refl) as (s2' & A1 & E). injection E as -> -> <-.
             destruct (skipn (List.length rest) (p_args p)) as [|x y] eqn:M.
             ++ intros E. exfalso. destruct (parse_positional _ _ _ s2) as [[[m [|u v]] s4]|[e' s4]] eqn:P2; try discriminate.
                injection E as -> ->. clear - P2.
                revert P2. generalize (List.length (p_args p)) at 1. generalize (skipn (List.length (p_args p)) rest).
                generalize s2. induction (p_opt_args p) as [|a l IH]; intros s0 vals j; simpl; [discriminate|].
                destruct vals as [|v vals]; [discriminate|]. destruct (opt_parse a v s0) as [s3 [|]]; [apply IH|discriminate].
             ++ intros E. injection E as <- <-. exists asg, rest. split; [exact S|].
                assert (L := skipn_length (List.length rest) (p_args p)). rewrite M in L. simpl in L.
                split; [lia|]. split; [simpl; lia|]. apply assigned_app. eauto.
          -- intros E. injection E as -> ->. exfalso. clear - P1. revert P1. generalize 0%nat. generalize s1. generalize rest.
             induction (p_args p) as [|a l IH]; intros vals s0 j; simpl; [discriminate|].
             destruct vals as [|v vals]; [discriminate|]. destruct (opt_parse a v s0) as [s3 [|]]; [apply IH|discriminate].
        * intros (asg' & rest' & S' & L & -> & A'). apply assigned_app in A' as (s2 & A1 & A2).
          assert (E := proj2 (K false rest' s2) (ex_intro _ asg' (ex_intro _ false (conj S' (conj A1 eq_refl))))).
          injection E as -> ->. rewrite (proj2 (K1 _) (ex_intro _ s' (conj A2 eq_refl))).
          assert (L' := skipn_length (List.length rest') (p_args p)).
          destruct (skipn (List.length rest') (p_args p)) as [|x y]; simpl in L'; [lia|]. now rewrite <- L'.
  Qed.

  Lemma parse_too_many args s m g s' : parse p args s = PFalse (TooManyArguments m g) s' <->
    exists asg rest, opt_section (p_opts p) args asg false rest /\
      m = (List.length (p_args p) + List.length (p_opt_args p))%nat /\ g = List.length rest /\ (m < g)%nat /\
      assigned s (asg ++ combine (p_args p ++ p_opt_args p) rest) s'.
  Proof.
    destruct ok_types as (T0 & T1 & T2).
    pose proof (parse_options_done (p_opts p) ok_nodup T0 args false s) as K.
    destruct (parse_after args s) as (h & rest & s1 & e & [[E1 E2]|[E1 E2]]); rewrite E1 in K; rewrite E2.
    - split.
      + intros E. injection E as -> ->. apply parse_options_errors in E1 as (a & [?|?]); try discriminate; [apply ok_nodup|exact T0].
      + intros (asg' & rest' & S' & _ & _ & _ & A'). apply assigned_app in A' as (s2 & A1 & A2).
        assert (E := proj2 (K false rest' s2) (ex_intro _ asg' (ex_intro _ false (conj S' (conj A1 eq_refl))))). discriminate.
    - destruct (proj1 (K _ _ _) eq_refl) as (asg & hh & S & A & EH). simpl in EH. subst hh. destruct h.
      + split; [discriminate|]. intros (asg' & rest' & S' & _ & _ & _ & A'). apply assigned_app in A' as (s2 & A1 & A2).
        assert (E := proj2 (K false rest' s2) (ex_intro _ asg' (ex_intro _ false (conj S' (conj A1 eq_refl))))). discriminate.
      + unfold after. pose proof (positional_ok _ T1 rest 0 s1) as K1. split.
        * destruct (parse_positional 0 (p_args p) rest s1) as [[[miss r2] s2]|[e2 s2]] eqn:P1.
          -- destruct (proj1 (K1 _) eq_refl) as (s2' & A1 & E). injection E as -> -> <-.
             destruct (skipn (List.length rest) (p_args p)) as [|x y] eqn:M; [|discriminate].
             apply skipn_nil_iff in M.
             pose proof (positional_ok _ T2 (skipn (List.length (p_args p)) rest) (List.length (p_args p)) s2) as K2.
             destruct (parse_positional (List.length (p_args p)) (p_opt_args p) (skipn (List.length (p_args p)) rest) s2)
               as [[[miss rest3] s3]|[e3 s3]] eqn:P2.
             ++ destruct (proj1 (K2 _) eq_refl) as (s3' & A2 & E). injection E as -> -> <-.
                assert (L := skipn_length (List.length (p_opt_args p)) (skipn (List.length (p_args p)) rest)).
                assert (L2 := skipn_length (List.length (p_args p)) rest).
                destruct (skipn (List.length (p_opt_args p)) (skipn (List.length (p_args p)) rest)) as [|x y] eqn:X; [discriminate|].
                cbv zeta. intros E. injection E as <- <- <-. simpl in L. exists asg, rest.
                split; [exact S|]. split; [reflexivity|]. split; [lia|]. split; [lia|].
                rewrite combine_app by exact M. rewrite !assigned_app. exists s1. split; [exact A|].
                apply assigned_app. eauto.
             ++ intros E. injection E as -> ->. exfalso. apply positional_error in P2 as [i P2]. discriminate.
          -- intros E. injection E as -> ->. exfalso. apply positional_error in P1 as [i P1]. discriminate.
        * intros (asg' & rest' & S' & -> & -> & L & A'). apply assigned_app in A' as (s2 & A1 & A2).
          assert (E := proj2 (K false rest' s2) (ex_intro _ asg' (ex_intro _ false (conj S' (conj A1 eq_refl))))).
          injection E as -> ->. rewrite combine_app in A2 by lia. apply assigned_app in A2 as (s3 & A2 & A3).
          rewrite (proj2 (K1 _) (ex_intro _ s3 (conj A2 eq_refl))).
          rewrite (skipn_all2 (p_args p)) by lia.
          rewrite (proj2 (positional_ok _ T2 _ _ s3 _) (ex_intro _ s' (conj A3 eq_refl))).
          assert (L' := skipn_length (List.length (p_opt_args p)) (skipn (List.length (p_args p)) rest')).
          assert (L2 := skipn_length (List.length (p_args p)) rest').
          destruct (skipn (List.length (p_opt_args p)) (skipn (List.length (p_args p)) rest')) as [|x y]; simpl in L'; [lia|].
          simpl. do 2 f_equal. lia.
  Qed.

  Lemma parse_bad_positional args s i : (exists s', parse p args s = PFalse (InvalidPositional i) s') <->
    exists asg rest k o b s1, opt_section (p_opts p) args asg false rest /\
      nth_error (p_args p ++ p_opt_args p) k = Some o /\ nth_error rest k = Some b /\ i = S k /\
      assigned s (asg ++ combine (firstn k (p_args p ++ p_opt_args p)) rest) s1 /\
      forall v, ~ value_text (op_arg o) (op_type o) b v.
  Proof.
    destruct ok_types as (T0 & T1 & T2).
    pose proof (parse_options_done (p_opts p) ok_nodup T0 args false s) as K.
    destruct (parse_after args s) as (h & rest & s1 & e & [[E1 E2]|[E1 E2]]); rewrite E1 in K; rewrite E2.
    - split.
      + intros [s' E]. injection E as -> ->. apply parse_options_errors in E1 as (a & [?|?]); try discriminate; [apply ok_nodup|exact T0].
      + intros (asg' & rest' & k & o & b & s3 & S' & _ & _ & _ & A' & _). apply assigned_app in A' as (s2 & A1 & A2).
        assert (E := proj2 (K false rest' s2) (ex_intro _ asg' (ex_intro _ false (conj S' (conj A1 eq_refl))))). discriminate.
    - destruct (proj1 (K _ _ _) eq_refl) as (asg & hh & S & A & EH). simpl in EH. subst hh. destruct h.
      + split; [intros [? ?]; discriminate|].
        intros (asg' & rest' & k & o & b & s3 & S' & _ & _ & _ & A' & _). apply assigned_app in A' as (s2 & A1 & A2).
        assert (E := proj2 (K false rest' s2) (ex_intro _ asg' (ex_intro _ false (conj S' (conj A1 eq_refl))))). discriminate.
      + unfold after. pose proof (positional_ok _ T1 rest 0 s1) as K1. pose proof (positional_bad _ T1 rest 0 s1) as B1. split.
        * intros [s' E]. exists asg, rest.
          destruct (parse_positional 0 (p_args p) rest s1) as [[[miss r2] s2]|[e2 s2]] eqn:P1.
          -- destruct (proj1 (K1 _) eq_refl) as (s2' & A1 & EE). injection EE as -> -> <-.
             destruct (skipn (List.length rest) (p_args p)) as [|x y] eqn:M; [|discriminate].
             apply skipn_nil_iff in M.
             pose proof (positional_bad _ T2 (skipn (List.length (p_args p)) rest) (List.length (p_args p)) s2) as B2.
             destruct (parse_positional (List.length (p_args p)) (p_opt_args p) (skipn (List.length (p_args p)) rest) s2)
               as [[[miss [|u w]] s3]|[e3 s3]] eqn:P2; [discriminate..|].
             injection E as -> ->.
             destruct (proj1 (B2 i) (ex_intro _ s' eq_refl)) as (k & o & b & s4 & N1 & N2 & -> & A2 & BAD).
             exists (List.length (p_args p) + k)%nat, o, b, s4. split; [exact S|].
             rewrite nth_error_app2, Nat.add_comm, Nat.add_sub by lia. split; [exact N1|].
             split; [rewrite <- N2, nth_error_skipn; f_equal; lia|]. split; [lia|]. split; [|exact BAD].
             rewrite firstn_app, firstn_all2, Nat.add_sub by lia.
             rewrite combine_app by exact M. rewrite !assigned_app. exists s1. split; [exact A|]. apply assigned_app. eauto.
          -- injection E as -> ->. destruct (proj1 (B1 i) (ex_intro _ s' eq_refl)) as (k & o & b & s4 & N1 & N2 & -> & A2 & BAD).
             assert (LK : (k < List.length (p_args p))%nat) by (apply nth_error_Some; congruence).
             exists k, o, b, s4. split; [exact S|]. rewrite nth_error_app1 by exact LK. split; [exact N1|]. split; [exact N2|].
             split; [lia|]. split; [|exact BAD]. rewrite firstn_app. replace (k - _)%nat with 0%nat by lia.
             simpl. rewrite app_nil_r. apply assigned_app. eauto.
        * intros (asg' & rest' & k & o & b & s3 & S' & N1 & N2 & -> & A' & BAD). apply assigned_app in A' as (s2 & A1 & A2).
          assert (E := proj2 (K false rest' s2) (ex_intro _ asg' (ex_intro _ false (conj S' (conj A1 eq_refl))))).
          injection E as -> ->.
          assert (LR : (k < List.length rest')%nat) by (apply nth_error_Some; congruence).
          destruct (Nat.lt_ge_cases k (List.length (p_args p))) as [LK|LK].
          -- rewrite nth_error_app1 in N1 by exact LK. rewrite firstn_app in A2.
             replace (k - List.length (p_args p))%nat with 0%nat in A2 by lia. simpl in A2. rewrite app_nil_r in A2.
             destruct (proj2 (B1 (0 + k + 1)%nat)) as [s' E]; [exists k, o, b, s3; auto|].
             rewrite E. replace (0 + k + 1)%nat with (Datatypes.S k) by lia. eauto.
          -- rewrite nth_error_app2 in N1 by exact LK.
             rewrite firstn_app, firstn_all2 in A2 by lia. rewrite combine_app in A2 by lia.
             apply assigned_app in A2 as (s4 & A2 & A3).
             rewrite (proj2 (K1 _) (ex_intro _ s4 (conj A2 eq_refl))).
             rewrite (skipn_all2 (p_args p)) by lia.
             destruct (proj2 (positional_bad _ T2 (skipn (List.length (p_args p)) rest') (List.length (p_args p)) s4
               (List.length (p_args p) + (k - List.length (p_args p)) + 1)%nat)) as [s' E].
             { exists (k - List.length (p_args p))%nat, o, b, s3. split; [exact N1|].
               split; [rewrite nth_error_skipn, <- N2; f_equal; lia|]. auto. }
             rewrite E. replace (List.length (p_args p) + (k - List.length (p_args p)) + 1)%nat with (Datatypes.S k) by lia. eauto.
  Qed.
End Parse.

(** ** Values of variables *)

Lemma assigned_other s l s' : assigned s l s' -> forall x, (forall o b, In (o, b) l -> op_var o <> x) ->
  get_var x s' = get_var x s.
Proof.
  induction 1 as [s|s o b v l s' V A IH]; intros x N; [reflexivity|].
  rewrite IH by (intros o' b' I; apply (N o' b'); now right).
  unfold get_var, set_var. rewrite (map_find_set str_eq str_eq_spec).
  destruct (str_eq (op_var o) x) eqn:E; [|reflexivity]. apply str_eq_spec in E. destruct (N o b); [now left|exact E].
Qed.

Lemma assigned_last s l1 o b l2 s' : assigned s (l1 ++ (o, b) :: l2) s' ->
  (forall o' b', In (o', b') l2 -> op_var o' <> op_var o) ->
  exists v, value_text (op_arg o) (op_type o) b v /\ get_var (op_var o) s' = Some v.
Proof.
  intros A N. apply assigned_app in A as (s1 & A1 & A2). inversion A2 as [|? ? ? v ? ? V A3]; subst.
  exists v. split; [exact V|]. rewrite (assigned_other _ _ _ A3) by exact N.
  unfold get_var, set_var. rewrite (map_find_set str_eq str_eq_spec). now rewrite str_eq_refl.
Qed.

(** ** Registering *)

Definition names_sorted {V} (m : list (bytes * V)) : Prop := StronglySorted str_before (map fst m).

Lemma emplace_ok {V} k (v : V) m : names_sorted m ->
  let (m', b) := smap_emplace k v m in
  (b = false <-> In k (map fst m)) /\ (b = false -> m' = m) /\ names_sorted m' /\
  (b = true -> exists m1 m2, m = m1 ++ m2 /\ m' = m1 ++ (k, v) :: m2) /\
  (forall y, In y (map fst m') -> y = k \/ In y (map fst m)).
Proof.
  unfold names_sorted. induction m as [|[k' v'] m IH]; intros S; simpl.
  - split; [split; [discriminate|easy]|]. split; [discriminate|]. split; [repeat constructor|].
    split; [intros _; exists [], []; auto|]. intros y [<-|[]]. now left.
  - simpl in S. inversion S as [|? ? S' F]; subst. specialize (IH S').
    destruct (str_lt k' k) eqn:L.
    + destruct (smap_emplace k v m) as [m' b]. destruct IH as (I1 & I2 & I3 & I4 & I5).
      assert (NE : k' <> k) by (intros ->; rewrite str_lt_irrefl in L; discriminate).
      split; [rewrite I1; simpl; intuition|]. split; [intros B; f_equal; auto|]. split.
      * simpl. constructor; [exact I3|]. rewrite Forall_forall in *. intros y I. apply I5 in I as [->|I]; [|auto].
        now apply str_lt_before.
      * split; [|intros y [<-|I]; [simpl; auto|apply I5 in I; simpl; tauto]].
        intros B. destruct (I4 B) as (m1 & m2 & -> & ->). exists ((k', v') :: m1), m2. auto.
    + destruct (str_lt k k') eqn:L'.
      * split.
        { split; [discriminate|]. intros I. exfalso. assert (H : In k (k' :: map fst m)) by exact I.
          destruct I as [<-|I]; [rewrite str_lt_irrefl in L'; discriminate|].
          rewrite Forall_forall in F. apply F, str_lt_before in I. congruence. }
        split; [discriminate|]. split.
        { simpl. constructor; [exact S|]. constructor; [now apply str_lt_before|]. rewrite Forall_forall in *.
          intros y I. apply F in I. apply str_lt_before in I. apply str_lt_before. now apply (str_lt_trans _ k'). }
        split; [intros _; exists [], ((k', v') :: m); auto|]. intros y [<-|I]; [now left|now right].
      * assert (E : k' = k) by (destruct (str_lt_total k' k) as [?|[?|?]]; congruence). subst k'.
        split; [split; [now left|reflexivity]|]. split; [auto|]. split; [exact S|].
        split; [discriminate|]. intros y I. now right.
Qed.

Lemma registered_sorted prog desc p : registered prog desc p -> names_sorted (p_opts p).
Proof.
  induction 1 as [|p name help t var H IH| |]; try assumption.
  - constructor.
  - unfold register_option. destruct (str_eq name (lit "help")); [exact IH|].
    pose proof (emplace_ok name (Opt false (lit "--" ++ name) help t var) (p_opts p) IH) as K.
    destruct (smap_emplace _ _ _) as [m b]. destruct K as (_ & _ & K & _). destruct b; [exact K|exact IH].
Qed.

Lemma sorted_nodup l : StronglySorted str_before l -> NoDup l.
Proof.
  induction 1 as [|x l S IH F]; constructor; [|exact IH]. intros I. rewrite Forall_forall in F. apply F, str_lt_before in I.
  rewrite str_lt_irrefl in I. discriminate.
Qed.

Lemma registered_ok prog desc p : registered prog desc p ->
  Forall (fun o => type_ok (op_type o)) (map snd (p_opts p) ++ p_args p ++ p_opt_args p) -> parser_ok p.
Proof. intros R T. split; [|exact T]. apply sorted_nodup. now apply registered_sorted in R. Qed.

(** ** Help *)

Lemma fold_max_le l : forall a, (a <= fold_left Nat.max l a)%nat /\ forall x, In x l -> (x <= fold_left Nat.max l a)%nat.
Proof.
  induction l as [|y l IH]; intros a; simpl; [split; [lia|easy]|].
  destruct (IH (Nat.max a y)) as [I1 I2]. split; [lia|]. intros x [->|I]; [lia|auto].
Qed.

Lemma max_width_le p o : In o (map snd (p_opts p) ++ p_args p ++ p_opt_args p) -> (List.length (op_name o) <= max_width p)%nat.
Proof.
  intros I. unfold max_width. apply fold_max_le. now apply (in_map (fun o => List.length (op_name o))).
Qed.

Lemma help_text si sf p s : p_opts p <> [] -> exists pre, parser_help si sf p s =
  pre ++ lit "Options:" ++ [nl] ++ flat_map (fun ko => lit "  " ++ opt_help si sf (max_width p) s (snd ko) ++ [nl]) (p_opts p).
Proof.
  intros NE. unfold parser_help. destruct (p_opts p) as [|ko l] eqn:E; [easy|].
  cbv zeta. set (T := lit "Options:" ++ [nl] ++ flat_map _ (ko :: l)).
  eexists. rewrite !app_assoc. reflexivity.
Qed.

Lemma registered_names prog desc p : registered prog desc p ->
  Forall (fun ko => op_name (snd ko) = lit "--" ++ fst ko /\ op_arg (snd ko) = false) (p_opts p).
Proof.
  induction 1 as [|p name help t var H IH| |]; try assumption.
  - constructor.
  - unfold register_option. destruct (str_eq name (lit "help")); [exact IH|].
    pose proof (emplace_ok name (Opt false (lit "--" ++ name) help t var) (p_opts p) (registered_sorted _ _ _ H)) as K.
    destruct (smap_emplace _ _ _) as [m b]. destruct K as (_ & _ & _ & K & _). destruct b; [|exact IH].
    destruct (K eq_refl) as (m1 & m2 & E & ->). simpl. rewrite E in IH. apply Forall_app in IH as [I1 I2].
    apply Forall_app. split; [exact I1|]. constructor; [now split|exact I2].
Qed.
