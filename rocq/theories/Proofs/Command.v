(** Proofs about the command line of the tools. *)
From Coq Require Import Ascii String List Bool ZArith Lia.
From Flocq Require Import Core BinarySingleNaN.
From Verif.Model Require Import Cpp Floats Stream Options Tool.
From Verif.Spec Require Import Order Reader Options Tool Command.
From Verif.Proofs Require Import Geometry Order Sets Options.
Import ListNotations.
Local Open Scope list_scope.

(** ** The options of the parser *)

Definition type_of (k : kind) : vtype :=
  match k with Flag => TBool | Text => TStr | Count => TInt fmt_u64 | Level => TF64 end.

(** The name of an option, without the dashes. *)
Definition nm (o : opt) : bytes := skipn 2 (op_name o).

Definition vtype_eqb (a b : vtype) : bool :=
  match a, b with
  | TBool, TBool | TStr, TStr | TF64, TF64 => true
  | TInt f, TInt g => Bool.eqb (if_signed f) (if_signed g) && Z.eqb (if_min f) (if_min g) && Z.eqb (if_max f) (if_max g)
  | _, _ => false
  end.

Lemma vtype_eqb_ok a b : vtype_eqb a b = true -> a = b.
Proof.
  destruct a as [| |[s1 l1 h1]|], b as [| |[s2 l2 h2]|]; cbn; try discriminate; try reflexivity.
  intros H. apply andb_true_iff in H as [H H3]. apply andb_true_iff in H as [H1 H2].
  apply Bool.eqb_prop in H1. apply Z.eqb_eq in H2, H3. now subst.
Qed.

Definition opt_fits (x : bytes * opt) : bool :=
  str_eq (nm (snd x)) (fst x) && negb (op_arg (snd x)) &&
  existsb (fun y => str_eq (fst y) (fst x) && vtype_eqb (op_type (snd x)) (type_of (snd y))) options.

Lemma opts_fit : forallb opt_fits (p_opts tool_options) = true.
Proof. vm_compute. reflexivity. Qed.

Lemma opts_cover : forallb (fun y => existsb (fun x => str_eq (fst y) (fst x)) (p_opts tool_options)) options = true.
Proof. vm_compute. reflexivity. Qed.

Lemma kinds_once : NoDup (map fst options).
Proof.
  assert (H : forall l : list bytes, (fix nd l := match l with [] => true | x :: r => negb (existsb (str_eq x) r) && nd r end) l = true -> NoDup l).
  { induction l as [|x r IH]; intros E; [constructor|]. apply andb_true_iff in E as [E1 E2]. constructor; [|auto].
    intros I. apply negb_true_iff in E1. assert (K : existsb (str_eq x) r = true) by (apply existsb_exists; exists x; split; [exact I|apply str_eq_refl]).
    congruence. }
  apply H. vm_compute. reflexivity.
Qed.

Lemma kind_fun n k k' : In (n, k) options -> In (n, k') options -> k = k'.
Proof.
  intros H H'. assert (G : forall l : list (bytes * kind), NoDup (map fst l) -> In (n, k) l -> In (n, k') l -> k = k').
  { induction l as [|[m j] l IH]; cbn; intros ND I I'; [easy|]. inversion ND as [|? ? N1 N2]; subst.
    destruct I as [I|I], I' as [I'|I'].
    - congruence.
    - injection I as -> ->. destruct N1. apply (in_map fst) in I'. exact I'.
    - injection I' as -> ->. destruct N1. apply (in_map fst) in I. exact I.
    - auto. }
  exact (G _ kinds_once H H').
Qed.

Lemma opt_in n o : In (n, o) (p_opts tool_options) ->
  nm o = n /\ op_arg o = false /\ exists k, In (n, k) options /\ op_type o = type_of k.
Proof.
  intros I. assert (F := proj1 (forallb_forall _ _) opts_fit _ I). unfold opt_fits in F. cbn [fst snd] in F.
  apply andb_true_iff in F as [F F3]. apply andb_true_iff in F as [F1 F2].
  apply str_eq_spec in F1. apply negb_true_iff in F2. apply existsb_exists in F3 as ([m k] & J & F3).
  apply andb_true_iff in F3 as [E T]. apply str_eq_spec in E. cbn in E, T. subst m.
  split; [exact F1|]. split; [exact F2|]. exists k. split; [exact J|]. now apply vtype_eqb_ok.
Qed.

Lemma opt_out n k : In (n, k) options -> exists o, In (n, o) (p_opts tool_options) /\ op_type o = type_of k.
Proof.
  intros I. assert (F := proj1 (forallb_forall _ _) opts_cover _ I). apply existsb_exists in F as ([m o] & J & E).
  apply str_eq_spec in E. cbn in E. subst m. exists o. split; [exact J|].
  destruct (opt_in _ _ J) as (_ & _ & k' & I' & T). now rewrite (kind_fun _ _ _ I I').
Qed.

Lemma not_special n k c : In (n, k) options -> "-"%char :: c :: n <> lit "--" /\ "-"%char :: c :: n <> lit "--help".
Proof.
  intros I. assert (F : forallb (fun y => negb (str_eq (fst y) []) && negb (str_eq (fst y) (lit "help"))) options = true)
    by (vm_compute; reflexivity).
  assert (G := proj1 (forallb_forall _ _) F _ I). cbn [fst] in G. apply andb_true_iff in G as [G1 G2].
  apply negb_true_iff in G1, G2. split; intros E.
  - injection E as -> E. subst n. now rewrite str_eq_refl in G1.
  - injection E as -> E. subst n. now rewrite str_eq_refl in G2.
Qed.

Local Opaque tool_options options.

(** ** Words *)

Definition names (l : list (opt * bytes)) : list (bytes * bytes) := map (fun a => (nm (fst a), snd a)) l.

Definition known (l : list (opt * bytes)) : Prop := forall o b, In (o, b) l -> In (nm o, o) (p_opts tool_options).

Lemma items_words args asg h post : opt_items (p_opts tool_options) args asg h post ->
  option_words args (names asg) h post /\ known asg.
Proof.
  induction 1 as [args|args asg h post H [IH K]|a o args b args' asg h post N V H [IH K]].
  - split; [constructor|]. now intros o b.
  - split; [now apply (ow_help args (names asg) h)|exact K].
  - destruct N as [c name o I _ _]. destruct (opt_in _ _ I) as (En & _ & k & Ik & T). split.
    + cbn [names map fst snd]. rewrite En. destruct V as [args Tb D|v args D].
      * assert (k = Flag) as -> by (rewrite T in Tb; destruct k; easy). now apply ow_bare.
      * destruct k; try (apply (ow_value c name _ v args _ _ _ Ik); [discriminate|exact IH]).
        apply ow_flag; auto.
    + intros o' b' [J|J]; [|now apply (K o' b')]. injection J as <- <-. now rewrite En.
Qed.

Lemma words_items args asg h post : option_words args asg h post ->
  exists l, opt_items (p_opts tool_options) args l h post /\ names l = asg /\ known l.
Proof.
  induction 1 as [args|args asg h post H (l & IH & E & K)|c n args asg h post I D H (l & IH & E & K)
    |c n v args asg h post I D H (l & IH & E & K)|c n k v args asg h post I D H (l & IH & E & K)].
  - exists []. split; [constructor|]. split; [reflexivity|]. now intros o b.
  - exists l. split; [now apply (oi_help _ args l h)|]. auto.
  - destruct (opt_out _ _ I) as (o & J & T). destruct (opt_in _ _ J) as (En & _). destruct (not_special _ _ c I).
    exists ((o, []) :: l). split; [|split].
    + eapply oi_option; [now constructor|now apply ov_flag|exact IH].
    + cbn [names map fst snd]. fold (names l). now rewrite En, E.
    + intros o' b' [Q|Q]; [|now apply (K o' b')]. injection Q as <- <-. now rewrite En.
  - destruct (opt_out _ _ I) as (o & J & T). destruct (opt_in _ _ J) as (En & _). destruct (not_special _ _ c I).
    exists ((o, v) :: l). split; [|split].
    + eapply oi_option; [now constructor|now apply ov_given|exact IH].
    + cbn [names map fst snd]. fold (names l). now rewrite En, E.
    + intros o' b' [Q|Q]; [|now apply (K o' b')]. injection Q as <- <-. now rewrite En.
  - destruct (opt_out _ _ I) as (o & J & T). destruct (opt_in _ _ J) as (En & _). destruct (not_special _ _ c I).
    exists ((o, v) :: l). split; [|split].
    + eapply oi_option; [now constructor| |exact IH]. apply ov_given. intros Tb. rewrite T in Tb. destruct k; easy.
    + cbn [names map fst snd]. fold (names l). now rewrite En, E.
    + intros o' b' [Q|Q]; [|now apply (K o' b')]. injection Q as <- <-. now rewrite En.
Qed.

(** ** Values *)

Lemma flag_text_value t v : flag_text t v <-> value_text false TBool t (VBool v).
Proof.
  unfold flag_text. split.
  - destruct v; intros H; constructor; tauto.
  - intros H. inversion H; subst; tauto.
Qed.

Lemma value_acceptable o t v : In (nm o, o) (p_opts tool_options) -> value_text (op_arg o) (op_type o) t v ->
  acceptable (nm o, t).
Proof.
  intros I V. destruct (opt_in _ _ I) as (_ & A & k & J & T). exists k. split; [exact J|]. cbn [snd].
  rewrite A, T in V. destruct k; cbn [type_of] in V.
  - inversion V; subst; [exists true|exists false]; now apply flag_text_value.
  - now inversion V.
  - inversion V; subst; eauto.
  - inversion V; subst; eauto.
Qed.

Lemma acceptable_value o t : In (nm o, o) (p_opts tool_options) -> acceptable (nm o, t) ->
  exists v, value_text (op_arg o) (op_type o) t v.
Proof.
  intros I (k & J & H). destruct (opt_in _ _ I) as (_ & A & k' & J' & T). cbn [fst snd] in *.
  rewrite (kind_fun _ _ _ J' J) in T. rewrite A, T. destruct k; cbn [type_of].
  - destruct H as [v H]. exists (VBool v). now apply flag_text_value.
  - exists (VStr t). now constructor.
  - destruct H as [v H]. exists (VInt v). now constructor.
  - destruct H as [v H]. exists (VF64 v). now constructor.
Qed.

Lemma assigned_acceptable s l s' : assigned s l s' -> known l -> Forall acceptable (names l).
Proof.
  induction 1 as [s|s o b v l s' V A IH]; intros K; [constructor|].
  cbn [names map fst snd]. constructor.
  - apply (value_acceptable o b v); [apply (K o b); now left|exact V].
  - apply IH. intros o' b' I. apply (K o' b'). now right.
Qed.

Lemma acceptable_assigned l : known l -> Forall acceptable (names l) -> forall s, exists s', assigned s l s'.
Proof.
  induction l as [|[o b] l IH]; intros K F s; [exists s; constructor|].
  cbn [names map fst snd] in F. apply Forall_cons_iff in F as [F1 F2].
  destruct (acceptable_value o b) as [v V]; [apply (K o b); now left|exact F1|].
  destruct (IH (fun o' b' I => K o' b' (or_intror I)) F2 (set_var (op_var o) v s)) as [s' A].
  exists s'. econstructor; eauto.
Qed.

(** The value of a variable is that of the text given last. *)
Lemma assigned_latest x n ty l s0 s : assigned s0 l s -> forall d v0,
  (forall o b, In (o, b) l -> (op_var o = x <-> nm o = n) /\ (nm o = n -> op_type o = ty /\ op_arg o = false)) ->
  get_var x s0 = Some v0 -> value_text false ty d v0 ->
  exists v, get_var x s = Some v /\ value_text false ty (latest n d (names l)) v.
Proof.
  induction 1 as [s0|s0 o b v l s V A IH]; intros d v0 C G T.
  - exists v0. now split.
  - cbn [names map fst snd latest]. fold (names l). destruct (C o b (or_introl eq_refl)) as [Cx Ct].
    assert (C' := fun o' b' I => C o' b' (or_intror I)).
    destruct (list_eq_dec ascii_dec n (nm o)) as [En|En].
    + destruct (Ct (eq_sym En)) as [Ty Ar]. apply (IH b v C').
      * unfold get_var, set_var. rewrite (map_find_set str_eq str_eq_spec).
        rewrite (proj2 Cx (eq_sym En)). now rewrite str_eq_refl.
      * now rewrite Ty, Ar in V.
    + apply (IH d v0 C'); [|exact T]. unfold get_var, set_var. rewrite (map_find_set str_eq str_eq_spec).
      destruct (str_eq (op_var o) x) eqn:E; [|exact G]. apply str_eq_spec in E. destruct En. symmetry. now apply Cx.
Qed.

(** Which variable belongs to which option. *)
Definition var_fits (x n : bytes) : bool :=
  forallb (fun y => Bool.eqb (str_eq (op_var (snd y)) x) (str_eq (fst y) n)) (p_opts tool_options).

Lemma known_latest x n k l s0 s d v0 : var_fits x n = true -> In (n, k) options -> known l -> assigned s0 l s ->
  get_var x s0 = Some v0 -> value_text false (type_of k) d v0 ->
  exists v, get_var x s = Some v /\ value_text false (type_of k) (latest n d (names l)) v.
Proof.
  intros F I K A G T. apply (assigned_latest x n (type_of k) l s0 s A d v0); [|exact G|exact T].
  intros o b J. assert (J' := K o b J). destruct (opt_in _ _ J') as (_ & Ar & k' & I' & Ty).
  split.
  - assert (E := proj1 (forallb_forall _ _) F _ J'). cbn [fst snd] in E. apply Bool.eqb_prop in E.
    rewrite <- (str_eq_spec (op_var o) x), <- (str_eq_spec (nm o) n). now rewrite E.
  - intros En. rewrite En in I'. rewrite (kind_fun _ _ _ I' I) in Ty. now split.
Qed.

(** ** Positional arguments *)

Definition arg_refs : opt := Opt true (lit "references")
  (lit "File containing the reference events (ground-truth).") TStr (lit "ref_filename").
Definition arg_hyps : opt := Opt true (lit "hypotheses")
  (lit "File containing the hypothesis events (submission).") TStr (lit "hyp_filename").

Lemma tool_args : p_args tool_options ++ p_opt_args tool_options = [arg_refs; arg_hyps].
Proof. vm_compute. reflexivity. Qed.

Lemma assigned_args rest s s' : (1 <= List.length rest <= 2)%nat ->
  assigned s (combine [arg_refs; arg_hyps] rest) s' <->
  (exists r, no_nul r /\ (rest = [r] /\ s' = set_var (lit "ref_filename") (VStr r) s \/
    exists h, no_nul h /\ rest = [r; h] /\
      s' = set_var (lit "hyp_filename") (VStr h) (set_var (lit "ref_filename") (VStr r) s))).
Proof.
  intros L. split.
  - destruct rest as [|r [|h [|]]]; cbn in L; try lia; cbn [combine]; intros A.
    + inversion A as [|? ? ? ? ? ? V A2]; subst. inversion A2; subst. inversion V; subst. exists r. split; [assumption|]. now left.
    + inversion A as [|? ? ? ? ? ? V A2]; subst. inversion A2 as [|? ? ? ? ? ? V2 A3]; subst. inversion A3; subst.
      inversion V; subst. inversion V2; subst. exists r. split; [assumption|]. right. exists h. auto.
  - intros (r & N & [[-> ->]|(h & N2 & -> & ->)]); cbn [combine].
    + econstructor; [constructor; exact N|]. constructor.
    + econstructor; [constructor; exact N|]. econstructor; [constructor; exact N2|]. constructor.
Qed.

Lemma get_set x y v s : get_var x (set_var y v s) = if str_eq y x then Some v else get_var x s.
Proof. unfold get_var, set_var. apply (map_find_set str_eq str_eq_spec). Qed.

(** ** The configuration *)

Lemma default_alpha : f64_text (lit "0.05") (of_decimal 53 1024 false 5 (-2)).
Proof.
  destruct (extract_float 53 1024 prec64 emax64 (lit "0.05")) as [[v bad] r] eqn:E.
  assert (R : r = []) by (apply (f_equal snd) in E; vm_compute in E; now rewrite <- E).
  assert (V : B2SF v = B2SF (of_decimal 53 1024 false 5 (-2))).
  { apply (f_equal (fun p => B2SF (fst (fst p)))) in E. cbn [fst] in E. rewrite <- E. vm_compute. reflexivity. }
  apply B2SF_inj in V. rewrite <- V. subst r. now apply (extract_f64_text _ _ bad).
Qed.

Lemma opt_vars_not_args : forallb (fun y => negb (str_eq (op_var (snd y)) (lit "ref_filename")) &&
  negb (str_eq (op_var (snd y)) (lit "hyp_filename"))) (p_opts tool_options) = true.
Proof. vm_compute. reflexivity. Qed.

Lemma no_nul_lit d : forallb (fun c => negb (Ascii.eqb c (ascii_of_N 0))) d = true -> no_nul d.
Proof.
  intros F J. assert (G := proj1 (forallb_forall _ _) F _ J). cbn in G. discriminate.
Qed.

Lemma count_lit d z : extract_int fmt_u64 d = (z, false, []) -> int_text fmt_u64 d z.
Proof. apply extract_int_text. cbn. lia. Qed.

Section Fields.
  Variables (l : list (opt * bytes)) (rest : list bytes) (s1 s : store).
  Hypotheses (K : known l) (A : assigned initial_store l s1) (L : (1 <= List.length rest <= 2)%nat)
    (P : assigned s1 (combine [arg_refs; arg_hyps] rest) s).

  Lemma args_fields : rest = [var_str (lit "ref_filename") s] /\ var_str (lit "hyp_filename") s = [] \/
    rest = [var_str (lit "ref_filename") s; var_str (lit "hyp_filename") s].
  Proof.
    apply assigned_args in P; [|exact L].
    assert (H1 : get_var (lit "hyp_filename") s1 = Some (VStr [])).
    { rewrite (assigned_other _ _ _ A).
      - lazy -[of_decimal]. reflexivity.
      - intros o b I E. assert (F := proj1 (forallb_forall _ _) opt_vars_not_args _ (K o b I)). cbn [snd] in F.
        apply andb_true_iff in F as [_ F]. rewrite E, str_eq_refl in F. discriminate. }
    destruct P as (r & _ & [[-> ->]|(h & _ & -> & ->)]); [left|right]; unfold var_str; rewrite ?get_set.
    - replace (str_eq (lit "ref_filename") (lit "ref_filename")) with true by reflexivity.
      replace (str_eq (lit "ref_filename") (lit "hyp_filename")) with false by reflexivity. rewrite H1. now split.
    - replace (str_eq (lit "hyp_filename") (lit "ref_filename")) with false by reflexivity.
      replace (str_eq (lit "ref_filename") (lit "ref_filename")) with true by reflexivity.
      replace (str_eq (lit "hyp_filename") (lit "hyp_filename")) with true by reflexivity. reflexivity.
  Qed.

  Lemma args_other x : str_eq (lit "ref_filename") x = false -> str_eq (lit "hyp_filename") x = false ->
    get_var x s = get_var x s1.
  Proof.
    intros E1 E2. apply assigned_args in P; [|exact L].
    destruct P as (r & _ & [[-> ->]|(h & _ & -> & ->)]); rewrite ?get_set, ?E1, ?E2; reflexivity.
  Qed.

  Lemma field x n k d v0 : str_eq (lit "ref_filename") x = false -> str_eq (lit "hyp_filename") x = false ->
    var_fits x n = true -> In (n, k) options -> get_var x initial_store = Some v0 -> value_text false (type_of k) d v0 ->
    exists v, get_var x s = Some v /\ value_text false (type_of k) (latest n d (names l)) v.
  Proof.
    intros E1 E2 F I G T. rewrite (args_other x E1 E2). exact (known_latest x n k l _ _ d v0 F I K A G T).
  Qed.

  Lemma field_flag x n v0 : str_eq (lit "ref_filename") x = false -> str_eq (lit "hyp_filename") x = false ->
    var_fits x n = true -> In (n, Flag) options -> get_var x initial_store = Some (VBool v0) ->
    flag_text (latest n (lit (if v0 then "true" else "false")) (names l)) (var_bool x s).
  Proof.
    intros E1 E2 F I G. destruct (field x n Flag (lit (if v0 then "true" else "false")) _ E1 E2 F I G) as (v & G' & T).
    - apply flag_text_value. destruct v0; unfold flag_text; tauto.
    - unfold var_bool. rewrite G'. cbn [type_of] in T. inversion T; subst; now apply flag_text_value.
  Qed.

  Lemma field_text x n d : str_eq (lit "ref_filename") x = false -> str_eq (lit "hyp_filename") x = false ->
    var_fits x n = true -> In (n, Text) options -> get_var x initial_store = Some (VStr d) -> no_nul d ->
    var_str x s = latest n d (names l).
  Proof.
    intros E1 E2 F I G N. destruct (field x n Text d _ E1 E2 F I G) as (v & G' & T); [now constructor|].
    unfold var_str. rewrite G'. cbn [type_of] in T. now inversion T.
  Qed.

  Lemma field_count x n d z : str_eq (lit "ref_filename") x = false -> str_eq (lit "hyp_filename") x = false ->
    var_fits x n = true -> In (n, Count) options -> get_var x initial_store = Some (VInt z) -> int_text fmt_u64 d z ->
    int_text fmt_u64 (latest n d (names l)) (var_int x s).
  Proof.
    intros E1 E2 F I G N. destruct (field x n Count d _ E1 E2 F I G) as (v & G' & T); [now constructor|].
    unfold var_int. rewrite G'. cbn [type_of] in T. now inversion T.
  Qed.

  Lemma field_level x n d z : str_eq (lit "ref_filename") x = false -> str_eq (lit "hyp_filename") x = false ->
    var_fits x n = true -> In (n, Level) options -> get_var x initial_store = Some (VF64 z) -> f64_text d z ->
    f64_text (latest n d (names l)) (var_f64 x s).
  Proof.
    intros E1 E2 F I G N. destruct (field x n Level d _ E1 E2 F I G) as (v & G' & T); [now constructor|].
    unfold var_f64. rewrite G'. cbn [type_of] in T. now inversion T.
  Qed.

  Lemma config_fields : fields (names l) rest (config_of s).
  Proof.
    unfold fields, config_of. cbn [cf_ref cf_hyp cf_queryset cf_querygroups cf_dump cf_sort cf_grp cf_mrp cf_collapse
      cf_interp cf_trapezoid cf_ci_gap cf_ci_map cf_ci_gndcg cf_ci_mndcg cf_samples cf_seed cf_alpha cf_curve].
    assert (InO : forall n k, existsb (fun y => str_eq (fst y) n && vtype_eqb (type_of (snd y)) (type_of k)) options = true ->
      In (n, k) options).
    { intros n k E. apply existsb_exists in E as ([m j] & I & E). apply andb_true_iff in E as [E1 E2].
      apply str_eq_spec in E1. apply vtype_eqb_ok in E2. cbn in E1, E2. subst m.
      assert (j = k) as -> by (destruct j, k; easy). exact I. }
    split; [exact args_fields|].
    repeat match goal with |- _ /\ _ => split end.
    all: match goal with
      | |- flag_text (latest ?n (lit "true") _) (var_bool ?x _) => apply (field_flag x n true)
      | |- flag_text (latest ?n (lit "false") _) (var_bool ?x _) => apply (field_flag x n false)
      | |- var_str ?x _ = latest ?n ?d _ => apply (field_text x n d)
      | |- int_text _ (latest ?n (lit "74565") _) (var_int ?x _) => apply (field_count x n (lit "74565") 74565)
      | |- int_text _ (latest ?n ?d _) (var_int ?x _) => apply (field_count x n d 10000)
      | |- f64_text (latest ?n ?d _) (var_f64 ?x _) => apply (field_level x n d (of_decimal 53 1024 false 5 (-2)))
      end.
    all: match goal with
      | |- In _ _ => apply InO; vm_compute; reflexivity
      | |- get_var _ _ = _ => lazy -[of_decimal]; reflexivity
      | |- no_nul _ => apply no_nul_lit; vm_compute; reflexivity
      | |- int_text _ _ _ => apply count_lit; vm_compute; reflexivity
      | |- f64_text _ _ => exact default_alpha
      | |- _ => vm_compute; reflexivity
      end.
  Qed.
End Fields.

Lemma flag_fun t v v' : flag_text t v -> flag_text t v' -> v = v'.
Proof.
  intros H H'. apply flag_text_value in H, H'. assert (E := value_text_fun false TBool t _ _ I H H'). congruence.
Qed.

Lemma count_fun t v v' : int_text fmt_u64 t v -> int_text fmt_u64 t v' -> v = v'.
Proof.
  intros H H'. assert (E := value_text_fun false (TInt fmt_u64) t (VInt v) (VInt v')).
  assert (VInt v = VInt v') by (apply E; [cbn; lia|now constructor|now constructor]). congruence.
Qed.

Lemma level_fun t v v' : f64_text t v -> f64_text t v' -> v = v'.
Proof.
  intros H H'. assert (E := value_text_fun false TF64 t (VF64 v) (VF64 v')).
  assert (VF64 v = VF64 v') by (apply E; [exact I|now constructor|now constructor]). congruence.
Qed.

Lemma fields_fun asg rest c c' : fields asg rest c -> fields asg rest c' -> c = c'.
Proof.
  unfold fields. intros (H0 & H1 & H2 & H3 & H4 & H5 & H6 & H7 & H8 & H9 & H10 & H11 & H12 & H13 & H14 & H15 & H16 & H17)
    (J0 & J1 & J2 & J3 & J4 & J5 & J6 & J7 & J8 & J9 & J10 & J11 & J12 & J13 & J14 & J15 & J16 & J17).
  assert (cf_ref c = cf_ref c' /\ cf_hyp c = cf_hyp c') as [R0 R0'].
  { destruct H0 as [[-> H0]| ->], J0 as [[E J0]|E]; try discriminate E; injection E; intros; subst; split; congruence. }
  assert (R1 := flag_fun _ _ _ H1 J1). assert (R2 := flag_fun _ _ _ H2 J2). assert (R3 := flag_fun _ _ _ H3 J3).
  assert (R4 := flag_fun _ _ _ H4 J4). assert (R5 := flag_fun _ _ _ H5 J5). assert (R6 := flag_fun _ _ _ H6 J6).
  assert (R7 := flag_fun _ _ _ H7 J7). assert (R14 := count_fun _ _ _ H14 J14). assert (R15 := count_fun _ _ _ H15 J15).
  assert (R16 := count_fun _ _ _ H16 J16). assert (R17 := level_fun _ _ _ H17 J17).
  rewrite <- J8 in H8. rewrite <- J9 in H9. rewrite <- J10 in H10. rewrite <- J11 in H11. rewrite <- J12 in H12.
  rewrite <- J13 in H13. clear -R0 R0' R1 R2 R3 R4 R5 R6 R7 R14 R15 R16 R17 H8 H9 H10 H11 H12 H13.
  destruct c, c'. cbn in *. now subst.
Qed.

Lemma no_nul_rest rest s s' : (1 <= List.length rest <= 2)%nat ->
  assigned s (combine [arg_refs; arg_hyps] rest) s' -> Forall no_nul rest.
Proof.
  intros L A. apply assigned_args in A; [|exact L]. destruct A as (r & N & [[-> _]|(h & N2 & -> & _)]); auto.
Qed.

Lemma rest_assigned rest s : (1 <= List.length rest <= 2)%nat -> Forall no_nul rest ->
  exists s', assigned s (combine [arg_refs; arg_hyps] rest) s'.
Proof.
  intros L F. destruct rest as [|r [|h [|]]]; cbn in L; try lia.
  - apply Forall_inv in F. eexists. apply assigned_args; [cbn; lia|]. exists r. split; [exact F|]. left. eauto.
  - assert (F1 := Forall_inv F). assert (F2 := Forall_inv (Forall_inv_tail F)).
    eexists. apply assigned_args; [cbn; lia|]. exists r. split; [exact F1|]. right. exists h. eauto.
Qed.

Theorem command_asks args c : command args c <-> asks_for args c.
Proof.
  unfold command, asks_for. rewrite tool_args. split.
  - intros (asg & rest & s & (post & Os & Se) & L & A & ->).
    apply assigned_app in A as (s1 & A1 & A2). destruct (items_words _ _ _ _ Os) as [W K].
    exists (names asg), post, rest. split; [exact W|]. split; [exact Se|].
    split; [exact (assigned_acceptable _ _ _ A1 K)|]. split; [exact (no_nul_rest rest s1 s L A2)|].
    exact (config_fields asg rest s1 s K A1 L A2).
  - intros (asg & post & rest & W & Se & F & N & Fi).
    destruct (words_items _ _ _ _ W) as (l & Os & <- & K).
    destruct (acceptable_assigned l K F initial_store) as [s1 A1].
    assert (L : (1 <= List.length rest <= 2)%nat) by (destruct Fi as [[[-> _]| ->] _]; cbn; lia).
    destruct (rest_assigned rest s1 L N) as [s A2].
    exists l, rest, s. repeat split; try lia; [exists post; now split| |].
    + apply assigned_app. now exists s1.
    + exact (fields_fun _ _ _ _ Fi (config_fields l rest s1 s K A1 L A2)).
Qed.

Theorem help_asks args : asks_help args <-> asks_for_help args.
Proof.
  unfold asks_help, asks_for_help. split.
  - intros (asg & rest & s & (post & Os & Se) & A). destruct (items_words _ _ _ _ Os) as [W K].
    exists (names asg), post, rest. repeat split; [exact W|exact Se|]. exact (assigned_acceptable _ _ _ A K).
  - intros (asg & post & rest & W & Se & F). destruct (words_items _ _ _ _ W) as (l & Os & <- & K).
    destruct (acceptable_assigned l K F initial_store) as [s A]. exists l, rest, s. split; [exists post; now split|exact A].
Qed.
