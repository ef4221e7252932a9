(** C62 and C67 for parsers given by the calls that register their options and
    arguments. *)
From Coq Require Import Ascii String List Bool ZArith Lia.
From Flocq Require Import Core BinarySingleNaN.
From Verif.Model Require Import Cpp Floats Stream Options.
From Verif.Spec Require Import Order Reader Options Registered.
From Verif.Proofs Require Geometry Options.
From Verif.Props Require Import P16_Options.
Import ListNotations.
Local Open Scope string_scope.
Local Open Scope list_scope.

Lemma after_snoc prog desc cs c : after prog desc (cs ++ [c]) = do_call (after prog desc cs) c.
Proof. unfold after. now rewrite fold_left_app. Qed.

Lemma after_registered prog desc cs : registered prog desc (after prog desc cs).
Proof.
  induction cs as [|c cs IH] using rev_ind; [constructor|]. rewrite after_snoc. unfold do_call. destruct (cl_kind c); now constructor.
Qed.

Lemma option_keeps name help t var p : p_args (snd (register_option name help t var p)) = p_args p /\
  p_opt_args (snd (register_option name help t var p)) = p_opt_args p.
Proof. unfold register_option. destruct (str_eq name (lit "help")); [auto|]. destruct (smap_emplace _ _ _) as [m []]; auto. Qed.

(** C67.  The mandatory and the optional arguments are those registered, in the
    order of the calls. *)
Theorem c67_arguments : forall prog desc cs,
  p_args (after prog desc cs) = arguments AnArgument cs /\ p_opt_args (after prog desc cs) = arguments AnOptArgument cs.
Proof.
  intros prog desc cs. induction cs as [|c cs [IH IH']] using rev_ind; [split; reflexivity|].
  rewrite after_snoc. unfold arguments in *. rewrite !flat_map_app. cbn [flat_map]. rewrite !app_nil_r, <- IH, <- IH'.
  unfold do_call. destruct (cl_kind c) eqn:K; cbn; [|now rewrite app_nil_r|now rewrite app_nil_r].
  rewrite !app_nil_r. apply option_keeps.
Qed.
Print Assumptions c67_arguments.

Lemma option_call_snoc cs c name o : option_call (cs ++ [c]) name o <->
  option_call cs name o \/
  (name <> lit "help" /\ cl_kind c = AnOption /\ cl_name c = name /\ o = Opt false (lit "--" ++ name) (cl_help c) (cl_type c) (cl_var c) /\
    forall c', In c' cs -> cl_kind c' = AnOption -> cl_name c' <> name).
Proof.
  split.
  - intros (N & l1 & d & l2 & E & K & Nm & Eo & F). destruct l2 as [|x l2] using rev_ind.
    + apply app_inj_tail in E as [<- <-]. right. auto.
    + clear IHl2. rewrite app_comm_cons, app_assoc in E. apply app_inj_tail in E as [-> ->]. left. split; [exact N|]. exists l1, d, l2. auto.
  - intros [(N & l1 & d & l2 & -> & R)|(N & K & Nm & Eo & F)].
    + split; [exact N|]. exists l1, d, (l2 ++ [c]). split; [now rewrite <- app_assoc|exact R].
    + split; [exact N|]. exists cs, c, []. auto.
Qed.

(** Whether some call registers an option of this name. *)
Lemma first_call cs name : name <> lit "help" ->
  (exists o, option_call cs name o) \/ forall c, In c cs -> cl_kind c = AnOption -> cl_name c <> name.
Proof.
  intros N. induction cs as [|c cs IH] using rev_ind; [right; intros c []|].
  destruct IH as [[o H]|F]; [left; exists o; apply option_call_snoc; auto|].
  destruct (cl_kind c) eqn:K; [|right; intros d I Kd; apply in_app_iff in I as [I|[<-|[]]]; [auto|congruence]..].
  destruct (str_eq (cl_name c) name) eqn:E.
  - apply Geometry.str_eq_spec in E. left. eexists. apply option_call_snoc. right. repeat split; auto.
  - right. intros d I Kd. apply in_app_iff in I as [I|[<-|[]]]; [auto|]. intros Q. apply Geometry.str_eq_spec in Q. congruence.
Qed.

(** C67.  An option is registered by the first call with its name, except
    "help". *)
Theorem c67_options : forall prog desc cs name o, In (name, o) (p_opts (after prog desc cs)) <-> option_call cs name o.
Proof.
  intros prog desc cs. induction cs as [|c cs IH] using rev_ind; intros name o.
  - split; [intros []|]. intros (_ & l1 & d & l2 & E & _). now destruct l1.
  - rewrite after_snoc, option_call_snoc, <- IH. unfold do_call. destruct (cl_kind c) eqn:K;
      [|cbn; split; [auto|intros [H|(_ & Q & _)]; [exact H|discriminate]]..].
    destruct (c67_register prog desc (after prog desc cs) (cl_name c) (cl_help c) (cl_type c) (cl_var c) (after_registered prog desc cs))
      as (R1 & R2 & R3).
    destruct (fst (register_option (cl_name c) (cl_help c) (cl_type c) (cl_var c) (after prog desc cs))).
    + destruct (R3 eq_refl) as (_ & _ & _ & _ & l1 & l2 & E1 & E2). rewrite E2, E1, !in_app_iff. cbn [In].
      assert (Nh : cl_name c <> lit "help") by (intros Q; assert (true = false) by (apply R1; auto); discriminate).
      assert (Nn : ~ In (cl_name c) (map fst (p_opts (after prog desc cs)))) by (intros Q; assert (true = false) by (apply R1; auto); discriminate).
      split.
      * intros [H|[H|H]]; [auto| |auto]. injection H as <- <-. right. repeat split; auto.
        intros d I Kd Q. destruct (first_call cs (cl_name c) Nh) as [[o' H]|F]; [|exact (F d I Kd Q)].
        apply IH in H. apply Nn. apply (in_map fst) in H. exact H.
      * intros [[H|H]|(_ & _ & <- & -> & _)]; auto.
    + rewrite (R2 eq_refl). split; [auto|]. intros [H|(N & _ & <- & -> & F)]; [exact H|]. exfalso.
      destruct (proj1 R1 eq_refl) as [Q|Q]; [exact (N Q)|]. apply in_map_iff in Q as ([n o'] & En & I). cbn in En. subst n.
      apply IH in I as (_ & l1 & d & l2 & -> & Kd & Nd & _). apply (F d); auto. apply in_app_iff. right. now left.
Qed.
Print Assumptions c67_options.

(** C62.  The command lines accepted by a parser after any calls: the values
    after the options go to the mandatory arguments and then to the optional
    ones, both in the order of the calls. *)
Theorem c62_order : forall prog desc cs args s s', Forall (fun c => type_ok (cl_type c)) cs ->
  parse (after prog desc cs) args s = PTrue s' <->
  exists asg rest, opt_section (p_opts (after prog desc cs)) args asg false rest /\
    (List.length (arguments AnArgument cs) <= List.length rest <=
      List.length (arguments AnArgument cs) + List.length (arguments AnOptArgument cs))%nat /\
    assigned s (asg ++ combine (arguments AnArgument cs ++ arguments AnOptArgument cs) rest) s'.
Proof.
  intros prog desc cs args s s' F. destruct (c67_arguments prog desc cs) as [<- <-]. apply c62_grammar.
  assert (Ty : forall k o, In o (arguments k cs) -> type_ok (op_type o)).
  { intros k o I. apply in_flat_map in I as (c & Ic & I). rewrite Forall_forall in F. specialize (F c Ic).
    destruct k, (cl_kind c); cbn in I; try contradiction; destruct I as [<-|[]]; exact F. }
  destruct (c67_arguments prog desc cs) as [Ea Eo]. apply (Options.registered_ok prog desc); [apply after_registered|].
  rewrite Ea, Eo. apply Forall_forall. intros o I. rewrite !in_app_iff in I. destruct I as [I|[I|I]]; [|eauto..].
  apply in_map_iff in I as ([n o'] & <- & I). apply c67_options in I as (_ & l1 & c & l2 & -> & _ & _ & -> & _). cbn.
  rewrite Forall_forall in F. apply F. apply in_app_iff. right. now left.
Qed.
Print Assumptions c62_order.

(** Two mandatory and two optional arguments, mixed with options, one of them
    registered twice and one called help. *)
Definition calls : list call :=
  [Call AnOptArgument (lit "third") [] (TInt fmt_i32) (lit "c"); Call AnOption (lit "x") [] TStr (lit "x1");
   Call AnArgument (lit "first") [] TStr (lit "a"); Call AnOption (lit "x") [] TBool (lit "x2");
   Call AnOptArgument (lit "fourth") [] TStr (lit "d"); Call AnOption (lit "help") [] TStr (lit "h");
   Call AnArgument (lit "second") [] TStr (lit "b")].

Example c62_order_case :
  Forall (fun c => type_ok (cl_type c)) calls /\
  option_call calls (lit "x") (Opt false (lit "--x") [] TStr (lit "x1")) /\
  map op_name (arguments AnArgument calls ++ arguments AnOptArgument calls) = map lit ["first"; "second"; "third"; "fourth"] /\
  map fst (p_opts (after [] [] calls)) = [lit "x"] /\
  parse (after [] [] calls) (map lit ["--x"; "1"; "A"; "B"; "3"; "D"])
    [(lit "a", VStr []); (lit "b", VStr []); (lit "c", VInt 0); (lit "d", VStr []); (lit "x1", VStr [])] =
    PTrue [(lit "a", VStr (lit "A")); (lit "b", VStr (lit "B")); (lit "c", VInt 3); (lit "d", VStr (lit "D")); (lit "x1", VStr (lit "1"))].
Proof.
  split; [repeat constructor; cbn; lia|]. split.
  - split; [discriminate|]. eexists [_], _, _. repeat split. intros c [<-|[]]. discriminate.
  - repeat split; vm_compute; reflexivity.
Qed.
