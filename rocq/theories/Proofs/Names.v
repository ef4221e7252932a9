(** Proofs about other names and other coordinates. *)
From Coq Require Import Ascii String List Bool ZArith Sorted Lia Permutation.
From Flocq Require Import Core BinarySingleNaN.
From Verif.Model Require Import Cpp Floats Box Events EventSets Matches Matcher Scorers Assessment Bootstrap Mapper Stream Reader Options Tool.
From Verif.Spec Require Import Order Geometry Objects Sets Matching Scorers Grouping Collapse Metrics Reader Options Tool Parts Added Names.
From Verif.Proofs Require Import Queries Tool Finish Programs.
From Verif.Proofs Require Matching Grouping Evaluation Runs Parts Order Rescore Instances Results Mapper Sets Geometry Ids Scorers Added.
Import ListNotations.
Local Open Scope string_scope.
Local Open Scope list_scope.

(** ** Runs with the same mapped inputs *)

Section Agree.
  Context {A : Arith} {St St' : Type} (rho : St -> St' -> Prop).

  (** The same result and related states, or the same failure. *)
  Definition agree {X} (o : outcome (X * St)) (o' : outcome (X * St')) : Prop :=
    match o, o' with
    | Ok p, Ok p' => fst p = fst p' /\ rho (snd p) (snd p')
    | UB, UB => True
    | Throw e, Throw e' => e = e'
    | _, _ => False
    end.

  Lemma map_all_agree {X X' Y} (m : St -> X -> outcome (Y * St)) (m' : St' -> X' -> outcome (Y * St')) (k : X -> X') l :
    (forall x st st', In x l -> rho st st' -> agree (m st x) (m' st' (k x))) ->
    forall st st', rho st st' -> agree (map_all m st l) (map_all m' st' (map k l)).
  Proof.
    induction l as [|x l IH]; intros K st st' H; [split; auto|]. cbn [map map_all].
    assert (K1 := K x st st' (or_introl eq_refl) H). destruct (m st x) as [[y s]| |e], (m' st' (k x)) as [[y' s']| |e']; try contradiction; [|exact Logic.I|exact K1].
    destruct K1 as [E1 K1]. cbn [fst snd] in E1, K1. subst y'.
    assert (K2 := IH (fun z st st' I => K z st st' (or_intror I)) s s' K1).
    destruct (map_all m s l) as [[ys u]| |e], (map_all m' s' (map k l)) as [[ys' u']| |e']; try contradiction; [|exact Logic.I|exact K2].
    destruct K2 as [E2 K2]. cbn [fst snd] in E2, K2. subst. split; [reflexivity|exact K2].
  Qed.

  Definition agree_prog {RE HE X} (p : prog A (RE := RE) (HE := HE) (X * St)) (p' : prog A (RE := RE) (HE := HE) (X * St')) : Prop :=
    fst p = fst p' /\
    match snd p, snd p' with
    | inl x, inl x' => fst x = fst x' /\ rho (snd x) (snd x')
    | inr e, inr e' => e = e'
    | _, _ => False
    end.

  Lemma agree_bind {RE HE X Y} (p : prog A (RE := RE) (HE := HE) (X * St)) p' (k : X * St -> prog A Y) (k' : X * St' -> prog A Y) :
    agree_prog p p' -> (forall x st st', rho st st' -> k (x, st) = k' (x, st')) -> pbind A p k = pbind A p' k'.
  Proof.
    destruct p as [l [[x st]|e]], p' as [l' [[x' st']|e']]; intros [E H] K; cbn [fst snd] in *; try contradiction; subst.
    - destruct H as [<- H]. cbn [pbind]. now rewrite (K x st st' H).
    - reflexivity.
  Qed.

  Lemma run_agree {RE HE X} (o : outcome (X * St)) (o' : outcome (X * St')) : agree o o' -> agree_prog (RE := RE) (HE := HE) (run A o) (run A o').
  Proof.
    destruct o as [[x s]| |e], o' as [[x' s']| |e']; intros H; try contradiction; split; cbn [run fst snd] in *; auto. now f_equal.
  Qed.
End Agree.

Section Two.
  Context {A : Arith} (T : Trans A) {Q RE E ER EE St : Type}.
  Notation HE := (scored E).
  Variable srt : sort_fn.
  Variable rngs : Z -> rng.
  Variables (show_int : Z -> bytes) (show_f64 : f64 -> bytes).
  Variables (cq : Cmp Q) (cr : Cmp RE) (ce : Cmp E).
  Variables (rq : RE -> Q) (hq : E -> Q).
  Variable S : EvSet RE HE.
  Variable scorer : RE -> HE -> match_error.
  Variables (rd_r : istream -> ER * istream) (text_r : bytes -> ER -> Prop).
  Variables (rd_h : istream -> scored EE * istream) (text_h : bytes -> scored EE -> Prop).
  Hypothesis Fr : format rd_r text_r.
  Hypothesis Fh : format rd_h text_h.
  Variables (mr : St -> ER -> outcome (RE * St)) (mh : St -> scored EE -> outcome (HE * St)) (mq : St -> bytes -> outcome (Q * St)).
  Variable desc : bytes.
  Variable rho : St -> St -> Prop.
  Variables (w w' : world) (c : config) (raw_r raw_r' : list ER) (raw_h raw_h' : list (scored EE)) (f : query_file bytes) (g : bytes -> bytes).
  Hypothesis In1 : inputs text_r text_h w c raw_r raw_h f.
  Hypothesis In2 : inputs text_r text_h w' c raw_r' raw_h' (map_queries g f).
  Hypothesis Hw : w_writable w = w_writable w'.
  Hypothesis Kr : forall st st', rho st st' -> agree rho (map_all mr st raw_r) (map_all mr st' raw_r').
  Hypothesis Kh : forall st st', rho st st' -> agree rho (map_all mh st raw_h) (map_all mh st' raw_h').
  Hypothesis Kq : forall s st st', listed f s -> rho st st' -> agree rho (mq st s) (mq st' (g s)).

  Lemma load_refs_two st st' : rho st st' ->
    agree_prog (HE := HE) rho (load_refs A (fun f st => read_file rd_r mr f [] st) w c st) (load_refs A (fun f st => read_file rd_r mr f [] st) w' c st').
  Proof.
    intros H. assert (K := Kr st st' H). destruct In1 as [N (b & B & Rb) _ _ _], In2 as [_ (b' & B' & Rb') _ _ _].
    unfold load_refs. destruct (cf_ref c) as [|x nm] eqn:Nm; [contradiction|]. rewrite <- Nm in *. rewrite B, B'. cbn [read_file].
    rewrite (Tool.read_good rd_r text_r mr b st raw_r [] Fr Rb), (Tool.read_good rd_r text_r mr b' st' raw_r' [] Fr Rb').
    destruct (map_all mr st raw_r) as [[l s]| |e], (map_all mr st' raw_r') as [[l' s']| |e']; try contradiction; cbn [obind run pbind].
    - destruct K as [K1 K2]. cbn [fst snd] in K1, K2. subst l'. cbn. split; [reflexivity|]. split; [reflexivity|exact K2].
    - split; reflexivity.
    - split; [reflexivity|]. cbn. now f_equal.
  Qed.

  Lemma load_hyps_two a st st' : rho st st' ->
    agree_prog (RE := RE) rho (load_hyps A (fun f st => read_file rd_h mh f [] st) (fun b st => read_stream rd_h mh (open_stream b) [] st) w a c st)
      (load_hyps A (fun f st => read_file rd_h mh f [] st) (fun b st => read_stream rd_h mh (open_stream b) [] st) w' a c st').
  Proof.
    intros H. assert (K := Kh st st' H). destruct In1 as [_ _ (b & B & Rb) _ _], In2 as [_ _ (b' & B' & Rb') _ _].
    assert (E1 : forall w0 s, match cf_hyp c with [] => read_stream rd_h mh (open_stream (w_stdin w0)) [] s
               | x :: l => read_file rd_h mh (w_file w0 (x :: l)) [] s end = read_file rd_h mh (hyp_source w0 c) [] s) by (intros; unfold hyp_source; now destruct (cf_hyp c)).
    unfold load_hyps. rewrite !E1, B, B'. cbn [read_file].
    rewrite (Tool.read_good rd_h text_h mh b st raw_h [] Fh Rb), (Tool.read_good rd_h text_h mh b' st' raw_h' [] Fh Rb').
    destruct (map_all mh st raw_h) as [[l s]| |e], (map_all mh st' raw_h') as [[l' s']| |e']; try contradiction; cbn [obind run pbind].
    - destruct K as [K1 K2]. cbn [fst snd] in K1, K2. subst l'. cbn. split; [reflexivity|]. split; [reflexivity|exact K2].
    - split; reflexivity.
    - split; [reflexivity|]. cbn. now f_equal.
  Qed.

  Lemma group_lines_two name ls fs ls' : Forall2 words ls fs -> Forall2 words ls' (map (map g) fs) ->
    (forall l, In l fs -> forall s, In s l -> listed f s) -> forall m st st', rho st st' ->
    agree_prog (RE := RE) (HE := HE) rho (group_lines A cq mq name ls m st) (group_lines A cq mq name ls' m st').
  Proof.
    intros W. revert ls'. induction W as [|l ws ls fs Wl W IH]; intros ls' W' Li m st st' H; inversion W' as [|l' ws' ls0 fs0 Wl' W0]; subst; cbn [group_lines].
    { split; [reflexivity|]. split; [reflexivity|exact H]. }
    rewrite (words_of_ok l ws Wl), (words_of_ok l' _ Wl'). cbn [run]. rewrite !pbind_nil, !map_words_all.
    assert (K := map_all_agree rho mq mq g ws (fun x s s' I => Kq x s s' (Li ws (or_introl eq_refl) x I)) st st' H).
    destruct (map_all mq st ws) as [[y s]| |e], (map_all mq st' (map g ws)) as [[y' s']| |e']; try contradiction; cbn [run pbind].
    - destruct K as [K1 K2]. cbn [fst snd] in K1, K2. subst y'. destruct (Nat.ltb _ _); [split; reflexivity|].
      assert (K3 := IH _ W0 (fun l0 I => Li l0 (or_intror I)) (add_group cq y m) s s' K2).
      destruct (group_lines A cq mq name ls _ s) as [e1 r1], (group_lines A cq mq name ls0 _ s') as [e2 r2]. exact K3.
    - split; reflexivity.
    - split; [reflexivity|]. cbn. now f_equal.
  Qed.

  Lemma load_queries_two st st' : rho st st' ->
    agree_prog (RE := RE) (HE := HE) rho (load_queries A cq mq w c st) (load_queries A cq mq w' c st').
  Proof.
    intros H. assert (N := in_queries _ _ _ _ _ _ _ In1). assert (N' := in_queries _ _ _ _ _ _ _ In2). unfold load_queries.
    remember f as f0 eqn:Ef in N. destruct N as [N1 N2|b ws N1 N2 B W|b ls fs N1 B L W F].
    - rewrite N1, N2. split; [reflexivity|]. split; [reflexivity|exact H].
    - rewrite N1. destruct (cf_queryset c) as [|x name] eqn:N3; [contradiction|]. rewrite <- N3 in *. rewrite <- Ef in N'. cbn [map_queries] in N'.
      inversion N' as [|b' ws' _ _ B' W'|]; subst ws'. unfold load_query_set.
      rewrite B, (words_of_ok b ws W), B', (words_of_ok b' _ W'). cbn [run]. rewrite !pbind_nil, !map_words_all.
      assert (K := map_all_agree rho mq mq g ws (fun x s s' I => Kq x s s' (eq_ind (QuerySet ws) (fun f => listed f x) I _ Ef)) st st' H).
      destruct (map_all mq st ws) as [[y s]| |e], (map_all mq st' (map g ws)) as [[y' s']| |e']; try contradiction; cbn [run pbind].
      + destruct K as [K1 K2]. cbn [fst snd] in K1, K2. subst y'. cbn. split; [reflexivity|]. split; [reflexivity|exact K2].
      + split; reflexivity.
      + split; [reflexivity|]. cbn. now f_equal.
    - destruct (cf_querygroups c) as [|x name] eqn:N3; [contradiction|]. rewrite <- N3 in *. rewrite <- Ef in N'. cbn [map_queries] in N'.
      inversion N' as [| |b' ls' fs' _ B' L' W' F']; subst fs'. unfold load_query_groups.
      rewrite B, (lines_of_ok b ls L), B', (lines_of_ok b' ls' L'). cbn [run]. rewrite !pbind_nil.
      assert (K := group_lines_two (cf_querygroups c) ls fs ls' W W' (fun l I s J => eq_ind (QueryGroups fs) (fun f => listed f s) (ex_intro _ l (conj I J)) _ Ef) [] st st' H).
      destruct (group_lines A cq mq (cf_querygroups c) ls [] st) as [l1 [[m1 s1]|e1]], (group_lines A cq mq (cf_querygroups c) ls' [] st') as [l2 [[m2 s2]|e2]];
        destruct K as [K1 K2]; cbn [fst snd] in K1, K2; try contradiction; subst.
      + destruct K2 as [<- K2]. split; [reflexivity|]. split; [reflexivity|exact K2].
      + split; reflexivity.
  Qed.

  Lemma tool_two st0 st0' pn args : command args c -> rho st0 st0' ->
    tool T srt rngs show_int show_f64 cq cr ce rq hq S scorer rd_r rd_h mr mh mq desc w st0 pn args =
    tool T srt rngs show_int show_f64 cq cr ce rq hq S scorer rd_r rd_h mr mh mq desc w' st0' pn args.
  Proof.
    intros Cm H. apply command_parse in Cm as (s & Ps & Ec).
    unfold tool, tool_main, parse_command_line. cbv zeta. rewrite parse_same, Ps. unfold pret at 1 2. rewrite !pbind_nil. rewrite <- Ec. clear Ps Ec s.
    eapply agree_bind; [exact (load_refs_two st0 st0' H)|]. intros refs s1 s1' H1.
    eapply agree_bind; [exact (load_hyps_two _ s1 s1' H1)|]. intros hyps s2 s2' H2.
    eapply agree_bind; [exact (load_queries_two s2 s2' H2)|]. intros m s3 s3' _.
    unfold dump_matches, report, write_global_curve, write_mean_curve. rewrite Hw. reflexivity.
  Qed.
End Two.

(** ** SimpleKwsEval *)

Section Strings.
  Variables (D : bytes -> Prop) (g : bytes -> bytes) (Inj : one_to_one D g).

  (** The same table for the other strings. *)
  Definition same_table (t t' : id_table) : Prop := t' = map (fun p => (g (fst p), snd p)) t /\ forall p, In p t -> D (fst p).

  Lemma find_same s (t : id_table) : D s -> (forall p, In p t -> D (fst p)) -> map_find str_eq (g s) (map (fun p => (g (fst p), snd p)) t) = map_find str_eq s t.
  Proof.
    intros Ds. induction t as [|[x v] t IH]; intros K; [reflexivity|]. cbn [map map_find fst snd].
    assert (E1 : str_eq (g x) (g s) = str_eq x s).
    { destruct (Parts.bytes_dec x s) as [->|N].
      - now rewrite !(proj2 (Geometry.str_eq_spec _ _) eq_refl).
      - destruct (str_eq x s) eqn:E1; [apply Geometry.str_eq_spec in E1; contradiction|]. destruct (str_eq (g x) (g s)) eqn:E2; [|reflexivity].
        apply Geometry.str_eq_spec in E2. elim N. apply Inj; [apply (K (x, v)); now left|exact Ds|exact E2]. }
    rewrite E1. destruct (str_eq x s); [reflexivity|]. apply IH. intros p I. apply K. now right.
  Qed.

  Lemma string_same m s t t' : D s -> same_table t t' -> agree same_table (string_to_int m t s) (string_to_int m t' (g s)).
  Proof.
    intros Ds [-> K]. unfold string_to_int. rewrite (find_same s t Ds K), map_length.
    destruct (map_find str_eq s t) as [v|]; [split; [reflexivity|split; [reflexivity|exact K]]|].
    destruct (Z.of_nat (List.length t) <? k_max_size m)%Z; [|reflexivity]. split; [reflexivity|]. split; [cbn [snd]; now rewrite map_app|].
    cbn [snd]. intros p I. apply in_app_or in I as [I|[<-|[]]]; [now apply K|exact Ds].
  Qed.

  Lemma event_same qf m e t t' : (forall s, spells e s -> D s) -> same_table t t' ->
    agree same_table (event_to_int qf m t e) (event_to_int qf m t' (map_event g g e)).
  Proof.
    intros De H. unfold event_to_int. cbn [map_event ev_query ev_loc].
    destruct qf.
    - assert (K := string_same m (ev_query e) t t' (De _ (or_introl eq_refl)) H).
      destruct (string_to_int m t (ev_query e)) as [[q u]| |x], (string_to_int m t' (g (ev_query e))) as [[q' u']| |x']; try contradiction; cbn [obind]; [|exact Logic.I|exact K].
      destruct K as [K1 K2]. cbn [fst snd] in K1, K2. subst q'. assert (K := string_same m (ev_loc e) u u' (De _ (or_intror eq_refl)) K2).
      destruct (string_to_int m u (ev_loc e)) as [[l v]| |x], (string_to_int m u' (g (ev_loc e))) as [[l' v']| |x']; try contradiction; cbn [obind]; [|exact Logic.I|exact K].
      destruct K as [K1 K3]. cbn [fst snd] in K1, K3. subst l'. split; [reflexivity|exact K3].
    - assert (K := string_same m (ev_loc e) t t' (De _ (or_intror eq_refl)) H).
      destruct (string_to_int m t (ev_loc e)) as [[q u]| |x], (string_to_int m t' (g (ev_loc e))) as [[q' u']| |x']; try contradiction; cbn [obind]; [|exact Logic.I|exact K].
      destruct K as [K1 K2]. cbn [fst snd] in K1, K2. subst q'. assert (K := string_same m (ev_query e) u u' (De _ (or_introl eq_refl)) K2).
      destruct (string_to_int m u (ev_query e)) as [[l v]| |x], (string_to_int m u' (g (ev_query e))) as [[l' v']| |x']; try contradiction; cbn [obind]; [|exact Logic.I|exact K].
      destruct K as [K1 K3]. cbn [fst snd] in K1, K3. subst l'. split; [reflexivity|exact K3].
  Qed.

  Lemma scored_same qf m h t t' : (forall s, spells (sc_base h) s -> D s) -> same_table t t' ->
    agree same_table (scored_mapper (event_to_int qf m) t h) (scored_mapper (event_to_int qf m) t' (map_scored (map_event g g) h)).
  Proof.
    intros De H. unfold scored_mapper. cbn [map_scored sc_base sc_score]. assert (K := event_same qf m (sc_base h) t t' De H).
    destruct (event_to_int qf m t (sc_base h)) as [[q u]| |x], (event_to_int qf m t' _) as [[q' u']| |x']; try contradiction; cbn [obind]; [|exact Logic.I|exact K].
    destruct K as [K1 K2]. cbn [fst snd] in K1, K2. subst q'. split; [reflexivity|exact K2].
  Qed.
End Strings.

Section Simple.
  Context {A : Arith} (T : Trans A) (srt : sort_fn) (rngs : Z -> rng) (show_int : Z -> bytes) (show_f64 : f64 -> bytes).

  Lemma simple_names qf w w' pn args c refs hyps f g : command args c ->
    inputs str_event_text scored_str_event_text w c refs hyps f ->
    inputs str_event_text scored_str_event_text w' c (map (map_event g g) refs) (map (map_scored (map_event g g)) hyps) (map_queries g f) ->
    w_writable w = w_writable w' -> one_to_one (strings_of refs hyps f) g ->
    simple_kws A T srt rngs show_int show_f64 qf w pn args = simple_kws A T srt rngs show_int show_f64 qf w' pn args.
  Proof.
    intros Cm I I' Hw Inj. rewrite !Instances.simple_tool.
    apply (tool_two T srt rngs show_int show_f64 _ _ _ _ _ _ _ read_str_event str_event_text (read_scored read_str_event) scored_str_event_text
      Reader.fm_str_event Reader.fm_scored_str_event _ _ _ _ (same_table (strings_of refs hyps f) g) w w' c refs (map (map_event g g) refs) hyps
      (map (map_scored (map_event g g)) hyps) f g I I' Hw); [| | |exact Cm|].
    - apply map_all_agree. intros x st st' Ix. apply (event_same _ g Inj). intros s Sp. left. eauto.
    - apply map_all_agree. intros x st st' Ix. apply (scored_same _ g Inj). intros s Sp. right. left. eauto.
    - intros s st st' L. apply (string_same _ g Inj). right. now right.
    - split; [reflexivity|]. intros p [].
  Qed.
End Simple.

(** ** Files of queries *)

Section Files.
  Variables (D : bytes -> Prop) (g : bytes -> bytes) (Inj : one_to_one D g) (f : query_file bytes).
  Hypothesis Df : forall s, listed f s -> D s.

  Lemma assigns_listed q x : assigns f q x -> listed f q /\ listed f x.
  Proof.
    destruct f as [|qs|ls]; cbn [assigns listed]; [tauto|intros [I ->]; auto|]. intros (l1 & qs & l2 & -> & I & _).
    split; exists (x :: qs); (split; [apply in_elt|]); [now right|now left].
  Qed.

  Lemma assigns_forth q x : D q -> assigns f q x -> assigns (map_queries g f) (g q) (g x).
  Proof.
    intros Dq. assert (Df' := Df). destruct f as [|qs|ls]; cbn [assigns map_queries].
    - tauto.
    - intros [I ->]. split; [now apply in_map|reflexivity].
    - intros (l1 & qs & l2 & -> & I & N). exists (map (map g) l1), (map g qs), (map (map g) l2). split; [now rewrite map_app|]. split; [now apply in_map|].
      intros g' qs' I' J. apply in_map_iff in I' as ([|y l] & E & I'); [discriminate|]. injection E as <- <-. apply in_map_iff in J as (z & Ez & J).
      apply (N y l I'). assert (z = q) as <-; [|exact J]. apply Inj; [|exact Dq|exact Ez]. apply Df'. exists (y :: l). split; [apply in_or_app; right; now right|now right].
  Qed.

  Lemma assigns_image y x : assigns (map_queries g f) y x -> exists s v, y = g s /\ x = g v /\ assigns f s v.
  Proof.
    assert (Df' := Df). destruct f as [|qs|ls]; cbn [assigns map_queries].
    - tauto.
    - intros [I ->]. apply in_map_iff in I as (s & <- & I). exists s, s. auto.
    - intros (l1 & qs & l2 & E & I & N). apply map_eq_app in E as (a & b & -> & <- & E). apply map_eq_cons in E as (l & b2 & -> & E1 & <-).
      destruct l as [|v l]; [discriminate|]. injection E1 as <- <-. apply in_map_iff in I as (s & <- & I).
      exists s, v. split; [reflexivity|]. split; [reflexivity|]. exists a, l, b2. split; [reflexivity|]. split; [exact I|].
      intros g' qs' I' J. apply (N (g g') (map g qs')); [exact (in_map (map g) _ _ I')|now apply in_map].
  Qed.

  Lemma assigns_both q x : D q -> assigns (map_queries g f) (g q) x <-> exists v, x = g v /\ assigns f q v.
  Proof.
    intros Dq. split.
    - intros A. destruct (assigns_image _ _ A) as (s & v & E & -> & A'). exists v. split; [reflexivity|].
      assert (q = s) as ->; [|exact A']. apply Inj; [exact Dq|apply Df; now apply (assigns_listed _ _ A')|exact E].
    - intros (v & -> & A). now apply assigns_forth.
  Qed.

  Lemma kept_both q : D q -> kept f q <-> kept (map_queries g f) (g q).
  Proof.
    intros Dq. unfold kept. split; intros [(x & A)|N].
    - left. exists (g x). now apply assigns_forth.
    - right. intros y x A. destruct (assigns_image _ _ A) as (s & v & _ & _ & A'). exact (N s v A').
    - left. apply (assigns_both q x Dq) in A as (v & _ & A). eauto.
    - right. intros y x A. apply (N (g y) (g x)). apply assigns_forth; [|exact A]. apply Df. now apply (assigns_listed _ _ A).
  Qed.

  Lemma group_both q x : D q -> group_is (map_queries g f) (g q) x <-> exists v, x = g v /\ group_is f q v.
  Proof.
    intros Dq. unfold group_is. split.
    - intros [A|[N ->]].
      + apply (assigns_both q x Dq) in A as (v & -> & A). eauto.
      + exists q. split; [reflexivity|]. right. split; [|reflexivity]. intros v A. apply (N (g v)). now apply assigns_forth.
    - intros (v & -> & [A|[N ->]]); [left; now apply assigns_forth|]. right. split; [|reflexivity].
      intros x A. apply (assigns_both q x Dq) in A as (v & _ & A). exact (N v A).
  Qed.

  Lemma group_known q x : D q -> group_is f q x -> D x.
  Proof. intros Dq [A|[_ ->]]; [|exact Dq]. apply Df. now apply (assigns_listed _ _ A). Qed.
End Files.

(** ** Evaluations *)

Lemma selects_forth {X Y} (k : X -> Y) (P : X -> Prop) (P' : Y -> Prop) l s : (forall x, In x l -> P x <-> P' (k x)) ->
  selects P l s -> selects P' (map k l) (map k s).
Proof.
  intros K H. induction H as [|x l s Px H IH|x l s Px H IH]; cbn [map].
  - constructor.
  - apply sel_yes; [apply K; [now left|exact Px]|]. apply IH. intros y I. apply K. now right.
  - apply sel_no; [intros P1; apply Px, K; [now left|exact P1]|]. apply IH. intros y I. apply K. now right.
Qed.

Lemma sorted_forth {X Y} (k : X -> Y) (P : X -> X -> Prop) (P' : Y -> Y -> Prop) l : (forall x y, In x l -> In y l -> P x y -> P' (k x) (k y)) ->
  StronglySorted P l -> StronglySorted P' (map k l).
Proof.
  induction l as [|x l IH]; intros K H; [constructor|]. inversion H as [|? ? S1 F1]; subst. cbn [map]. constructor.
  - apply IH; [|exact S1]. intros y z I J. apply K; now right.
  - apply Forall_forall. intros y I. apply in_map_iff in I as (z & <- & I). rewrite Forall_forall in F1. apply K; [now left|now right|now apply F1].
Qed.

Lemma first_seen_forth (D : bytes -> Prop) (g : bytes -> bytes) l s : one_to_one D g -> (forall x, In x l -> D x) -> first_seen l s -> first_seen (map g l) (map g s).
Proof.
  intros Inj K H. induction H as [|l s x H IH I|l s x H IH I].
  - constructor.
  - rewrite map_app. apply fs_old; [apply IH; intros y J; apply K, in_or_app; now left|now apply in_map].
  - rewrite !map_app. apply fs_new; [apply IH; intros y J; apply K, in_or_app; now left|]. intros J. apply in_map_iff in J as (y & E & J).
    assert (Il : forall z, In z s -> In z l) by (intros z; apply (Mapper.first_seen_in _ _ z H)).
    assert (y = x) as ->; [|contradiction]. apply Inj; [apply K, in_or_app; left; now apply Il|apply K, in_or_app; right; now left|exact E].
Qed.

Section Forth.
  Context {X : Type} (cx : Cmp X) (Hx : total_order cx) (q : X -> bytes).
  Notation HX := (scored X).
  Notation M := (match_t X HX).
  Variables (S : EvSet X HX) (R : list X -> HX -> list X -> Prop) (HS : finds S R).
  Variable scorer : X -> HX -> match_error.
  Variables (D : bytes -> Prop) (g : bytes -> bytes) (Inj : one_to_one D g) (k : X -> X).
  Hypothesis Eq : forall x, q (k x) = g (q x).
  Variables (f : query_file bytes) (refs : list X) (hyps : list HX).
  Hypothesis Df : forall s, listed f s -> D s.
  Hypothesis Dr : forall r, In r refs -> D (q r).
  Hypothesis Dh : forall h, In h hyps -> D (q (sc_base h)).
  Hypothesis Lr : forall x y, In x refs -> In y refs -> (c_lt cx (k x) (k y) = true <-> c_lt cx x y = true).
  Hypothesis Lh : forall x y, In x hyps -> In y hyps -> (c_lt cx (k (sc_base x)) (k (sc_base y)) = true <-> c_lt cx (sc_base x) (sc_base y) = true).
  Hypothesis KR : forall rs h l, incl rs refs -> In h hyps -> R rs h l -> R (map k rs) (map_scored k h) (map k l).
  Hypothesis Ks : forall r h, In r refs -> In h hyps -> scorer (k r) (map_scored k h) = scorer r h.
  Notation kh := (map_scored k).
  Notation km := (map_match k (map_scored k)).

  Lemma k_inj x y : In x refs -> In y refs -> k x = k y -> x = y.
  Proof.
    intros I J E. destruct (to_total _ Hx x y) as [L|[L|L]]; [|exact L|]; exfalso.
    - apply (Lr x y I J) in L. rewrite E, (to_irrefl _ Hx) in L. discriminate.
    - apply (Lr y x J I) in L. rewrite E, (to_irrefl _ Hx) in L. discriminate.
  Qed.

  Lemma acceptable_forth r h : In r refs -> In h hyps -> acceptable scorer r h -> acceptable scorer (k r) (kh h).
  Proof. intros I J. unfold acceptable. now rewrite (Ks r h I J). Qed.

  Lemma acceptable_back r h : In r refs -> In h hyps -> acceptable scorer (k r) (kh h) -> acceptable scorer r h.
  Proof. intros I J. unfold acceptable. now rewrite (Ks r h I J). Qed.

  Lemma logged_forth h l ms : In h hyps -> incl l refs -> logged scorer h l ms -> logged scorer (kh h) (map k l) (map km ms).
  Proof.
    intros Ih Il H. induction H as [|r l ms A H IH|r l ms A H IH]; cbn [map].
    - constructor.
    - assert (Ir := Il r (or_introl eq_refl)). change (km (match_pair r h (scorer r h))) with (match_pair (k r) (kh h) (scorer r h)).
      rewrite <- (Ks r h Ir Ih). apply log_yes; [now apply acceptable_forth|]. apply IH. intros x I. apply Il. now right.
    - assert (Ir := Il r (or_introl eq_refl)). apply log_no; [intros A'; apply A; now apply acceptable_back|]. apply IH. intros x I. apply Il. now right.
  Qed.

  Lemma decided_forth taken h l t m lg : In h hyps -> incl l refs -> incl taken refs -> decided scorer taken h l t m lg ->
    decided scorer (map k taken) (kh h) (map k l) (map k t) (map km m) (map km lg).
  Proof.
    intros Ih Il It H. destruct H as [before r after ms El A N B L|N|ms (x & I & A) B L].
    - assert (Ir : In r refs) by (apply Il; rewrite El; apply in_elt).
      assert (Ib : incl before refs) by (intros x I; apply Il; rewrite El; apply in_or_app; now left).
      cbn [map]. change (km (match_pair r h (scorer r h))) with (match_pair (k r) (kh h) (scorer r h)). rewrite <- (Ks r h Ir Ih).
      apply (hit _ _ _ _ (map k before) (k r) (map k after)).
      + rewrite El, map_app. reflexivity.
      + now apply acceptable_forth.
      + intros I. apply in_map_iff in I as (y & E & I). apply N. assert (y = r) as <-; [|exact I]. apply k_inj; auto.
      + intros x I Ax. apply in_map_iff in I as (y & <- & I). apply in_map, B; [exact I|]. apply acceptable_back; auto.
      + now apply logged_forth.
    - apply false_alarm. intros x I Ax. apply in_map_iff in I as (y & <- & I). apply (N y I). apply acceptable_back; auto.
    - apply repeated.
      + exists (k x). split; [now apply in_map|]. apply acceptable_forth; auto.
      + intros y J Ay. apply in_map_iff in J as (z & <- & J). apply in_map, B; [exact J|]. apply acceptable_back; auto.
      + now apply logged_forth.
  Qed.

  Lemma matching_forth rs rank taken ms lg : incl rs refs -> incl rank hyps -> matching R scorer rs rank taken ms lg ->
    matching R scorer (map k rs) (map kh rank) (map k taken) (map km ms) (map km lg).
  Proof.
    intros Ir Ih H. induction H as [|rank taken ms lg h l t m g0 Mt IH Rl Dc]; [constructor|].
    rewrite !map_app. assert (Ihh : In h hyps) by (apply Ih, in_or_app; right; now left). cbn [map].
    apply (next_hyp _ _ _ _ _ _ _ _ (map k l)).
    - apply IH. intros x I. apply Ih, in_or_app. now left.
    - now apply KR.
    - destruct (Matching.matching_taken S R HS scorer _ _ _ _ _ Mt) as (T1 & _). apply decided_forth; [exact Ihh| | |exact Dc].
      + intros x I. apply Ir. exact (fi_incl _ _ HS _ _ _ Rl x I).
      + intros x I. apply Ir, T1, I.
  Qed.

  Lemma ranking_forth crit hs rank : incl hs hyps -> ranking (c_lt cx) crit hs rank -> ranking (c_lt cx) crit (map kh hs) (map kh rank).
  Proof.
    intros Ih. assert (K : forall x y, In x hyps -> In y hyps -> not_below (c_lt cx) x y -> not_below (c_lt cx) (kh x) (kh y)).
    { intros x y I J [N1 N2]. split; [exact N1|]. intros E. specialize (N2 E). apply not_true_iff_false. intros L. apply (Lh x y I J) in L. congruence. }
    intros [(C & P & So)|[(C & P & So)|(C1 & C2 & ->)]].
    - left. split; [exact C|]. split; [now apply Permutation_map|]. revert So. apply sorted_forth. intros x y I J. apply K; apply Ih; now apply (Permutation_in _ (Permutation_sym P)).
    - right; left. split; [exact C|]. split; [now apply Permutation_map|]. revert So. apply sorted_forth. intros x y I J. apply K; apply Ih; now apply (Permutation_in _ (Permutation_sym P)).
    - right; right. auto.
  Qed.

  Lemma has_query_forth m x : has_query q (fun h : HX => q (sc_base h)) (km m) x <-> exists s, x = g s /\ has_query q (fun h : HX => q (sc_base h)) m s.
  Proof.
    unfold has_query, map_match. cbn [m_ref m_hyp]. destruct (m_ref m) as [r|]; cbn [option_map]; [|destruct (m_hyp m) as [h|]; cbn [option_map map_scored sc_base]].
    - rewrite Eq. split; [intros ->; eauto|intros (s & -> & ->); reflexivity].
    - rewrite Eq. split; [intros ->; eauto|intros (s & -> & ->); reflexivity].
    - split; [intros []|intros (s & _ & [])].
  Qed.

  Lemma grouping_forth ms gs : (forall m s, In m ms -> has_query q (fun h : HX => q (sc_base h)) m s -> D s) ->
    grouping q q f ms gs -> grouping q q (map_queries g f) (map km ms) (map (map km) gs).
  Proof.
    intros Dm (ks & keys & F1 & FS & F2).
    assert (MG : forall m x, In m ms -> match_group q q (map_queries g f) (km m) x <-> exists v, x = g v /\ match_group q q f m v).
    { intros m x Im. unfold match_group. split.
      - intros (s' & Hq & G). apply has_query_forth in Hq as (s & -> & Hq). apply (group_both D g Inj f Df s x (Dm m s Im Hq)) in G as (v & -> & G). eauto.
      - intros (v & -> & s & Hq & G). exists (g s). split; [apply has_query_forth; eauto|]. apply (group_both D g Inj f Df s _ (Dm m s Im Hq)). eauto. }
    assert (Dk : forall m v, In m ms -> match_group q q f m v -> D v).
    { intros m v Im (s & Hq & G). exact (group_known D f Df s v (Dm m s Im Hq) G). }
    assert (Dks : forall v, In v ks -> D v).
    { intros v I. destruct (proj2 (Evaluation.Forall2_in _ _ _ F1) v I) as (m & Im & G). exact (Dk m v Im G). }
    exists (map g ks), (map g keys). split; [|split].
    - clear - F1 MG. induction F1 as [|m v ms ks G F1 IH]; cbn [map]; constructor.
      + apply MG; [now left|eauto].
      + apply IH. intros m0 x I. apply MG. now right.
    - exact (first_seen_forth D g ks keys Inj Dks FS).
    - assert (Dkeys : forall v, In v keys -> D v) by (intros v I; apply Dks; now apply (Mapper.first_seen_in _ _ v FS)).
      clear - F2 MG Dk Dkeys Inj. induction F2 as [|v l keys gs [N Se] F2 IH]; cbn [map]; constructor.
      + split; [intros E; apply N; now destruct l|]. revert Se. apply selects_forth. intros m Im. rewrite (MG m (g v) Im). split.
        * intros G. eauto.
        * intros (u & E & G). assert (v = u) as ->; [|exact G]. apply Inj; [apply Dkeys; now left|exact (Dk m u Im G)|exact E].
      + apply IH. intros u I. apply Dkeys. now right.
  Qed.

  Lemma evaluation_forth crit ms lg gs : evaluation (c_lt cx) (c_lt cx) q q R scorer crit f refs hyps ms lg gs ->
    evaluation (c_lt cx) (c_lt cx) q q R scorer crit (map_queries g f) (map k refs) (map kh hyps) (map km ms) (map km lg) (map (map km) gs).
  Proof.
    intros Ev. assert (Er := Evaluation.eval_refs (c_lt cx) cx Hx q q S R HS scorer crit f refs hyps ms lg gs Ev).
    assert (Eh := Evaluation.eval_hyps (c_lt cx) cx q q R scorer crit f refs hyps ms lg gs Ev).
    destruct Ev as (rs & hs & rank & taken & found & missed & Sr & Sh & Rk & Mt & So & Mi & Em & G).
    assert (Ir : incl rs refs) by (intros x I; now apply (Grouping.selects_in _ _ _ Sr) in I).
    assert (Ih : incl hs hyps) by (intros x I; now apply (Grouping.selects_in _ _ _ Sh) in I).
    assert (Irk : incl rank hs).
    { intros x I. destruct Rk as [(_ & P & _)|[(_ & P & _)|(_ & _ & ->)]]; [| |exact I]; now apply (Permutation_in _ (Permutation_sym P)). }
    destruct (Matching.matching_taken S R HS scorer _ _ _ _ _ Mt) as (T1 & _).
    exists (map k rs), (map kh hs), (map kh rank), (map k taken), (map km found), (map k missed).
    split; [|split; [|split; [|split; [|split; [|split; [|split]]]]]].
    - revert Sr. apply selects_forth. intros r I. rewrite Eq. apply (kept_both D g Inj f Df). auto.
    - revert Sh. apply selects_forth. intros h I. cbn [map_scored sc_base]. rewrite Eq. apply (kept_both D g Inj f Df). auto.
    - now apply ranking_forth.
    - apply matching_forth; [exact Ir| |exact Mt]. intros x I. apply Ih, Irk, I.
    - revert So. apply sorted_forth. intros x y I J. apply Lr; apply Ir; now apply Mi.
    - intros r. split.
      + intros I. apply in_map_iff in I as (x & <- & I). apply Mi in I as [I N]. split; [now apply in_map|]. intros J. apply in_map_iff in J as (y & E & J).
        apply N. assert (y = x) as <-; [|exact J]. apply k_inj; auto.
      + intros [I N]. apply in_map_iff in I as (x & <- & I). apply in_map, Mi. split; [exact I|]. intros J. apply N. now apply in_map.
    - rewrite Em, map_app, !map_map. reflexivity.
    - apply grouping_forth; [|exact G]. intros m s Im Hq. unfold has_query in Hq. destruct (m_ref m) as [r|] eqn:E1.
      + subst s. apply Dr. apply (proj2 Er r). apply in_flat_map. exists m. split; [exact Im|]. rewrite E1. now left.
      + destruct (m_hyp m) as [h|] eqn:E2; [|contradiction]. subst s. apply Dh. apply (proj1 Eh h). left. apply in_flat_map. exists m. split; [exact Im|]. rewrite E2. now left.
  Qed.
End Forth.

(** ** Boxes *)

Section Boxes.
  Variables (gq gd : bytes -> bytes) (dx dy : bytes -> Z).
  Notation k := (map_event gq (moved gd dx dy)).

  Lemma order_eq (D : bytes -> Prop) g s t : keeps_order D g -> D s -> D t -> c_lt cmp_str (g s) (g t) = c_lt cmp_str s t.
  Proof. intros K Ds Dt. apply eq_true_iff_eq. now apply K. Qed.

  Lemma order_inj D g : keeps_order D g -> one_to_one D g.
  Proof.
    intros K s t Ds Dt E. destruct (to_total _ Order.total_order_str s t) as [L|[L|L]]; [|exact L|]; exfalso.
    - apply (K s t Ds Dt) in L. rewrite E, (to_irrefl _ Order.total_order_str) in L. discriminate.
    - apply (K t s Dt Ds) in L. rewrite E, (to_irrefl _ Order.total_order_str) in L. discriminate.
  Qed.

  Lemma str_eq_same (D : bytes -> Prop) g s t : one_to_one D g -> D s -> D t -> str_eq (g s) (g t) = str_eq s t.
  Proof.
    intros K Ds Dt. apply eq_true_iff_eq. rewrite !Geometry.str_eq_spec. split; [now apply K|congruence].
  Qed.

  Lemma box_lt_shift a b u v w : box_lt (Box (bx a + u) (by_ a + v) (bw a) (bh a)) (Box (bx b + u) (by_ b + v) (bw b) (bh b)) = w -> box_lt a b = w.
  Proof.
    unfold box_lt. cbn [bx by_ bw bh]. intros <-.
    assert (E : forall x y d, ((x + d =? y + d) = (x =? y))%Z) by (intros; apply eq_true_iff_eq; rewrite !Z.eqb_eq; lia).
    assert (L : forall x y d, ((x + d <? y + d) = (x <? y))%Z) by (intros; apply eq_true_iff_eq; rewrite !Z.ltb_lt; lia).
    rewrite !E, !L. reflexivity.
  Qed.

  Lemma docbox_lt_moved (D : bytes -> Prop) a b : keeps_order D gd -> D (db_doc a) -> D (db_doc b) ->
    docbox_lt (moved gd dx dy a) (moved gd dx dy b) = docbox_lt a b.
  Proof.
    intros K Da Db. unfold docbox_lt, moved. cbn [db_doc db_box]. rewrite (str_eq_same D gd _ _ (order_inj D gd K) Da Db).
    destruct (str_eq (db_doc a) (db_doc b)) eqn:E; cbn [negb].
    - apply Geometry.str_eq_spec in E. rewrite <- E. symmetry. eapply box_lt_shift. reflexivity.
    - exact (order_eq D gd _ _ K Da Db).
  Qed.

  Lemma inter_shift a b u v : u32_box a -> edges_fit a -> u32_box b -> edges_fit b ->
    let a' := Box (bx a + u) (by_ a + v) (bw a) (bh a) in let b' := Box (bx b + u) (by_ b + v) (bw b) (bh b) in
    u32_box a' -> edges_fit a' -> u32_box b' -> edges_fit b' -> box_inter a' b' = box_inter a b.
  Proof.
    intros A1 A2 B1 B2 a' b' A3 A4 B3 B4. unfold u32_box, edges_fit, is_u32, a', b' in *. clear a' b'. cbn [bx by_ bw bh] in *.
    assert (P : forall x y, (0 <= x -> 0 <= y -> x + y < two32 -> u32_add x y = x + y)%Z) by (intros; unfold u32_add, u32_wrap; apply Z.mod_small; lia).
    unfold box_inter. cbn [bx by_ bw bh]. rewrite !P by lia. cbv zeta.
    replace (Z.max (bx a + u) (bx b + u)) with (Z.max (bx a) (bx b) + u)%Z by lia.
    replace (Z.max (by_ a + v) (by_ b + v)) with (Z.max (by_ a) (by_ b) + v)%Z by lia.
    replace (Z.min (bx a + u + bw a) (bx b + u + bw b)) with (Z.min (bx a + bw a) (bx b + bw b) + u)%Z by lia.
    replace (Z.min (by_ a + v + bh a) (by_ b + v + bh b)) with (Z.min (by_ a + bh a) (by_ b + bh b) + v)%Z by lia.
    assert (L : forall x y d, ((x + d <? y + d) = (x <? y))%Z) by (intros; apply eq_true_iff_eq; rewrite !Z.ltb_lt; lia).
    assert (M : forall x y d, u32_sub (x + d) (y + d) = u32_sub x y) by (intros; unfold u32_sub; f_equal; lia).
    rewrite !L, !M. reflexivity.
  Qed.

  Lemma inter_moved (D : bytes -> Prop) a b : one_to_one D gd -> D (db_doc a) -> D (db_doc b) -> stays gd dx dy a -> stays gd dx dy b ->
    docbox_inter (moved gd dx dy a) (moved gd dx dy b) = docbox_inter a b.
  Proof.
    intros K Da Db ((A1 & A2) & A3 & A4) ((B1 & B2) & B3 & B4). unfold docbox_inter. unfold moved in *. cbn [db_doc db_box] in *.
    rewrite (str_eq_same D gd _ _ K Da Db). destruct (str_eq (db_doc a) (db_doc b)) eqn:E; [|reflexivity].
    apply Geometry.str_eq_spec in E. rewrite <- E in *. now apply inter_shift.
  Qed.

  Section Events.
    Variables (DQ DD : bytes -> Prop) (P : shaped -> Prop).
    Hypothesis Kq : keeps_order DQ gq.
    Hypothesis Kd : keeps_order DD gd.
    Hypothesis HP : forall e, P e -> DQ (ev_query e) /\ DD (db_doc (ev_loc e)) /\ stays gd dx dy (ev_loc e).

    Lemma event_lt_moved x y : P x -> P y -> event_lt cmp_str cmp_docbox (k x) (k y) = event_lt cmp_str cmp_docbox x y.
    Proof.
      intros Px Py. destruct (HP x Px) as (Qx & Dx & _), (HP y Py) as (Qy & Dy & _). unfold event_lt. cbn [map_event ev_query ev_loc].
      assert (E : c_ne cmp_str (gq (ev_query x)) (gq (ev_query y)) = c_ne cmp_str (ev_query x) (ev_query y)).
      { apply eq_true_iff_eq. rewrite !(to_ne _ Order.total_order_str). split; intros N E; apply N; [now f_equal|now apply (order_inj DQ gq Kq)]. }
      rewrite E. destruct (c_ne cmp_str (ev_query x) (ev_query y)); [exact (order_eq DQ gq _ _ Kq Qx Qy)|].
      exact (docbox_lt_moved DD _ _ Kd Dx Dy).
    Qed.

    Lemma overlap_moved x y : P x -> P y -> overlap (k x) (k y) = overlap x y.
    Proof.
      intros Px Py. destruct (HP x Px) as (_ & Dx & Sx), (HP y Py) as (_ & Dy & Sy). unfold overlap. cbn [map_event ev_loc].
      exact (inter_moved DD _ _ (order_inj _ _ Kd) Dy Dx Sy Sx).
    Qed.

    Lemma scorer_moved r h : P r -> P h -> ioh_scorer cmp_str f32_half (k r) (k h) = ioh_scorer cmp_str f32_half r h.
    Proof.
      intros Pr Ph. destruct (HP r Pr) as (Qr & _), (HP h Ph) as (Qh & _). unfold ioh_scorer. cbn [map_event ev_query].
      assert (E : c_eq cmp_str (gq (ev_query r)) (gq (ev_query h)) = c_eq cmp_str (ev_query r) (ev_query h)) by exact (str_eq_same DQ gq _ _ (order_inj _ _ Kq) Qr Qh).
      rewrite E. change (shaped_area (k h)) with (shaped_area h).
      change (shaped_inter (k r) (k h)) with (overlap (k h) (k r)). change (shaped_inter r h) with (overlap h r). now rewrite overlap_moved.
    Qed.

    Lemma search_moved rs h l : (forall r, In r rs -> P r) -> P (sc_base h) -> box_search cmp_str rs h l ->
      box_search cmp_str (map k rs) (map_scored k h) (map k l).
    Proof.
      intros Pr Ph (N & I & So). assert (Pl : forall r, In r l -> P r) by (intros r J; apply I in J as [J _]; auto).
      assert (KI : forall x y, P x -> P y -> k x = k y -> x = y).
      { intros x y Px Py E. destruct (to_total _ Order.total_order_shaped x y) as [L|[L|L]]; [|exact L|]; exfalso.
        - assert (L' := event_lt_moved x y Px Py). rewrite E in L'. assert (Z1 := to_irrefl _ Order.total_order_shaped (k y)). cbn in L, L', Z1. congruence.
        - assert (L' := event_lt_moved y x Py Px). rewrite E in L'. assert (Z1 := to_irrefl _ Order.total_order_shaped (k y)). cbn in L, L', Z1. congruence. }
      destruct (HP _ Ph) as (Qh & Dh & _). split; [|split].
      - clear I So. induction l as [|x l IH]; cbn [map]; [constructor|]. inversion N as [|? ? N1 N2]; subst. constructor.
        + intros J. apply in_map_iff in J as (y & E & J). apply N1. assert (y = x) as <-; [|exact J]. apply KI; [apply Pl; now right|apply Pl; now left|exact E].
        + apply IH; [exact N2|]. intros r J. apply Pl. now right.
      - intros r. split.
        + intros J. apply in_map_iff in J as (x & <- & J). assert (Px := Pl x J). apply I in J as (J1 & J2 & J3 & J4). split; [now apply in_map|].
          split; [exact (f_equal gq J2)|]. split; [exact (f_equal gd J3)|]. exact (eq_ind_r (fun z => 0 < z)%Z J4 (overlap_moved _ _ Ph Px)).
        + intros (J1 & J2 & J3 & J4). apply in_map_iff in J1 as (x & <- & J1). assert (Px := Pr x J1). apply in_map, I. split; [exact J1|].
          destruct (HP _ Px) as (Qx & Dx & _). 
          assert (J5 : (0 < overlap (sc_base h) x)%Z) by exact (eq_ind _ (fun z => 0 < z)%Z J4 _ (overlap_moved _ _ Ph Px)).
          split; [exact (order_inj _ _ Kq _ _ Qx Qh J2)|]. split; [exact (order_inj _ _ Kd _ _ Dx Dh J3)|exact J5].
      - revert So. apply sorted_forth. intros x y J1 J2. assert (Px := Pl x J1). assert (Py := Pl y J2). intros O.
        assert (O1 := overlap_moved _ _ Ph Px). assert (O2 := overlap_moved _ _ Ph Py). assert (O3 := event_lt_moved y x Py Px).
        change (overlap_order cmp_str (k (sc_base h)) (k x) (k y)). unfold overlap_order in *. rewrite O1, O2, O3. exact O.
    Qed.
  End Events.
End Boxes.

(** ** Statistics *)

(** The statistics see neither references nor events. *)
Section Mapped.
  Context {A : Arith} (T : Trans A) {RE E : Type} (a : RE -> RE) (b : E -> E).
  Notation M := (match_t RE (scored E)).
  Notation km := (map_match a (map_scored b)).

  Lemma score_mapped (m : M) : match_score sc_score (km m) = match_score sc_score m.
  Proof. unfold match_score, map_match. cbn [m_hyp]. now destruct (m_hyp m). Qed.

  Lemma collapse_mapped (l : list M) : forall c x, collapse_loop sc_score c x (map km l) = collapse_loop sc_score c x l.
  Proof.
    induction l as [|m l IH]; intros c x; [reflexivity|]. cbn [map collapse_loop]. rewrite score_mapped.
    change (m_err (km m)) with (m_err m). destruct f32_ne; now rewrite IH.
  Qed.

  Lemma points_mapped cb (l : list M) : points sc_score cb (map km l) = points sc_score cb l.
  Proof.
    unfold points. destruct cb.
    - unfold collapse_matches. destruct l as [|m l]; [reflexivity|]. cbn [map]. rewrite score_mapped. apply collapse_mapped.
    - unfold get_match_errors. rewrite map_map. reflexivity.
  Qed.

  Lemma pr_mapped (l : list M) cb i : precision_recall_matches A sc_score (map km l) cb i = precision_recall_matches A sc_score l cb i.
  Proof. unfold precision_recall_matches. now rewrite points_mapped. Qed.

  Lemma ap_mapped (l : list M) cb i t : global_ap A sc_score (map km l) cb i t = global_ap A sc_score l cb i t.
  Proof. unfold global_ap. now rewrite pr_mapped. Qed.

  Lemma ndcg_mapped (l : list M) cb : global_ndcg A T sc_score (map km l) cb = global_ndcg A T sc_score l cb.
  Proof. unfold global_ndcg. now rewrite points_mapped. Qed.

  Lemma mean_ap_mapped srt (gs : list (list M)) cb i t : mean_ap A sc_score srt (map (map km) gs) cb i t false = mean_ap A sc_score srt gs cb i t false.
  Proof.
    unfold mean_ap. rewrite map_length. f_equal. generalize (a0 A). induction gs as [|g gs IH]; intros s; [reflexivity|]. simpl.
    rewrite ap_mapped. destruct global_ap; simpl; auto.
  Qed.

  Lemma mean_ndcg_mapped srt (gs : list (list M)) cb : mean_ndcg A T sc_score srt (map (map km) gs) cb false = mean_ndcg A T sc_score srt gs cb false.
  Proof.
    unfold mean_ndcg. rewrite map_length. f_equal. generalize (a0 A). induction gs as [|g gs IH]; intros s; [reflexivity|]. simpl.
    rewrite ndcg_mapped. simpl. auto.
  Qed.

  Lemma mean_curve_mapped w c (gs : list (list M)) : write_mean_curve A sc_score w c (map (map km) gs) = write_mean_curve A sc_score w c gs.
  Proof.
    unfold write_mean_curve. rewrite map_length.
    match goal with |- pbind A (run A (omap ?f _)) _ = _ => assert (O : omap f (map (map km) gs) = omap f gs) end.
    { induction gs as [|g gs IH]; [reflexivity|]. cbn [map omap]. rewrite pr_mapped, IH. reflexivity. }
    rewrite O. reflexivity.
  Qed.

  Lemma curve_file_imp w name (P P' : list (num A * num A) -> Prop) (l : list (effect A (RE := RE) (HE := scored E))) e : (forall p, P p -> P' p) -> curve_file w name P l e -> curve_file w name P' l e.
  Proof. intros K []; constructor; auto. Qed.

  Lemma reported_mapped srt w c (ms log : list M) gs l r : Instances.reported T srt w c ms log gs l r ->
    exists rest l2, outputs l = dumped c ms log ++ rest /\ outputs l2 = dumped c (map km ms) (map km log) ++ rest /\
      Instances.reported T srt w c (map km ms) (map km log) (map (map km) gs) l2 r.
  Proof.
    intros (v1 & v2 & v4 & cv & e & -> & V1 & V2 & V4 & O & C). eexists. exists (dumped c (map km ms) (map km log) ++
      [EStat (lit "gAP") v1 None; EStat (lit "mAP") v2 None; EStat (lit "gNDCG") (global_ndcg A T sc_score ms (cf_collapse c)) None; EStat (lit "mNDCG") v4 None] ++ cv).
    split; [exact O|].
    assert (Cv : outputs cv = cv).
    { assert (I := Tool.outputs_idem l). rewrite O in I. rewrite !Tool.outputs_app in I. unfold dumped in I.
      destruct (cf_dump c); cbn in I; injection I; auto. }
    assert (K : forall x y : list M, outputs (A := A) (dumped c x y) = dumped c x y) by (intros x y; unfold dumped; now destruct (cf_dump c)).
    split.
    { rewrite !Tool.outputs_app, K, Cv. reflexivity. }
    exists v1, v2, v4, cv, e. split; [reflexivity|]. rewrite ap_mapped, mean_ap_mapped, mean_ndcg_mapped, ndcg_mapped.
    split; [exact V1|]. split; [exact V2|]. split; [exact V4|]. split.
    { rewrite !Tool.outputs_app, K, Cv. reflexivity. }
    assert (Pg : forall p, global_points (A := A) c ms p -> global_points (A := A) c (map km ms) p).
    { intros p (ys & K1 & K2 & K3). exists ys. split; [exact K1|]. split; [exact K2|]. now rewrite pr_mapped. }
    assert (Pm : forall p, mean_points (A := A) w c gs p -> mean_points w c (map (map km) gs) p).
    { intros p (ys & K1 & K2 & K3). exists ys. split; [exact K1|]. split; [exact K2|]. now rewrite mean_curve_mapped. }
    destruct C as [g m b0 Hg Hm|g Hg].
    - apply (cf_both w c _ _ g m b0); eapply curve_file_imp; eauto.
    - apply cf_global; eapply curve_file_imp; eauto.
  Qed.
End Mapped.

Section Icdar.
  Context {A : Arith} (T : Trans A).
  Variables (srt : sort_fn) (Hs : sort_contract srt).
  Variables (rngs : Z -> rng) (show_int : Z -> bytes) (show_f64 : f64 -> bytes).
  Notation icdar := (icdar17 A T srt rngs show_int show_f64).

  Lemma icdar_names w w' pn args c refs hyps f gq gd dx dy l r l' r' : command args c -> no_bootstrap c ->
    let k := map_event gq (moved gd dx dy) in
    inputs shaped_text scored_shaped_text w c refs hyps f ->
    inputs shaped_text scored_shaped_text w' c (map k refs) (map (map_scored k) hyps) (map_queries gq f) ->
    w_writable w = w_writable w' ->
    one_to_one (fun s => queries_of refs hyps s \/ listed f s) gq -> keeps_order (queries_of refs hyps) gq -> keeps_order (documents_of refs hyps) gd ->
    (forall r, In r refs -> stays gd dx dy (ev_loc r)) -> (forall h, In h hyps -> stays gd dx dy (ev_loc (sc_base h))) ->
    icdar w pn args = (l, r) -> icdar w' pn args = (l', r') ->
    r = r' /\ exists ms log ms' log' rest, Forall2 equal_matches (map (map_match k (map_scored k)) ms) ms' /\
      outputs l = dumped c ms log ++ rest /\ outputs l' = dumped c ms' log' ++ rest.
  Proof.
    intros Cm NB k I I' Hw Inj Kq Kd Sr Sh Et Et'.
    destruct (Instances.icdar_run T srt Hs rngs show_int show_f64 w pn args c refs _ f l r Cm NB I Et) as (ms & log & gs & Fi & Ev & Rp).
    destruct (Instances.icdar_run T srt Hs rngs show_int show_f64 w' pn args c _ _ _ l' r' Cm NB I' Et') as (ms' & log' & gs' & Fi' & Ev' & Rp').
    set (P := fun e : shaped => In e refs \/ exists h, In h hyps /\ e = sc_base h).
    assert (HP : forall e, P e -> queries_of refs hyps (ev_query e) /\ documents_of refs hyps (db_doc (ev_loc e)) /\ stays gd dx dy (ev_loc e)).
    { intros e [J|(h & J & ->)]; (split; [|split]); auto; unfold queries_of, documents_of; eauto. }
    assert (Ph : forall h, In h hyps -> P (sc_base h)) by (intros h J; right; eauto). assert (Pr : forall x, In x refs -> P x) by (intros x J; now left).
    assert (Ev2 : icdar17_evaluation (cf_sort c) (map_queries gq f) (map k refs) (map (map_scored k) hyps) (map (map_match k (map_scored k)) ms) (map (map_match k (map_scored k)) log) (map (map (map_match k (map_scored k))) gs)).
    { apply (evaluation_forth cmp_shaped Order.total_order_shaped ev_query (evset_docbox srt cmp_str) (box_search cmp_str) (Matching.finds_docbox srt cmp_str Hs Order.total_order_str)
        (fun r h => ioh_scorer cmp_str f32_half r (sc_base h)) (fun s => queries_of refs hyps s \/ listed f s) gq Inj k (fun x => eq_refl) f refs hyps); auto.
      - intros x J. left. now apply (HP x (Pr x J)).
      - intros h J. left. now apply (HP _ (Ph h J)).
      - intros x y Jx Jy. assert (E := event_lt_moved gq gd dx dy _ _ P Kq Kd HP x y (Pr x Jx) (Pr y Jy)).
        exact (conj (fun L => eq_trans (eq_sym E) L) (fun L => eq_trans E L)).
      - intros x y Jx Jy. assert (E := event_lt_moved gq gd dx dy _ _ P Kq Kd HP _ _ (Ph x Jx) (Ph y Jy)).
        exact (conj (fun L => eq_trans (eq_sym E) L) (fun L => eq_trans E L)).
      - intros rs h l0 Inc J. apply (search_moved gq gd dx dy _ _ P Kq Kd HP); auto.
      - intros x h Jx Jh. exact (scorer_moved gq gd dx dy _ _ P Kq Kd HP x (sc_base h) (Pr x Jx) (Ph h Jh)). }
    assert (F1 := Added.evaluation_same cmp_shaped Order.total_order_shaped cmp_shaped Order.total_order_shaped ev_query ev_query
      (evset_docbox srt cmp_str) (box_search cmp_str) (Matching.finds_docbox srt cmp_str Hs Order.total_order_str)
      (fun r h => ioh_scorer cmp_str f32_half r (sc_base h)) Runs.box_search_base
      (fun r h h' B => f_equal (fun x => ioh_scorer cmp_str f32_half r x) B) _ _ _ _ _ _ _ _ _ _ Fi' Ev2 Ev').
    assert (F2 := Runs.groups_equal ev_query ev_query _ _ _ _ _ F1 (Parts.evaluation_grouping _ _ _ _ _ _ _ _ _ _ _ _ _ Ev2) (Parts.evaluation_grouping _ _ _ _ _ _ _ _ _ _ _ _ _ Ev')).
    destruct (reported_mapped T k k srt w c ms log gs l r Rp) as (rest & l2 & O & O2 & Rp2).
    destruct (Runs.reported_equal T srt w w' c _ _ _ _ _ _ l2 r l' r' Hw F1 F2 Rp2 Rp') as (-> & rest' & O3 & O').
    rewrite O2 in O3. apply app_inv_head in O3. subst rest'.
    split; [reflexivity|]. exists ms, log, ms', log', rest. auto.
  Qed.
End Icdar.

(** ** Checks by computation *)

Lemma one_to_one_ok (D : bytes -> Prop) g l : (forall s, D s -> In s l) ->
  forallb (fun s => forallb (fun t => implb (str_eq (g s) (g t)) (str_eq s t)) l) l = true -> one_to_one D g.
Proof.
  intros K F s t Ds Dt E. rewrite forallb_forall in F. specialize (F s (K s Ds)). rewrite forallb_forall in F. specialize (F t (K t Dt)).
  cbv beta in F. assert (X : str_eq (g s) (g t) = true) by now apply Geometry.str_eq_spec. rewrite X in F. now apply Geometry.str_eq_spec.
Qed.

Lemma keeps_order_ok (D : bytes -> Prop) g l : (forall s, D s -> In s l) ->
  forallb (fun s => forallb (fun t => Bool.eqb (c_lt cmp_str (g s) (g t)) (c_lt cmp_str s t)) l) l = true -> keeps_order D g.
Proof.
  intros K F s t Ds Dt. rewrite forallb_forall in F. specialize (F s (K s Ds)). rewrite forallb_forall in F. specialize (F t (K t Dt)).
  apply Bool.eqb_prop in F. now rewrite F.
Qed.

Lemma strings_of_list refs hyps s : strings_of refs hyps NoQueries s ->
  In s (flat_map (fun e => [ev_query e; ev_loc e]) (refs ++ map sc_base hyps)).
Proof.
  intros [(e & I & Sp)|[(h & I & Sp)|[]]]; apply in_flat_map.
  - exists e. split; [apply in_or_app; now left|]. destruct Sp as [E|E]; rewrite E; cbn; auto.
  - exists (sc_base h). split; [apply in_or_app; right; now apply in_map|]. destruct Sp as [E|E]; rewrite E; cbn; auto.
Qed.

Lemma queries_of_list refs hyps s : queries_of refs hyps s -> In s (map ev_query (refs ++ map sc_base hyps)).
Proof.
  intros [(e & I & ->)|(h & I & ->)]; apply in_map; apply in_or_app; [now left|right; now apply in_map].
Qed.

Lemma documents_of_list refs hyps s : documents_of refs hyps s -> In s (map (fun e => db_doc (ev_loc e)) (refs ++ map sc_base hyps)).
Proof.
  intros [(e & I & ->)|(h & I & ->)]; apply (in_map (fun e => db_doc (ev_loc e))); apply in_or_app; [now left|right; now apply in_map].
Qed.
