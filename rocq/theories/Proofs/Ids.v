(** Evaluating ids is evaluating strings. *)
From Coq Require Import Ascii String List Bool ZArith Lia Permutation Sorted.
From Verif.Model Require Import Cpp Floats Events Matches Scorers Mapper.
From Verif.Spec Require Import Order Matching Grouping Mapper Reader Tool.
From Verif.Proofs Require Order Grouping Mapper Tool Evaluation.
Import ListNotations.

(** ** Pulling lists back *)

Section PullBack.
  Context {X Y : Type} (f : X -> Y).

  Lemma selects_back (P : Y -> Prop) (P' : X -> Prop) l : (forall x, P (f x) <-> P' x) -> forall s,
    selects P (map f l) s -> exists s', s = map f s' /\ selects P' l s'.
  Proof.
    intros H. induction l as [|x l IH]; intros s K; simpl in K; inversion K; subst.
    - exists []. split; [reflexivity|constructor].
    - destruct (IH _ H4) as (s' & -> & K'). exists (x :: s'). split; [reflexivity|]. constructor; [now apply H|exact K'].
    - destruct (IH _ H4) as (s' & -> & K'). exists s'. split; [reflexivity|]. constructor; [now rewrite <- H|exact K'].
  Qed.

  Lemma sorted_back (R : Y -> Y -> Prop) l : StronglySorted R (map f l) -> StronglySorted (fun x y => R (f x) (f y)) l.
  Proof.
    induction l as [|x l IH]; intros K; simpl in K; inversion K; subst; constructor; auto.
    rewrite Forall_map in *. assumption.
  Qed.

  Lemma perm_back l s : Permutation (map f l) s -> exists s', s = map f s' /\ Permutation l s'.
  Proof. intros K. apply Permutation_sym, Permutation_map_inv in K as (s' & -> & K). eauto. Qed.

  Hypothesis Inj : forall x y, f x = f y -> x = y.

  Lemma in_back x l : In (f x) (map f l) <-> In x l.
  Proof.
    split; [|apply in_map]. intros K. apply in_map_iff in K as (y & E & K). now rewrite <- (Inj _ _ E).
  Qed.

  Lemma map_inj l : forall l', map f l = map f l' -> l = l'.
  Proof.
    induction l as [|x l IH]; intros [|y l'] K; try discriminate; [reflexivity|].
    simpl in K. injection K as K1 K2. f_equal; auto.
  Qed.

  Lemma list_back (l : list X) s : (forall y, In y s -> In y (map f l)) -> exists s', s = map f s'.
  Proof.
    induction s as [|y s IH]; intros K; [now exists []|].
    destruct IH as [s' ->]; [intros z I; apply K; now right|].
    destruct (proj1 (in_map_iff _ _ _) (K y (or_introl eq_refl))) as (x & <- & _). now exists (x :: s').
  Qed.

  Lemma first_seen_back l s : first_seen (map f l) s -> exists s', s = map f s' /\ first_seen l s'.
  Proof.
    intros K. remember (map f l) as m eqn:E. revert l E.
    induction K as [|m s x K IH I|m s x K IH I]; intros l E.
    - destruct l; [|discriminate]. exists []. split; [reflexivity|constructor].
    - symmetry in E. apply map_eq_app in E as (l1 & l2 & -> & E1 & E2).
      destruct l2 as [|y [|]]; try discriminate. injection E2 as <-.
      destruct (IH l1 (eq_sym E1)) as (s' & -> & K'). exists s'. split; [reflexivity|].
      apply fs_old; [exact K'|]. now apply in_back.
    - symmetry in E. apply map_eq_app in E as (l1 & l2 & -> & E1 & E2).
      destruct l2 as [|y [|]]; try discriminate. injection E2 as <-.
      destruct (IH l1 (eq_sym E1)) as (s' & -> & K'). exists (s' ++ [y]). split; [now rewrite map_app|].
      apply fs_new; [exact K'|]. now rewrite <- in_back.
  Qed.
End PullBack.

(** ** Pulling an evaluation back *)

Section Queries.
  Context {X Y : Type} (k : X -> Y).
  Hypothesis Inj : forall x y, k x = k y -> x = y.

  Lemma assigns_image f q g : assigns (map_queries k f) q g -> exists q' g', q = k q' /\ g = k g' /\ assigns f q' g'.
  Proof.
    destruct f as [|qs|ls]; simpl; [easy| |].
    - intros [I ->]. apply in_map_iff in I as (x & <- & I). eauto 6.
    - intros (l1 & qs & l2 & E & I & N). apply map_eq_app in E as (m1 & m2 & -> & <- & E).
      destruct m2 as [|[|g' qs'] m2]; try discriminate. simpl in E. injection E as <- <- <-.
      apply in_map_iff in I as (x & <- & I). exists x, g'. split; [reflexivity|]. split; [reflexivity|].
      exists m1, qs', m2. split; [reflexivity|]. split; [exact I|]. intros g2 qs2 I2 I3.
      apply (N (k g2) (map k qs2)); [|now apply in_map]. change (k g2 :: map k qs2) with (map k (g2 :: qs2)). now apply in_map.
  Qed.

  Lemma assigns_map f q g : assigns f q g -> assigns (map_queries k f) (k q) (k g).
  Proof.
    destruct f as [|qs|ls]; simpl; [easy| |].
    - intros [I ->]. split; [now apply in_map|reflexivity].
    - intros (l1 & qs & l2 & -> & I & N). exists (map (map k) l1), (map k qs), (map (map k) l2).
      split; [now rewrite map_app|]. split; [now apply in_map|]. intros g' qs' I2 I3.
      apply in_map_iff in I2 as ([|g2 qs2] & E & I2); [discriminate|]. injection E as <- <-.
      apply (N g2 qs2 I2). apply in_map_iff in I3 as (y & E & I3). now rewrite <- (Inj _ _ E).
  Qed.

  Lemma assigns_back f q g : assigns (map_queries k f) (k q) (k g) <-> assigns f q g.
  Proof.
    split; [|apply assigns_map]. intros H. destruct (assigns_image _ _ _ H) as (q' & g' & E1 & E2 & K).
    apply Inj in E1, E2. now subst.
  Qed.

  Lemma kept_back f q : kept (map_queries k f) (k q) <-> kept f q.
  Proof.
    unfold kept. split.
    - intros [[g H]|H].
      + left. destruct (assigns_image _ _ _ H) as (q' & g' & E & _ & K). apply Inj in E. subst. eauto.
      + right. intros q' g K. apply (H (k q') (k g)). now apply assigns_map.
    - intros [[g H]|H].
      + left. exists (k g). now apply assigns_map.
      + right. intros q' g K. destruct (assigns_image _ _ _ K) as (q2 & g2 & _ & _ & K'). now apply (H q2 g2).
  Qed.

  Lemma group_is_back f q g : group_is (map_queries k f) (k q) (k g) <-> group_is f q g.
  Proof.
    unfold group_is. rewrite assigns_back. split.
    - intros [H|[H E]]; [auto|]. apply Inj in E. right. split; [|exact E]. intros g' K. apply (H (k g')). now apply assigns_map.
    - intros [H|[H ->]]; [auto|]. right. split; [|reflexivity]. intros g' K.
      destruct (assigns_image _ _ _ K) as (q2 & g2 & E & _ & K'). apply Inj in E. subst. now apply (H g2).
  Qed.

  Lemma group_is_image f q g : group_is (map_queries k f) (k q) g -> exists g', g = k g' /\ group_is f q g'.
  Proof.
    intros H. destruct H as [H|[H ->]].
    - destruct (assigns_image _ _ _ H) as (q' & g' & E & -> & K). apply Inj in E. subst. exists g'. split; [reflexivity|now left].
    - exists q. split; [reflexivity|]. apply (group_is_back f q q). now right.
  Qed.
End Queries.

Section Evaluation.
  Context {Q RE E Q' RE' E' : Type}.
  Variables (k : Q' -> Q) (f : RE' -> RE) (g : E' -> E).
  Hypothesis Ik : forall x y, k x = k y -> x = y.
  Hypothesis If : forall x y, f x = f y -> x = y.
  Hypothesis Ig : forall x y, g x = g y -> x = y.
  Variables (lte : E -> E -> bool) (ltr : RE -> RE -> bool).
  Variables (rq : RE -> Q) (hq : E -> Q) (rq' : RE' -> Q') (hq' : E' -> Q').
  Hypothesis Eq_r : forall r, rq (f r) = k (rq' r).
  Hypothesis Eq_h : forall h, hq (g h) = k (hq' h).
  Variable R : list RE -> scored E -> list RE -> Prop.
  Variable R' : list RE' -> scored E' -> list RE' -> Prop.
  Hypothesis HR : forall refs h l, R (map f refs) (map_scored g h) l -> exists l', l = map f l' /\ R' refs h l'.
  Variable scorer : RE -> scored E -> match_error.
  Variable scorer' : RE' -> scored E' -> match_error.
  Hypothesis Es : forall r h, scorer (f r) (map_scored g h) = scorer' r h.
  Notation gs := (map_scored g).
  Notation mm := (map_match f gs).

  Lemma gs_inj x y : gs x = gs y -> x = y.
  Proof. destruct x, y. unfold map_scored. simpl. intros K. injection K as K1 K2. apply Ig in K1. now subst. Qed.

  Lemma acceptable_back r h : acceptable scorer (f r) (gs h) <-> acceptable scorer' r h.
  Proof. unfold acceptable. now rewrite Es. Qed.

  Lemma logged_back h l ms : logged scorer (gs h) (map f l) ms -> exists ms', ms = map mm ms' /\ logged scorer' h l ms'.
  Proof.
    revert ms. induction l as [|r l IH]; intros ms K; simpl in K; inversion K; subst.
    - exists []. split; [reflexivity|constructor].
    - destruct (IH _ H3) as (ms' & -> & K'). exists (match_pair r h (scorer' r h) :: ms').
      split; [simpl; now rewrite Es|]. constructor; [now apply acceptable_back|exact K'].
    - destruct (IH _ H3) as (ms' & -> & K'). exists ms'. split; [reflexivity|]. constructor; [now rewrite <- acceptable_back|exact K'].
  Qed.

  Lemma decided_back taken h l t m lg : decided scorer (map f taken) (gs h) (map f l) t m lg ->
    exists t' m' lg', t = map f t' /\ m = map mm m' /\ lg = map mm lg' /\ decided scorer' taken h l t' m' lg'.
  Proof.
    intros K. inversion K; subst.
    - assert (H' := H). apply map_eq_app in H' as (b' & ra & -> & <- & E1).
      destruct ra as [|r' a']; [discriminate|]. injection E1 as <- <-.
      destruct (logged_back _ _ _ H3) as (ms' & -> & L).
      exists [r'], [match_pair r' h (scorer' r' h)], ms'. split; [reflexivity|]. split; [simpl; now rewrite Es|].
      split; [reflexivity|]. apply (hit _ _ _ _ b' r' a'); auto.
      + now apply acceptable_back.
      + now rewrite <- (in_back f If).
      + intros x I A. apply (in_back f If), H2; [now apply in_map|now apply acceptable_back].
    - exists [], [make_fp h], []. repeat (split; [reflexivity|]). apply false_alarm.
      intros x I A. apply (H (f x)); [now apply in_map|now apply acceptable_back].
    - destruct (logged_back _ _ _ H1) as (ms' & -> & L).
      exists [], [], ms'. repeat (split; [reflexivity|]). apply repeated; auto.
      + destruct H as (x & I & A). apply in_map_iff in I as (y & <- & I). exists y. split; [exact I|now apply acceptable_back].
      + intros x I A. apply (in_back f If), H0; [now apply in_map|now apply acceptable_back].
  Qed.

  Lemma matching_back refs hyps taken ms lg : matching R scorer (map f refs) (map gs hyps) taken ms lg ->
    exists taken' ms' lg', taken = map f taken' /\ ms = map mm ms' /\ lg = map mm lg' /\
      matching R' scorer' refs hyps taken' ms' lg'.
  Proof.
    intros K. remember (map gs hyps) as hs eqn:Eh. revert hyps Eh.
    induction K as [|hs taken ms lg h l t m g' K IH Rl D]; intros hyps Eh.
    - destruct hyps; [|discriminate]. exists [], [], []. repeat (split; [reflexivity|]). constructor.
    - symmetry in Eh. apply map_eq_app in Eh as (h1 & h2 & -> & E1 & E2).
      destruct h2 as [|y [|]]; try discriminate. injection E2 as <-.
      destruct (IH h1 (eq_sym E1)) as (taken' & ms' & lg' & -> & -> & -> & K').
      destruct (HR _ _ _ Rl) as (l' & -> & Rl').
      destruct (decided_back _ _ _ _ _ _ D) as (t' & m' & g2 & -> & -> & -> & D').
      exists (taken' ++ t'), (ms' ++ m'), (lg' ++ g2). rewrite !map_app. repeat (split; [reflexivity|]).
      econstructor; eassumption.
  Qed.

  Lemma match_group_back qf m q : match_group rq hq (map_queries k qf) (mm m) (k q) <-> match_group rq' hq' qf m q.
  Proof.
    unfold match_group, has_query. destruct m as [[r|] [h|] e]; simpl.
    1,2: split; intros (x & E0 & K);
         [subst; exists (rq' r); rewrite Eq_r in K; split; [reflexivity|now apply (group_is_back k Ik)]
         |subst; exists (k (rq' r)); rewrite Eq_r; split; [reflexivity|now apply (group_is_back k Ik)]].
    - split; intros (x & E0 & K);
         [subst; exists (hq' (sc_base h)); rewrite Eq_h in K; split; [reflexivity|now apply (group_is_back k Ik)]
         |subst; exists (k (hq' (sc_base h))); rewrite Eq_h; split; [reflexivity|now apply (group_is_back k Ik)]].
    - split; intros (x & [] & _).
  Qed.

  Lemma match_group_image qf m q : match_group rq hq (map_queries k qf) (mm m) q -> exists q', q = k q' /\ match_group rq' hq' qf m q'.
  Proof.
    unfold match_group, has_query. destruct m as [[r|] [h|] e]; simpl; intros (x & E0 & K); subst; try easy.
    1,2: rewrite Eq_r in K; destruct (group_is_image k Ik _ _ _ K) as (g' & -> & K'); eauto.
    rewrite Eq_h in K; destruct (group_is_image k Ik _ _ _ K) as (g' & -> & K'); eauto.
  Qed.

  Lemma grouping_back qf ms groups : grouping rq hq (map_queries k qf) (map mm ms) groups ->
    exists groups', groups = map (map mm) groups' /\ grouping rq' hq' qf ms groups'.
  Proof.
    intros (ks & keys & F1 & FS & F2).
    assert (exists ks', ks = map k ks' /\ Forall2 (match_group rq' hq' qf) ms ks') as (ks' & -> & F1').
    { clear FS F2. remember (map mm ms) as ms2 eqn:E2. revert ms E2.
      induction F1 as [|m q ms2 ks M F IH]; intros [|m0 ms] E2; try discriminate.
      - exists []. split; [reflexivity|constructor].
      - injection E2 as -> ->. destruct (match_group_image _ _ _ M) as (q' & -> & M').
        destruct (IH ms eq_refl) as (ks' & -> & F'). exists (q' :: ks'). split; [reflexivity|now constructor]. }
    destruct (first_seen_back k Ik _ _ FS) as (keys' & -> & FS').
    assert (exists groups', groups = map (map mm) groups' /\
      Forall2 (fun q g0 => g0 <> [] /\ selects (fun m => match_group rq' hq' qf m q) ms g0) keys' groups') as (groups' & -> & F2').
    { clear FS FS' F1 F1'. remember (map k keys') as k2 eqn:E2. revert keys' E2.
      induction F2 as [|q g0 k2 groups (N & Se) F IH]; intros [|q0 keys'] E2; try discriminate.
      - exists []. split; [reflexivity|constructor].
      - injection E2 as -> ->. destruct (selects_back mm _ _ _ (fun m => match_group_back qf m q0) _ Se) as (g1 & -> & Se').
        destruct (IH keys' eq_refl) as (groups' & -> & F'). exists (g1 :: groups'). split; [reflexivity|].
        constructor; [|exact F']. split; [|exact Se']. intros ->. now apply N. }
    exists groups'. split; [reflexivity|]. exists ks', keys'. auto.
  Qed.

  Lemma not_below_back a b : not_below lte (gs a) (gs b) <-> not_below (fun x y => lte (g x) (g y)) a b.
  Proof. reflexivity. Qed.

  Lemma ranking_back crit hyps rank : ranking lte crit (map gs hyps) rank ->
    exists rank', rank = map gs rank' /\ ranking (fun x y => lte (g x) (g y)) crit hyps rank'.
  Proof.
    intros [(C & P & S)|[(C & P & S)|(C1 & C2 & ->)]].
    - destruct (perm_back gs _ _ P) as (rank' & -> & P'). exists rank'. split; [reflexivity|]. left.
      split; [exact C|]. split; [exact P'|]. exact (sorted_back gs _ _ S).
    - destruct (perm_back gs _ _ P) as (rank' & -> & P'). exists rank'. split; [reflexivity|]. right. left.
      split; [exact C|]. split; [exact P'|]. exact (sorted_back gs _ _ S).
    - exists hyps. split; [reflexivity|]. right. right. auto.
  Qed.

  Lemma evaluation_back crit qf refs hyps ms lg groups :
    evaluation lte ltr rq hq R scorer crit (map_queries k qf) (map f refs) (map gs hyps) ms lg groups ->
    exists ms' lg' groups', ms = map mm ms' /\ lg = map mm lg' /\ groups = map (map mm) groups' /\
      evaluation (fun x y => lte (g x) (g y)) (fun x y => ltr (f x) (f y)) rq' hq' R' scorer' crit qf refs hyps ms' lg' groups'.
  Proof.
    intros (refs1 & hyps1 & rank & taken & found & missed & S1 & S2 & Rk & Mt & So & Im & -> & G).
    assert (K1 : forall r, kept (map_queries k qf) (rq (f r)) <-> kept qf (rq' r)) by (intros r; rewrite Eq_r; now apply kept_back).
    assert (K2 : forall h, kept (map_queries k qf) (hq (sc_base (gs h))) <-> kept qf (hq' (sc_base h))).
    { intros h. simpl. rewrite Eq_h. now apply kept_back. }
    destruct (selects_back f _ _ _ K1 _ S1) as (refs1' & -> & S1').
    destruct (selects_back gs _ _ _ K2 _ S2) as (hyps1' & -> & S2').
    destruct (ranking_back _ _ _ Rk) as (rank' & -> & Rk').
    destruct (matching_back _ _ _ _ _ Mt) as (taken' & found' & lg' & -> & -> & -> & Mt').
    destruct (list_back f refs1' missed) as (missed' & ->).
    { intros y I. now apply Im in I. }
    assert (E0 : map mm found' ++ map make_fn (map f missed') = map mm (found' ++ map make_fn missed')).
    { rewrite map_app, !map_map. reflexivity. }
    rewrite E0 in *. destruct (grouping_back _ _ _ G) as (groups' & -> & G').
    exists (found' ++ map make_fn missed'), lg', groups'. repeat (split; [reflexivity|]).
    exists refs1', hyps1', rank', taken', found', missed'.
    repeat (split; [assumption|]). split; [exact (sorted_back f _ _ So)|].
    split; [|split; [reflexivity|exact G']].
    intros r. rewrite <- (in_back f If), Im, !(in_back f If). reflexivity.
  Qed.
End Evaluation.

(** ** Ids *)

(** A number for each string. *)
Fixpoint encode (s : bytes) : Z :=
  match s with [] => 0 | c :: t => 1 + Z.of_N (N_of_ascii c) + 256 * encode t end.

Lemma encode_pos s : (0 <= encode s)%Z.
Proof. induction s; cbn [encode]; lia. Qed.

Lemma byte_bound c : (Z.of_N (N_of_ascii c) < 256)%Z.
Proof. destruct c as [[] [] [] [] [] [] [] []]; reflexivity. Qed.

Lemma encode_inj s : forall s', encode s = encode s' -> s = s'.
Proof.
  induction s as [|c t IH]; intros [|c' t'] H; cbn [encode] in H.
  - reflexivity.
  - pose proof (encode_pos t'). lia.
  - pose proof (encode_pos t). lia.
  - pose proof (byte_bound c). pose proof (byte_bound c').
    assert (E1 : Z.of_N (N_of_ascii c) = Z.of_N (N_of_ascii c')) by lia.
    assert (E2 : encode t = encode t') by lia.
    f_equal; [|now apply IH]. apply N2Z.inj in E1.
    rewrite <- (ascii_N_embedding c), <- (ascii_N_embedding c'). now rewrite E1.
Qed.

(** The id of a string in the table, and other numbers for other strings. *)
Definition ids (t : id_table) (s : bytes) : Z :=
  match map_find str_eq s t with Some v => v | None => Z.of_nat (List.length t) + encode s end.

Lemma ids_in t s v : Mapper.sound_table t -> In (s, v) t -> ids t s = v.
Proof. intros (N & _) I. unfold ids. now rewrite (Mapper.find_in t s v N I). Qed.

Lemma ids_inj t s s' : Mapper.sound_table t -> ids t s = ids t s' -> s = s'.
Proof.
  intros S H. unfold ids in H. pose proof (encode_pos s). pose proof (encode_pos s').
  destruct (map_find str_eq s t) as [v|] eqn:E1, (map_find str_eq s' t) as [v'|] eqn:E2;
    try apply Mapper.find_some in E1; try apply Mapper.find_some in E2.
  - now apply (Mapper.table_inj t s v s' v' S E1 E2).
  - destruct S as (_ & _ & L). specialize (L _ _ E1). lia.
  - destruct S as (_ & _ & L). specialize (L _ _ E2). lia.
  - apply encode_inj. lia.
Qed.

Lemma ids_grow t t' s v : Mapper.sound_table t' -> incl t t' -> In (s, v) t -> ids t' s = v.
Proof. intros S I K. apply ids_in; auto. Qed.

(** ** The mappings of a run *)

Lemma map_all_mapped {X Y S} (m : S -> X -> outcome (Y * S)) l : forall st l' st',
  map_all m st l = Ok (l', st') -> mapped m st l l' st'.
Proof.
  induction l as [|x l IH]; intros st l' st' H; simpl in H; [injection H as <- <-; constructor|].
  destruct (m st x) as [[y s1]| |] eqn:E1; try discriminate.
  destruct (map_all m s1 l) as [[k s2]| |] eqn:E2; try discriminate. injection H as <- <-.
  econstructor; eauto.
Qed.

Lemma strings_table m ws : forall t vs t', Mapper.sound_table t -> map_all (string_to_int m) t ws = Ok (vs, t') ->
  Mapper.sound_table t' /\ incl t t' /\ Forall2 (fun s v => In (s, v) t') ws vs.
Proof.
  induction ws as [|s ws IH]; intros t vs t' S H; simpl in H.
  - injection H as <- <-. split; [exact S|]. split; [apply incl_refl|constructor].
  - destruct (string_to_int m t s) as [[v t1]| |] eqn:E1; try discriminate.
    destruct (map_all (string_to_int m) t1 ws) as [[vs1 t2]| |] eqn:E2; try discriminate. injection H as <- <-.
    destruct (Mapper.call_table _ _ _ _ _ E1) as (I1 & I2 & _).
    destruct (IH t1 vs1 t2 (Mapper.call_sound _ _ _ _ _ S E1) E2) as (S2 & I3 & F).
    split; [exact S2|]. split; [eapply incl_tran; eauto|]. constructor; auto.
Qed.

Lemma lines_table m fs : forall t vs t', Mapper.sound_table t -> map_all (map_all (string_to_int m)) t fs = Ok (vs, t') ->
  Mapper.sound_table t' /\ incl t t' /\ Forall2 (Forall2 (fun s v => In (s, v) t')) fs vs.
Proof.
  induction fs as [|s ws IH]; intros t vs t' S H; simpl in H.
  - injection H as <- <-. split; [exact S|]. split; [apply incl_refl|constructor].
  - destruct (map_all (string_to_int m) t s) as [[v t1]| |] eqn:E1; try discriminate.
    destruct (map_all (map_all (string_to_int m)) t1 ws) as [[vs1 t2]| |] eqn:E2; try discriminate. injection H as <- <-.
    destruct (strings_table m s t v t1 S E1) as (S1 & I1 & F1).
    destruct (IH t1 vs1 t2 S1 E2) as (S2 & I3 & F).
    split; [exact S2|]. split; [eapply incl_tran; eauto|]. constructor; [|exact F].
    revert F1. apply Tool.Forall2_impl. auto.
Qed.

Lemma Forall2_map {X Y} (f : X -> Y) (P : X -> Y -> Prop) l l' : Forall2 P l l' -> (forall x y, P x y -> y = f x) -> l' = map f l.
Proof. intros F H. induction F; simpl; f_equal; auto. Qed.

(** One injective numbering behind the inputs. *)
Lemma run_ids m qf raw_r refs t1 raw_h hyps t2 f f' t3 :
  map_all (event_to_int qf m) [] raw_r = Ok (refs, t1) ->
  map_all (scored_mapper (event_to_int qf m)) t1 raw_h = Ok (hyps, t2) ->
  Tool.map_file (string_to_int m) t2 f = Ok (f', t3) ->
  exists id : bytes -> Z, (forall s s', id s = id s' -> s = s') /\
    refs = map (renamed id) raw_r /\ hyps = map (map_scored (renamed id)) raw_h /\ f' = map_queries id f.
Proof.
  intros H1 H2 H3. apply map_all_mapped in H1, H2.
  destruct (Mapper.events_table _ _ _ _ _ _ Mapper.sound_nil H1) as (S1 & _ & F1).
  destruct (Mapper.scored_table _ _ _ _ _ _ S1 H2) as (S2 & I2 & F2).
  assert (Mapper.sound_table t3 /\ incl t2 t3 /\ f' = map_queries (ids t3) f) as (S3 & I3 & E3).
  { destruct f as [|ws|fs]; simpl in H3.
    - injection H3 as <- <-. split; [exact S2|]. split; [apply incl_refl|reflexivity].
    - destruct (map_all (string_to_int m) t2 ws) as [[vs t]| |] eqn:K; try discriminate. injection H3 as <- <-.
      destruct (strings_table m ws t2 vs t S2 K) as (S & I & F). split; [exact S|]. split; [exact I|]. simpl. f_equal.
      apply (Forall2_map _ _ _ _ F). intros s v K'. symmetry. now apply ids_in.
    - destruct (map_all (map_all (string_to_int m)) t2 fs) as [[vs t]| |] eqn:K; try discriminate. injection H3 as <- <-.
      destruct (lines_table m fs t2 vs t S2 K) as (S & I & F). split; [exact S|]. split; [exact I|]. simpl. f_equal.
      apply (Forall2_map _ _ _ _ F). intros s v K'. apply (Forall2_map _ _ _ _ K').
      intros s' v' K2. symmetry. now apply ids_in. }
  exists (ids t3). split; [intros; now apply (ids_inj t3)|].
  split; [|split; [|exact E3]].
  - apply (Forall2_map _ _ _ _ F1). intros [q l] [q' l'] [K1 K2]. unfold renamed. cbn [ev_query ev_loc] in *.
    now rewrite (ids_in t3 q q'), (ids_in t3 l l') by auto.
  - apply (Forall2_map _ _ _ _ F2). intros [[q l] s] [[q' l'] s'] (K1 & K2 & K3). unfold renamed, map_scored.
    cbn [ev_query ev_loc sc_base sc_score] in *. now rewrite (ids_in t3 q q'), (ids_in t3 l l'), K3 by auto.
Qed.

(** ** Enough ids *)

Lemma scored_total qf m l : (0 <= m < two64 - 1)%Z -> forall t, (Z.of_nat (List.length t + 2 * List.length l) <= m + 1)%Z ->
  exists l' t', map_all (scored_mapper (event_to_int qf m)) t l = Ok (l', t') /\
    (List.length t' <= List.length t + 2 * List.length l)%nat.
Proof.
  intros M. induction l as [|e l IH]; intros t L; simpl List.length in L; cbn [map_all].
  - eexists _, _. split; [reflexivity|lia].
  - destruct (Mapper.event_total qf m t (sc_base e) M) as (e' & t1 & E1 & L1); [lia|].
    unfold scored_mapper at 1. rewrite E1. cbn [obind].
    destruct (IH t1) as (l' & t2 & E2 & L2); [lia|]. rewrite E2. eexists _, _. split; [reflexivity|]. simpl List.length. lia.
Qed.

Lemma events_total qf m l : (0 <= m < two64 - 1)%Z -> forall t, (Z.of_nat (List.length t + 2 * List.length l) <= m + 1)%Z ->
  exists l' t', map_all (event_to_int qf m) t l = Ok (l', t') /\ (List.length t' <= List.length t + 2 * List.length l)%nat.
Proof.
  intros M. induction l as [|e l IH]; intros t L; simpl List.length in L; cbn [map_all].
  - eexists _, _. split; [reflexivity|lia].
  - destruct (Mapper.event_total qf m t e M) as (e' & t1 & E1 & L1); [lia|]. rewrite E1.
    destruct (IH t1) as (l' & t2 & E2 & L2); [lia|]. rewrite E2. eexists _, _. split; [reflexivity|]. simpl List.length. lia.
Qed.

Lemma strings_total m l : (0 <= m < two64 - 1)%Z -> forall t, (Z.of_nat (List.length t + List.length l) <= m + 1)%Z ->
  exists l' t', map_all (string_to_int m) t l = Ok (l', t') /\ (List.length t' <= List.length t + List.length l)%nat.
Proof.
  intros M. induction l as [|e l IH]; intros t L; simpl List.length in L; cbn [map_all].
  - eexists _, _. split; [reflexivity|lia].
  - destruct (Mapper.call_total m t e M) as (e' & t1 & E1 & L1); [lia|]. rewrite E1.
    destruct (IH t1) as (l' & t2 & E2 & L2); [lia|]. rewrite E2. eexists _, _. split; [reflexivity|]. simpl List.length. lia.
Qed.

Lemma lines_total m l : (0 <= m < two64 - 1)%Z -> forall t, (Z.of_nat (List.length t + List.length (concat l)) <= m + 1)%Z ->
  exists l' t', map_all (map_all (string_to_int m)) t l = Ok (l', t').
Proof.
  intros M. induction l as [|e l IH]; intros t L; cbn [map_all].
  - eexists _, _. reflexivity.
  - simpl in L. rewrite app_length in L. destruct (strings_total m e M t) as (e' & t1 & E1 & L1); [lia|]. rewrite E1.
    destruct (IH t1) as (l' & t2 & E2); [lia|]. rewrite E2. eexists _, _. reflexivity.
Qed.

Lemma run_total m qf raw_r raw_h f : (0 <= m < two64 - 1)%Z -> (Z.of_nat (strings raw_r raw_h f) <= m + 1)%Z ->
  exists refs t1 hyps t2 f' t3,
  map_all (event_to_int qf m) [] raw_r = Ok (refs, t1) /\
  map_all (scored_mapper (event_to_int qf m)) t1 raw_h = Ok (hyps, t2) /\
  Tool.map_file (string_to_int m) t2 f = Ok (f', t3).
Proof.
  intros M L. unfold strings in L.
  destruct (events_total qf m raw_r M []) as (refs & t1 & E1 & L1); [simpl; lia|].
  destruct (scored_total qf m raw_h M t1) as (hyps & t2 & E2 & L2); [simpl in *; lia|].
  assert (exists f' t3, Tool.map_file (string_to_int m) t2 f = Ok (f', t3)) as (f' & t3 & E3).
  { destruct f as [|ws|fs]; cbn [Tool.map_file].
    - eauto.
    - destruct (strings_total m ws M t2) as (vs & t3 & -> & _); [simpl in *; lia|]. simpl. eauto.
    - destruct (lines_total m fs M t2) as (vs & t3 & ->); [simpl in *; lia|]. simpl. eauto. }
  exists refs, t1, hyps, t2, f', t3. auto.
Qed.
