(** C85-C87: the random engine, the seeds of runs, and error records. *)
From Coq Require Import Ascii String List Bool ZArith Reals Lra Lia.
From Flocq Require Import Core BinarySingleNaN.
From Verif.Model Require Import Cpp Floats Events EventSets Matches Matcher Scorers Assessment Bootstrap Mapper Stream
  Reader Options Output Tool Text Engine.
From Verif.Spec Require Import Order Bootstrap Reader Options Tool Engine Errors.
From Verif.Proofs Require Order Compute Programs Tool Instances Messages Engine Errors Dump.
From Verif.Props Require Import P17_Tool P18_Results P23_Samples.
Import ListNotations.
Local Open Scope string_scope.
Local Open Scope list_scope.
Local Open Scope Z_scope.

(** ** C85 *)

(** C85.  From every value, the engine reaches every value after exactly one
    number of steps below its period, which is 2^31 - 2 steps. *)
Theorem c85_period : forall x y, 1 <= x < engine_prime -> 1 <= y < engine_prime ->
  (exists! k, 0 <= k < engine_prime - 1 /\ Nat.iter (Z.to_nat k) minstd_next x = y) /\
  Nat.iter (Z.to_nat (engine_prime - 1)) minstd_next x = x.
Proof.
  change engine_prime with minstd_m. intros x y X Y.
  assert (S : forall k, 0 <= k -> Nat.iter (Z.to_nat k) minstd_next x = engine_after x k).
  { intros k K. rewrite <- (Z2Nat.id k) at 2 by exact K. generalize (Z.to_nat k). clear k K.
    intros n. induction n as [|n IH]; [symmetry; apply Engine.after_0; exact X|].
    change (Nat.iter (S n) minstd_next x) with (minstd_next (Nat.iter n minstd_next x)). rewrite IH, Engine.after_next by lia. f_equal. lia. }
  split.
  - destruct (Engine.after_reaches x y X Y) as (k & K & E). exists k. split; [rewrite S by lia; auto|].
    intros k' [K' E']. rewrite S in E' by lia. apply (Engine.after_distinct x k k' X K K'). congruence.
  - rewrite S by (unfold minstd_m; lia). apply Engine.after_period. exact X.
Qed.
Print Assumptions c85_period.

(** C85.  A draw of a number below n ends, for 0 < n < 2^31 - 1; the number
    is that of the stretch of the first value that lies in one. *)
Theorem c85_draw : forall seed x n, 1 <= x < engine_prime -> (0 < n)%nat -> Z.of_nat n < engine_prime ->
  drawn_below x n (fst (draw (minstd seed) x n)) (snd (draw (minstd seed) x n)) /\
  forall v y, drawn_below x n v y -> draw (minstd seed) x n = (v, y).
Proof.
  intros seed x n X N B. rewrite Engine.minstd_drawn by assumption. assert (D := Engine.draw_spec x n X N B).
  destruct (minstd_draw x n) as [v y]. split; [exact D|]. intros v' y' D'.
  destruct (Engine.drawn_unique x n v y v' y' N B D D') as [-> ->]. reflexivity.
Qed.
Print Assumptions c85_draw.

(** C85.  Draws are fair: the stretches of the n numbers are disjoint, of the
    same length, and leave out at most n of the 2^31 - 2 values. *)
Theorem c85_fair : forall n, (0 < n)%nat -> Z.of_nat n < engine_prime ->
  (forall u v y, in_stretch n u y -> in_stretch n v y -> u = v) /\
  (forall v y, (v < n)%nat -> in_stretch n v y -> 1 <= y < engine_prime) /\
  0 < stretch_length n /\
  engine_prime - 1 - Z.of_nat n * stretch_length n <= Z.of_nat n.
Proof.
  intros n N B. assert (P := Engine.stretch_pos n N B). split; [|split; [|split; [exact P|]]].
  - intros u v y. now apply Engine.stretch_unique.
  - intros v y V I. unfold in_stretch in I. split; [nia|]. assert (Z.of_nat n * stretch_length n < engine_prime); [|nia].
    unfold stretch_length. destruct (Z.eqb_spec (Z.of_nat n) (engine_prime - 1)); [lia|].
    assert (Z.of_nat n * ((engine_prime - 2) / Z.of_nat n) <= engine_prime - 2) by (apply Z.mul_div_le; lia). lia.
  - unfold stretch_length. destruct (Z.eqb_spec (Z.of_nat n) (engine_prime - 1)); [lia|].
    assert (D := Z.div_mod (engine_prime - 2) (Z.of_nat n) ltac:(lia)). assert (M := Z.mod_pos_bound (engine_prime - 2) (Z.of_nat n) ltac:(lia)). lia.
Qed.
Print Assumptions c85_fair.

(** C85.  The samples of a bootstrap: each made of groups whose number is
    drawn first, with members whose numbers are drawn then. *)
Theorem c85_samples : forall M (default : M) seed groups samples,
  Z.of_nat (List.length groups) < engine_prime -> (forall g, In g groups -> Z.of_nat (List.length g) < engine_prime) ->
  drawn (by_query_sampler default (minstd seed)) groups (rng_start (minstd seed)) samples ->
  samples_drawn groups (rng_start (minstd seed)) samples.
Proof.
  intros M d seed groups samples B1 B2 D. apply (Engine.samples_spec d seed groups samples (conj B1 B2)); [|exact D].
  exact (Engine.seed_valid seed).
Qed.
Print Assumptions c85_samples.

(** C85.  Seeds start the engine at the same value exactly if they are equal
    modulo the prime, but that 0 is taken for 1; the value is never 0. *)
Theorem c85_seed : forall s s', 1 <= rng_start (minstd s) < engine_prime /\
  (rng_start (minstd s) = rng_start (minstd s') :> Z <-> same_start s s').
Proof. intros s s'. split; [apply Engine.seed_valid|apply Engine.seed_same]. Qed.
Print Assumptions c85_seed.

(** The 10000th value from the default seed of the engine, as the C++
    standard asks for, and six draws of numbers below six from the default
    seed of the programs. *)
Fixpoint rolls (k n : nat) (x : Z) : list nat :=
  match k with
  | O => []
  | S k' => let (v, y) := draw (minstd 0) x n in v :: rolls k' n y
  end.
Example c85_case :
  Nat.iter (N.to_nat 10000) minstd_next 1 = 1043618065 /\
  rolls 6 6 (rng_start (minstd 74565)) = [3; 0; 4; 1; 4; 4]%nat /\
  same_start 0 engine_prime /\ ~ same_start 5 6.
Proof.
  split; [vm_compute; reflexivity|]. split; [vm_compute; reflexivity|]. split; [right; vm_compute; split; discriminate|].
  intros [H|[H _]]; vm_compute in H; [discriminate|]. now apply H.
Qed.

(** ** C86 *)

Lemma body_seed {A : Arith} (T : Trans A) srt rngs rngs' {Q RE E ER EE St} cq cr ce rq hq (S : EvSet RE (scored E)) scorer
  (rd_r : istream -> ER * istream) (rd_h : istream -> scored EE * istream) mr mh (mq : St -> bytes -> outcome (Q * St)) w st0 alone c c' :
  same_but_seed c c' -> (no_bootstrap c \/ rngs (cf_seed c) = rngs' (cf_seed c')) ->
  Tool.body T srt rngs cq cr ce rq hq S scorer rd_r rd_h mr mh mq w c st0 alone =
  Tool.body T srt rngs' cq cr ce rq hq S scorer rd_r rd_h mr mh mq w c' st0 alone.
Proof.
  intros E0 H. unfold same_but_seed in E0.
  assert (R : report A T srt rngs cq rq (fun h : scored E => hq (sc_base h)) sc_score w c =
    report A T srt rngs' cq rq (fun h : scored E => hq (sc_base h)) sc_score w c').
  { destruct H as [(H1 & H2 & H3 & H4)|H].
    - rewrite E0. destruct c as [? ? ? ? ? ? ? ? ? ? ? b1 b2 b3 b4 ? ? ? ?]. cbn [cf_ci_gap cf_ci_map cf_ci_gndcg cf_ci_mndcg] in *. subst b1 b2 b3 b4. reflexivity.
    - assert (E1 : forall (g : rng), report A T srt (fun _ => g) cq rq (fun h : scored E => hq (sc_base h)) sc_score w c =
        report A T srt (fun _ => g) cq rq (fun h : scored E => hq (sc_base h)) sc_score w c').
      { intros. rewrite E0. reflexivity. }
      exact (eq_trans (E1 (rngs (cf_seed c)))
        (f_equal (fun g => report A T srt (fun _ => g) cq rq (fun h : scored E => hq (sc_base h)) sc_score w c') H)). }
  unfold Tool.body. rewrite R. generalize (report A T srt rngs' cq rq (fun h : scored E => hq (sc_base h)) sc_score w c'). intros rep. rewrite E0. reflexivity.
Qed.

(** C86.  Two command lines that differ only in the seed, with seeds that
    start the engine at the same value, give the same run of Icdar17KwsEval:
    messages, files, lines and status. *)
Theorem c86_icdar17 : forall A T srt show_int show_f64 w pn pn' args args' c c',
  command args c -> command args' c' -> (List.length args = 1%nat <-> List.length args' = 1%nat) ->
  same_but_seed c c' -> same_start (cf_seed c) (cf_seed c') ->
  icdar17 A T srt minstd show_int show_f64 w pn args = icdar17 A T srt minstd show_int show_f64 w pn' args'.
Proof.
  intros A T srt si sf w pn pn' args args' c c' C C' L E S. rewrite !Instances.icdar17_tool.
  rewrite (Messages.tool_body _ _ _ _ _ _ _ _ _ _ _ _ _ _ _ _ _ _ _ _ _ _ c C), (Messages.tool_body _ _ _ _ _ _ _ _ _ _ _ _ _ _ _ _ _ _ _ _ _ _ c' C').
  replace (Nat.eqb (List.length args') 1) with (Nat.eqb (List.length args) 1) by (destruct (Nat.eqb_spec (List.length args) 1), (Nat.eqb_spec (List.length args') 1); tauto).
  apply body_seed; [exact E|]. right. unfold minstd. now rewrite (proj2 (Engine.seed_same _ _) S).
Qed.
Print Assumptions c86_icdar17.

(** C86.  The same for SimpleKwsEval. *)
Theorem c86_simple : forall A T srt show_int show_f64 qf w pn pn' args args' c c',
  command args c -> command args' c' -> (List.length args = 1%nat <-> List.length args' = 1%nat) ->
  same_but_seed c c' -> same_start (cf_seed c) (cf_seed c') ->
  simple_kws A T srt minstd show_int show_f64 qf w pn args = simple_kws A T srt minstd show_int show_f64 qf w pn' args'.
Proof.
  intros A T srt si sf qf w pn pn' args args' c c' C C' L E S. rewrite !Instances.simple_tool.
  rewrite (Messages.tool_body _ _ _ _ _ _ _ _ _ _ _ _ _ _ _ _ _ _ _ _ _ _ c C), (Messages.tool_body _ _ _ _ _ _ _ _ _ _ _ _ _ _ _ _ _ _ _ _ _ _ c' C').
  replace (Nat.eqb (List.length args') 1) with (Nat.eqb (List.length args) 1) by (destruct (Nat.eqb_spec (List.length args) 1), (Nat.eqb_spec (List.length args') 1); tauto).
  apply body_seed; [exact E|]. right. unfold minstd. now rewrite (proj2 (Engine.seed_same _ _) S).
Qed.
Print Assumptions c86_simple.

(** C86.  If no interval is asked for, neither the seed nor the engine
    matters. *)
Theorem c86_unused : forall A T srt rngs rngs' show_int show_f64 qf w pn pn' args args' c c',
  command args c -> command args' c' -> (List.length args = 1%nat <-> List.length args' = 1%nat) ->
  same_but_seed c c' -> no_bootstrap c ->
  icdar17 A T srt rngs show_int show_f64 w pn args = icdar17 A T srt rngs' show_int show_f64 w pn' args' /\
  simple_kws A T srt rngs show_int show_f64 qf w pn args = simple_kws A T srt rngs' show_int show_f64 qf w pn' args'.
Proof.
  intros A T srt rngs rngs' si sf qf w pn pn' args args' c c' C C' L E S.
  assert (N : Nat.eqb (List.length args) 1 = Nat.eqb (List.length args') 1) by (destruct (Nat.eqb_spec (List.length args) 1), (Nat.eqb_spec (List.length args') 1); tauto).
  split; [rewrite !Instances.icdar17_tool|rewrite !Instances.simple_tool];
  (rewrite (Messages.tool_body _ _ _ _ _ _ _ _ _ _ _ _ _ _ _ _ _ _ _ _ _ _ c C), (Messages.tool_body _ _ _ _ _ _ _ _ _ _ _ _ _ _ _ _ _ _ _ _ _ _ c' C');
   rewrite N; apply body_seed; auto).
Qed.
Print Assumptions c86_unused.

(** Two runs with seeds that differ by the prime, and one with another
    seed: gAP and mAP and their intervals, in thousandths. *)
Definition seed_run (seed : string) := icdar17 DArith TD (@isort) minstd (fun _ => []) (fun _ => []) here (lit "prog")
  (map lit ("--bootstrap_seed" :: seed :: boot_args)).
Example c86_case : (exists c c', command (map lit ("--bootstrap_seed" :: "5" :: boot_args)) c /\
    command (map lit ("--bootstrap_seed" :: "2147483652" :: boot_args)) c' /\
    same_but_seed c c' /\ cf_seed c <> cf_seed c' /\ same_start (cf_seed c) (cf_seed c')) /\
  map (fun s => firstn 2 (lines_of (outputs (fst (seed_run s))))) ["5"; "2147483652"] =
    repeat [(lit "gAP", [Ok 250; Ok 166; Ok 416]); (lit "mAP", [Ok 166; Ok 83; Ok 270])] 2 /\
  nth 1 (lines_of (outputs (fst (seed_run "6")))) (lit "", []) = (lit "mAP", [Ok 166; Ok 0; Ok 291]).
Proof.
  split; [|vm_compute; auto].
  destruct (Compute.config_for (map lit ("--bootstrap_seed" :: "5" :: boot_args))) as [c|] eqn:Ec; [|vm_compute in Ec; discriminate].
  destruct (Compute.config_for (map lit ("--bootstrap_seed" :: "2147483652" :: boot_args))) as [c'|] eqn:Ec'; [|vm_compute in Ec'; discriminate].
  exists c, c'. split; [exact (Compute.config_for_ok _ _ Ec)|]. split; [exact (Compute.config_for_ok _ _ Ec')|].
  vm_compute in Ec. injection Ec as <-. vm_compute in Ec'. injection Ec' as <-. split; [reflexivity|]. split; [discriminate|left; reflexivity].
Qed.

(** ** C87 *)

(** C87.  Two error records are equal if both pairs of rates are the same
    numbers (0 and -0 are, a NaN is not even the same as itself); [!=] is the
    negation of [==]. *)
Theorem c87_errors : forall a b, (me_eq a b = true <-> same_float (me_fp a) (me_fp b) /\ same_float (me_fn a) (me_fn b)) /\
  me_ne a b = negb (me_eq a b).
Proof.
  intros a b. split; [|unfold me_ne, me_eq, f32_ne, f32_eq; now rewrite negb_andb].
  unfold me_eq. rewrite andb_true_iff, !Errors.f32_eq_same. tauto.
Qed.
Print Assumptions c87_errors.

(** C87.  The same for error counts, whose numbers of hypotheses and
    references must also be equal. *)
Theorem c87_counts : forall a b, (counts_eq a b = true <-> same_float (ec_fp a) (ec_fp b) /\ same_float (ec_fn a) (ec_fn b) /\
    ec_nh a = ec_nh b /\ ec_nr a = ec_nr b) /\
  counts_ne a b = negb (counts_eq a b).
Proof.
  intros a b. split; [|reflexivity]. unfold counts_eq. rewrite !andb_true_iff, !Errors.f32_eq_same, !Nat.eqb_eq. tauto.
Qed.
Print Assumptions c87_counts.

(** C87.  Error records that are equal convert to equal counts, and adding
    equal counts gives equal counts, unless a sum is not a number. *)
Theorem c87_compatible : forall a b c d, me_eq a b = true -> counts_eq c d = true ->
  counts_eq (counts_of a) (counts_of b) = true /\
  (is_nan (f32_add (me_fp a) (ec_fp c)) = false -> is_nan (f32_add (me_fn a) (ec_fn c)) = false ->
   counts_eq (counts_add (counts_of a) c) (counts_add (counts_of b) d) = true).
Proof.
  intros a b c d E F. apply c87_errors in E as [E1 E2]. apply c87_counts in F as (F1 & F2 & F3 & F4).
  assert (N : me_nh a = me_nh b) by (unfold me_nh; now rewrite (Errors.same_lt_r f32_0 _ _ E1), (Errors.same_lt_l _ _ f32_1 E2)).
  assert (R : me_nr a = me_nr b) by (unfold me_nr; now rewrite (Errors.same_lt_l _ _ f32_1 E1), (Errors.same_lt_r f32_0 _ _ E2)).
  split; [apply c87_counts; auto|]. intros K1 K2. apply c87_counts. unfold counts_add, counts_of. cbn [ec_fp ec_fn ec_nh ec_nr].
  split; [now apply Errors.same_add|]. split; [now apply Errors.same_add|]. lia.
Qed.
Print Assumptions c87_compatible.

(** C87.  Addition of counts is commutative. *)
Theorem c87_commutative : forall a b, counts_add a b = counts_add b a.
Proof.
  intros a b. unfold counts_add. f_equal; [apply Errors.f32_add_comm|apply Errors.f32_add_comm|apply Nat.add_comm|apply Nat.add_comm].
Qed.
Print Assumptions c87_commutative.

(** C87.  The text of counts of finite rates: the rates to six significant
    digits and the two numbers. *)
Theorem c87_text : forall nan c, is_finite (ec_fp c) = true -> is_finite (ec_fn c) = true -> counts_form (write_counts nan c) c.
Proof.
  intros nan c F G. exists (write_float nan (ec_fp c)), (write_float nan (ec_fn c)), (write_uint (Z.of_nat (ec_nh c))), (write_uint (Z.of_nat (ec_nr c))).
  split; [reflexivity|]. split; [now apply Dump.write_float_form|]. split; [now apply Dump.write_float_form|].
  split; apply Dump.write_uint_form; apply Nat2Z.is_nonneg.
Qed.
Print Assumptions c87_text.

Example c87_case :
  let z := f32_0 in let mz := f32_mul (f32_of_Z (-1)) f32_0 in let nan := f32_div f32_0 f32_0 in
  z <> mz /\ me_eq (MatchError z f32_1) (MatchError mz f32_1) = true /\
  me_ne (MatchError nan f32_1) (MatchError nan f32_1) = true /\
  counts_eq (counts_add (counts_of (MatchError z f32_1)) (counts_of (MatchError f32_1 mz))) (Counts f32_1 f32_1 1 1) = true /\
  counts_ne (counts_of (MatchError z f32_1)) (Counts z f32_1 1 1) = true /\
  write_counts [] (Counts (f32_of_Z 12) f32_half 14 3) = lit "MatchErrorCounts[fp=12, fn=0.5, nh=14, nr=3]".
Proof. vm_compute. repeat split; discriminate. Qed.
