(** C52-C56: mapping strings and events to ids. *)
From Coq Require Import Ascii String List Bool ZArith Permutation.
From Verif.Model Require Import Cpp Floats Events Mapper.
From Verif.Spec Require Import Grouping Mapper.
From Verif.Proofs Require Geometry Mapper.
Import ListNotations.
Local Open Scope string_scope.
Local Open Scope list_scope.
Local Open Scope Z_scope.

(** ** C52 *)

(** C52.  Every answer in every history of calls is the right one: the
    strings get the ids 0, 1, 2, ... in the order of their first call, keep
    them, and a new string is refused exactly when all ids up to the largest
    value of the type are taken. *)
Theorem c52_answers : forall int_max h t, 0 <= int_max < two64 - 1 -> history int_max [] h t ->
  (forall h1 s r h2 seen, h = h1 ++ (s, r) :: h2 -> first_seen (served h1) seen -> right_answer int_max seen s r) /\
  exists seen, first_seen (served h) seen /\ map fst t = seen.
Proof. exact Mapper.history_right. Qed.
Print Assumptions c52_answers.

(** C52.  Such a list of strings seen exists, and there is only one. *)
Theorem c52_seen : forall l : list bytes, exists! s, first_seen l s.
Proof.
  intros l. destruct (Mapper.first_seen_exists l) as [s H]. exists s. split; [exact H|].
  intros s'. apply (Mapper.first_seen_unique l), H.
Qed.
Print Assumptions c52_seen.

(** C52.  Equal ids are those of equal strings. *)
Theorem c52_faithful : forall int_max h t, history int_max [] h t -> faithful h.
Proof. intros int_max h t. apply Mapper.history_faithful, Mapper.sound_nil. Qed.
Print Assumptions c52_faithful.

(** A type with the values 0 and 1: the third string is refused, the first
    two keep their ids. *)
Example c52_case : 0 <= 1 < two64 - 1 /\
  history 1 [] [(lit "b", Ok 0); (lit "a", Ok 1); (lit "b", Ok 0); (lit "c", Throw RangeError); (lit "a", Ok 1)]
    [(lit "b", 0); (lit "a", 1)].
Proof.
  split; [split; [discriminate|reflexivity]|]. repeat (econstructor; [vm_compute; reflexivity|]). constructor.
Qed.

(** ** C53 *)

(** C53.  With 64 bits unsigned no string gets an id. *)
Theorem c53_capacity_refuted : forall h t, history (two64 - 1) [] h t ->
  t = [] /\ forall s r, In (s, r) h -> r = Throw RangeError.
Proof. exact Mapper.wrapped_capacity. Qed.
Print Assumptions c53_capacity_refuted.

Example c53_case : history (two64 - 1) [] [(lit "a", Throw RangeError); (lit "b", Throw RangeError)] [].
Proof. repeat (econstructor; [vm_compute; reflexivity|]). constructor. Qed.

(** ** C54 *)

(** C54.  From a given table ids stay faithful if its values are distinct
    and below its size. *)
Theorem c54_given_table : forall int_max t h t',
  NoDup (map fst t) -> NoDup (map snd t) -> (forall s v, In (s, v) t -> v < Z.of_nat (List.length t)) ->
  history int_max t h t' -> faithful h.
Proof. intros int_max t h t' A B C. apply Mapper.history_faithful. repeat split; assumption. Qed.
Print Assumptions c54_given_table.

(** C54.  From any other table some history gives one id to two strings. *)
Theorem c54_necessary : forall int_max t, 0 <= int_max < two64 - 1 ->
  NoDup (map fst t) -> (forall s v, In (s, v) t -> v <= int_max) ->
  (forall h t', history int_max t h t' -> faithful h) ->
  NoDup (map snd t) /\ forall s v, In (s, v) t -> v < Z.of_nat (List.length t).
Proof. intros int_max t A B C D. apply (Mapper.faithful_needs int_max t A B C D). Qed.
Print Assumptions c54_necessary.

(** C54.  For instance a table with the id 1 for one string. *)
Theorem c54_given_table_refuted : exists t h t', NoDup (map fst t) /\ (forall s v, In (s, v) t -> 0 <= v <= 2147483647) /\
  history 2147483647 t h t' /\ ~ faithful h.
Proof.
  exists [(lit "a", 1)], [(lit "a", Ok 1); (lit "b", Ok 1)], [(lit "a", 1); (lit "b", 1)].
  split; [repeat constructor; intros []|]. split; [|split].
  - intros s v [K|[]]. injection K as <- <-. split; discriminate.
  - repeat (econstructor; [vm_compute; reflexivity|]). constructor.
  - intros H. assert (K : lit "a" = lit "b") by (apply (H _ 1 _ 1); simpl; auto). discriminate.
Qed.
Print Assumptions c54_given_table_refuted.

Example c54_case : let t := [(lit "x", 1); (lit "y", 0)] in
  NoDup (map fst t) /\ NoDup (map snd t) /\ (forall s v, In (s, v) t -> v < Z.of_nat (List.length t)) /\
  history 5 t [(lit "z", Ok 2); (lit "x", Ok 1)] (t ++ [(lit "z", 2)]).
Proof.
  split; [|split; [|split]].
  - repeat constructor; intros K; repeat (destruct K as [K|K]; [discriminate|]); destruct K.
  - repeat constructor; intros K; repeat (destruct K as [K|K]; [discriminate|]); destruct K.
  - intros s v [K|[K|[]]]; injection K as <- <-; reflexivity.
  - repeat (econstructor; [vm_compute; reflexivity|]). constructor.
Qed.

(** ** C55 *)

(** C55.  Without assignment no table is freed twice: every proper step
    runs. *)
Theorem c55_runs : forall mine s op mine', tidy mine s -> proper mine s op mine' -> exists s', own_step s op = Ok s'.
Proof. exact Mapper.tidy_runs. Qed.
Print Assumptions c55_runs.

(** C55.  The allocated tables are those of the caller and those owned by a
    mapper, each by one: nothing leaks. *)
Theorem c55_no_leak : forall mine s, tidy mine s ->
  NoDup (ow_live s) /\ Permutation (ow_live s) (mine ++ owned s) /\
  (ow_objs s = [] -> Permutation (ow_live s) mine).
Proof.
  intros mine s H. destruct (Mapper.tidy_live mine s H) as [A B]. split; [exact A|]. split; [exact B|].
  apply Mapper.tidy_end, H.
Qed.
Print Assumptions c55_no_leak.

(** C55.  Assignment between two owners leaks the table of the one and frees
    that of the other twice. *)
Theorem c55_assign_refuted : forall mine s x y a b, tidy mine s -> x <> y ->
  In (x, MapperObj a true) (ow_objs s) -> In (y, MapperObj b true) (ow_objs s) ->
  exists s1 s2, own_step s (OpAssign x y) = Ok s1 /\
    In a (ow_live s1) /\ ~ In a mine /\ ~ In a (owned s1) /\
    own_step s1 (OpDestroy x) = Ok s2 /\ own_step s2 (OpDestroy y) = UB.
Proof. exact Mapper.assign_breaks. Qed.
Print Assumptions c55_assign_refuted.

(** C55.  A copy must not be used after its original is gone. *)
Theorem c55_copy_outlives_refuted : forall mine s x y a, tidy mine s -> ~ In x (map fst (ow_objs s)) ->
  In (y, MapperObj a true) (ow_objs s) ->
  exists s1 s2, own_step s (OpCopy x y) = Ok s1 /\ own_step s1 (OpDestroy y) = Ok s2 /\
    tidy mine s2 /\ own_step s2 (OpUse x) = UB.
Proof. exact Mapper.copy_dangles. Qed.
Print Assumptions c55_copy_outlives_refuted.

(** Two mappers with tables of their own, one given by the caller, and a
    copy. *)
Example c55_case : exists s, tidy [3%nat] s /\
  In (0%nat, MapperObj 0 true) (ow_objs s) /\ In (1%nat, MapperObj 1 true) (ow_objs s) /\
  ow_live s = [3%nat; 2%nat; 1%nat; 0%nat] /\ owned s = [0%nat; 1%nat; 2%nat].
Proof.
  assert (T1 := ti_step _ _ (OpNew 0) _ _ ti_start ltac:(apply pr_new; simpl; auto) eq_refl).
  assert (T2 := ti_step _ _ (OpNew 1) _ _ T1 ltac:(apply pr_new; simpl; intuition discriminate) eq_refl).
  assert (T3 := ti_step _ _ (OpCopy 2 0) _ _ T2 ltac:(apply pr_copy; simpl; intuition discriminate) eq_refl).
  assert (T4 := ti_step _ _ OpAlloc _ _ T3 (pr_alloc _ _) eq_refl).
  assert (T5 := ti_step _ _ (OpFrom 3 2 true) _ _ T4
    ltac:(apply pr_give with (l := []) (r := []); [simpl; intuition discriminate|reflexivity]) eq_refl).
  assert (T6 := ti_step _ _ OpAlloc _ _ T5 (pr_alloc _ _) eq_refl).
  assert (T7 := ti_step _ _ (OpUse 2) _ _ T6 ltac:(apply pr_use with (o := MapperObj 0 false); simpl; auto 10) eq_refl).
  eexists. split; [exact T7|]. simpl. auto 10.
Qed.

(** ** C56 *)

(** C56.  References, hypotheses and queries mapped through one mapper, the
    arguments evaluated in either order: there is one faithful numbering of
    strings behind all of them, and the scores are kept. *)
Theorem c56_numbering : forall int_max qf qf' t refs refs' t1 hyps hyps' t2 h t3,
  NoDup (map fst t) -> NoDup (map snd t) -> (forall s v, In (s, v) t -> v < Z.of_nat (List.length t)) ->
  mapped (event_to_int qf int_max) t refs refs' t1 ->
  mapped (scored_mapper (event_to_int qf' int_max)) t1 hyps hyps' t2 ->
  history int_max t2 h t3 ->
  exists id : bytes -> Z -> Prop,
    (forall s a s' b, id s a -> id s' b -> (s = s' <-> a = b)) /\
    Forall2 (fun e e' => id (ev_query e) (ev_query e') /\ id (ev_loc e) (ev_loc e')) refs refs' /\
    Forall2 (fun e e' => id (ev_query (sc_base e)) (ev_query (sc_base e')) /\
      id (ev_loc (sc_base e)) (ev_loc (sc_base e')) /\ sc_score e' = sc_score e) hyps hyps' /\
    (forall s v, In (s, Ok v) h -> id s v).
Proof.
  intros int_max qf qf' t refs refs' t1 hyps hyps' t2 h t3 A B C.
  apply Mapper.shared_table. repeat split; assumption.
Qed.
Print Assumptions c56_numbering.

(** C56.  Two events are equal afterwards exactly when they were before, in
    the operator of the code. *)
Theorem c56_equal : forall int_max qf l l' t, mapped (event_to_int qf int_max) [] l l' t ->
  forall i j e e' f f', nth_error l i = Some e -> nth_error l' i = Some e' ->
    nth_error l j = Some f -> nth_error l' j = Some f' ->
    event_eq cmp_Z cmp_Z e' f' = event_eq cmp_str cmp_str e f.
Proof.
  intros int_max qf l l' t H i j e e' f f' E1 E2 E3 E4.
  destruct (Mapper.events_table qf int_max [] l l' t Mapper.sound_nil H) as [S [_ F]].
  assert (G : forall k x y, nth_error l k = Some x -> nth_error l' k = Some y ->
    In (ev_query x, ev_query y) t /\ In (ev_loc x, ev_loc y) t).
  { clear - F. induction F as [|a b l l' P F IH]; intros [|k] x y K1 K2; try discriminate; simpl in *.
    - injection K1 as ->. injection K2 as ->. exact P.
    - eapply IH; eauto. }
  destruct (G i e e' E1 E2) as [A1 A2]. destruct (G j f f' E3 E4) as [B1 B2].
  assert (Q := Mapper.table_inj t _ _ _ _ S A1 B1). assert (L := Mapper.table_inj t _ _ _ _ S A2 B2).
  assert (X : forall s s' a b, (s = s' <-> a = b) -> Z.eqb a b = str_eq s s').
  { intros s s' a b K. apply eq_true_iff_eq. rewrite Z.eqb_eq, Geometry.str_eq_spec. symmetry. exact K. }
  unfold event_eq, cmp_Z, cmp_str. cbn [c_eq]. rewrite (X _ _ _ _ Q), (X _ _ _ _ L). reflexivity.
Qed.
Print Assumptions c56_equal.

(** C56.  The mapping succeeds if the type has two ids for each event. *)
Theorem c56_total : forall int_max qf l, 0 <= int_max < two64 - 1 -> Z.of_nat (2 * List.length l) <= int_max + 1 ->
  exists l' t, mapped (event_to_int qf int_max) [] l l' t.
Proof.
  intros int_max qf l M L. destruct (Mapper.events_total qf int_max l M []) as [l' [t [H _]]]; [exact L|]. eauto.
Qed.
Print Assumptions c56_total.

(** Both orders of evaluation: the ids differ, the equalities do not. *)
Example c56_case :
  let l := [Event (lit "q") (lit "x"); Event (lit "x") (lit "q"); Event (lit "q") (lit "x")] in
  mapped (event_to_int true 2147483647) [] l [Event 0 1; Event 1 0; Event 0 1] [(lit "q", 0); (lit "x", 1)] /\
  mapped (event_to_int false 2147483647) [] l [Event 1 0; Event 0 1; Event 1 0] [(lit "x", 0); (lit "q", 1)].
Proof. split; repeat (econstructor; [vm_compute; reflexivity|]); constructor. Qed.
