(** What mapping strings to ids should mean. *)
From Coq Require Import List ZArith.
From Verif.Model Require Import Cpp Floats Events Mapper.
From Verif.Spec Require Import Grouping.
Import ListNotations.

(** A history of calls of a mapper whose caller catches exceptions: the
    strings with the answers, and the tables before and after. *)
Inductive history (int_max : Z) : id_table -> list (bytes * outcome Z) -> id_table -> Prop :=
| hi_nil t : history int_max t [] t
| hi_id t s v t' h t'' : string_to_int int_max t s = Ok (v, t') -> history int_max t' h t'' ->
    history int_max t ((s, Ok v) :: h) t''
| hi_throw t s e h t'' : string_to_int int_max t s = Throw e -> history int_max t h t'' ->
    history int_max t ((s, Throw e) :: h) t''
| hi_ub t s h t'' : string_to_int int_max t s = UB -> history int_max t h t'' ->
    history int_max t ((s, UB) :: h) t''.

(** The strings that got an id. *)
Definition served (h : list (bytes * outcome Z)) : list bytes :=
  flat_map (fun c => match snd c with Ok _ => [fst c] | _ => [] end) h.

(** The answer a mapper should give when the strings [seen] have the ids
    0, 1, 2, ... and [int_max] is the largest id: the id of the string if it
    has one, the next id if there is one, an exception otherwise. *)
Definition right_answer (int_max : Z) (seen : list bytes) (s : bytes) (r : outcome Z) : Prop :=
  (exists i, nth_error seen i = Some s /\ r = Ok (Z.of_nat i)) \/
  (~ In s seen /\ (Z.of_nat (length seen) <= int_max)%Z /\ r = Ok (Z.of_nat (length seen))) \/
  (~ In s seen /\ (int_max < Z.of_nat (length seen))%Z /\ r = Throw RangeError).

(** Equal strings get equal ids, different ones different ids. *)
Definition faithful (h : list (bytes * outcome Z)) : Prop :=
  forall s a s' b, In (s, Ok a) h -> In (s', Ok b) h -> (s = s' <-> a = b).

(** Mapping a sequence of events, one after the other. *)
Inductive mapped {X Y S} (m : S -> X -> outcome (Y * S)) : S -> list X -> list Y -> S -> Prop :=
| mp_nil s : mapped m s [] [] s
| mp_cons s x y s' l l' s'' : m s x = Ok (y, s') -> mapped m s' l l' s'' ->
    mapped m s (x :: l) (y :: l') s''.

(** ** Ownership *)

(** The tables owned by the live mappers. *)
Definition owned (s : own_st) : list nat :=
  flat_map (fun xo => if mo_own (snd xo) then [mo_impl (snd xo)] else []) (ow_objs s).

(** States reached by programs that name their objects right, do not assign
    mappers, hand a table over to one mapper at most, and use only mappers
    whose table is there; [mine] are the tables the caller allocated and has
    not handed over. *)
Inductive tidy : list nat -> own_st -> Prop :=
| ti_start : tidy [] (OwnSt [] 0 [])
| ti_step mine s op mine' s' : tidy mine s -> proper mine s op mine' -> own_step s op = Ok s' -> tidy mine' s'
with proper : list nat -> own_st -> own_op -> list nat -> Prop :=
| pr_new mine s x : ~ In x (map fst (ow_objs s)) -> proper mine s (OpNew x) mine
| pr_alloc mine s : proper mine s OpAlloc (ow_next s :: mine)
| pr_lend mine s x a : ~ In x (map fst (ow_objs s)) -> proper mine s (OpFrom x a false) mine
| pr_give mine s x a l r : ~ In x (map fst (ow_objs s)) -> mine = l ++ a :: r ->
    proper mine s (OpFrom x a true) (l ++ r)
| pr_copy mine s x y : ~ In x (map fst (ow_objs s)) -> In y (map fst (ow_objs s)) ->
    proper mine s (OpCopy x y) mine
| pr_use mine s x o : In (x, o) (ow_objs s) -> In (mo_impl o) (ow_live s) -> proper mine s (OpUse x) mine
| pr_destroy mine s x : In x (map fst (ow_objs s)) -> proper mine s (OpDestroy x) mine.
