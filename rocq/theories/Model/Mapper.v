(** Model of /repo/mapper/*.h. *)
From Coq Require Import List Bool ZArith.
From Verif.Model Require Import Cpp Floats Events.
Import ListNotations.
Local Open Scope Z_scope.
Local Open Scope cpp_scope.

(** /repo/mapper/IdentityMapper.h:15, [operator()]. *)
Definition identity_mapper {T S} (s : S) (x : T) : outcome (T * S) := Ok (x, s).

(** /repo/mapper/StringToIntMapper.h:53-54, [kMaxSize], given the largest
    value of [Int]; the addition is in [size_t]. *)
Definition k_max_size (int_max : Z) : Z := (1 + int_max) mod two64.

(** /repo/mapper/StringToIntMapper.h:19 and 56, the id table [*impl_]. *)
Definition id_table := list (bytes * Z).

(** /repo/mapper/StringToIntMapper.h:38-50, [operator()]: the id and the
    table afterwards. *)
Definition string_to_int (int_max : Z) (t : id_table) (s : bytes)
  : outcome (Z * id_table) :=
  match map_find str_eq s t with
  | Some v => Ok (v, t)
  | None =>
      if Z.of_nat (length t) <? k_max_size int_max then
        Ok (Z.of_nat (length t), t ++ [(s, Z.of_nat (length t))])
      else Throw RangeError
  end.

(** /repo/mapper/StringEventToIntMapper.h:33-35, [operator()].  C++ does not
    fix which of the two constructor arguments is evaluated first:
    [query_first] stands for the compiler's choice. *)
Definition event_to_int (query_first : bool) (int_max : Z) (t : id_table)
  (e : event bytes bytes) : outcome (event Z Z * id_table) :=
  if query_first then
    let* (q, t1) := string_to_int int_max t (ev_query e) in
    let* (l, t2) := string_to_int int_max t1 (ev_loc e) in
    Ok (Event q l, t2)
  else
    let* (l, t1) := string_to_int int_max t (ev_loc e) in
    let* (q, t2) := string_to_int int_max t1 (ev_query e) in
    Ok (Event q l, t2).

(** /repo/mapper/ScoredEventMapper.h:22-24, [operator()]. *)
Definition scored_mapper {E1 E2 S} (m : S -> E1 -> outcome (E2 * S)) (s : S) (e : scored E1)
  : outcome (scored E2 * S) :=
  let* (b, s1) := m s (sc_base e) in
  Ok (Scored b (sc_score e), s1).

(** ** Ownership of the table *)

(** /repo/mapper/StringToIntMapper.h:56-57, the members, with the table as an
    address. *)
Record mapper_obj : Type := MapperObj { mo_impl : nat; mo_own : bool }.

(** The tables allocated and not yet freed, the next address, and the live
    mapper objects by name. *)
Record own_st : Type := OwnSt {
  ow_live : list nat;
  ow_next : nat;
  ow_objs : list (nat * mapper_obj)
}.

(** [delete impl]: freeing a table that is not allocated is undefined. *)
Definition own_free (a : nat) (s : own_st) : outcome own_st :=
  if existsb (Nat.eqb a) (ow_live s)
  then Ok (OwnSt (filter (fun b => negb (Nat.eqb b a)) (ow_live s)) (ow_next s) (ow_objs s))
  else UB.

(** Operations on mapper objects. *)
Inductive own_op : Type :=
| OpNew (x : nat)                (* default construction, line 23 *)
| OpFrom (x a : nat) (own : bool) (* construction from a table, lines 28 and 30 *)
| OpAlloc                        (* the caller allocates a table *)
| OpCopy (x y : nat)             (* copy construction, lines 25-26 *)
| OpAssign (x y : nat)           (* implicit copy assignment *)
| OpUse (x : nat)                (* a call of operator(), lines 38-50 *)
| OpDestroy (x : nat).           (* destruction, lines 32-36 *)

(** /repo/mapper/StringToIntMapper.h:23-50: effect of each operation.  Naming
    an object that does not exist, or constructing one that does, is an
    error of the caller ([UB]).  The class declares no assignment, so the
    compiler's member-wise one applies.  A call reads the table. *)
Definition own_step (s : own_st) (op : own_op) : outcome own_st :=
  match op with
  | OpNew x =>
      match map_find Nat.eqb x (ow_objs s) with
      | Some _ => UB
      | None => Ok (OwnSt (ow_next s :: ow_live s) (S (ow_next s))
                     (ow_objs s ++ [(x, MapperObj (ow_next s) true)]))
      end
  | OpFrom x a own =>
      match map_find Nat.eqb x (ow_objs s) with
      | Some _ => UB
      | None => Ok (OwnSt (ow_live s) (ow_next s) (ow_objs s ++ [(x, MapperObj a own)]))
      end
  | OpAlloc => Ok (OwnSt (ow_next s :: ow_live s) (S (ow_next s)) (ow_objs s))
  | OpCopy x y =>
      match map_find Nat.eqb x (ow_objs s), map_find Nat.eqb y (ow_objs s) with
      | None, Some o =>
          Ok (OwnSt (ow_live s) (ow_next s) (ow_objs s ++ [(x, MapperObj (mo_impl o) false)]))
      | _, _ => UB
      end
  | OpAssign x y =>
      match map_find Nat.eqb x (ow_objs s), map_find Nat.eqb y (ow_objs s) with
      | Some _, Some o =>
          Ok (OwnSt (ow_live s) (ow_next s) (map_set Nat.eqb x o (ow_objs s)))
      | _, _ => UB
      end
  | OpUse x =>
      match map_find Nat.eqb x (ow_objs s) with
      | Some o => if existsb (Nat.eqb (mo_impl o)) (ow_live s) then Ok s else UB
      | None => UB
      end
  | OpDestroy x =>
      match map_find Nat.eqb x (ow_objs s) with
      | None => UB
      | Some o =>
          let objs := filter (fun ko => negb (Nat.eqb (fst ko) x)) (ow_objs s) in
          if mo_own o then
            let* s1 := own_free (mo_impl o) s in
            Ok (OwnSt (ow_live s1) (ow_next s1) objs)
          else Ok (OwnSt (ow_live s) (ow_next s) objs)
      end
  end.
