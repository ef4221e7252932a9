(** What the random engine and its draws should be. *)
From Coq Require Import List ZArith.
From Verif.Model Require Import Tool.
Local Open Scope Z_scope.

(** The values of the engine are the numbers below this prime, but 0. *)
Definition engine_prime : Z := 2 ^ 31 - 1.

(** The value [k] steps after [x]. *)
Definition engine_after (x k : Z) : Z := (7 ^ 5) ^ k * x mod engine_prime.

(** The values from 1 on are cut into [n] stretches of the same length; the
    last values may be in none. *)
Definition stretch_length (n : nat) : Z :=
  if Z.of_nat n =? engine_prime - 1 then 1 else (engine_prime - 2) / Z.of_nat n.
Definition in_stretch (n v : nat) (y : Z) : Prop :=
  Z.of_nat v * stretch_length n < y <= Z.of_nat v * stretch_length n + stretch_length n.

(** A draw of a number below [n] after the value [x]: the number of the stretch
    of the first value [y] that is in one. *)
Definition drawn_below (x : Z) (n v : nat) (y : Z) : Prop :=
  exists k, 1 <= k < engine_prime /\ y = engine_after x k /\ (v < n)%nat /\ in_stretch n v y /\
    forall j u, 1 <= j < k -> (u < n)%nat -> ~ in_stretch n u (engine_after x j).

(** Numbers below [n] drawn one after the other. *)
Inductive draws_below (n : nat) : Z -> list nat -> Z -> Prop :=
| db_none x : draws_below n x nil x
| db_one x v y l z : drawn_below x n v y -> draws_below n y l z -> draws_below n x (v :: l) z.

(** Groups of a sample drawn one after the other: first the number of a
    group, then as many numbers of its members as it has. *)
Inductive groups_drawn {M} (groups : list (list M)) : nat -> Z -> list (list M) -> Z -> Prop :=
| gd_none x : groups_drawn groups 0 x nil x
| gd_one k x q y g l z s rest t : drawn_below x (length groups) q y -> nth_error groups q = Some g ->
    draws_below (length g) y l z -> length l = length g -> Forall2 (fun i e => nth_error g i = Some e) l s ->
    groups_drawn groups k z rest t -> groups_drawn groups (S k) x (s :: rest) t.

(** Samples drawn one after the other, of as many groups as there are. *)
Inductive samples_drawn {M} (groups : list (list M)) : Z -> list (list (list M)) -> Prop :=
| sd_none x : samples_drawn groups x nil
| sd_one x s y l : groups_drawn groups (length groups) x s y -> samples_drawn groups y l -> samples_drawn groups x (s :: l).

(** Seeds that start the engine in the same state. *)
Definition same_start (s s' : Z) : Prop :=
  s mod engine_prime = s' mod engine_prime \/ (s mod engine_prime <= 1 /\ s' mod engine_prime <= 1).

(** Options that differ at most in the seed. *)
Definition same_but_seed (c c' : config) : Prop :=
  c' = Config (cf_ref c) (cf_hyp c) (cf_queryset c) (cf_querygroups c) (cf_dump c) (cf_sort c) (cf_grp c) (cf_mrp c)
    (cf_collapse c) (cf_interp c) (cf_trapezoid c) (cf_ci_gap c) (cf_ci_map c) (cf_ci_gndcg c) (cf_ci_mndcg c)
    (cf_samples c) (cf_seed c') (cf_alpha c) (cf_curve c).
