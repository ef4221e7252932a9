(** Better rankings. *)
From Coq Require Import List.
From Verif.Model Require Import Cpp Floats Events Matches.

Import ListNotations.

(** The errors of a hit and of a false alarm. *)
Definition hit_error : match_error := MatchError f32_0 f32_0.
(** See [hit_error]. *)
Definition alarm_error : match_error := MatchError f32_1 f32_0.

(** The second ranking comes from the first by moving hits up past false
    alarms. *)
Inductive better : list match_error -> list match_error -> Prop :=
| better_same l : better l l
| better_swap u v : better (u ++ alarm_error :: hit_error :: v) (u ++ hit_error :: alarm_error :: v)
| better_trans a b c : better a b -> better b c -> better a c.

(** At least one hit moved. *)
Definition strictly_better (l l' : list match_error) : Prop :=
  exists a u v b, better l a /\ a = u ++ alarm_error :: hit_error :: v /\ b = u ++ hit_error :: alarm_error :: v /\ better b l'.

(** The same hypotheses, except that one has a higher score. *)
Definition raised {E} (e : E) (hyps hyps' : list (scored E)) : Prop :=
  exists a s s' b, hyps = a ++ Scored e s :: b /\ hyps' = a ++ Scored e s' :: b /\ f32_lt s s' = true.
