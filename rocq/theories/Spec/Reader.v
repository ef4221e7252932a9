(** The text format of events: what a file means. *)
From Coq Require Import Ascii String List ZArith NArith Reals.
From Flocq Require Import Core BinarySingleNaN.
From Verif.Model Require Import Cpp Floats Box Events Stream.
Import ListNotations.
Local Open Scope Z_scope.

(** ** Characters, words and numbers *)

(** Tab, newline, vertical tab, form feed, carriage return, space. *)
Definition white_char (c : ascii) : Prop := In (N_of_ascii c) [9; 10; 11; 12; 13; 32]%N.

(** White space, possibly none. *)
Definition white (b : bytes) : Prop := Forall white_char b.

(** A non-empty string without white space. *)
Definition word (b : bytes) : Prop := b <> [] /\ Forall (fun c => ~ white_char c) b.

(** The digit [c] stands for [d]. *)
Definition digit_is (c : ascii) (d : Z) : Prop := 0 <= d <= 9 /\ Z.of_N (N_of_ascii c) = 48 + d.

(** One digit or more, and the number they stand for. *)
Inductive numeral : bytes -> Z -> Prop :=
| nm_one c d : digit_is c d -> numeral [c] d
| nm_more b n c d : numeral b n -> digit_is c d -> numeral (b ++ [c]) (10 * n + d).

(** An optional sign; is it a minus? *)
Inductive sign : bytes -> bool -> Prop :=
| sg_none : sign [] false
| sg_plus : sign ["+"%char] false
| sg_minus : sign ["-"%char] true.

(** A coordinate: a number below 2^32; with a minus it counts backwards from
    2^32. *)
Definition u32_text (b : bytes) (v : Z) : Prop := exists s neg ds n,
  b = s ++ ds /\ sign s neg /\ numeral ds n /\ n < 2 ^ 32 /\
  v = if neg then (2 ^ 32 - n) mod 2 ^ 32 else n.

(** A decimal number with optional point and exponent; its value is m * 10^e,
    negated if [neg]. *)
Definition decimal_text (b : bytes) (neg : bool) (m e : Z) : Prop := exists s ip fp x k,
  b = s ++ ip ++ fp ++ x /\ sign s neg /\
  (exists f, (fp = [] /\ f = [] \/ fp = "."%char :: f) /\ numeral (ip ++ f) m /\
     e = k - Z.of_nat (List.length f)) /\
  (x = [] /\ k = 0 \/
   exists c s' neg' ds n, x = c :: s' ++ ds /\ (c = "e"%char \/ c = "E"%char) /\ sign s' neg' /\
     numeral ds n /\ k = if neg' then - n else n).

(** The value of such a number. *)
Definition decimal_value (neg : bool) (m e : Z) : R :=
  ((if neg then -1 else 1) * IZR m * powerRZ 10 e)%R.

(** The float nearest to a real number, ties to even. *)
Definition nearest_f32 (x : R) : R := round radix2 (FLT_exp (-149) 24) ZnearestE x.

(** A score: a decimal number whose nearest float is finite, and that float. *)
Definition score_text (b : bytes) (v : f32) : Prop := exists neg m e,
  decimal_text b neg m e /\ is_finite v = true /\ Bsign v = neg /\
  B2R v = nearest_f32 (decimal_value neg m e).

(** ** Events *)

(** A number may follow a number without white space if it does not begin
    with a digit. *)
Definition gap (g next : bytes) : Prop :=
  white g /\ (g = [] -> forall c t d, next = c :: t -> ~ digit_is c d).

(** Four coordinates. *)
Definition box_text (b : bytes) (v : box) : Prop := exists x g1 y g2 w g3 h,
  b = x ++ g1 ++ y ++ g2 ++ w ++ g3 ++ h /\
  u32_text x (bx v) /\ gap g1 y /\ u32_text y (by_ v) /\ gap g2 w /\ u32_text w (bw v) /\
  gap g3 h /\ u32_text h (bh v).

(** Two texts with white space in between. *)
Definition two_texts {A B} (ta : bytes -> A -> Prop) (tb : bytes -> B -> Prop)
  (b : bytes) (x : A) (y : B) : Prop := exists l g r,
  b = l ++ g ++ r /\ ta l x /\ g <> [] /\ white g /\ tb r y.

(** A word standing for itself. *)
Definition word_text (b v : bytes) : Prop := word b /\ v = b.

(** A document and a box. *)
Definition docbox_text (b : bytes) (v : docbox) : Prop :=
  two_texts word_text box_text b (db_doc v) (db_box v).

(** A query and a box in a document. *)
Definition shaped_text (b : bytes) (v : shaped) : Prop :=
  two_texts word_text docbox_text b (ev_query v) (ev_loc v).

(** A query and the name of a location. *)
Definition str_event_text (b : bytes) (v : event bytes bytes) : Prop :=
  two_texts word_text word_text b (ev_query v) (ev_loc v).

(** The same with scores.  The score may follow a box directly if it does
    not begin with a digit. *)
Definition scored_shaped_text (b : bytes) (v : scored shaped) : Prop := exists l g r,
  b = l ++ g ++ r /\ shaped_text l (sc_base v) /\ gap g r /\ score_text r (sc_score v).

Definition scored_str_event_text (b : bytes) (v : scored (event bytes bytes)) : Prop :=
  two_texts str_event_text score_text b (sc_base v) (sc_score v).

(** ** Lines and files *)

(** A line without anything but white space, or a comment. *)
Definition no_event (l : bytes) : Prop :=
  white l \/ exists i t, l = i ++ "#"%char :: t /\ white i.

(** A line with an event. *)
Definition event_line {E} (text : bytes -> E -> Prop) (l : bytes) (e : E) : Prop :=
  exists i x t, l = i ++ x ++ t /\ white i /\ white t /\ text x e /\
    forall r, x <> "#"%char :: r.

(** The lines of a file; the last one need not end in a newline. *)
Inductive file_lines : bytes -> list bytes -> Prop :=
| fl_nil : file_lines [] []
| fl_last l : l <> [] -> ~ In (ascii_of_N 10) l -> file_lines l [l]
| fl_line l b ls : ~ In (ascii_of_N 10) l -> file_lines b ls ->
    file_lines (l ++ ascii_of_N 10 :: b) (l :: ls).

(** What is read from lines numbered from [n]: the events up to the first
    line that is neither an event nor empty or a comment, and its number. *)
Inductive events_of {E} (text : bytes -> E -> Prop) : nat -> list bytes -> list E -> option nat -> Prop :=
| eo_nil n : events_of text n [] [] None
| eo_skip n l ls es b : no_event l -> events_of text (S n) ls es b -> events_of text n (l :: ls) es b
| eo_event n l e ls es b : event_line text l e -> events_of text (S n) ls es b ->
    events_of text n (l :: ls) (e :: es) b
| eo_bad n l ls : ~ no_event l -> (forall e, ~ event_line text l e) -> events_of text n (l :: ls) [] (Some n).

(** Two lines that differ only in the white space at their ends, and two
    files that differ only in this and in the lines without event. *)
Definition same_line (l l' : bytes) : Prop := exists i j x i' j',
  l = i ++ x ++ j /\ l' = i' ++ x ++ j' /\ white i /\ white j /\ white i' /\ white j'.

Inductive same_lines : list bytes -> list bytes -> Prop :=
| sl_nil : same_lines [] []
| sl_skip_l l ls ls' : no_event l -> same_lines ls ls' -> same_lines (l :: ls) ls'
| sl_skip_r l ls ls' : no_event l -> same_lines ls ls' -> same_lines ls (l :: ls')
| sl_line l l' ls ls' : same_line l l' -> same_lines ls ls' -> same_lines (l :: ls) (l' :: ls').

(** Mapping events one after the other. *)
Fixpoint map_all {A B S} (m : S -> A -> outcome (B * S)) (st : S) (es : list A) : outcome (list B * S) :=
  match es with
  | [] => Ok ([], st)
  | e :: es' =>
      match m st e with
      | Ok (e', st') =>
          match map_all m st' es' with
          | Ok (l, st'') => Ok (e' :: l, st'')
          | UB => UB
          | Throw x => Throw x
          end
      | UB => UB
      | Throw x => Throw x
      end
  end.

(** The four kinds of event files the tools read, with the extraction
    operator used: references and hypotheses of Icdar17KwsEval and of
    SimpleKwsEval. *)
Inductive format : forall {E : Type}, (istream -> E * istream) -> (bytes -> E -> Prop) -> Prop :=
| fm_shaped : format read_shaped shaped_text
| fm_scored_shaped : format (read_scored read_shaped) scored_shaped_text
| fm_str_event : format read_str_event str_event_text
| fm_scored_str_event : format (read_scored read_str_event) scored_str_event_text.

(** ** Written files *)

(** One line for each event, written with [w]. *)
Definition text_of {E} (w : E -> bytes) (es : list E) : bytes := flat_map (fun e => w e ++ [ascii_of_N 10]) es.

(** A box of 32-bit unsigned numbers. *)
Definition u32_box (b : box) : Prop := is_u32 (bx b) /\ is_u32 (by_ b) /\ is_u32 (bw b) /\ is_u32 (bh b).

(** Does a string begin with #? *)
Definition hashed (b : bytes) : bool := match b with c :: _ => Ascii.eqb c "#"%char | [] => false end.
