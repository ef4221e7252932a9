(** The insertion operators of /repo/core: the text [operator<<] writes for
    integers, strings, boxes and events (default flags of std::ostream, "C"
    locale).  Output errors are not modelled. *)
From Coq Require Import Ascii String List ZArith.
From Verif.Model Require Import Cpp Box Events.
Import ListNotations.
Local Open Scope Z_scope.

(** The character of a decimal digit. *)
Definition digit_char (d : Z) : ascii := ascii_of_N (Z.to_N (48 + d)).

(** Decimal digits of a number, the most significant first. *)
Fixpoint dec_digits (fuel : nat) (n : Z) : bytes :=
  match fuel with
  | O => [digit_char n]
  | S fuel' =>
      if n <? 10 then [digit_char n]
      else dec_digits fuel' (n / 10) ++ [digit_char (n mod 10)]
  end.

(** [os << n] for an unsigned integer. *)
Definition write_uint (n : Z) : bytes := dec_digits (Z.to_nat (Z.log2 n)) n.

(** The literal [" "]. *)
Definition sp : bytes := [" "%char].

(** /repo/core/BoundingBox.h:71-75, [operator<<], T = uint32_t. *)
Definition write_box (b : box) : bytes :=
  write_uint (bx b) ++ sp ++ write_uint (by_ b) ++ sp ++ write_uint (bw b) ++ sp ++ write_uint (bh b).

(** /repo/core/DocumentBoundingBox.h:64-68, [operator<<]. *)
Definition write_docbox (d : docbox) : bytes := db_doc d ++ sp ++ write_box (db_box d).

(** /repo/core/Event.h:67-71, [operator<<]. *)
Definition write_event {Q L} (wq : Q -> bytes) (wl : L -> bytes) (e : event Q L) : bytes :=
  wq (ev_query e) ++ sp ++ wl (ev_loc e).

(** Event<std::string, DocumentBoundingBox<uint32_t>>. *)
Definition write_shaped : shaped -> bytes := write_event (fun q => q) write_docbox.

(** Event<std::string, std::string>. *)
Definition write_str_event : event bytes bytes -> bytes := write_event (fun q => q) (fun l => l).
