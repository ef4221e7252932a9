(** Model of /repo/reader/PlainTextMapEventReader.h and
    /repo/reader/PlainTextReader.h. *)
From Coq Require Import List Bool ZArith Ascii.
From Verif.Model Require Import Cpp Floats Events Stream.
Import ListNotations.
Local Open Scope cpp_scope.

Section Reader.
  Context {E1 E2 S : Type}.
  Variable extract : istream -> E1 * istream.           (* operator>> of E1 *)
  Variable mapper : S -> E1 -> outcome (E2 * S).        (* *mapper_, with its state *)

  (** What /repo/reader/PlainTextMapEventReader.h:28-40 makes of one line. *)
  Inductive line_res : Type :=
  | LSkip                (* lines 31-32: comment or empty *)
  | LBad                 (* lines 37-39 *)
  | LEvent (e : E1).     (* line 41 *)

  (** /repo/reader/PlainTextMapEventReader.h:28-41, one line. *)
  Definition read_line (buff : bytes) : line_res :=
    let iss := read_ws (open_stream buff) in
    let (c, iss) := peek iss in
    match c with
    | Some ch =>
        if Ascii.eqb ch "#"%char then LSkip
        else if is_eof iss then LSkip
        else
          let (e, iss) := extract iss in
          let iss := if is_eof iss then iss else read_ws iss in
          if is_fail iss || negb (is_eof iss) then LBad else LEvent e
    | None =>
        (* the character read is EOF, which is not '#', and eofbit is set *)
        if is_eof iss then LSkip
        else
          let (e, iss) := extract iss in
          let iss := if is_eof iss then iss else read_ws iss in
          if is_fail iss || negb (is_eof iss) then LBad else LEvent e
    end.

  (** What [Read] leaves behind: its return value, [*events], the number of
      the line reported on stderr (if any) and the mapper's state. *)
  Record read_res : Type := ReadRes {
    rr_ok : bool;
    rr_events : list E2;
    rr_bad : option nat;
    rr_state : S
  }.

  (** /repo/reader/PlainTextMapEventReader.h:26-43, the loop; [n] is the line
      number and [buff] the buffer of the previous iteration.  Each iteration
      consumes a character or ends the loop, so [fuel] greater than the
      number of characters suffices (proved). *)
  Fixpoint read_loop (fuel : nat) (is : istream) (buff : bytes) (n : nat)
    (events : list E2) (st : S) : outcome read_res :=
    match fuel with
    | O => Throw OutOfFuel
    | Datatypes.S fuel' =>
        let (buff, is) := getline nl buff is in
        if is_fail is then Ok (ReadRes (is_eof is) events None st)
        else
          match read_line buff with
          | LSkip => read_loop fuel' is buff (n + 1) events st
          | LBad => Ok (ReadRes false events (Some n) st)
          | LEvent e =>
              let* (e2, st') := mapper st e in
              read_loop fuel' is buff (n + 1) (events ++ [e2]) st'
          end
    end.

  (** /repo/reader/PlainTextMapEventReader.h:24-44, [Read] from a stream; the
      previous contents of [*events] are cleared. *)
  Definition read_stream (is : istream) (events : list E2) (st : S) : outcome read_res :=
    read_loop (2 + length (is_buf is)) is [] 1 [] st.

  (** /repo/reader/PlainTextMapEventReader.h:46-52, [Read] from a file; the
      contents are [None] when the file cannot be opened. *)
  Definition read_file (contents : option bytes) (events : list E2) (st : S)
    : outcome read_res :=
    match contents with
    | None => Ok (ReadRes false events None st)
    | Some b => read_stream (open_stream b) events st
    end.
End Reader.
Arguments LSkip {E1}.
Arguments LBad {E1}.
Arguments LEvent {E1}.
