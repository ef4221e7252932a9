(** Inputs of runs found by computation, for the examples. *)
From Coq Require Import Ascii String List Bool ZArith Lia.
From Verif.Model Require Import Cpp Floats Events Mapper Stream Reader Options Tool.
From Verif.Spec Require Import Reader Options Tool.
From Verif.Proofs Require Reader Queries Tool Programs Instances.
Import ListNotations.

(** The configuration a command line gives. *)
Definition config_for (args : list bytes) : option config :=
  match parse tool_options args initial_store with
  | PTrue s => Some (config_of s)
  | _ => None
  end.

Lemma config_for_ok args c : config_for args = Some c -> command args c.
Proof.
  unfold config_for. intros E. apply Programs.command_parse.
  destruct (parse tool_options args initial_store) as [s|e s|s] eqn:P; try discriminate.
  injection E as <-. exists s. split; reflexivity.
Qed.

Lemma config_for_none args : config_for args = None -> (forall s, parse tool_options args initial_store <> PExit s) -> bad_command args.
Proof.
  unfold config_for. intros E N. split.
  - intros H. apply Programs.help_parse in H as [s H]. exact (N s H).
  - intros c H. apply Programs.command_parse in H as (s & H & _). rewrite H in E. discriminate.
Qed.

(** The events of a text as the reader finds them. *)
Definition events_in {E} (rd : istream -> E * istream) (b : option bytes) : option (list E) :=
  match b with
  | None => None
  | Some b =>
      match read_stream rd identity_mapper (open_stream b) [] tt with
      | Ok r => if rr_ok r then Some (rr_events r) else None
      | _ => None
      end
  end.

Lemma events_in_ok {E} rd (text : bytes -> E -> Prop) b es : format rd text -> events_in rd b = Some es ->
  exists b', b = Some b' /\ events_file text b' es.
Proof.
  intros F E1. destruct b as [b|]; [|discriminate]. exists b. split; [reflexivity|]. unfold events_in in E1.
  destruct (Tool.file_cases rd text b F) as [(es' & H)|H].
  - rewrite (Tool.read_good rd text identity_mapper b tt es' [] F H), Instances.map_all_id in E1.
    cbn in E1. injection E1 as <-. exact H.
  - destruct (Tool.read_broken rd text identity_mapper b tt [] F H) as (es' & n & R).
    rewrite R, Instances.map_all_id in E1. discriminate.
Qed.

(** The words and the lines of a text. *)
Fixpoint words_in (ls : list bytes) : option (list (list bytes)) :=
  match ls with
  | [] => Some []
  | l :: t =>
      match words_of l, words_in t with
      | Ok ws, Some r => if Nat.leb 2 (List.length ws) then Some (ws :: r) else None
      | _, _ => None
      end
  end.

Lemma words_in_ok ls : forall fs, words_in ls = Some fs -> Forall2 words ls fs /\ forall f, In f fs -> (2 <= List.length f)%nat.
Proof.
  induction ls as [|l t IH]; intros fs E.
  - injection E as <-. split; [constructor|intros f []].
  - cbn [words_in] in E. destruct (words_of l) as [ws| |] eqn:W; try discriminate.
    destruct (words_in t) as [r|]; [|discriminate]. destruct (Nat.leb 2 (List.length ws)) eqn:L; [|discriminate].
    injection E as <-. destruct (IH r eq_refl) as [I1 I2]. apply Nat.leb_le in L. split.
    + constructor; [|exact I1]. destruct (Queries.words_exists l) as [ws' W']. rewrite (Queries.words_of_ok l ws' W') in W. injection W as <-. exact W'.
    + intros f [<-|I]; auto.
Qed.

(** The file of queries of a configuration. *)
Definition queries_in (w : world) (c : config) : option (query_file bytes) :=
  match cf_querygroups c with
  | [] =>
      match cf_queryset c with
      | [] => Some NoQueries
      | n =>
          match w_file w n with
          | Some b => match words_of b with Ok ws => Some (QuerySet ws) | _ => None end
          | None => None
          end
      end
  | n =>
      match w_file w n with
      | Some b =>
          match lines_of b with
          | Ok ls => option_map QueryGroups (words_in ls)
          | _ => None
          end
      | None => None
      end
  end.

Lemma queries_in_ok w c f : queries_in w c = Some f -> names_queries w c f.
Proof.
  unfold queries_in. destruct (cf_querygroups c) as [|x n] eqn:G.
  - destruct (cf_queryset c) as [|y m] eqn:Q; intros E.
    + injection E as <-. now constructor.
    + destruct (w_file w (y :: m)) as [b|] eqn:W; [|discriminate].
      destruct (words_of b) as [ws| |] eqn:K; try discriminate. injection E as <-.
      apply (nq_set w c b); auto; try congruence.
      destruct (Queries.words_exists b) as [ws' W']. rewrite (Queries.words_of_ok b ws' W') in K. injection K as <-. exact W'.
  - intros E. destruct (w_file w (x :: n)) as [b|] eqn:W; [|discriminate].
    destruct (lines_of b) as [ls| |] eqn:L; try discriminate.
    destruct (words_in ls) as [fs|] eqn:K; [|discriminate]. injection E as <-.
    destruct (words_in_ok ls fs K) as [F1 F2].
    destruct (Reader.file_lines_exists b) as [ls' L']. assert (L2 := Queries.lines_of_ok b ls' L').
    apply (nq_groups w c b ls'); auto; try congruence.
Qed.

(** The inputs of a configuration. *)
Section Inputs.
  Context {ER EH : Type}.
  Variables (rd_r : istream -> ER * istream) (rd_h : istream -> EH * istream).
  Variables (text_r : bytes -> ER -> Prop) (text_h : bytes -> EH -> Prop).
  Hypothesis Fr : format rd_r text_r.
  Hypothesis Fh : format rd_h text_h.

  Definition inputs_in (w : world) (c : config) : option (list ER * list EH * query_file bytes) :=
    match cf_ref c with
    | [] => None
    | n =>
        match events_in rd_r (w_file w n), events_in rd_h (hyp_source w c), queries_in w c with
        | Some rs, Some hs, Some f =>
            match cf_dump c with
            | [] => Some (rs, hs, f)
            | d => if w_writable w d then Some (rs, hs, f) else None
            end
        | _, _, _ => None
        end
    end.

  Lemma inputs_in_ok w c rs hs f : inputs_in w c = Some (rs, hs, f) -> inputs text_r text_h w c rs hs f.
  Proof.
    unfold inputs_in. destruct (cf_ref c) as [|x n] eqn:N; [discriminate|].
    destruct (events_in rd_r (w_file w (x :: n))) as [rs'|] eqn:R; [|discriminate].
    destruct (events_in rd_h (hyp_source w c)) as [hs'|] eqn:H; [|discriminate].
    destruct (queries_in w c) as [f'|] eqn:Q; [|discriminate]. intros E.
    assert (rs' = rs /\ hs' = hs /\ f' = f /\ (cf_dump c <> [] -> w_writable w (cf_dump c) = true)) as (-> & -> & -> & D).
    { destruct (cf_dump c) as [|y d]; [injection E as <- <- <-; repeat split; congruence|].
      destruct (w_writable w (y :: d)); [|discriminate]. injection E as <- <- <-. auto. }
    constructor; [congruence| | | |exact D].
    - rewrite N. exact (events_in_ok rd_r text_r _ _ Fr R).
    - exact (events_in_ok rd_h text_h _ _ Fh H).
    - exact (queries_in_ok w c f Q).
  Qed.
End Inputs.

(** For the two programs. *)
Definition icdar_inputs := inputs_in read_shaped (read_scored read_shaped).
(** See [icdar_inputs]. *)
Definition simple_inputs := inputs_in read_str_event (read_scored read_str_event).

Lemma icdar_inputs_ok w c rs hs f : icdar_inputs w c = Some (rs, hs, f) -> inputs shaped_text scored_shaped_text w c rs hs f.
Proof. exact (inputs_in_ok _ _ _ _ Reader.fm_shaped Reader.fm_scored_shaped w c rs hs f). Qed.

Lemma simple_inputs_ok w c rs hs f : simple_inputs w c = Some (rs, hs, f) -> inputs str_event_text scored_str_event_text w c rs hs f.
Proof. exact (inputs_in_ok _ _ _ _ Reader.fm_str_event Reader.fm_scored_str_event w c rs hs f). Qed.
