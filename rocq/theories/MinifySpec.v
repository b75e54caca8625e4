(** What a minified document is: its tokens, each in one spelling, with a space where two would run together. *)
From Coq Require Import String Ascii List NArith ZArith Bool.
From Verif Require Import Utf8 Ast CondModel NormModel GqlModel GqlSpec.
Import ListNotations.
Local Open Scope string_scope.
Local Open Scope list_scope.

(** Nothing to escape: no quote, no backslash, no control character *)
Definition harmless (c : ascii) : Prop := (32 <= N_of_ascii c)%N /\ ~ In (N_of_ascii c) [34; 92; 127]%N.
(** A control character below U+000A or a carriage return, or a byte of a character below U+10000 *)
Definition escapable (c : ascii) : Prop := (N_of_ascii c < 10 \/ N_of_ascii c = 13 \/ 32 <= N_of_ascii c < 240)%N.
Definition not_newline (c : ascii) : Prop := N_of_ascii c <> 10%N.
(** Strings of one line that are read back as they are *)
Definition line_fit (s : string) : Prop := each_char not_newline s /\ (each_char harmless s \/ each_char escapable s).
(** Strings of more lines that are read back: the first line and the last one are not blank, some line is not
    indented, blank lines are empty, no carriage returns, no three quotes, and no white space but that of GraphQL *)
Definition block_fit (s : string) : Prop :=
  utf8_ok s = true /\ plain_spaces s /\ ~ contains (String "013" "") s /\ ~ contains quote3 s /\
  Forall (fun l => blank l = true -> l = "") (split_lines s) /\
  (exists x y m, split_lines s = x :: m ++ [y] /\ blank x = false /\ blank y = false) /\
  (exists l, In l (split_lines s) /\ blank l = false /\ indent l = 0).
Definition text_fit (s : string) : Prop := line_fit s \/ block_fit s.

Section Fit.
  Variable f64_of : string -> option N.
  Variable ryu : N -> string.
  (** Tokens that can be written and are read back *)
  Definition token_fit (d : dtok) : Prop :=
    match d with
    | DPunct _ => True
    | DName v => Name v
    | DInt z => in_i64 z
    | DFloat b => FloatText (ryu b) /\ plain_exponent (ryu b) /\ f64_of (ryu b) = Some b
    | DStr s => text_fit s
    end.
  Definition tree_fit (ds : list pdef) : Prop := document_ok ds /\ Forall token_fit (document_tokens ds).
End Fit.
