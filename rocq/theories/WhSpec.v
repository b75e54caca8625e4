(** Which headers an operation over a WebSocket should have. *)
From Coq Require Import Ascii String List NArith ZArith Bool Permutation.
From Verif Require Import StrUtil CoerceModel WhModel.
Import ListNotations.
Local Open Scope string_scope.
Local Open Scope list_scope.

(** ** Headers that HTTP allows *)
Definition lower_token : list ascii := list_ascii_of_string "!#$%&'*+-.^_`|~0123456789abcdefghijklmnopqrstuvwxyz".
Definition token : list ascii := lower_token ++ list_ascii_of_string "ABCDEFGHIJKLMNOPQRSTUVWXYZ".
Definition legal_name (n : string) : Prop := n <> "" /\ (N.of_nat (String.length n) <= 65535)%N /\ forall c, In c (list_ascii_of_string n) -> In c lower_token.
(** No control characters but tabs; in particular no ends of lines *)
Definition legal_value (v : string) : Prop := forall c, In c (list_ascii_of_string v) -> c = "009"%char \/ (32 <= N_of_ascii c /\ N_of_ascii c <> 127)%N.
Definition ascii_value (v : string) : Prop := forall c, In c (list_ascii_of_string v) -> c = "009"%char \/ (32 <= N_of_ascii c < 127)%N.

Section Spec.
  Variable float_text : N -> string.
  (** The text of a value *)
  Inductive renders : json -> string -> Prop :=
  | r_str s : legal_value s -> renders (JStr s) s
  | r_true : renders (JBool true) "true"
  | r_false : renders (JBool false) "false"
  | r_nat n : renders (JInt (Z.of_N n)) (N_to_dec n)
  | r_neg n : (0 < n)%N -> renders (JInt (- Z.of_N n)) ("-" ++ N_to_dec n)
  | r_float b : legal_value (float_text b) -> renders (JFloat b) (float_text b).
  (** A list of entries asks for a header, whatever the case of its letters *)
  Definition asks (l : list (string * json)) (n v : string) : Prop :=
    exists k j, In (k, j) l /\ k <> "" /\ (N.of_nat (String.length k) <= 65535)%N /\ (forall c, In c (list_ascii_of_string k) -> In c token) /\ lower k = n /\ renders j v.
  (** ... and never for two values of one header *)
  Definition consistent (l : list (string * json)) : Prop := forall n v w, asks l n v -> asks l n w -> v = w.
  Definition has (h : hmap) (n v : string) : Prop := In (n, v) h.
  Definition one_each {A} (l : list (string * A)) : Prop := NoDup (map fst l).

  (** Where the entries of the connection are: in an object [headers] of the payload, or in the payload itself *)
  Inductive connection_entries : option (list (string * json)) -> list (string * json) -> Prop :=
  | in_nothing : connection_entries None []
  | in_headers fields o : In ("headers", JObj o) fields -> connection_entries (Some fields) o
  | in_fields fields : (forall o, ~ In ("headers", JObj o) fields) -> connection_entries (Some fields) fields.
  (** Those of an operation are in [headers] of its extensions *)
  Inductive operation_entries : option (list (string * json)) -> list (string * json) -> Prop :=
  | of_headers ext o : In ("headers", JObj o) ext -> operation_entries (Some ext) o
  | of_others ext : (forall o, ~ In ("headers", JObj o) ext) -> operation_entries (Some ext) []
  | of_nothing : operation_entries None [].

  (** One list of entries over another *)
  Definition over (top bottom : string -> string -> Prop) (n v : string) : Prop := top n v \/ (~ exists w, top n w) /\ bottom n v.
  Definition none (n v : string) : Prop := False.
  (** What the sources give, without remembering *)
  Definition meant (src : source) (conn op : list (string * json)) : string -> string -> Prop :=
    match src with
    | FromNone => none
    | FromConnection => asks conn
    | FromOperation => asks op
    | FromBoth => over (asks op) (asks conn)
    end.
  (** With remembering: the operations so far, the latest first *)
  Fixpoint latest (conn : list (string * json)) (ops : list (list (string * json))) : string -> string -> Prop :=
    match ops with [] => asks conn | o :: earlier => over (asks o) (latest conn earlier) end.
  (** Maps have one entry for a key; a map may be gone through in any order. *)
  Definition unique_fields (p : option (list (string * json))) : Prop := forall f, p = Some f -> one_each f.
  Definition fair (o : wop) : Prop := forall l, Permutation l (o_ord o l).
  (** A payload whose headers are its own fields, written in lower case *)
  Definition flat (fields : list (string * json)) : Prop := one_each fields /\ forall o, ~ In ("headers", JObj o) fields.
  Definition lowered (fields : list (string * json)) : Prop := flat fields /\ forall k j, In (k, j) fields -> lower k = k.
  (** An operation with the entries of its headers, which have values of plain ASCII *)
  Definition suits (o : wop) (e : list (string * json)) : Prop :=
    fair o /\ unique_fields (o_ext o) /\ operation_entries (o_ext o) e /\ consistent e /\ forall n v, asks e n v -> ascii_value v.
End Spec.
