(** What naming an operation means: reading the header of a GraphQL operation (spec section 2). *)
From Coq Require Import String Ascii List NArith Bool.
From Verif Require Import JsonText RequestModel.
Import ListNotations.
Local Open Scope string_scope.

Definition name_start (c : ascii) : bool :=
  let n := code c in
  ((N.leb 65 n && N.leb n 90) || (N.leb 97 n && N.leb n 122) || N.eqb n 95)%bool.
Definition name_char (c : ascii) : bool := (name_start c || is_dig c)%bool.

(** the longest prefix of name characters *)
Fixpoint take_name (s : string) : string * string :=
  match s with
  | String c r => if name_char c then let '(a, b) := take_name r in (String c a, b) else ("", s)
  | EmptyString => ("", "")
  end.
(** spaces are insignificant between tokens *)
Fixpoint skip_sp (s : string) : string :=
  match s with String c r => if N.eqb (code c) 32 then skip_sp r else s | EmptyString => "" end.

Definition kind_of (s : string) : option okind :=
  if String.eqb s "query" then Some KQuery
  else if String.eqb s "mutation" then Some KMutation
  else if String.eqb s "subscription" then Some KSubscription else None.

(** operation type, optional name, the rest from the variable definitions or selection set on *)
Definition read_header (s : string) : option (okind * option string * string) :=
  match skip_sp s with
  | EmptyString => None
  | String c _ as s =>
      if N.eqb (code c) 123 then Some (KQuery, None, s)
      else
        let '(k, r) := take_name s in
        match kind_of k with
        | None => None
        | Some k =>
            match skip_sp r with
            | String d _ as r => if name_start d then let '(n, r) := take_name r in Some (k, Some n, skip_sp r)
                                 else Some (k, None, r)
            | EmptyString => Some (k, None, "")
            end
        end
  end.

(** a GraphQL name *)
Definition valid_name (s : string) : bool :=
  match s with
  | String c r => (name_start c && (fix all s := match s with String c r => name_char c && all r | EmptyString => true end) r)%bool
  | EmptyString => false
  end.
