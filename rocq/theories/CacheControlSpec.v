(** How a cache reads a Cache-Control header (RFC 9111): a comma separated list of
    case-insensitive directives with optional values. *)
From Coq Require Import String Ascii List Bool NArith.
From Verif Require Import StrUtil.
Import ListNotations.
Local Open Scope string_scope.

Definition directive_of (part : string) : list (string * option string) :=
  match trim part with
  | EmptyString => []
  | p => match split_once "=" p with
         | Some (t, v) => [(lower (trim t), Some (trim v))]
         | None => [(lower p, None)]
         end
  end.
Definition directives (header : string) : list (string * option string) :=
  flat_map directive_of (split_on "," (trim header)).

Definition says (d : string) (header : string) : Prop := exists v, In (d, v) (directives header).
Definition says_max_age (n : N) (header : string) : Prop :=
  exists v, In ("max-age", Some v) (directives header) /\ parse_u32 v = Some n.

(** Some response forbids shared caching. *)
Definition forbids (header : string) : Prop :=
  says "no-store" header \/ says "no-cache" header \/ says "private" header.

(** Headers made only of directives the router knows: the part of the header language
    for which the router does what the documentation says. *)
Definition known (d : string * option string) : bool :=
  let '(t, v) := d in
  existsb (String.eqb t) ["no-store"; "no-cache"; "must-revalidate"; "private"; "public"]
  || (String.eqb t "max-age" &&
      match v with Some v => match parse_u32 v with Some _ => true | None => false end
                 | None => false end).
Definition visible_ascii (c : ascii) : bool :=
  let n := N_of_ascii c in ((32 <=? n) && (n <=? 126) || (n =? 9))%N.
Definition understood (header : string) : Prop :=
  all_chars visible_ascii header = true /\ trim header <> "" /\
  Forall (fun d => known d = true) (directives header).
(** ... and that give at most one max-age (RFC 9111 leaves several undefined). *)
Definition one_max_age (header : string) : Prop :=
  List.length (filter (fun d => String.eqb (fst d) "max-age") (directives header)) <= 1.
