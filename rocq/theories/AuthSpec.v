(** Specification of authorization, stated on the schema directives and the caller's token,
    without interner, metadata, trie or traversal order. *)
From Coq Require Import String List Bool.
From Verif Require Import Ast TrieModel AuthModel.
Import ListNotations.
Local Open Scope string_scope.
Local Open Scope list_scope.

Definition caller_scopes (j : jwt) : list string :=
  match j with Some (Some l) => l | _ => [] end.

(** What [@requiresScopes] (which wins over [@authenticated]) and [@authenticated] demand. *)
Definition satisfies (j : jwt) (d : dirs) : Prop :=
  match d_scopes d with
  | [] => d_authenticated d = true -> j <> None
  | v :: _ =>
      j <> None /\
      exists gs g, v = GList gs /\ In (GList g) gs /\
                   forall s, In (GStr s) g -> In s (caller_scopes j)
  end.

Definition type_allowed (defs : list tydef) (j : jwt) (t : string) : Prop :=
  forall d, In d defs -> k_rules d = true -> k_name d = t -> satisfies j (k_dirs d).

Definition field_allowed (defs : list tydef) (j : jwt) (t f : string) : Prop :=
  forall d fd, In d defs -> k_rules d = true -> k_name d = t -> In (f, fd) (k_fields d) ->
               satisfies j fd.

(** A field selection is allowed when its parent type, the field and its output type are. *)
Definition allowed (Sc : schema) (defs : list tydef) (j : jwt) (parent f : string) : Prop :=
  type_allowed defs j parent /\ field_allowed defs j parent f /\
  forall out nn, field_info Sc parent f = Some (out, nn) -> type_allowed defs j out.

(** Type and field names are unique (they are hash-map keys in the code). *)
Definition unique_names (defs : list tydef) : Prop :=
  NoDup (map k_name defs) /\ forall d, In d defs -> NoDup (map fst (k_fields d)).

(** An active occurrence of a field or of a fragment in a selection set. *)
Record occurrence := mkocc { o_path : path; o_parent : string; o_name : string; o_leaf : bool }.
Record fragocc := mkfocc { g_path : path; g_parent : string; g_cond : string }.

Section Occ.
  Variable Sc : schema.
  Variable vars : string -> bool.

  Definition excluded (skip_if include_if : option string) : bool :=
    (match skip_if with Some v => vars v | None => false end)
    || (match include_if with Some v => negb (vars v) | None => false end).

  Fixpoint occ (x : sel) (parent : string) (p : path) : list occurrence :=
    match x with
    | SField n a _ inc skip _ sub =>
        if excluded skip inc then []
        else if String.eqb n "__typename" then []
        else
          let p' := p ++ [SegField (response_key n a)] in
          mkocc p' parent n (match sub with [] => true | _ => false end) ::
          match field_info Sc parent n with
          | None => []
          | Some (out, _) => flat_map (fun y => occ y out p') sub
          end
    | SFrag t inc skip sub =>
        if excluded skip inc then [] else flat_map (fun y => occ y t (p ++ [SegFrag t])) sub
    | SSpread _ => []
    end.

  Fixpoint frags (x : sel) (parent : string) (p : path) : list fragocc :=
    match x with
    | SField n a _ inc skip _ sub =>
        if excluded skip inc then []
        else if String.eqb n "__typename" then []
        else
          match field_info Sc parent n with
          | None => []
          | Some (out, _) => flat_map (fun y => frags y out (p ++ [SegField (response_key n a)])) sub
          end
    | SFrag t inc skip sub =>
        if excluded skip inc then []
        else mkfocc p parent t :: flat_map (fun y => frags y t (p ++ [SegFrag t])) sub
    | SSpread _ => []
    end.

  Definition occs (xs : list sel) (parent : string) (p : path) : list occurrence :=
    flat_map (fun y => occ y parent p) xs.
  Definition fragsl (xs : list sel) (parent : string) (p : path) : list fragocc :=
    flat_map (fun y => frags y parent p) xs.

  (** ** Declarative null propagation, for given verdicts on fields and fragments *)
  Variable okf : string -> string -> string -> bool.
  Variable okg : string -> string -> bool.

  (** Field paths lying directly in a selection set (through fragments). *)
  Inductive direct_field : path -> list sel -> path -> Prop :=
  | DF_field p xs n a args inc skip om sub :
      In (SField n a args inc skip om sub) xs -> direct_field p xs (p ++ [SegField (response_key n a)])
  | DF_frag p xs t inc skip sub q :
      In (SFrag t inc skip sub) xs -> direct_field (p ++ [SegFrag t]) sub q -> direct_field p xs q.

  (** A non-null field of this selection set is nulled, so the enclosing object is lost. *)
  Inductive bubbles : string -> list sel -> Prop :=
  | B_denied par xs n a args inc skip om sub out :
      In (SField n a args inc skip om sub) xs -> excluded skip inc = false -> n <> "__typename" ->
      field_info Sc par n = Some (out, true) -> okf par n out = false -> bubbles par xs
  | B_up par xs n a args inc skip om sub out :
      In (SField n a args inc skip om sub) xs -> excluded skip inc = false -> n <> "__typename" ->
      field_info Sc par n = Some (out, true) -> okf par n out = true -> bubbles out sub -> bubbles par xs
  | B_frag par xs t inc skip sub :
      In (SFrag t inc skip sub) xs -> excluded skip inc = false -> okg par t = true ->
      bubbles t sub -> bubbles par xs.

  (** The field at path [q] is replaced by null. *)
  Inductive nulled : string -> path -> list sel -> path -> Prop :=
  | N_denied par p xs n a args inc skip om sub out nn :
      In (SField n a args inc skip om sub) xs -> excluded skip inc = false -> n <> "__typename" ->
      field_info Sc par n = Some (out, nn) -> okf par n out = false ->
      nulled par p xs (p ++ [SegField (response_key n a)])
  | N_bubble par p xs n a args inc skip om sub out nn :
      In (SField n a args inc skip om sub) xs -> excluded skip inc = false -> n <> "__typename" ->
      field_info Sc par n = Some (out, nn) -> okf par n out = true -> bubbles out sub ->
      nulled par p xs (p ++ [SegField (response_key n a)])
  | N_in par p xs n a args inc skip om sub out nn q :
      In (SField n a args inc skip om sub) xs -> excluded skip inc = false -> n <> "__typename" ->
      field_info Sc par n = Some (out, nn) -> okf par n out = true ->
      nulled out (p ++ [SegField (response_key n a)]) sub q -> nulled par p xs q
  | N_frag par p xs t inc skip sub q :
      In (SFrag t inc skip sub) xs -> excluded skip inc = false -> okg par t = true ->
      nulled t (p ++ [SegFrag t]) sub q -> nulled par p xs q
  | N_frag_denied par p xs t inc skip sub q :
      In (SFrag t inc skip sub) xs -> excluded skip inc = false -> okg par t = false ->
      direct_field (p ++ [SegFrag t]) sub q -> nulled par p xs q.
End Occ.

(** [q] is the path of a field at or above [r] and strictly below [p]. *)
Definition covers (p q r : path) : Prop :=
  (exists s, r = q ++ s) /\ exists mid k, q = p ++ mid ++ [SegField k].
