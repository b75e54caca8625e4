(** The request context that coprocessors read and patch.
    Models bin/router/src/executor/request_context/domains/*.rs, deser.rs and api/coprocessor.rs.
    A [HashSet] is a list without repetitions, the kind of the operation is kept as the text it is written as. *)
From Coq Require Import String List Bool.
From Verif Require Import JsonModel.
Import ListNotations.
Local Open Scope string_scope.
Local Open Scope list_scope.

(** domains/mod.rs:109-123, 186-194 *)
Record context := mkcontext {
  op_name : option string; op_kind : option string; unresolved_labels : option (list string); labels_to_override : option (list string);
  jwt_scopes : option (list string); jwt_status : option bool; client_name : option string; client_version : option string;
  skip_enforcement : option bool; custom : list (string * value) }.
Definition set_labels (l : option (list string)) (c : context) : context :=
  mkcontext (op_name c) (op_kind c) (unresolved_labels c) l (jwt_scopes c) (jwt_status c) (client_name c) (client_version c) (skip_enforcement c) (custom c).
Definition set_skip (b : option bool) (c : context) : context :=
  mkcontext (op_name c) (op_kind c) (unresolved_labels c) (labels_to_override c) (jwt_scopes c) (jwt_status c) (client_name c) (client_version c) b (custom c).
Definition set_custom (l : list (string * value)) (c : context) : context :=
  mkcontext (op_name c) (op_kind c) (unresolved_labels c) (labels_to_override c) (jwt_scopes c) (jwt_status c) (client_name c) (client_version c) (skip_enforcement c) l.

Inductive error := UnknownReservedKey (key : string) | ForbiddenReservedMutation (key : string) | ReservedKeyTypeMismatch (key : string).

(** domains/mod.rs:211-228 *)
Definition custom_get (key : string) (l : list (string * value)) : option value := option_map snd (find (fun e => String.eqb (fst e) key) l).
Fixpoint replace (key : string) (v : value) (l : list (string * value)) : list (string * value) :=
  match l with [] => [] | (k, x) :: l' => if String.eqb k key then (k, v) :: l' else (k, x) :: replace key v l' end.
Definition custom_apply (key : string) (v : value) (l : list (string * value)) : list (string * value) :=
  match v with
  | VNull => filter (fun e => negb (String.eqb (fst e) key)) l
  | _ => if existsb (fun e => String.eqb (fst e) key) l then replace key v l else l ++ [(key, v)]
  end.

(** progressive_override.rs:32-47 *)
Definition set_insert (x : string) (l : list string) : list string := if existsb (String.eqb x) l then l else l ++ [x].
Fixpoint strings (l : list value) (acc : list string) : option (list string) :=
  match l with [] => Some acc | VStr s :: l' => strings l' (set_insert s acc) | _ => None end.
Definition put_labels (key : string) (v : value) (c : context) : context * option error :=
  match v with
  | VNull => (set_labels None c, None)
  | VArr l => match strings l [] with Some s => (set_labels (Some s) c, None) | None => (c, Some (ReservedKeyTypeMismatch key)) end
  | _ => (c, Some (ReservedKeyTypeMismatch key))
  end.
(** persisted_documents.rs:22-32 *)
Definition put_skip (key : string) (v : value) (c : context) : context * option error :=
  match v with
  | VNull => (set_skip None c, None)
  | VBool b => (set_skip (Some b) c, None)
  | _ => (c, Some (ReservedKeyTypeMismatch key))
  end.
(** operation.rs:57-63, progressive_override.rs:102-108, authentication.rs:50-56, telemetry.rs:49-55, persisted_documents.rs:74-79; domains/mod.rs:129-143 *)
Definition set_reserved (key : string) (v : value) (c : context) : context * option error :=
  if prefix "hive::operation::" key then
    (c, Some (if String.eqb key "hive::operation::name" then ForbiddenReservedMutation key else if String.eqb key "hive::operation::kind" then ForbiddenReservedMutation key else UnknownReservedKey key))
  else if prefix "hive::progressive_override::" key then
    if String.eqb key "hive::progressive_override::unresolved_labels" then (c, Some (ForbiddenReservedMutation key))
    else if String.eqb key "hive::progressive_override::labels_to_override" then put_labels key v c
    else (c, Some (UnknownReservedKey key))
  else if prefix "hive::authentication::" key then
    (c, Some (if String.eqb key "hive::authentication::jwt_scopes" then ForbiddenReservedMutation key else if String.eqb key "hive::authentication::jwt_status" then ForbiddenReservedMutation key else UnknownReservedKey key))
  else if prefix "hive::telemetry::" key then
    (c, Some (if String.eqb key "hive::telemetry::client_name" then ForbiddenReservedMutation key else if String.eqb key "hive::telemetry::client_version" then ForbiddenReservedMutation key else UnknownReservedKey key))
  else if prefix "hive::persisted_documents::" key then
    if String.eqb key "hive::persisted_documents::skip_enforcement" then put_skip key v c else (c, Some (UnknownReservedKey key))
  else (c, Some (UnknownReservedKey key)).
(** api/coprocessor.rs:33-49 *)
Definition set (key : string) (v : value) (c : context) : context * option error :=
  if negb (prefix "hive::" key) then (set_custom (custom_apply key v (custom c)) c, None) else set_reserved key v c.
Fixpoint apply_patch (patch : list (string * value)) (c : context) : context * option error :=
  match patch with
  | [] => (c, None)
  | (k, v) :: p => let '(c', e) := set k v c in match e with None => apply_patch p c' | Some e => (c', Some e) end
  end.

(** domains/mod.rs:77-101: the fields of each domain *)
Section Write.
  (** the order of a [HashSet] *)
  Variable iter : list string -> list string.
  Definition of_set (s : list string) : value := VArr (map VStr (iter s)).
  Definition opt (key : string) (v : option value) : list (string * value) := match v with Some x => [(key, x)] | None => [] end.
  Definition operation_all (c : context) := opt "hive::operation::name" (option_map VStr (op_name c)) ++ opt "hive::operation::kind" (option_map VStr (op_kind c)).
  Definition override_all (c : context) :=
    opt "hive::progressive_override::unresolved_labels" (option_map of_set (unresolved_labels c)) ++ opt "hive::progressive_override::labels_to_override" (option_map of_set (labels_to_override c)).
  Definition authentication_all (c : context) := opt "hive::authentication::jwt_scopes" (option_map of_set (jwt_scopes c)) ++ opt "hive::authentication::jwt_status" (option_map VBool (jwt_status c)).
  Definition telemetry_all (c : context) := opt "hive::telemetry::client_name" (option_map VStr (client_name c)) ++ opt "hive::telemetry::client_version" (option_map VStr (client_version c)).
  Definition documents_all (c : context) := opt "hive::persisted_documents::skip_enforcement" (option_map VBool (skip_enforcement c)).
  (** deser.rs:71-87 *)
  Definition write_all (c : context) : list (string * value) :=
    operation_all c ++ override_all c ++ authentication_all c ++ telemetry_all c ++ documents_all c ++ custom c.
  (** domains/mod.rs:94-101, 157-184 *)
  Definition one (key : string) (fields : list (string * option value)) : list (string * value) :=
    match find (fun f => String.eqb (fst f) key) fields with Some f => opt key (snd f) | None => [] end.
  Definition write_reserved (c : context) (key : string) : option (list (string * value)) :=
    if prefix "hive::operation::" key then Some (one key [("hive::operation::name", option_map VStr (op_name c)); ("hive::operation::kind", option_map VStr (op_kind c))])
    else if prefix "hive::progressive_override::" key then
      Some (one key [("hive::progressive_override::unresolved_labels", option_map of_set (unresolved_labels c)); ("hive::progressive_override::labels_to_override", option_map of_set (labels_to_override c))])
    else if prefix "hive::authentication::" key then
      Some (one key [("hive::authentication::jwt_scopes", option_map of_set (jwt_scopes c)); ("hive::authentication::jwt_status", option_map VBool (jwt_status c))])
    else if prefix "hive::telemetry::" key then
      Some (one key [("hive::telemetry::client_name", option_map VStr (client_name c)); ("hive::telemetry::client_version", option_map VStr (client_version c))])
    else if prefix "hive::persisted_documents::" key then Some (one key [("hive::persisted_documents::skip_enforcement", option_map VBool (skip_enforcement c))])
    else None.
  (** deser.rs:89-114 *)
  Definition write_key (c : context) (key : string) : list (string * value) :=
    match write_reserved c key with Some l => l | None => opt key (custom_get key (custom c)) end.
  Definition write_selected (all : bool) (keys : list string) (c : context) : list (string * value) :=
    if all then write_all c else flat_map (write_key c) keys.
End Write.
