(** What a coprocessor sees of the context and may change. *)
From Coq Require Import String List Bool.
From Verif Require Import JsonModel CtxModel.
Import ListNotations.
Local Open Scope string_scope.
Local Open Scope list_scope.

(** Keys of the router *)
Definition reserved (k : string) : Prop := exists r, k = ("hive::" ++ r)%string.
(** What may be set: keys of others, and two of the router with values of their type *)
Inductive legal : string -> value -> Prop :=
| legal_custom k v : ~ reserved k -> legal k v
| legal_labels l : legal "hive::progressive_override::labels_to_override" (VArr (map VStr l))
| legal_no_labels : legal "hive::progressive_override::labels_to_override" VNull
| legal_skip b : legal "hive::persisted_documents::skip_enforcement" (VBool b)
| legal_no_skip : legal "hive::persisted_documents::skip_enforcement" VNull.
(** The last value that a patch gives to a key *)
Definition given (patch : list (string * value)) (k : string) (v : value) : Prop :=
  exists before after, patch = before ++ (k, v) :: after /\ ~ In k (map fst after).
(** The contents of a context under a key *)
Definition holds (iter : list string -> list string) (c : context) (k : string) (v : value) : Prop :=
  let words s := VArr (map VStr (iter s)) in
  (k = "hive::operation::name" /\ exists x, op_name c = Some x /\ v = VStr x) \/
  (k = "hive::operation::kind" /\ exists x, op_kind c = Some x /\ v = VStr x) \/
  (k = "hive::progressive_override::unresolved_labels" /\ exists x, unresolved_labels c = Some x /\ v = words x) \/
  (k = "hive::progressive_override::labels_to_override" /\ exists x, labels_to_override c = Some x /\ v = words x) \/
  (k = "hive::authentication::jwt_scopes" /\ exists x, jwt_scopes c = Some x /\ v = words x) \/
  (k = "hive::authentication::jwt_status" /\ exists x, jwt_status c = Some x /\ v = VBool x) \/
  (k = "hive::telemetry::client_name" /\ exists x, client_name c = Some x /\ v = VStr x) \/
  (k = "hive::telemetry::client_version" /\ exists x, client_version c = Some x /\ v = VStr x) \/
  (k = "hive::persisted_documents::skip_enforcement" /\ exists x, skip_enforcement c = Some x /\ v = VBool x) \/
  In (k, v) (custom c).
(** Custom entries come once and not under the router's keys *)
Definition well_formed (c : context) : Prop := NoDup (map fst (custom c)) /\ forall k, In k (map fst (custom c)) -> ~ reserved k.
