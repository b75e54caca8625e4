(** What the protocol graphql-transport-ws calls a message. *)
From Coq Require Import String List NArith ZArith Bool.
From Verif Require Import CoerceModel MsgModel.
Import ListNotations.
Local Open Scope string_scope.
Local Open Scope list_scope.

(** No key twice *)
Definition clear {A} (o : list (string * A)) : Prop := NoDup (map fst o).
Definition without (o : list (string * json)) (k : string) : Prop := forall j, ~ In (k, j) o.

(** A field that may be left out, or null *)
Inductive optional {A} (is : json -> A -> Prop) (o : list (string * json)) (k : string) : option A -> Prop :=
| left_out : without o k -> optional is o k None
| null : In (k, JNull) o -> optional is o k None
| given j a : In (k, j) o -> is j a -> optional is o k (Some a).
Definition text (j : json) (s : string) : Prop := j = JStr s.
Definition object (j : json) (f : list (string * json)) : Prop := j = JObj f.

Definition operation (f : list (string * json)) (p : spayload) : Prop :=
  (In ("query", JStr (sp_query p)) f \/ without f "query" /\ sp_query p = "") /\ optional text f "operationName" (sp_name p) /\
  optional object f "variables" (sp_variables p) /\ optional object f "extensions" (sp_extensions p).

Inductive client_message : json -> cmsg -> Prop :=
| c_init o p : In ("type", JStr "connection_init") o -> optional object o "payload" p -> client_message (JObj o) (CInit p)
| c_ping o : In ("type", JStr "ping") o -> client_message (JObj o) CPing
| c_pong o : In ("type", JStr "pong") o -> client_message (JObj o) CPong
| c_subscribe o id f p : In ("type", JStr "subscribe") o -> In ("id", JStr id) o -> In ("payload", JObj f) o -> operation f p -> client_message (JObj o) (CSubscribe id p)
| c_complete o id : In ("type", JStr "complete") o -> In ("id", JStr id) o -> client_message (JObj o) (CComplete id).

(** No key twice where the reader looks *)
Definition clear_value (j : json) : Prop := forall o, j = JObj o -> clear o.
Definition tidy (j : json) : Prop := forall o, j = JObj o -> clear o /\ forall k v, In (k, v) o -> forall f, v = JObj f -> clear f /\ forall k' v', In (k', v') f -> clear_value v'.

(** Messages that can be written: maps have no key twice. *)
Definition clear_payload (p : spayload) : Prop := (forall f, sp_variables p = Some f -> clear f) /\ (forall f, sp_extensions p = Some f -> clear f).
Definition clear_message (m : cmsg) : Prop := match m with CInit (Some f) => clear f | CSubscribe _ p => clear_payload p | _ => True end.

Section Server.
  Variable gerror : Type.
  Variable is_error : json -> gerror -> Prop.
  Inductive server_message : json -> smsg gerror -> Prop :=
  | s_ack o : In ("type", JStr "connection_ack") o -> server_message (JObj o) (SAck _)
  | s_ping o : In ("type", JStr "ping") o -> server_message (JObj o) (SPing _)
  | s_pong o : In ("type", JStr "pong") o -> server_message (JObj o) (SPong _)
  | s_next o id p : In ("type", JStr "next") o -> In ("id", JStr id) o -> In ("payload", p) o -> server_message (JObj o) (SNext _ id p)
  | s_empty o id : In ("type", JStr "next") o -> In ("id", JStr id) o -> without o "payload" -> server_message (JObj o) (SNext _ id JNull)
  | s_error o id l es : In ("type", JStr "error") o -> In ("id", JStr id) o -> In ("payload", JArr l) o -> Forall2 is_error l es -> server_message (JObj o) (SError _ id es)
  | s_complete o id : In ("type", JStr "complete") o -> In ("id", JStr id) o -> server_message (JObj o) (SComplete _ id).
End Server.
