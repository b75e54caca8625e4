(** The messages of graphql-transport-ws, written and read.
    Models bin/router/src/executor/executors/graphql_transport_ws.rs:79-89,138-282,298-460. Messages are JSON values; the
    text of a value and the values themselves are left to sonic_rs. *)
From Coq Require Import String List NArith ZArith Bool.
From Verif Require Import CoerceModel WhModel.
Import ListNotations.
Local Open Scope string_scope.
Local Open Scope list_scope.

Notation fields := (list (string * json)).
(** [SubscribePayload], lines 79-89 *)
Record spayload := mksp { sp_query : string; sp_name : option string; sp_variables : option fields; sp_extensions : option fields }.
(** [ClientMessage], lines 138-158 *)
Inductive cmsg := CInit (payload : option fields) | CPing | CPong | CSubscribe (id : string) (payload : spayload) | CComplete (id : string).

(** [missing_field], [unknown_variant], "expected object", errors of a payload *)
Inductive merr := NotAnObject | MissingField (f : string) | UnknownType (t : string) | BadPayload.
Inductive mres (A : Type) := MOk (a : A) | MErr (e : merr).
Arguments MOk {A}. Arguments MErr {A}.
Definition mbind {A B} (r : mres A) (f : A -> mres B) : mres B := match r with MOk a => f a | MErr e => MErr e end.
Notation "x <~ r ; k" := (mbind r (fun x => k)) (at level 60, r at next level, right associativity).
Definition or_err {A} (e : merr) (o : option A) : mres A := match o with Some a => MOk a | None => MErr e end.

Definition as_str (j : json) : option string := match j with JStr s => Some s | _ => None end.
Definition str_field (k : string) (o : fields) : mres string := or_err (MissingField k) (match kget k o with Some j => as_str j | None => None end).
(** A [HashMap] out of the entries of an object *)
Definition to_map (o : fields) : fields := fold_left (fun m kv => put (fst kv) (snd kv) m) o [].

(** ** Writing: the derived [Serialize] with the tag [type] and snake-case names *)
Definition opt_json {A} (f : A -> json) (o : option A) : json := match o with Some a => f a | None => JNull end.
Definition write_payload (p : spayload) : json :=
  JObj [("query", JStr (sp_query p)); ("operationName", opt_json JStr (sp_name p)); ("variables", opt_json JObj (sp_variables p)); ("extensions", opt_json JObj (sp_extensions p))].
Definition tagged (t : string) (rest : fields) : json := JObj (("type", JStr t) :: rest).
Definition write_client (m : cmsg) : json :=
  match m with
  | CInit p => tagged "connection_init" [("payload", opt_json JObj p)]
  | CPing => tagged "ping" []
  | CPong => tagged "pong" []
  | CSubscribe id p => tagged "subscribe" [("id", JStr id); ("payload", write_payload p)]
  | CComplete id => tagged "complete" [("id", JStr id)]
  end.

(** ** Reading *)
Section Read.
  (** The derived [Deserialize] of a structure also takes arrays. *)
  Variable from_array : list json -> option spayload.
  Definition count (k : string) (o : fields) : nat := List.length (filter (fun kv => String.eqb (fst kv) k) o).
  (** The derived [Deserialize], lines 79-89: no field twice, [query] may be missing, options may be missing or null, others are passed over *)
  Definition opt_field {A} (read : json -> option A) (k : string) (o : fields) : mres (option A) :=
    match kget k o with
    | None | Some JNull => MOk None
    | Some j => match read j with Some a => MOk (Some a) | None => MErr BadPayload end
    end.
  Definition as_map (j : json) : option fields := match j with JObj o => Some (to_map o) | _ => None end.
  Definition read_payload (j : json) : mres spayload :=
    match j with
    | JObj o =>
        if existsb (fun k => Nat.ltb 1 (count k o)) ["query"; "operationName"; "variables"; "extensions"] then MErr BadPayload
        else
          q <~ match kget "query" o with None => MOk "" | Some j => or_err BadPayload (as_str j) end;
          n <~ opt_field as_str "operationName" o;
          v <~ opt_field as_map "variables" o;
          e <~ opt_field as_map "extensions" o;
          MOk (mksp q n v e)
    | JArr l => or_err BadPayload (from_array l)
    | _ => MErr BadPayload
    end.
  (** lines 160-228; of the payload of a connection lines 261-277 *)
  Definition read_client (j : json) : mres cmsg :=
    match j with
    | JObj o =>
        t <~ str_field "type" o;
        if String.eqb t "connection_init" then
          match kget "payload" o with
          | None | Some JNull => MOk (CInit None)
          | Some (JObj f) => MOk (CInit (Some (to_map f)))
          | Some _ => MErr BadPayload
          end
        else if String.eqb t "ping" then MOk CPing
        else if String.eqb t "pong" then MOk CPong
        else if String.eqb t "subscribe" then
          id <~ str_field "id" o;
          j <~ or_err (MissingField "payload") (kget "payload" o);
          p <~ read_payload j;
          MOk (CSubscribe id p)
        else if String.eqb t "complete" then id <~ str_field "id" o; MOk (CComplete id)
        else MErr (UnknownType t)
    | _ => MErr NotAnObject
    end.
End Read.

(** ** Messages of the server, lines 298-460 *)
Section Server.
  (** [GraphQLError] with its [Serialize] and [Deserialize] *)
  Variable gerror : Type.
  Variable write_error : gerror -> json.
  Variable read_error : json -> option gerror.
  Inductive smsg := SAck | SPing | SPong | SNext (id : string) (payload : json) | SError (id : string) (payload : list gerror) | SComplete (id : string).
  Definition write_server (m : smsg) : json :=
    match m with
    | SAck => tagged "connection_ack" []
    | SPing => tagged "ping" []
    | SPong => tagged "pong" []
    | SNext id p => tagged "next" [("id", JStr id); ("payload", p)]
    | SError id l => tagged "error" [("id", JStr id); ("payload", JArr (map write_error l))]
    | SComplete id => tagged "complete" [("id", JStr id)]
    end.
  Fixpoint read_errors (l : list json) : mres (list gerror) :=
    match l with [] => MOk [] | j :: l' => e <~ or_err BadPayload (read_error j); r <~ read_errors l'; MOk (e :: r) end.
  Definition read_server (j : json) : mres smsg :=
    match j with
    | JObj o =>
        t <~ str_field "type" o;
        if String.eqb t "connection_ack" then MOk SAck
        else if String.eqb t "ping" then MOk SPing
        else if String.eqb t "pong" then MOk SPong
        else if String.eqb t "next" then
          id <~ str_field "id" o;
          MOk (SNext id (match kget "payload" o with Some p => p | None => JNull end))
        else if String.eqb t "error" then
          id <~ str_field "id" o;
          p <~ or_err (MissingField "payload") (kget "payload" o);
          l <~ match p with JArr l => read_errors l | _ => MErr BadPayload end;
          MOk (SError id l)
        else if String.eqb t "complete" then id <~ str_field "id" o; MOk (SComplete id)
        else MErr (UnknownType t)
    | _ => MErr NotAnObject
    end.
End Server.
