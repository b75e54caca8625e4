(** The headers of an operation that comes over a WebSocket.
    Models bin/router/src/pipeline/websocket_server.rs:314-360,809-875, config/websocket.rs:101-115 and the
    headers a router gives to a subgraph, executor/executors/graphql_transport_ws.rs:284-297. *)
From Coq Require Import Ascii String List NArith ZArith Bool.
From Verif Require Import StrUtil CoerceModel HeadersModel.
Import ListNotations.
Local Open Scope string_scope.
Local Open Scope list_scope.

(** [insert] of a map *)
Fixpoint put {A} (k : string) (v : A) (l : list (string * A)) : list (string * A) :=
  match l with [] => [(k, v)] | (k', v') :: l' => if String.eqb k k' then (k, v) :: l' else (k', v') :: put k v l' end.
(** A [HeaderMap] that has only seen [insert]: lower-case names with one value each *)
Definition hmap := list (string * string).

(** [HeaderName::try_from]: the characters of a token, at most 65535 of them, kept in lower case *)
Definition name_char (c : ascii) : bool :=
  let n := N_of_ascii c in
  ((48 <=? n) && (n <=? 57) || (65 <=? n) && (n <=? 90) || (97 <=? n) && (n <=? 122) || existsb (N.eqb n) [33; 35; 36; 37; 38; 39; 42; 43; 45; 46; 94; 95; 96; 124; 126])%N.
Definition header_name (k : string) : option string :=
  if negb (String.eqb k "") && all_chars name_char k && (N.of_nat (String.length k) <=? 65535)%N then Some (lower k) else None.
(** [HeaderValue::to_str]: visible characters and tabs *)
Definition visible (c : ascii) : bool := let n := N_of_ascii c in ((32 <=? n) && (n <? 127) || (n =? 9))%N.
Definition printable (v : string) : bool := all_chars visible v.

Definition Z_to_dec (z : Z) : string := match z with Zneg p => String "-" (N_to_dec (Npos p)) | _ => N_to_dec (Z.to_N z) end.

Section Headers.
  (** [f64::to_string] *)
  Variable float_text : N -> string.
  Definition checked (s : string) : option string := if valid_value s then Some s else None.
  (** websocket_server.rs:819-834 *)
  Definition header_text (v : json) : option string :=
    match v with
    | JStr s => checked s
    | JBool b => Some (if b then "true" else "false")
    | JInt z => Some (Z_to_dec z)
    | JFloat bits => checked (float_text bits)
    | JNull | JArr _ | JObj _ => None
    end.
  (** lines 812-840 *)
  Definition add_header (m : hmap) (kv : string * json) : hmap :=
    match header_name (fst kv) with
    | None => m
    | Some n => match header_text (snd kv) with Some v => put n v m | None => m end
    end.
  Definition from_object (o : list (string * json)) : hmap := fold_left add_header o [].
  (** lines 841-864; [ord] is the order in which the map of fields is gone through *)
  Definition from_init (ord : list (string * json) -> list (string * json)) (payload : option (list (string * json))) : hmap :=
    match payload with
    | None => []
    | Some fields => match kget "headers" fields with Some (JObj o) => from_object o | _ => from_object (ord fields) end
    end.
  (** lines 865-875 *)
  Definition from_extensions (ext : option (list (string * json))) : hmap :=
    match ext with
    | None => []
    | Some e => match kget "headers" e with Some (JObj o) => from_object o | _ => [] end
    end.

  Inductive source := FromNone | FromConnection | FromOperation | FromBoth.
  Record wconfig := mkwconfig { w_source : source; w_persist : bool }.
  (** config/websocket.rs:101-115 *)
  Definition accepts_connection (c : wconfig) : bool := match w_source c with FromConnection | FromBoth => true | _ => false end.
  Definition accepts_operation (c : wconfig) : bool := match w_source c with FromOperation | FromBoth => true | _ => false end.

  (** A [Subscribe]: how the fields of the connection are gone through at this time, and the extensions *)
  Record wop := mkwop { o_ord : list (string * json) -> list (string * json); o_ext : option (list (string * json)) }.
  Definition store (fields : list (string * json)) (kv : string * string) : list (string * json) :=
    if printable (snd kv) then put (fst kv) (JStr (snd kv)) fields else fields.
  (** lines 314-360: the headers of the operation, and the payload of the connection after it *)
  Definition op_headers (c : wconfig) (payload : option (list (string * json))) (o : wop) : hmap * option (list (string * json)) :=
    let conn := if accepts_connection c then from_init (o_ord o) payload else [] in
    let ext := if accepts_operation c then from_extensions (o_ext o) else [] in
    let headers := fold_left (fun m kv => put (fst kv) (snd kv) m) ext conn in
    (headers, if w_persist c then match payload with Some fields => Some (fold_left store headers fields) | None => None end else payload).
  Fixpoint ops_headers (c : wconfig) (payload : option (list (string * json))) (l : list wop) : list hmap :=
    match l with
    | [] => []
    | o :: l' => let (h, payload') := op_headers c payload o in h :: ops_headers c payload' l'
    end.

  (** graphql_transport_ws.rs:284-297; the headers come in the order of the map, with all values of a name *)
  Definition to_payload (h : list (string * string)) : list (string * json) := fold_left store h [].
End Headers.
