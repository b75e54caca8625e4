(** C72: messages of graphql-transport-ws are read as what was written. *)
From Coq Require Import String List NArith ZArith Bool.
From Verif Require Import CoerceModel WhModel MsgModel MsgSpec MsgProofs.
Import ListNotations.
Local Open Scope string_scope.
Local Open Scope list_scope.

(** What a client writes, a server reads. *)
Theorem C72_client_round_trip : forall from_array m, clear_message m -> read_client from_array (write_client m) = MOk m.
Proof. exact client_round. Qed.
Print Assumptions C72_client_round_trip.
(** What a server writes, a client reads, if it can read its errors. *)
Theorem C72_server_round_trip : forall gerror write_error read_error m, (forall e, read_error (write_error e) = Some e) ->
  read_server gerror read_error (write_server gerror write_error m) = MOk m.
Proof. intros g w r m H. exact (server_round g w r m H). Qed.
Print Assumptions C72_server_round_trip.

(** A server takes exactly the messages of the protocol, with their contents ... *)
Theorem C72_client_messages : forall from_array j m, (forall l, from_array l = None) -> tidy j -> read_client from_array j = MOk m <-> client_message j m.
Proof. intros fa j m NA T. exact (client_ok fa NA j m T). Qed.
Print Assumptions C72_client_messages.
(** ... and so does a client. *)
Theorem C72_server_messages : forall gerror read_error j m, (forall o, j = JObj o -> clear o) ->
  read_server gerror read_error j = MOk m <-> server_message gerror (fun j e => read_error j = Some e) j m.
Proof.
  intros g r j m C. destruct j as [|b|z|b|s|l|o]; try (split; [discriminate|intros H; inversion H]). exact (server_ok g r o m (C o eq_refl)).
Qed.
Print Assumptions C72_server_messages.

(** Two messages are never written alike. *)
Theorem C72_unambiguous : forall m m', clear_message m -> clear_message m' -> write_client m = write_client m' -> m = m'.
Proof. intros m m' C C' E. pose proof (client_round (fun _ => None) m C) as A. rewrite E, (client_round (fun _ => None) m' C') in A. now injection A as <-. Qed.
Print Assumptions C72_unambiguous.

(** The messages that both sides may send are pings, pongs and completions, and they mean the same. *)
Theorem C72_directions : forall from_array gerror write_error read_error m c,
  (read_client from_array (write_server gerror write_error m) = MOk c -> (m = SPing _ /\ c = CPing) \/ (m = SPong _ /\ c = CPong) \/ exists id, m = SComplete _ id /\ c = CComplete id) /\
  (read_server gerror read_error (write_client c) = MOk m -> (m = SPing _ /\ c = CPing) \/ (m = SPong _ /\ c = CPong) \/ exists id, m = SComplete _ id /\ c = CComplete id).
Proof. intros fa g w r m c. split; [exact (to_client g w fa m c)|exact (to_server g r c m)]. Qed.
Print Assumptions C72_directions.

(** The payload of a subscription: a query may be missing, a field may not come twice. *)
Example C72_example_document_id : forall from_array,
  read_client from_array (JObj [("id", JStr "1"); ("type", JStr "subscribe"); ("payload", JObj [("extensions", JObj [("documentId", JStr "d")]); ("variables", JNull); ("other", JInt 1)])]) =
  MOk (CSubscribe "1" (mksp "" None None (Some [("documentId", JStr "d")]))).
Proof. intros fa. vm_compute. reflexivity. Qed.
Example C72_example_twice : forall from_array, read_payload from_array (JObj [("query", JStr "{ a }"); ("query", JStr "{ b }")]) = MErr BadPayload.
Proof. intros fa. vm_compute. reflexivity. Qed.
Example C72_example_refused : forall from_array, map (read_client from_array) [JArr []; JObj []; JObj [("type", JInt 1)]; JObj [("type", JStr "start")]; JObj [("type", JStr "subscribe"); ("id", JInt 1)]; JObj [("type", JStr "subscribe"); ("id", JStr "1")];
    JObj [("type", JStr "complete")]; JObj [("type", JStr "connection_init"); ("payload", JStr "x")]; JObj [("type", JStr "connection_init"); ("payload", JNull)]; JObj [("type", JStr "subscribe"); ("id", JStr "1"); ("payload", JObj [("query", JNull)])]] =
  [MErr NotAnObject; MErr (MissingField "type"); MErr (MissingField "type"); MErr (UnknownType "start"); MErr (MissingField "id"); MErr (MissingField "payload"); MErr (MissingField "id"); MErr BadPayload; MOk (CInit None); MErr BadPayload].
Proof. intros fa. vm_compute. reflexivity. Qed.
Example C72_example_tidy : tidy (JObj [("id", JStr "1"); ("type", JStr "subscribe"); ("payload", JObj [("query", JStr "{ a }")])]).
Proof.
  intros o [= <-]. split; [unfold clear; cbn; repeat constructor; cbn; intuition discriminate|]. intros k v [[= <- <-]|[[= <- <-]|[[= <- <-]|[]]]] f E; try discriminate. injection E as <-. split; [unfold clear; cbn; repeat constructor; intros []|]. intros k' v' [[= <- <-]|[]] o [=].
Qed.
