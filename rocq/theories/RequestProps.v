(** Property C40: naming subgraph operations; and the request body sent to subgraphs. *)
From Coq Require Import String Ascii List NArith ZArith Bool Arith.
From Verif Require Import StrOrd StrUtil JsonModel JsonWriterModel JsonText JsonWriterProofs
  ProjModel ProjSpec ProjTextProofs RequestModel RequestSpec RequestProofs.
Import ListNotations.
Local Open Scope string_scope.

(** C40: for every operation the planner prints, writing a name at the recorded position gives
    a document whose header reads: same operation type, that name, same rest.  The HTTP and the
    WebSocket transport write the same text. *)
Theorem C40_naming_changes_only_the_name :
  forall kind vars sel frags name,
  starts_with "{" sel = true -> valid_name name = true ->
  let d := doc_text kind None vars sel frags in
  exists t, ws_query name (name_write_position d) d = Some t /\
            write_named_operation name (name_write_position d) d = Some (quoted t) /\
            read_header d = Some (kind, None, vars_text vars ++ sel ++ frags) /\
            read_header t = Some (kind, Some name, vars_text vars ++ sel ++ frags).
Proof. exact naming_ok. Qed.
Print Assumptions C40_naming_changes_only_the_name.

(** C40: generated names are valid GraphQL names. *)
Theorem C40_generated_names_are_valid :
  forall f client s id n, generate f client s id = Some n -> (0 <= id)%Z ->
  (forall c, client = Some c -> valid_name c = true) -> valid_name n = true.
Proof. exact generate_valid. Qed.
Print Assumptions C40_generated_names_are_valid.

(** C40: a name is forwarded exactly to the subgraphs the configuration asks for. *)
Theorem C40_forwarding_follows_the_configuration :
  forall all overrides known s, In s known ->
  (should_forward (fw_new all overrides known) s = true <->
   if all then ~ override overrides s false else override overrides s true).
Proof. exact forward_ok. Qed.
Print Assumptions C40_forwarding_follows_the_configuration.

(** C40: the request body is JSON and means the named query, all variables, the name and the
    extensions. *)
Theorem C40_request_body_decodes :
  forall query pos name vars raw ext vals ej body,
  (pos = 0 -> starts_with "{" query = true) ->
  match name with Some n => plain n = true | None => True end ->
  Forall2 (fun kv jv => fst kv = fst jv /\ plain (fst kv) = true /\ text_of (snd kv) (snd jv)) (vars ++ raw)%list vals ->
  match ext, ej with Some s, Some j => text_of s j | None, None => True | _, _ => False end ->
  build_request_body query pos name vars raw ext = Some body ->
  decode body = Some (request (match name with
                               | Some n => match ws_query n pos query with Some t => t | None => "" end
                               | None => query end) vals name ej).
Proof. exact body_ok. Qed.
Print Assumptions C40_request_body_decodes.

Theorem C40_request_body_never_panics :
  forall query pos name vars raw ext, pos <= String.length query ->
  exists body, build_request_body query pos name vars raw ext = Some body.
Proof. exact body_total. Qed.
Print Assumptions C40_request_body_never_panics.

Definition q2 : string := String (chr 34) "".
Example C40_example :
  let d := doc_text KQuery None ["$id:ID!"] "{node(id: $id){id}}" "" in
  name_write_position d = 5 /\
  ws_query "Op__2" 5 d = Some "query Op__2($id:ID!){node(id: $id){id}}" /\
  generate FAll (Some "Op") "a" 2 = Some "Op__2" /\
  build_request_body d 5 (Some "Op__2") [("id", q2 ++ "7" ++ q2)] [] None
  = Some ("{" ++ q2 ++ "query" ++ q2 ++ ":" ++ q2 ++ "query Op__2($id:ID!){node(id: $id){id}}" ++ q2
          ++ "," ++ q2 ++ "variables" ++ q2 ++ ":{" ++ q2 ++ "id" ++ q2 ++ ":" ++ q2 ++ "7" ++ q2 ++ "}"
          ++ "," ++ q2 ++ "operationName" ++ q2 ++ ":" ++ q2 ++ "Op__2" ++ q2 ++ "}").
Proof. repeat split; vm_compute; reflexivity. Qed.
