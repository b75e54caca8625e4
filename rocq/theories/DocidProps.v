(* C60: which document a request runs. *)
From Coq Require Import String Ascii List Bool NArith.
From Verif Require Import StrUtil Utf8 DocidModel DocidSpec DocidText DocidProofs.
Import ListNotations.
Local Open Scope string_scope.
Local Open Scope list_scope.

(* When ids are required, what runs is the stored text of the id taken from the request. *)
Theorem C60_required_runs_stored_text : forall parse resolver cf rq src op, enabled cf = true ->
  prepare parse resolver (Some true) false cf rq src = Good op ->
  exists client id f text, decode parse cf rq src = Good client /\ o_id client = Some id /\
    resolver = Some f /\ f id = inl text /\ p_query (o_params op) = Some text /\ o_id op = Some id /\
    set_query None (o_params op) = set_query None (o_params client).
Proof. exact required_stored. Qed.

(* ... whatever query the client wrote. *)
Theorem C60_required_ignores_query : forall parse resolver cf rq s1 s2, enabled cf = true -> apart s1 s2 ->
  prepare parse resolver (Some true) false cf rq s1 = prepare parse resolver (Some true) false cf rq s2.
Proof. exact required_apart. Qed.

Theorem C60_required_without_id : forall parse resolver cf rq src c, enabled cf = true ->
  decode parse cf rq src = Good c -> o_id c = None ->
  prepare parse resolver (Some true) false cf rq src = Fail IdRequired.
Proof. exact required_missing. Qed.

(* When ids are optional, a query wins over an id. *)
Theorem C60_optional_query_wins : forall parse resolver need skip cf rq src c q,
  enabled cf = true -> (need && negb skip)%bool = false ->
  decode parse cf rq src = Good c -> p_query (o_params c) = Some q ->
  prepare parse resolver (Some need) skip cf rq src = Good (mkop (o_params c) None).
Proof. exact query_kept. Qed.

Theorem C60_optional_without_query : forall parse resolver need skip cf rq src c,
  enabled cf = true -> (need && negb skip)%bool = false ->
  decode parse cf rq src = Good c -> p_query (o_params c) = None ->
  prepare parse resolver (Some need) skip cf rq src =
    match o_id c, resolver with
    | None, _ => Good c
    | Some _, None => Fail NoStorage
    | Some id, Some f => match f id with
                         | inl text => Good (mkop (mkparams (Some text) (p_opname (o_params c))
                             (p_variables (o_params c)) (p_extensions (o_params c))) (Some id))
                         | inr e => Fail (Unresolved e)
                         end
    end.
Proof. exact query_absent. Qed.

Theorem C60_disabled : forall parse resolver r skip cf rq src, enabled cf = false ->
  prepare parse resolver r skip cf rq src =
    match decode parse cf rq src with Good c => Good (mkop (o_params c) None) | Fail f => Fail f end.
Proof. exact disabled_plain. Qed.

(* An id that is reported for an operation is the id of the text that runs. *)
Theorem C60_reported_id : forall parse resolver r skip cf rq src op id,
  prepare parse resolver r skip cf rq src = Good op -> o_id op = Some id ->
  exists f text, resolver = Some f /\ f id = inl text /\ p_query (o_params op) = Some text.
Proof. exact id_means_text. Qed.

(* Selectors are tried in order and the first id is taken. *)
Theorem C60_selector_order : forall sels c id, first_id sels c = Some id <->
  exists pre s post, sels = pre ++ s :: post /\ Forall (fun t => extract t c = None) pre /\ extract s c = Some id.
Proof. exact first_id_iff. Qed.

Theorem C60_id_not_empty : forall sels c id, first_id sels c = Some id -> id <> "".
Proof. exact first_nonempty. Qed.

(* Leaving out the fields that no selector needs changes nothing. *)
Theorem C60_capture_enough : forall cf rq l,
  match read_body (enabled cf && existsb needs_extra (selectors cf)) l with
  | Some b => Some (body_params b, select cf rq (body_params b) (b_docid b) (b_extra b))
  | None => None
  end =
  match read_body true l with
  | Some b => Some (body_params b, select cf rq (body_params b) (b_docid b) (b_extra b))
  | None => None
  end.
Proof. exact capture_enough. Qed.

(* A body says its query once, but for nulls before it. *)
Theorem C60_body_query : forall capture l b s, read_body capture l = Some b -> b_query b = Some s ->
  exists pre post, l = pre ++ ("query", PStr s) :: post /\
    (forall v, In ("query", v) pre -> v = PNull) /\ (forall v, ~ In ("query", v) post).
Proof. exact body_query. Qed.

Theorem C60_body_without_query : forall capture l b, read_body capture l = Some b -> b_query b = None ->
  forall v, In ("query", v) l -> v = PNull.
Proof. exact no_body_query. Qed.

Theorem C60_json_path : forall segs v s, along v segs = Some s <-> exists w, reaches v segs w /\ names w s.
Proof. exact along_iff. Qed.

(* The scan of a query string finds the first pair of the name. *)
Theorem C60_query_param : forall name ps, name <> "" -> lacks amp name -> lacks eqs name ->
  ps <> [] -> Forall (lacks amp) ps ->
  forall r, find_first_value (String.concat "&" ps) name = r <-> first_value name ps r.
Proof. exact query_first. Qed.

Theorem C60_query_pairs : forall q, exists ps, ps <> [] /\ Forall (lacks amp) ps /\ q = String.concat "&" ps.
Proof. exact every_query. Qed.

Theorem C60_percent_decoding : forall v s, written v s -> utf8_ok s = true ->
  decode_if_needed s = if utf8_ok v then Some v else None.
Proof. exact decode_written. Qed.

Theorem C60_path_template : forall ts p id, path_param ts (Some p) = Some id <->
  exists ps ids, p = slashed ps /\ Forall (lacks slash) ps /\ fits ts ps (id :: ids).
Proof. exact path_iff. Qed.

Theorem C60_relative_path : forall e p suf, e <> "/" -> relative_path e p = Some suf <->
  p = (e ++ suf)%string /\ (suf = "" \/ exists r, suf = ("/" ++ r)%string).
Proof. exact relative_iff. Qed.

Theorem C60_document_id_selector : forall c id,
  extract (JsonPath "documentId") c = Some id <-> c_docid c = Some id /\ id <> "".
Proof. exact docid_sel. Qed.

Theorem C60_json_selector : forall first rest c id, Forall (lacks "."%char) (first :: rest) ->
  String.concat "." (first :: rest) <> "documentId" ->
  first <> "query" -> first <> "operationName" -> first <> "variables" ->
  extract (JsonPath (String.concat "." (first :: rest))) c = Some id <->
  id <> "" /\ exists o, (if String.eqb first "extensions" then p_extensions (c_params c) else c_extra c) = Some o /\
    exists k rest' b v a w, (if String.eqb first "extensions" then rest else first :: rest) = k :: rest' /\
      o = b ++ (k, v) :: a /\ (forall x, ~ In (k, x) a) /\ reaches v rest' w /\ names w id.
Proof. exact json_sel. Qed.

Theorem C60_query_selector : forall name c id, name <> "" -> lacks amp name -> lacks eqs name ->
  extract (UrlQueryParam name) c = Some id <->
  id <> "" /\ exists ps s, c_query c = Some (String.concat "&" ps) /\ ps <> [] /\ Forall (lacks amp) ps /\
    first_value name ps (Some s) /\ decode_if_needed s = Some id.
Proof. exact query_sel. Qed.

(* Witnesses *)
Definition no_map (s : string) : option (list (string * pvalue)) := None.
Definition store (s : string) : string + string := if String.eqb s "x" then inl "{ me }" else inr "missing".
Definition by_docid : config := mkconfig true [JsonPath "documentId"] "/graphql".
Definition at_graphql : request := mkrequest "/graphql" None.
Definition json : option string := Some "application/json".

Example C60_required_example :
  prepare no_map (Some store) (Some true) false by_docid at_graphql
    (Post json (Some [("query", PStr "{ secret }"); ("documentId", PStr "x")]))
  = Good (mkop (mkparams (Some "{ me }") None [] None) (Some "x")).
Proof. vm_compute. reflexivity. Qed.

Example C60_query_param_example : query_param "ab=1&a=x%3Ay+z&a=2" "a" = Some "x:y z".
Proof. vm_compute. reflexivity. Qed.

Example C60_path_example :
  select (mkconfig true [UrlPathParam "/v1/*/:id"] "/graphql/") (mkrequest "/graphql/v1/k/abc" None)
    (mkparams None None [] None) None None = Some "abc".
Proof. vm_compute. reflexivity. Qed.

(* A websocket message cannot carry the document id that the same body carries over HTTP. *)
Theorem C60_websocket_document_id_refuted :
  (exists op, prepare no_map (Some store) (Some true) false by_docid at_graphql
     (Post json (Some [("documentId", PStr "x")])) = Good op) /\
  forall p, prepare no_map (Some store) (Some true) false by_docid at_graphql (Override p) = Fail IdRequired.
Proof.
  split; [eexists; vm_compute; reflexivity|]. intros p.
  apply (required_missing no_map (Some store) by_docid at_graphql (Override p) (mkop p None)); [reflexivity| |reflexivity].
  unfold decode. rewrite (override_no_docid at_graphql by_docid p); reflexivity.
Qed.

(* An empty query takes the place of the document that the id names. *)
Theorem C60_empty_query_refuted :
  prepare no_map (Some store) (Some false) false by_docid at_graphql
    (Post json (Some [("query", PStr ""); ("documentId", PStr "x")]))
  = Good (mkop (mkparams (Some "") None [] None) None).
Proof. vm_compute. reflexivity. Qed.

(* An id escaped in the path is not the id that it stands for, as it is in the query string. *)
Theorem C60_path_escape_refuted :
  query_param "id=sha256%3Aab" "id" = Some "sha256:ab" /\
  path_param (template_segs "/:id") (Some "/sha256%3Aab") = Some "sha256%3Aab".
Proof. vm_compute. split; reflexivity. Qed.

Print Assumptions C60_required_runs_stored_text.
Print Assumptions C60_required_ignores_query.
Print Assumptions C60_required_without_id.
Print Assumptions C60_optional_query_wins.
Print Assumptions C60_optional_without_query.
Print Assumptions C60_disabled.
Print Assumptions C60_reported_id.
Print Assumptions C60_selector_order.
Print Assumptions C60_id_not_empty.
Print Assumptions C60_capture_enough.
Print Assumptions C60_body_query.
Print Assumptions C60_body_without_query.
Print Assumptions C60_json_path.
Print Assumptions C60_query_param.
Print Assumptions C60_query_pairs.
Print Assumptions C60_percent_decoding.
Print Assumptions C60_path_template.
Print Assumptions C60_relative_path.
Print Assumptions C60_websocket_document_id_refuted.
Print Assumptions C60_empty_query_refuted.
Print Assumptions C60_path_escape_refuted.
Print Assumptions C60_document_id_selector.
Print Assumptions C60_json_selector.
Print Assumptions C60_query_selector.
