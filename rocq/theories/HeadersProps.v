(** C19 and C20: header propagation. *)
From Coq Require Import String List Bool.
From Verif Require Import StrUtil HeadersModel HeadersSpec HeadersProofs.
Import ListNotations.
Local Open Scope string_scope.

(** C19, towards subgraphs: whatever the client sends and whatever rules are configured
    (any regexes, any expressions), the lines of a hop-by-hop header in the request to the
    subgraph are exactly those the router itself had put there, as long as no [rename]
    names a hop-by-hop header. *)
Theorem C19_requests_keep_hop_by_hop_out_partial :
  forall n sg client rules out out',
    In n hop_by_hop -> Forall rq_rename_ok rules ->
    apply_request_rules sg client rules out = HOk out' ->
    lines n out' = lines n out.
Proof. exact (fun n sg client rules out out' Hn Hr => apply_request_rules_denied n sg client rules Hn Hr out out'). Qed.
Print Assumptions C19_requests_keep_hop_by_hop_out_partial.

Example C19_request_example :
  apply_request_rules "products" [("authorization", "x"); ("connection", "close"); ("te", "gzip")]
    [RqPropagateRegex (Some (fun _ => true)) None;
     RqPropagateNamed ["te"] (Some "trailers") None;
     RqInsertStatic "connection" "keep-alive"]
    [("content-type", "application/json")]
  = HOk [("content-type", "application/json"); ("authorization", "x")].
Proof. vm_compute. reflexivity. Qed.

(** Missing from the above: a rule may rename an ordinary client header to a hop-by-hop
    header; the check is made on the source name only, so the header is forwarded with a
    value chosen by the client. *)
Theorem C19_request_rename_refuted :
  exists n sg client rules out',
    In n hop_by_hop /\ apply_request_rules sg client rules [] = HOk out' /\ lines n out' <> [].
Proof.
  exists "host", "products", [("x-forwarded-host", "evil.example")],
    [RqPropagateNamed ["x-forwarded-host"] None (Some "host")], [("host", "evil.example")].
  split; [vm_compute; tauto|]. split; [reflexivity|discriminate].
Qed.
Print Assumptions C19_request_rename_refuted.

(** C19, towards the client: same for hop-by-hop headers and for content-type. *)
Theorem C19_responses_keep_hop_by_hop_out_partial :
  forall n rules_of client resps out out',
    In n hop_by_hop \/ n = "content-type" ->
    (forall sg, Forall rs_rename_ok (rules_of sg)) ->
    (forall sg, Forall rs_rule_valid (rules_of sg)) ->
    Forall (fun r => headers_valid (snd r)) resps ->
    emit out (apply_responses rules_of client resps []) = Some out' ->
    lines n out' = lines n out.
Proof. exact response_never_leaks. Qed.
Print Assumptions C19_responses_keep_hop_by_hop_out_partial.

Example C19_response_example :
  emit [("content-type", "application/json")]
    (apply_responses (fun _ => [RsPropagateRegex (Some (fun _ => true)) None Append])
       [] [("a", [("connection", "close"); ("x-a", "1"); ("content-type", "text/html")]);
           ("b", [("x-a", "2"); ("keep-alive", "5")])] [])
  = Some [("content-type", "application/json"); ("x-a", "1, 2")].
Proof. vm_compute. reflexivity. Qed.

Theorem C19_response_rename_refuted :
  exists n rules resps out',
    In n hop_by_hop /\
    emit [] (apply_responses (fun _ => rules) [] resps []) = Some out' /\ lines n out' <> [].
Proof.
  exists "transfer-encoding", [RsPropagateNamed ["x-te"] (Some "transfer-encoding") None Last],
    [("a", [("x-te", "chunked")])], [("transfer-encoding", "chunked")].
  split; [vm_compute; tauto|]. split; [reflexivity|discriminate].
Qed.
Print Assumptions C19_response_rename_refuted.

(** C20: propagating one header by name with strategy [s].  For an ordinary header the
    client sees the first / last / comma-joined value in merge order (one line), and keeps
    the router's own line if no subgraph sent the header; for set-cookie and
    www-authenticate it sees every line of every response, in order, as separate lines
    after the router's own. *)
Theorem C20_aggregation_strategy :
  forall n s client resps out out',
    ~ In n hop_by_hop -> n <> "content-type" ->
    Forall (fun r => headers_valid (snd r)) resps ->
    emit out (apply_responses (fun _ => [RsPropagateNamed [n] None None s]) client resps []) = Some out' ->
    lines n out' =
      if is_never_join_header n then (lines n out ++ all_lines n resps)%list
      else match first_lines n resps with
           | [] => lines n out
           | vs => aggregated s vs
           end.
Proof. exact single_rule_client_lines. Qed.
Print Assumptions C20_aggregation_strategy.

(** For any rules whatsoever: emission never fails, and everything the aggregator holds
    for a header is shown to the client (several values are only ever held to be joined
    or repeated). *)
Theorem C20_emission_succeeds :
  forall rules_of client resps out,
    Forall (fun r => headers_valid (snd r)) resps ->
    (forall sg, Forall rs_rule_valid (rules_of sg)) ->
    exists out', emit out (apply_responses rules_of client resps []) = Some out'.
Proof. exact emit_total. Qed.
Print Assumptions C20_emission_succeeds.

Theorem C20_nothing_held_is_dropped :
  forall n rules_of client resps out out' s vs,
    Forall (fun r => headers_valid (snd r)) resps ->
    (forall sg, Forall rs_rule_valid (rules_of sg)) ->
    emit out (apply_responses rules_of client resps []) = Some out' ->
    aget n (apply_responses rules_of client resps []) = Some (s, vs) ->
    if is_never_join_header n then lines n out' = (lines n out ++ vs)%list
    else lines n out' = [join ", " vs].
Proof. exact aggregator_loses_nothing. Qed.
Print Assumptions C20_nothing_held_is_dropped.

Example C20_example :
  let resps := [("a", [("x-a", "1"); ("set-cookie", "p=1"); ("set-cookie", "q=2")]);
                ("b", [("set-cookie", "r=3"); ("x-a", "2")])] in
  let run n s := emit [] (apply_responses (fun _ => [RsPropagateNamed [n] None None s]) [] resps []) in
  run "x-a" First = Some [("x-a", "1")] /\ run "x-a" Last = Some [("x-a", "2")] /\
  run "x-a" Append = Some [("x-a", "1, 2")] /\
  run "set-cookie" First = Some [("set-cookie", "p=1"); ("set-cookie", "q=2"); ("set-cookie", "r=3")].
Proof. vm_compute. repeat split; reflexivity. Qed.

(** Note (not part of C20): an ordinary header a subgraph repeats keeps only its first
    line when propagated by name, and all lines when propagated by regex. *)
Example C20_repeated_line_named_vs_regex :
  let resps := [("a", [("x-a", "1"); ("x-a", "2")])] in
  emit [] (apply_responses (fun _ => [RsPropagateNamed ["x-a"] None None Append]) [] resps [])
    = Some [("x-a", "1")] /\
  emit [] (apply_responses (fun _ => [RsPropagateRegex (Some (String.eqb "x-a")) None Append]) [] resps [])
    = Some [("x-a", "1, 2")].
Proof. vm_compute. split; reflexivity. Qed.

(** Note: a [remove] rule scoped to one subgraph also removes what other subgraphs sent,
    but only if its response is processed after theirs; the client header then depends on
    the completion order of parallel fetches. *)
Example C20_scoped_remove_depends_on_arrival_order :
  let rules sg := if String.eqb sg "b" then [RsRemoveNamed ["x-a"]]
                  else [RsPropagateNamed ["x-a"] None None Last] in
  let a := ("a", [("x-a", "1")]) in let b := ("b", []) in
  emit [] (apply_responses rules [] [a; b] []) = Some [] /\
  emit [] (apply_responses rules [] [b; a] []) = Some [("x-a", "1")].
Proof. vm_compute. split; reflexivity. Qed.
