# Formal model of graphql-hive/router in Rocq (Coq 8.16.1)

## How the development is organised

`rocq/theories/` holds, for each area of the router:

* `XxxModel.v` - small total Gallina functions, one per Rust function, each with a
  comment citing the file and lines in `/repo` it models and every simplification made;
* `XxxSpec.v` (or a clearly marked section) - a small independent specification;
* `XxxProofs.v` - lemmas;
* `XxxProps.v` - only the property theorems, each closed by `exact lemma.`, followed by
  non-vacuity `Example`s and `Print Assumptions`.

Theorem naming: `C07_...` proves (part of) property C07.  `_partial` = only a part of
the property is proved, the note in `MANIFEST.json` says what is missing.
`_refuted` = the faithful model violates the property; the theorem exhibits a concrete
witness and is a finding about the code (listed under "Findings" below).

## Conventions of the models

* Rust `String`/`&str`/`[u8]` -> Coq `string` (bytes).  `str` ordering in Rust is byte
  ordering, modelled by `String.compare`.
* `Vec` -> `list`; `HashMap`/`BTreeMap`/`HashSet` -> association lists / lists where
  only membership or lookup matters (iteration order of hash maps is abstracted by
  quantifying over all orders or by showing the result does not depend on it).
* `u64`/`usize` saturating arithmetic -> `N` with explicit `min` at 2^64-1.
* `Result`/`Option` stay data; a panic is an explicit error constructor.
* External code (HTTP, JSON lexing by sonic-rs, regex engine, VRL expressions, JWT
  crypto, hash functions, moka cache, tokio) is not modelled; it is a function
  parameter (Section variable, so universally quantified in the closed theorem) or an
  environment step of a transition system.

## Plan per property

| id | model | proof idea |
|----|-------|------------|
| C01 | `deep_merge` on JSON trees | induction on trees, sorted two-way merge = finite-map union |
| C02 | same | commutativity/associativity/idempotence of merge on compatible trees, permutation invariance of `fold_left` |
| C03, C04, C05 | response projection as buffer writer; JSON printer/decoder | refinement of the buffer machine to a tree-level spec of CollectFields/CompleteValue; decode(print v) = v |
| C06-C10 | authorization checker, operation filter, unauthorized-path trie, rebuild of operation and projection plan | induction over operations, trie = set of paths |
| C11 | AST hasher as token stream for an arbitrary hash | witness of equal streams (`_refuted`), injectivity on a fragment (`_partial`) |
| C12 | StableOverrideContext and the planner's override check | decision depends only on the stable context |
| C13 | transition system of claims/leaders/followers/drops | inductive invariant over reachable states |
| C14, C15 | fingerprint / representation hash streams | injectivity or refutation by witness |
| C16, C37, C41 | traverse (read and write), index maps, batching | induction on tree/path; read order = write order |
| C17, C18 | error model, masking, relocation | case analysis; list lemmas |
| C19, C20 | header rule interpreter and aggregator | induction over rule lists / response sequences |
| C21 | Cache-Control parse/merge/print | semilattice laws, permutation invariance, lower bound |
| C22, C23 | CORS / CSRF decision functions | case analysis against independent spec |
| C24 | variable coercion | induction over type nodes |
| C25 | three condition evaluators | equality of decision functions |
| C26 | cost expressions, evaluation, enforcement | monotonicity and saturation bounds; no call in blocked trace |
| C27 | fragment-memoising counters | memo soundness invariant, equality with expanded count on acyclic documents |
| C28 | SSE and multipart incremental parsers | chunk-independence by simulation on the concatenated stream |
| C29 | counter transition system | invariant |
| C30 | bounded channel transition system | invariant: delivered ++ buffered is a subsequence of produced |
| C31 | top-level response visitor | case analysis |
| C32 | QplanModel: step nodes, flattening, condition merging, batching | runs preserved exactly; batches do the work of their fetches; same data as the waves |
| C33, C34 | normalization passes | denotation (collected fields per runtime type and variables) preserved; termination by active-fragment measure |
| C35 | extension aggregator | induction over sequences |
| C36 | TypeCondition / FieldProjectionCondition algebra | semantic equality for all types/assignments |
| C38 | KeyRenamer / ValueSetter | sortedness invariant |
| C39 | project_requires | refinement to tree spec |
| C40 | write_named_operation | list lemma |
| C43 | multipart framing (same model as C28) | invariant of the buffer against the remaining well-formed stream |
| C42 | plan executor as transition system | invariants over traces |
| C44 | GraphModel: graph as steps/edges, prune, merge, waves; all passes as a relation; order kept up to merging |
| C45 | GraphModel: mutations_in_sequence; positions give a total order of waves |
| C47 | SubModel: broadcast channel, kept receiver, clients joining and leaving | invariant over traces; unbounded counterexample for shared subscriptions |
| C46 | byte stream of the client fingerprint; JSON and header encoders | injectivity and prefix-freeness of the encoders |
| C22 | `CorsModel.v`, `CorsSpec.v`, `CorsProofs.v`, `CorsProps.v` | `respond` over (configuration, request headers, handler answer); regex matching is an oracle; spec: governing policy, documented inheritance, lines of every header |
| C23 | `CsrfModel.v`, `CsrfSpec.v`, `CsrfProofs.v`, `CsrfProps.v` | `perform_csrf_prevention` against the Fetch notion of MIME essence |
| C24 | `CoerceModel.v`, `CoerceSpec.v`, `CoerceProofs.v`, `CoerceProps.v` | `collect_variables` with the metadata built from type definitions; spec: GraphQL input coercion `conforms` over the definitions |
| C27 | `LimitsModel.v`, `LimitsSpec.v`, `LimitsProofs.v`, `LimitsProps.v` | the three limit rules with their shared memo across operations; spec: `expands` replaces spreads by inline fragments, totals and height of the expanded tree; fuel = number of fragments + 1, proved sufficient |
| C29 | `SlotsModel.v`, `SlotsSpec.v`, `SlotsProofs.v`, `SlotsProps.v` | invariant by induction over every interleaving of atomic counter steps; release exactly once; admission when free; finding: counted twice |
| C25 | `CondModel.v`, `CondSpec.v`, `CondProofs.v`, `CondProps.v` | one spec `active`; each of normalization, `is_ignored`, `from_fetch_step` + `run`, `apply_directives` + `check`, cost evaluation shown equivalent to it |
| C31 | `SubresModel.v`, `SubresSpec.v`, `SubresProofs.v`, `SubresProps.v` | parse of a document whose values carry their text and whose keys carry an escape flag; accepted-iff characterisation; `says` relates the tree with the document; trie of custom scalar paths against `selected` |
| C12 | `OverrideModel.v`, `OverrideSpec.v`, `OverrideProofs.v`, `OverrideProps.v` | field edges of the planner graph with their override data; stable context as sorted maps and its byte encoding; cache run over requests and evictions, refinement to a run without a cache; routing refinement to `serves` |
| C33 | Norm{Model,Spec,Meaning,Typed,Passes,Docs,Props}.v | each pass of the pipeline keeps the set of selected paths; composition over the document |
| C34 | Norm{Model,Spec,Proofs,Props}.v | refinement to graph acyclicity; pigeonhole for chains, active-stack invariant for the rest |
| C26 | `CostModel.v`, `CostSpec.v`, `CostProofs.v`, `CostExpr.v`, `CostPlan.v`, `CostMono.v`, `CostWitness.v`, `CostProps.v` | formula compilation + evaluation against an unbounded cost over the inlined operation; denotation lemma per expression, accounts invariant over plan nodes, runs send only billed fetches; monotone by induction over values and selections |
| C48 | `PlanModel.v`, `PlanSpec.v`, `PlanCond.v`, `PlanMerge.v`, `PlanMatch.v`, `PlanBuild.v`, `PlanOperation.v`, `PlanShown.v`, `PlanRefute.v`, `PlanProps.v` | plan construction against an inductive CollectFields on typed paths; invariant `good` of plans by induction over selections and merge fuel; pruning keeps what is shown |
| C09 | `PlanModel.v`, `NullSpec.v`, `NullProofs.v`, `NullRefute.v`, `NullProps.v` | rebuilt plan = plan concealed at marked paths (trie representation); composition of authorization, plan construction, rebuilding and projection for fragment-free operations |
| C50 | GqlModel, GqlSpec, GqlGrammar, GqlComplete, GqlSafe, GqlChars, GqlLex, GqlScan, GqlText, GqlCases, GqlProps | recursive-descent soundness and completeness against a token-list grammar; lexer against an inductive lexical grammar; termination and panic analysis by induction |
| C49 | PrintModel, PrintSpec, PrintWrites, PrintProofs, PrintRead, PrintClient, PrintCases, PrintProps | a combinator of pieces, each lexed into its tokens under any lexical grammar with the right lookahead; instantiated with the specification and with the part of it the router reads; then completeness of the parser (C50) |
| C51 | MinifyModel, MinifySpec, MinifyProofs, MinifyDoc, MinifyText, MinifyRead, MinifyCases, MinifyProps | tokens joined with spaces are lexed back (stability of each scanner under another rest); the tree writer is a run over the tokens of the grammar; then completeness of the parser (C50) |
| C52 | FragModel, FragSpec, FragProofs, FragDoc, FragCases, FragProps | walk and rewrite over an abstract identifier function; invariant on the table of fragments (finished ones expand to a set with their identifier; those under way stand for heavier sets); spreads expanded by an independent typed relation; refutations for all hashers |
| C53 | ConsumerModel, ConsumerSpec, ConsumerProofs, ConsumerParts, ConsumerCases, ConsumerProps | element-wise specification of a schema (what it says, through which directives) related to the transformer definition by definition |
| C54 | IntroModel, IntroSpec, IntroProofs, IntroFields, IntroTypes, IntroMain, IntroCases, IntroProps | model of the resolvers as one function from (subject, selection) to values; the specification's tables as an inductive relation; induction on selections |
| C55 | SplitModel, SplitSpec, SplitProofs, SplitProps | recursive split of an operation into the part answered from the schema and the part sent to subgraphs, against a predicate on occurrences of fields; induction over selections |
| C56 | BestModel, BestSpec, BestTree, BestProofs, BestMain, BestProps | trees denote sets of places; merging is union and subadditive in cost; greedy search by induction over leaves; the bound of the exact search is shown to be at least the greedy cost |
| C57 | JwtModel, JwtSpec, JwtText, JwtProofs, JwtCases, JwtProps | cache invariant by induction over event histories; lookup characterised by relations on text |
| C58 | OverlapModel, OverlapSpec, OverlapBase, OverlapValues, OverlapSteps, OverlapSound, OverlapTop, OverlapComplete, OverlapMain, OverlapEnds, OverlapCases, OverlapProps | soundness by induction on the fuel; completeness by a log of compared fragment pairs that is closed at the end and induction on the conflict; termination by a rank of fragments and accessibility of nested selection sets |
| C59 | SafeModel, SafeSpec, SafeBase, SafeScan, SafeMain, SafePlain, SafeWrong, SafeProps | a selection set is the set of paths it asks for; the two halves of a merge (joining in place, then copying and renaming) are described by functions of the place, and a renaming is built level by level; plain merging by induction over the source |
| C60 | DocidModel, DocidSpec, DocidText, DocidProofs, DocidProps | sources as records of what each route can carry; non-interference of the query text stated over pairs of requests that differ in it; selectors against relational descriptions of places in JSON, query strings and paths |
| C61 | DocstoreModel, DocstoreSpec, DocstoreProofs, DocstoreProps | cache as a machine with time and evictions, invariant over all histories; watcher and task as one machine with an event per atomic step, invariant per phase; polling by induction with tags that tell contents apart |
| C62 | WalkModel, LocalModel, LocalSpec, WalkProofs, LocalBase, LocalRun, LocalProofs, LocalState, LocalMore, LocalProps | the walk is a list of calls with contexts; calls are characterised by the place they come from (induction over selections), visitors by what they report at a place from any state |
| C63 | ReachModel, ReachSpec, ReachBase, ReachCalls, ReachVars, ReachPos, ReachCycle, ReachTop, ReachProps | The calls of the walk are folded into the maps the visitors keep; searches are proved to reach exactly the relation of spreads; the stack of the cycle rule has a shape invariant with a potential for its steps |
| C64 | ValsModel, ValsSpec, ValsProofs, ValsFits, ValsProps | induction over values along the walk, against an inductive relation of input coercion |
| C65 | PathModel, PathSpec, PathCycle, PathBase, PathBest, PathSound, PathTotal, PathMain, PathProps | path search as mutual recursion with fuel that is proved sufficient; soundness against an inductive relation `takes` of edges that can be taken; measure on subgraphs and requirements not yet excluded |
| C66 | OpwalkModel, OpwalkSpec, OpwalkBase, OpwalkSteps, OpwalkSound, OpwalkTotal, OpwalkMain, OpwalkCases, OpwalkProps | the walk as a structural recursion with a stack; soundness against an inductive relation `traces` of segments that follow selections; weights of what is left bound the loop; types along paths by induction on the selections |
| C67 | QgraphModel, QgraphSpec, QgraphBase, QgraphRun, QgraphPhases, QgraphViews, QgraphMain, QgraphGraph, QgraphTotal, QgraphCases, QgraphProps | the builder as phases that emit commands, which are then run; labels of nodes are injective on clean names; per phase soundness and completeness against an inductive relation `edge`; edges that count as equal are equal; composition with C66 |
| C68 | WsModel, WsSpec, WsBase, WsProofs, WsSteps, WsMain, WsCancel, WsCases, WsProps | one connection as a state machine whose actions are frames, outcomes, events and ends of tasks; each wait of a handler or stream is a point where others can run; invariant per task over the log; specification on the log only |
| C69 | WcModel, WcSpec, WcBase, WcProofs, WcMain, WcCases, WcProps | the connection as a state machine with a map of channels; a machine for one subscription as specification; simulation for each id, by induction over the actions; the contents of streams and the messages then by induction over what happens after the start |
| C70 | PoolModel, PoolSpec, PoolProofs, PoolMain, PoolProps | the map of entries as a state machine with generations, attempts, executors and callers; invariant by induction over the actions; the promises to callers in terms of what was asked and answered |
| C71 | WhModel, WhSpec, WhProofs, WhProps | headers as folds over entries, specified by the relation `asks`; the order of the map is an argument; state of the connection by induction over operations |
| C72 | MsgModel, MsgSpec, MsgProofs, MsgProps | writers and readers over JSON values; the protocol as an inductive relation between values and messages |
| C73 | OwnerModel, OwnerSpec, OwnerProofs, OwnerMain, OwnerProps | one step per atomic action of a caller, the owner, the dispatcher or the clock; invariant by induction over all traces |
| C74 | UsageModel, UsageSpec, UsageProofs, UsageMain, UsageProps | the ring refined to a window over distinct keys; the agent as a machine over adds and flushes; reports against a relation to their batch |
| C75 | OpnormModel, OpnormSpec, OpnormProofs, OpnormMain, OpnormProps | stripping against a relation of likeness; sorting against a relation of rearrangement, for any sort with three laws |
| C76 | CoordModel, CoordSpec, CoordProofs, CoordMain, CoordFinal, CoordCases, CoordProps | invariant over the calls of the walk (WalkModel); closure of the visited types; balanced calls for the field stack |
| C77 | CallbackModel, CallbackSpec, CallbackProofs, CallbackCases, CallbackProps | steps of handlers, streams and enforcer; an invariant for one subscription by the effect of a step on it |
| C78 | CtxModel, CtxSpec, CtxProofs, CtxProps | a step per entry; effect of a patch by induction from its end |
| C79 | CopModel, CopSpec, CopProofs, CopMain, CopProps | the run of a stage as a function of condition and answer; values of a header by name |
| C80 | NegModel, NegSpec, NegProofs, NegProps | negotiation over an oracle that picks an offer; error responses as a table by mode; a panic is `None` |

## Findings

Each is a `_refuted` theorem: a concrete input on which the faithful model violates the
property.

* C05 `typename_is_escaped`: `__typename` values are copied from subgraph data into the client
  response without escaping; a subgraph that answers `User","admin":"yes` adds a member.
* C36 `guard_of_alternatives`: `get_type_guard` of `Include(x) OR ParentType(T)` is `T`, which is
  too narrow (latent: alternatives only arise after guards are extracted);
  `invalid_enum_is_reported`: `e @include(if:$x)  e @include(if:$y)` with x true, y false and an
  invalid enum value drops the field silently, because `Or` returns the last error.
* C07 `authorized_parent_kept`: `{ me { email } }` with only `email` denied removes `me` as well,
  so the client sees `me: null` instead of `me: { email: null }`.
* C11 `inline_fragment_end`, `null_and_string_literal`, `variable_and_string_literal`,
  `nested_values`: the plan-cache key does not mark the end of inline fragments, does not
  tag literal kinds and does not delimit lists/input objects, so different operations get
  the same key for every hash function.
* C19 `request_rename`, `response_rename`: the hop-by-hop check looks at the source name of a
  propagate rule, not at its `rename` target.
* C21 `unknown_directive_drops_restriction`, `second_line_ignored`,
  `double_rule_hides_silent_subgraph`, `repeated_max_age`.
* C28 `multipart_end_marker_split`: a chunk that ends right after `--boundary` hides the
  closing `--`; the subscription is not ended by the end marker.
* C43 `delimiter_inside_a_line`: `--boundary` inside a JSON string (three dashes for the
  common boundary `-`) cuts the part in two and kills the subscription.
* C38 `lookup_after_rename`: `KeyRenamer` renames a member in place and nothing sorts the object
  again. Planner aliases sort differently from the field they stand for
  (`_internal_qp_alias_0` < `id` < `name`), so the binary search misses `id` afterwards.
* C39 `null_items_are_sent`: null items of a required list are dropped from the representation.
  `bare_fragment_is_json`: `id ... on P { __typename }` yields `{"__typename":"P","id":1{"__typename":"P"}`.
* C15 `kinds_of_values`: 0, 0.0 and [] (and -1 and 2^64-1) hash alike;
  `nested_lists`: list bounds below a selection are not hashed;
  `interface_type_names`: an entity whose `__typename` is an interface is sent, but its fragments
  are skipped while hashing, so all such entities count as duplicates of the first.
* C42 `sequence_in_parallel_is_dropped`: a `Sequence` (or `Parallel`, `Subscription`, `Defer`) below a
  `Parallel` node yields no request and no error (`_ => None`, plan.rs:1068-1069). The planner does
  not build such plans (C32), but nothing in the executor checks it.
* C18 `internal_path_leaks`: when a response has errors but no entity list (`"data": null`), errors
  keep the path `["_entities", i, ...]` of the subgraph request although the positions are known
  (in a batch: the alias is replaced by `_entities`, which the request does not contain).
* C44 `merging_siblings_succeeds`: `merge_siblings` picks pairs first and follows only one level
  of its index map; with four siblings of one subgraph whose requirements are {x,y}, {x,z},
  {x,y,z}, {x,y,z} the third is merged into the first, the first into the second, and the third
  is then looked up under the removed index: planning fails with MissingStep.
* C44 `merging_children_unpruned`: `can_merge` accepts a child that also hangs below a grandchild
  when it shares the parents of its parent; in a graph not yet pruned the merge makes a cycle
  (the passes walk the graph without a visited set and would not end).
* C45 `mutations_wait_for_completion`: the fetch of the next mutation runs in the same wave as the
  entity fetches that complete the previous one.

* C32 `arguments_are_confused`: batching compares selections with `PartialEq for FieldSelection`
  (name and sub-selections only) and with the shape hash, which writes `null` like `"null"` and
  `$x` like `"x"`. Two entity fetches `f(x: null)` and `f(x: "null")` in one wave become one, and
  the second field gets the answer of the first.
* C13 `streams_in_time`: the guard of a subscription is dropped only when the pump task drops its handle, after
  its loop has ended; a request arriving in between joins a stream that is over.
  `single_flight`: after a failed call the next waiting request calls with a cell that is no longer in
  the map; its guard removes whatever entry the key has then, so further calls of the key start too.
* C30 `failures_are_reported`: `try_send_or_drop` drops an `Err` item like any other when the buffer is
  full (and `handle_complete` of the callback protocol drops the final errors): the client sees a
  regular end. `every_capacity_works`: `subgraph_buffer_capacity: 0` / `broadcast_capacity: 0` are
  accepted by the configuration and panic on the first subscription.
* C47 `deserted_shared_subscription_ends`: with `traffic_shaping.router.dedupe` the leader calls
  `Arc::unwrap_or_clone` while the cell in the in-flight map still holds the response, so it gets a copy
  (receiver `None`) and the pre-subscribed receiver stays in the map. The map entry goes only when the
  pump ends, and the pump ends only when sending fails, that is when no receiver is left: the upstream
  subscription runs for ever once all clients have left.
  `shared_leader_reads_from_the_first_event`: for the same reason the leader subscribes late and misses
  the events sent between the start of the pump and its first read.
* C14 `repeated_headers`: dedupe.rs:13-18 collects headers in a map, so only the last value of a repeated name counts. Two requests with `cookie: session=alice` / `session=bob` followed by the same second `cookie` header are merged, and one user gets the other's data. `opaque_headers`: values `to_str` refuses are skipped. `plugin_flag`: http.rs:340,397 uses `deduplicate_request = true` for "do not share", the reverse of the documented hook field (on_subgraph_http_request.rs:32-37).
* C46 `opaque_headers`: pipeline/mod.rs:931-936 skips values `to_str` refuses, so two `authorization` headers with bytes above 0x7f are the same. `header_order`: the pairs are sorted, so `x-tenant: a, b` and `x-tenant: b, a` are the same although header propagation and expressions see the order. Not in the fingerprint at all: the query string and the client's address.
* C17 `claimed_service`: `add_subgraph_name` (graphql_error.rs:198-206) keeps an `extensions.service` the subgraph itself sent, and masking (error_masking.rs:19-25) looks the policy up by it; any subgraph can pick the most permissive policy. `event_errors`: the errors of a subscription event are added to `initial_errors` without a subgraph name (plan.rs:385-388), so `apply` leaves them alone and their message and extensions reach the client with masking on.
**C22 (null origin)** A request with `Origin: null` that no policy admits is answered with `Access-Control-Allow-Origin: null` (cors.rs:244-249), which is exactly the value browsers accept for that opaque origin.  `C22_null_origin_refuted`.
**C22 (Vary)** Answers to rejected origins differ from those to admitted ones but carry no `Vary: Origin` (`C22_rejected_vary_refuted`); `append_vary` looks at the first `Vary` line only and `insert`s, dropping the others (`C22_vary_lines_refuted`).
**C22 (credentials)** A policy with `allow_credentials: false` still sends `Access-Control-Allow-Credentials: true` when the global setting is true (cors.rs:38-42), against the documented inheritance (only an omitted value inherits).  `C22_credentials_refuted`.
**C23** With `enabled: true` and no `required_headers` (what `csrf: {}` deserializes to) the check accepts every request (csrf_prevention.rs:25-27), although the configuration documents that simple content types are then rejected.  `C23_no_required_headers_refuted`.  The prefix comparison also rejects types such as `text/plain-graphql` (`C23_prefix_refuted`).
**C24 (input objects)** `schema_metadata` (schema.rs:172-246) records fields of object and interface types only, so `type_fields` has no entry for an input object and `validate_runtime_value` falls through to `_ => Ok(())`: a variable of a (non-null) input object type accepts any JSON but null; the `MissingField`/`ExpectedObject` branches are unreachable for valid operations.  `C24_input_object_refuted`.
**C24 (Int, ID)** `Int` is checked with `is_i64`, so 2^32 passes although GraphQL integers have 32 bits (`C24_int_width_refuted`); an integer for an `ID` is rejected although GraphQL accepts it (`C24_id_integer_refuted`).
- **C29 (`C29_counted_twice_refuted`).** A subscription sent over HTTP whose request also carries `Upgrade: websocket` / `Connection: upgrade` headers reserves a slot in the middleware (long_lived_client_limit.rs:76-104) and another one in the pipeline (pipeline/mod.rs:412-425). With `max_long_lived_clients: 1` it is refused although nobody else is connected; in general one client takes two of the slots.
- **C25 (`C25_undefined_variable_refuted`).** `condition_node_by_variables` (plan.rs:1706-1719) runs neither branch when the variable has no value, so a fetch under `@skip(if: $x)` is not sent although the authorization filter and the projection treat `$x` as not true and keep its fields. Only an operation that validation should have refused (nullable `$x` without default in a `Boolean!` position) gets there; the proof of `C25_condition_variables_are_defined` covers the others.
- **C25/C26 (by reading, demand control).** Conditions on inline fragments are ignored by the cost plan (demand_control/mod.rs:267-274) and by the formula (formula.rs:406-413); only field conditions are honoured, so a skipped fragment is still charged.
- **C31 (`C31_custom_scalar_null_refuted`).** A field whose response path holds only custom scalars is kept as raw text (subgraph_response.rs:165-168), including the text `null`. `Value::is_null` does not see it, so a non-null custom scalar field (or list item) that is null is written as null and does not propagate.
- **C31 (`C31_escaped_unknown_key_refuted`).** Keys are read as borrowed `&str` (subgraph_response.rs:96, value.rs:361): an unknown top-level key written with a JSON escape makes the whole answer a deserialization failure instead of being ignored; the same holds for escaped keys anywhere in `data` outside custom scalars and in `extensions`.
- **C31 (`C31_empty_errors_refuted`).** `{"data": null, "errors": []}` is accepted as a success with neither data nor any error, because only `errors.is_none()` is checked (subgraph_response.rs:283).
- **C12 (`C12_union_field_routing_refuted`).** For a field whose type is a union, `build_field_edges` passes `None` as the join field (graph/mod.rs:819-828), so the edge of the overriding subgraph has no `override_label` and is usable in every request: with `@override(from: "A", label: "new")` on a union field, B may be asked although the label is off.
- **C12 (`C12_provides_field_routing_refuted`).** The extra edge made for a field with `@provides` is created with `overridden_by: None` (graph/mod.rs:1179-1191). When another subgraph overrides that field, even without a label, the planner can still fetch it from the old subgraph through this edge.
- **C12 (`C12_hundred_percent_refuted`).** The random value is drawn from `0..=100*SCALE` (progressive_override.rs:105) and compared with `<` (edge.rs:128), so with `percent(100)` the value `100*SCALE` still selects the overridden subgraph.
- **C12 (`C12_empty_operation_history_refuted`).** The plan of an introspection-only operation is cached under the hash of the empty operation (query_plan.rs:94-126). An operation with nothing left after `@skip` fails with an empty-plan error before such a request and succeeds after it.
- **C26 (`C26_input_costs_wrap_refuted`).** The cost of a list or object input is an `Iterator::sum` of `u64` (formula.rs:715, 722, 757), which wraps in a release build: two members of weight 2^63-1+1 cost nothing, and an operation over the maximum runs.
- **C26 (`C26_subscription_budget_refuted`).** The blocked-subgraph check is in `execute` (map.rs:290-331) only; `subscribe` (map.rs:562-593) calls the subgraph of a subscription although it is over its budget.
- **C26 (`C26_cached_formula_refuted`).** Formulas are cached under the hash of the normalized operation (runtime.rs:108-119) although the plan also depends on the progressive-override context: under the formula of another plan the maximum and the budgets are not enforced.
- **C26 (`C26_unsliced_list_refuted`).** `mul` drops a factor when the other is the constant 0, and with it the error for a missing slicing argument that `requireOneSlicingArgument` demands.
- **C26 (note).** Conditions on inline fragments are ignored by the estimate (over-estimate); a condition node whose variable is missing is charged its else branch, while the executor runs neither.
- **C09 (`C09_denied_fields_are_null_refuted`).** The plan rebuilder (rebuilder.rs:149-205) follows a fragment segment exactly when the plan has an `Exact` guard. Plans get such guards without a fragment (two levels below a fragment: the guard of the middle level is pruned and the guard below it is kept, plan.rs:464-517; a field selected both plainly and in a fragment is split by type, plan.rs:337-391) and lose them with one (fragments on abstract types have a `OneOf` guard). The lookup then fails and the denied field keeps its value; it is shown whenever it is in the data, for example fetched as a key or a `@requires` input.
- **C48 (`C48_nested_fragments_refuted`).** `process_inline_fragment` overwrites the guard of everything inside the fragment (plan.rs:1010-1013) after the inner type condition was simplified away against the guard: in `... on Node @include(if: $x) { ... on User { name } }` the name is shown for every `Node`.
- **C48 (`C48_covariant_fields_refuted`).** `field_output_type` (plan.rs:423-443) takes the output type of the first type of the guard in hash-set order; when implementers narrow the field's type, variants for the other types are dropped.
- **C48 (`C48_object_nullability_refuted`).** The nullability comes from the type the field was selected on; a missing non-null field of the object is shown as null when the interface declares it nullable.
- **C48 (`C48_key_order_refuted`).** Keys of different fragments are grouped by first appearance anywhere, so an object can show its keys in another order than CollectFields.
- **C50 (`C50_no_panic_refuted`).** `unquote_block_string` slices every line at the byte count of the smallest indent. If one line is indented by a space and another by a multi-byte white-space character (U+3000, U+00A0 ...), the slice falls inside a character and the router panics on client input.
- **C50 (`C50_backspace_refuted`).** `\\b` in a string is read as U+0010 instead of U+0008 (`'\\u{0010}'` in common.rs).
- **C50 (`C50_surrogates_refuted`, `C50_exponents_refuted`, `C50_adjacent_tokens_refuted`, `C50_fragment_called_on_refuted`).** Escaped surrogate pairs are rejected; a float whose exponent starts with 0 or 9 (`1e9`) is rejected (`check_exp` tests `'1'..='8'`-like bounds); a number directly followed by a string or another number is rejected; a fragment called `on` is accepted. Also (by reading, not stated as theorems): `\\u+041` and a raw carriage return inside a string are accepted.
- **C50 (`C50_tokens_are_bounded_refuted`, `C50_limit_is_reachable_refuted`).** The token limit counts only tokens that go through `advance_token`: strings, block strings, floats and a name at the very end are free, so a document of any number of tokens passes any limit; and a document with exactly `max_tokens` tokens is rejected, because the limit is tested before the end of input is.
- **C49 (`C49_floats_refuted`, `C49_large_floats_refuted`).** Floats are written with `Display for f64`, which drops the fraction of integral values: `1.0` is sent to subgraphs as `1`, and `1e20` as `100000000000000000000`, an Int literal far out of range (ast/value.rs:248). For arguments of custom scalars the kind of the literal changes.
- **C49 (`C49_infinity_refuted`).** `1e999` parses as infinity, and infinity is written as `inf`, which is an enum value.
- **C49 (`C49_backspace_refuted`).** U+0008 is written as `\b`, which is right, but the router's own parser reads `\b` as U+0010 (see C50).
- **C49 (`C49_kindless_refuted`).** An `OperationDefinition` with variables and no kind is written as `($v:T){a}`, which is not GraphQL. Nothing outside tests builds one.
- **C50 (`C50_block_indents_refuted`, `C50_block_lines_refuted`, `C50_block_returns_refuted`).** Block strings: every white-space character of Unicode is taken for indentation; a blank line shorter than the common indent keeps its spaces; a carriage return alone does not end a line.
- **C51 (`C51_control_characters_refuted`, `C51_astral_characters_refuted`).** `write_quoted` writes `\u{:04}` in decimal: U+000B becomes `\u0011`, which is U+0011, and U+1F600 beside a quote becomes `\u128512`, which is U+1285 and `12`.
- **C51 (`C51_three_quotes_refuted`, `C51_last_newline_refuted`, `C51_indentation_refuted`, `C51_distinct_texts_refuted`).** Strings with a newline are written as block strings: three quotes become a backslash and two quotes (a raw-string slip, `r#"\"""#`), blank lines at either end and common indentation are lost, and carriage returns are dropped, so different documents have the same text and the same hash.
- **C51 (`C51_exponents_refuted`).** Floats from 9e15 on are written with an exponent; one starting with 9 (`1e90`) is not taken by the router's own parser (see C50).
- **C51 (`C51_shorter_refuted`, `C51_texts_refuted`).** Minifying `"x""y"` adds a space; on a text that is no document (`1 ...`) the tokens run together.
- **C52 (`C52_arguments_kept_refuted`, `C52_null_kept_refuted`, `C52_nesting_kept_refuted`, `C52_numbers_kept_refuted`).** Repeated selection sets of a subgraph operation are recognised by a hash that does not include the kind of an argument value: `$id`, `"id"` and the enum value `id`, `null` and `"null"`, `true` and `1`, `[1]` and `1` are hashed alike. In `{ left { f(x: $id) } right { f(x: "id") } }` both sets become one fragment, so the subgraph is asked for `right { f(x: $id) }`: a wrong answer, with no hash collision involved.
- **C52 (`C52_repeated_selections_refuted`).** Item hashes are combined with XOR only, so a selection made twice cancels out: `{f f h}` and `{g g h}` have one identifier. (`semantic_shape_hash` in the same file adds a sum and a count for this very reason.) Normalization normally removes repeated selections.
- **C52 (`C52_names_are_usable_refuted`).** Fragment names count in base 52; number 690 is `on`. An operation with 691 repeated selection sets is printed with `fragment on on T` and `...on`, which no GraphQL parser reads.
- **C53 (`C53_all_fields_hidden_refuted`).** An object or interface all of whose fields are `@inaccessible` (the type itself not) keeps them all: the filtered list is empty, the transformer reports `Keep`, and the original fields stay (prune_inacessible.rs:117-131).
- **C53 (`C53_hidden_member_refuted`, `C53_hidden_interface_refuted`).** An `@inaccessible` type stays listed in the unions it belongs to and the `implements` of its types, although its definition is gone; introspection of such a union asks for a type that does not exist.
- **C53 (`C53_context_types_refuted`).** `join__FieldValue`, `join__ContextArgument` (join v0.4+) are not in `DEFINITIONS_TO_STRIP` and are shown to clients.
- **C53 (`C53_nothing_replaced_refuted`).** When no definition that remains is replaced, the schema is returned unpruned, with the hidden types (prune_inacessible.rs:16-23).
- **C53 (`C53_extensions_panic`).** A type extension in the supergraph is a `todo!()` panic.
- **C54 (`C54_default_reason_refuted`).** `deprecationReason` is null for `@deprecated` without a reason; the specification gives the argument's default, "No longer supported".
- **C54 (`C54_interfaces_of_interfaces_refuted`).** `interfaces` of an INTERFACE type is null although the specification requires the list of interfaces it implements.
- **C54 (`C54_possible_types_refuted`).** `possibleTypes` of an interface lists interfaces that implement it; the specification lists object types only.
- **C54 (`C54_deprecated_arguments_refuted`).** `args` and `inputFields` list deprecated members whatever `includeDeprecated` says.
- **C54 (`C54_fragment_in_schema_refuted`).** Inline fragments directly inside `__schema` are dropped: the resolver looks for spreads, whose selections are `None`.
- **C54 (`C54_repeated_keys_refuted`).** Two fields with the same response key in a fragment and outside it give an object with a duplicate key; their selections are not merged.
- **C54 (`C54_stray_mutation_refuted`).** A type named `Mutation` is reported as the mutation type although the schema definition names none.
- **C54 (`C54_unknown_type_panics`).** A field type that the consumer schema does not define makes introspection panic; by C53 hidden types can leave such references.
- **C56 (`C56_search_never_starts`, `C56_cheapest_refuted`).** `calculate_min_remaining_costs` (best.rs:145) adds up the costs of the leaves' cheapest trees as if nothing were shared, and calls the sum a lower bound that never overestimates. Merged trees share at least the root, so the sum is never below the cost of the greedy plan; `explore_plan_combinations` therefore returns at its first test for every operation, and the branch-and-bound search is dead code. The result is the greedy plan. With field `a` in subgraphs A and B and field `b` in B and C, `{ a b }` is planned as two fetches (cost 2005) though one fetch to B (cost 1004) would do.
- **C57 (`C57_accepted_refuted`, `C57_reload_refuted`, `C57_audience_refuted`, `C57_locations_refuted`, `C57_not_before_refuted`, `C57_on_demand_refuted`).** Only the first key set with the `kid` (or with a key of the algorithm) is tried, so a `kid` that two providers share locks out the second; without `kid`, a key with an encryption algorithm in an earlier set aborts the search (`?` in `find_matching_jwks`, jwt/mod.rs:147-148), and keys without `alg` are never found. `get_jwk_set` uses `try_read`, so requests during a reload fail. A token for several audiences is refused unless all are configured. A header without the prefix ends the search before later locations, and only the first `Cookie` header is read. `nbf` is never validated (jsonwebtoken does not by default). A remote provider without `prefetch` and with `polling_interval: null` never loads keys, against its documentation, and a failing prefetch stops the router where the documentation says it is ignored.
- **C58 (`C58_ends_refuted`).** On `fragment F on Query { zz { zz { ...F } ...F } } query { ...F }` the rule on overlapping fields recurses for ever (the same pair of fields is compared again and again), under any schema: unknown fields and fragment cycles are reported by other rules, which do not stop this one. In the router this is a stack overflow that any client can cause with one small request. A check of visited pairs of fields, or rejecting cycles of fragments before this rule, would end it.
- **C58 (`C58_nested_fragments_refuted`).** The list of visited fragments is shared by all comparisons made for one selection set, and the loop over nested fragments returns at the first visited one. In `{ t { x: a } t { ...B } t { y: c } } fragment B on T { ...C } fragment C on T { y: d }` the conflict of `y: c` and `y: d` is not reported, because C was visited when `x: a` was compared with B.
- **C58 (`C58_lists_refuted`).** `Value::compare` zips lists without comparing their lengths: `f(x: [1])` and `f(x: [1, 2])` count as equal arguments, and one of the two is dropped when the fields are merged.
- **C58 (`C58_typename_refuted`).** `__typename` has no field definition, so its type is not compared: `... on A { k: __typename } ... on B { k: n }` with a number n passes, though the answers have different shapes.
- **C59 (`C59_argument_kinds_refuted`, `C59_kinds_hash_alike`).** `Hash for Value` (ast/value.rs:53-67) does not write the variant. A variable, a string and an enum of the same text hash alike, as do `null` and `false`, and an integer and a float of the same bits. The safe merger compares arguments by this hash only, so `f(a: $x)` and `f(a: "x")` of two merged fetch steps become one field, and the second step reads the result of the first one's arguments.
- **C59 (`C59_same_alias_refuted`).** Two fields under the same alias with the same arguments are merged without comparing their names. User aliases cannot clash this way after validation, but internal aliases are counted from 0 by every merger, so two steps that were both results of renaming may carry `_internal_qp_alias_0` for different fields.
- **C59 (`C59_conditions_refuted`, `C59_fragments_not_compared`).** Fields of the same response name under different conditions, or of which one is inside a fragment, are not compared; the merged operation can contain fields that a subgraph rejects as conflicting.
- **C59 (`C59_fresh_name_refuted`).** A fresh alias is compared with the target's items at the time of renaming only; a source field copied later may carry the same name.
- **C59 (`C59_as_first_misnames`, `C59_no_flag_panics`).** With `as_first` the deferred rename uses an index that the earlier copy has shifted, and renames the wrong field (no caller passes true). Without either flag a conflict panics.
- **C59 (`C59_reader_told_refuted`, `C59_reader_panics`, `C59_reader_path_renamed`).** The record of a renamed field holds a path relative to the place of the merge, while `apply_internal_aliases_patching` treats it as relative to the root of the response: a reader two segments down is not told of the new name, a reader with a path shorter than the recorded one makes `slice_from` panic, and any segment with the name of a renamed field is renamed wherever it is.
- **C60 (`C60_websocket_document_id_refuted`).** Messages over websockets (and parameters overridden by plugins) have no place for `documentId`, so with required ids and the `documentId` selector every operation over a websocket is refused (pipeline/execution_request.rs, persisted_documents/extract).
- **C60 (`C60_empty_query_refuted`).** `"query": ""` beside a document id counts as a query: the empty text is executed (and fails to parse) rather than the stored one.
- **C60 (`C60_path_escape_refuted`).** Path parameters are taken without percent-decoding, while query parameters are decoded: the same id is found through one and not through the other.
- **C61 (`C61_address_tells_document_refuted`, `C61_address_escapes_refuted`, `C61_client_name_refuted`).** The address on the CDN is the id with tildes replaced by slashes (hive-console-sdk persisted_documents.rs), and neither slashes nor `..` are refused in names, versions or ids: two applications can share an address, and a client that sends `a~1~../../x` chooses another path on the CDN, requested with the key of the router. A client name with a tilde gives an id that would be refused if sent by the client.
- **C61 (`C61_failure_is_not_absence_refuted`, `C61_absence_is_reported_refuted`).** Any answer without success, such as 500 or 403, is reported as a document that does not exist and remembered as such for the time to live; but a 404 followed by an endpoint that is down is reported as a failure to fetch.
- **C61 (`C61_change_before_watch_refuted`, `C61_failed_read_refuted`).** The manifest is read before the watcher is created, so a change between them is lost; the dirty flag is cleared before reading, so a change whose read fails is not tried again until the next event.
- **C62 (`C62_reserved_refuted`).** `KnownTypeNames` (known_type_names.rs) and `FieldsOnCorrectType` (fields_on_correct_type.rs) skip every name that starts with `__`, so `query ($v: __No) { __no }` passes both.
- **C62 (`C62_typename_refuted`).** `__typename` has no definition, so `{ __typename(x: 1) { s } }` passes; inside a field its arguments are checked against those of the field around it (`KnownArgumentNames` keeps the last known field), which gives an error about the wrong field or none.
- **C62 (`C62_spreads_refuted`).** `PossibleFragmentSpreads` counts interfaces that implement both interfaces as common possible types, so a fragment that no object can match passes.
- **C63 (`C63_positions_refuted`).** `VariablesInAllowedPosition` looks at items of a list only where the expected type is a nullable list: the walk (operation_visitor.rs) takes the item type only from `ListType`, not from `NonNullType(ListType)`. `a(x: [$v])` with `x: [Int!]!` and `$v: Int` passes validation.
- **C63 (`C63_cycles_refuted`).** `NoFragmentsCycle` uses `get_recursive_fragment_spreads`, which looks at the selection set and the selection sets directly below it only. A fragment that spreads itself two fields deep is not reported by the rule (normalization stops on its own).
- **C63 (`C63_subscriptions_refuted`).** `SingleFieldSubscriptions` groups root fields by field name and not by response name: `subscription { p: x q: x }` has two response fields and passes.
- **C64 (`C64_complete_refuted`).** The rule on values accepts `[null, "a"]` for an argument of type `[Int!]!`, since the walk only gives items a type when the list type is nullable. It also accepts a list or an object where an `Int` is asked for, and integers beyond 32 bits.
- **C65 (`C65_complete_refuted`).** A second move between subgraphs whose requirements were already used by an earlier move is never tried. On a graph where A reaches B and B reaches C with the same key, and A does not reach C by itself, nothing is found for a field of C although a path exists. The code relies on every subgraph with the key being reachable from every other.
- **C65 (`C65_detected_refuted`).** The check for circular requirements compares a type condition below the first level with the type of the outer selection, so a requirement equal to the target is not seen as circular when it nests a fragment on another type. The search still ends (`C65_ends`), since the exclusion lists bound it.
- **C66 (`C66_found_refuted`).** For a fragment on another type, only the first path of each kind (direct, after moves) is kept. When the moves lead to two subgraphs that both have the type, and only the second has the field below, the walk ends with NoPathsFound although a path to the field exists.
- **C66 (`C66_fragment_refuted`).** A fragment is skipped when its type condition is the type at the end of the first path. The other alternatives are not looked at, so when subgraphs give a field different types (an object in one, its interface in another), a leaf below `... on Book` gets an alternative that never narrows to Book.
- **C66 (`C66_no_entry_refuted`).** A fragment at a root that has no edges is a panic (`.first().unwrap()`).
- **C67 (`C67_views_refuted`).** Views are numbered afresh for every type and subgraph, so the first @provides of `Query` and the first @provides of `Post` that both lead to `User` share the node `User/a/1`. With `Query.me @provides(name)` and `Post.author @provides(email)`, `{ me { email } }` is planned as if the subgraph of `me` could resolve `email`, which it marks external.
- **C67 (`C67_view_depth_refuted`).** Within one @provides, all occurrences of a type share a node: `Query.me @provides(friend { name })` makes `{ me { name } }` resolvable in that subgraph.
- **C67 (`C67_slash_refuted`).** Nodes are identified by a printed label. With subgraphs named `a` and `a/1`, the first view of a type in `a` is the type in `a/1`.
- **C67 (`C67_object_refuted`).** The move to an object type of an interface object leads back to the node of the interface; the walk then stands on the interface. Conversely, the graph of C66_fragment_refuted, where subgraphs give different types to one field, is never built: tails of field edges take the type of the supergraph (`C67_typed_partial`).
- **C68 (`C68_reuse_refuted`).** A stream removes its id from the map when it ends (`SubscriptionGuard`), without looking whose sender is stored. When a client completes an operation and subscribes again with the same id before the first task has run to its end, the end of the first drops the sender of the second, which counts as a cancellation: the second stream stops and the client gets neither Complete nor Error.
- **C68 (`C68_early_refuted`).** A Complete of the client that arrives while the operation is still being parsed, planned or executed finds no entry and is ignored; the stream then starts and goes on.
- **C68 (`C68_taken_refuted`).** The check for ids in use looks at streams only, and the entry is made after execution. Two subscribe messages with one id sent together are both accepted (also for queries, which never have an entry); the second stream replaces the sender of the first, which stops silently.
- **C68 (`C68_protocol_refuted`).** After an Error message of a stream the task leaves its loop and writes Complete as well.
- **C69 (`C69_late_refuted`).** When the dispatcher has ended, `subscribe` still makes an entry in the map. If the write succeeds (the dispatcher also ends after it sends a close frame itself, with the socket still open) the stream neither yields nor ends: nobody drains the map any more.
- **C69 (`C69_given_up_refuted`).** A call of `subscribe` that is dropped while its write is pending removes the entry and writes no Complete. If the message has gone out (this depends on the sink, which is not modelled) the server keeps the subscription.
- **C69 (`C69_ready_refuted`).** During the handshake a binary frame or one that is not UTF-8 is answered with a close frame, but the loop goes on, and a later acknowledgement makes the client ready on a connection that it has closed.
- **C71_case_refuted**: with `persist`, the merged headers are put into the payload of the connection under lower-case names, next to the fields as the client wrote them. A connection that came with `Authorization` (as in the documentation) then has both `Authorization: old` and `authorization: new`, and the order of a `HashMap` decides which token later operations have (websocket_server.rs:345-358,853-861).
- **C71_nested_refuted, C71_absent_refuted, C71_accents_refuted**: with `persist`, headers of operations are forgotten if the payload of the connection has an object `headers` (they are put beside it and not looked at), if there was no payload, or if the value is not plain ASCII.
- **C71_several_refuted**: the headers for a subgraph are turned into a map of strings, so that of several values of one header (such as `cookie`) only the last is told (graphql_transport_ws.rs:284-297).
- **C73 (`ConnectionOwner`, drop path).** When the task of the owner is dropped or panics, `Drop` closes the channel and evicts the executor but does not wait for permits. A caller that reserved before and sends its command after puts it in a channel that nobody reads. The command, and with it the `ready` sender, lives until the last sender is dropped; the caller itself keeps one alive while it waits. So it waits until its own timeout, if it has one (`C73_abort_refuted`). The ordinary shutdown does wait for permits (`C73_settled`).
- **C74 (`OperationProcessor::process`).** The cache is asked with `contains_key` and then read with `get(..).expect(..)`. It is a bounded moka cache, so a concurrent insertion may evict the entry in between. Then the request or the flush task panics, and the batch, which was already taken from the buffer, is lost (`C74_panic_refuted`).
- **C74 (`OperationProcessor::process`).** The key of the cache is the body alone, though the result depends on the schema. An agent that sees two schemas reports the coordinates of the first for both (`C74_schema_refuted`). The router makes one agent for each supergraph, so it is not affected; other users of the SDK are.
- **C74 (`add_report_with_request`, `flush`).** A batch that cannot be posted is dropped. With at-least-once sampling its keys stay marked as seen, so at a rate of zero an operation whose first report falls in such a batch is not reported at all while its key is remembered (`C74_lost_refuted`).
- **C75 (`compare_selections`).** Inline fragments compare as equal, and so do fields of one name whatever their arguments. As the sort does not part them, the order in which they were written decides the reported text and hash, so one operation may be listed several times (`C75_inline_refuted`, `C75_field_refuted`).
- **C75 (`SortSelectionsTransform`).** The directives of a spread are not sorted (`C75_spread_refuted`), nor are the fields of an object value (`C75_object_refuted`), nor the arguments of a directive on a fragment definition (`C75_fragment_refuted`), though all their counterparts are.
- **C76 (`enter_argument`).** Arguments of directives are taken for arguments of the current field: `{ user @include(if: true) { id } }` reports `Query.user.if`, and on an inline fragment within `user` it reports `User.user.if`; neither exists (`C76_directive_refuted`, `C76_inline_refuted`). On an operation there is no parent type, so the collection fails and nothing is reported (`C76_operation_refuted`).
- **C76 (`enter_list_value`, `enter_object_value`).** With an argument of type `[Filter!]!` the object in `[{ name: _ }]` has no input type, and `Filter.name` is not reported; with `[Filter]` it is (`C76_list_refuted`).
- **C76 (`has_value`).** A variable counts as given if its default has been seen; in a fragment that is defined before the operation it has not, so the report depends on the order of definitions (`C76_order_refuted`).
- **C77 (`handle_complete`, `CallbackHeartbeatEnforcerTask`).** The last message is sent with `try_send` and its failure ignored. If 16 events wait, the client sees them and then an ordinary end, without the errors of the subgraph or `SUBGRAPH_GONE`; the subgraph is answered 204 (`C77_complete_refuted`, `C77_gone_refuted`).
- **C77 (`CallbackHeartbeatEnforcerTask`).** Identifiers are gathered in one loop and removed in a second without looking at the heartbeat again, so a check that arrives between them is answered 204 and the subscription is terminated nonetheless (`C77_heartbeat_refuted`).
- **C78 (`apply_patch` in `api/coprocessor.rs`, called in `coprocessor/runtime.rs`).** The entries are applied in place on the shared context and the first illegal one returns an error, so a refused patch leaves the entries before it applied (`C78_atomic_refuted`). The error ends the stage; later stages that still run, as for the response, see the half applied context.
- **C78 (`set` of the domains).** The keys that a coprocessor receives include those it may not set, and setting them is an error even with their present value, so a coprocessor that returns the context it was sent fails the request (`C78_echo_refuted`).
- **C79 (`apply_to_response_builder`).** Each value of a header is put with `set_header`, which replaces, so a break with several values of a header, as two `set-cookie`, answers with the last only; `replace_into` uses `append` (`C79_break_values_refuted`).
- **C79 (`replace_into`, `HeaderMapJsonRef`).** Values that are not visible ASCII are left out of what is sent, and all headers are removed before those of the answer are put, so a coprocessor that returns the headers it got drops them (`C79_echo_refuted`).
- **C79 (`apply_mutations`).** Headers are replaced in place before the body is looked at, so a stage that fails on the body has already dropped the headers (`C79_failed_headers_refuted`).
- **C80 (`handle_pipeline_error`).** The handler answers a GET that prefers HTML with the page and leaves the mode at `Laboratory`; if the `graphql.response` stage of a coprocessor then fails, `handle_pipeline_error` is called with that mode and reaches `unreachable!` (`C80_answered_refuted`; `C80_answered` shows it is the only such request).
- **C80 (`ResponseMode::StreamOnly`).** The comment says that queries are streamed; a query whose client accepts streams only is executed and then refused with `UNSUPPORTED_CONTENT_TYPE` (`C80_stream_only_refuted`).

## Trusted base

* Coq 8.16.1 kernel (re-checked with `coqchk`).
* `Print Assumptions` after every property theorem reports `Closed under the global context`: no theorem depends on an
  axiom. The gate also lists seven library constants `Coq.ssr.ssrunder.Under_rel.*`; they come from an opaque module of
  the standard library that is loaded with `ssreflect` and no theorem depends on them.
* The hand translation from Rust to Gallina. Each definition cites its file and lines. Nothing of the code was run.
* The environment assumptions below. Each is a parameter (a Section variable that becomes an argument of the theorem),
  a hypothesis of the theorem, or a simplification of the model; no theorem has one as an axiom.

### Parameters that stand for code outside the models

| Claims | Parameter | Stands for |
|---|---|---|
| C03-C05, C49-C51, C71 | ryu / itoa / `f64::from_str` / `Display` | printing and reading numbers |
| C11, C14, C15, C46, C52, C59 | hash functions `H`, `D` of the sequence of writes | Xxh3, FxHasher, DefaultHasher; equality of hashes is never assumed to be equality of values |
| C09, C48, C54, C71 | permutations | iteration order of `HashMap` and `HashSet` |
| C13, C30, C47 | contracts of `OnceCell`, `mpsc`, `broadcast` | tokio |
| C14 | `Hash` of `http::Uri` and `Method` | the http crate |
| C22 | matching of regular expressions | the regex crate, for CORS origins |
| C53 | the parsed `introspection_schema.graphql` | a file of the repository |
| C56 | answers of the n-th poll | the cancellation token |
| C57 | decoding, signature check, cookies, caches | jsonwebtoken, cookie, moka |
| C60 | `require_id` expression, decoded query of a GET, percent decoding | VRL, ntex, percent_encoding |
| C61 | answers of the storage and of the CDN, watcher events, etags | reqwest with retries and the circuit breaker, notify, S3 |
| C65 | `ahash`, `known`, `objects_of`, `resolvable` | hashes of arguments, the set of seen requirements, lookups in the supergraph |
| C72 | `from_array`, `write_error`, `read_error` | the derived `Deserialize` of `SubscribePayload` for arrays, the (de)serialization of `GraphQLError` |
| C73 | `step` of `OwnerModel` | tokio's bounded channel: permits in order of request, `close` fails later and waiting reservations, `recv` ends only when no permit is out, a value sent through a permit after the receiver was dropped stays in the channel |
| C74 | `transform`, `hash`, `evictions`, `net`, `coin`, `expression` | parsing, normalisation and coordinates of an operation; Xxh3 over the values of a key; when moka evicts; the circuit breaker and the HTTP client; the random number; the VRL program |
| C75 | `usort` | `sort_unstable_by`: rearranges, sorts by a total preorder, and leaves a sorted slice as it is |
| C76 | `iter` | iteration over a `HashSet`: the same members, in any order |
| C77 | `decode`; identifiers | decoding of a payload is a function of it; `Ulid::generate` does not repeat (hypothesis `fresh`); a step on a `DashMap` entry or channel is atomic |
| C78 | `iter`; values | the order of a `HashSet` is a function of its content; a value of a patch is the JSON value that was sent |
| C79 | `header_name`, `header_value`, `text`, `read_patch`, `read_gbody`, `blank` | parsers of the `http` crate and of JSON are functions of the text; `set_header` of a response builder replaces, `append` adds; a number with a sign or fraction is not read as `u16` |
| C80 | `pick`, `plugins`, `rest`, `text` | `Accept::negotiate` of `headers_accept` gives one of the offers; a rebuilt `Accept` holds the same entries; names in media types are in one case; hooks of plugins do not panic; header rules and CORS headers of the response are left out |
| C66 | `subgraph_of` | `resolve_graph_id` |
| C67 | `parse`, `tas_eqb` | parsing and normalising the `fields` arguments of federation directives, `PartialEq` of `TypeAwareSelection` |

### Simplifications

* Numbers: `u64` costs, counters and versions are unbounded `N` (C56, C59, C65); `i64` literals are unbounded `Z` (C64).
* Maps: a `HashMap` is an association list in some order; theorems about outputs that depend on the order either
  quantify over permutations or speak of membership only. `BTreeMap` and `BTreeSet` are sorted lists.
* Text: strings are byte strings; four-byte UTF-8 sequences are four characters (C51). Error messages and positions
  are dropped except where a claim is about them (C49, C50, C58).
* Memory: SIMD scanning and page crossing are abstracted to the bytes beyond the end of the buffer that may be read
  (C05). Memoisation (`OnceCell` in path segments of C56, the memo of the authorization rules of C06-C10) is dropped.
* WebSocket (C68): ntex may run the handlers of several frames at once and writes the reply of a handler when it
  ends; `WsSink::send` encodes at its first poll; shutdown runs when no handler is left; nothing is modelled of
  what ntex does after a close frame; preparing and executing an operation is one outcome.
* WebSocket clients (C69, C70): a message is written when the `send` of the sink ends, and may or may not be written
  when it is given up; a task that is spawned to write a message writes it; operations on one entry of the
  `DashMap` are atomic; between the entry of an attempt and the start of its task nothing else happens to the attempt.
* Concurrency: a guard is dropped exactly once (C13, C29); a `fetch_update` loop is one step (C29); caches may evict at any time and
  concurrent fills are not coalesced (C57, C61).
* Libraries as remembered, since their sources are not at hand: combine 4.6.7 (C49, C50), sonic_rs object access and
  number classification (C24, C31, C60), serde derive on error extensions (C17, C18), `HeaderMap::extend` (C19, C20),
  binary search of the standard library (C38),
  matchit with one route (C60), petgraph edge order (C65).
* VRL expressions do not change their target (C12, C19). Plugins' hooks are not modelled.

### What is not modelled

coprocessors; the coordinates collected for usage reports; telemetry; the HTTP listeners and
configuration loading; what the `fetch/optimize` passes do inside the selections of a step, other than the merging of C59 (their
effect on the steps is a relation in C44); the state of subgraphs (`state/subgraph_state.rs`); the parts of `hive-console-sdk`
other than those of C61; the Node addon.

## Mutation testing: edits that survived

The script that made edits automatically wrote an attempt to `seeded/LOG.jsonl` only if some theorem failed, so up to
this point the log held no survivors and must not be read as a kill rate. The 102 survivors still found in the
output of its runs are now at the end of the log, with `"survived": true`. Output of a model that was run twice was
overwritten, so earlier survivors may be missing. The state is that of the run: some were answered by a theorem added
later (as `C76_same_coordinate`), some do not change the function, and the others are gaps. For 23 of them an Example or
lemma failed although no property theorem did. Known gaps among the last: the error codes and exact status numbers of C80
are fixed by Examples only, in part (`C80_statuses`); `stream_of` is fixed only on the types that are offered; the lower
bound of a status in C79 is fixed by `C79_statuses` only.
