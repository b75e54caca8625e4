{"id": "C01", "title": "Merging subgraph responses loses nothing", "statement": "When the router merges a subgraph's data into the response tree, a key that only one side has keeps that side's value, a key both sides have holds the merge of both, a JSON null coming from a subgraph never erases data already received, list lengths already fixed never change, and the merged tree keeps the representation invariant (object keys sorted, no duplicates) that all later lookups rely on.", "quantifier": "all pairs of JSON trees of any depth and size", "why_tests_cant": "merge is recursive over two arbitrary trees; unit tests only cover a handful of shapes", "anchors": ["bin/router/src/executor/response/merge.rs: deep_merge, deep_merge_objects", "bin/router/src/executor/response/value.rs: Value"]}
{"id": "C02", "title": "Completion order of parallel fetches does not change the data", "statement": "If a query plan runs several fetches in parallel, the merged response data is the same whatever order the subgraphs answer in, provided their answers do not contradict each other on a leaf they both return; merging the same answer twice changes nothing.", "quantifier": "all lists of responses, all permutations of their arrival order", "why_tests_cant": "the arrival order is a race; tests exercise one schedule", "anchors": ["bin/router/src/executor/response/merge.rs: deep_merge", "bin/router/src/executor/execution/plan.rs: execute_plan_node"]}
{"id": "C03", "title": "A client only receives what it selected", "statement": "The response data object built for a client contains, at every level, only response keys that appear in the client's selection for the object's runtime type (with its @skip/@include conditions holding), each at most once and in selection order; data fetched only for the planner's own use (keys, @requires inputs, type names) never appears.", "quantifier": "all selection (projection) plans, variable values and response trees", "why_tests_cant": "needs to hold for every plan/data combination, including data with extra or missing fields", "anchors": ["bin/router/src/executor/projection/response.rs: project_by_operation, project_selection_set, project_selection_set_with_map, check"]}
{"id": "C04", "title": "Null propagation follows the GraphQL specification", "statement": "A null (or missing, or failed) value in a non-null position makes the closest nullable ancestor null; list element nullability is applied separately from list nullability; if no ancestor is nullable the whole `data` is null; siblings of the nulled ancestor are unaffected; a nullable position shows null.", "quantifier": "all response trees, all nestings of list / non-null wrappers, all selections", "why_tests_cant": "the bubbling is implemented by truncating an output buffer at checkpoints; correctness is about arbitrary nestings", "anchors": ["bin/router/src/executor/projection/response.rs: project_selection_set, project_selection_set_with_map"]}
{"id": "C05", "title": "Client responses are well-formed JSON that decodes to the intended data", "statement": "Whatever strings (control characters, quotes, backslashes, any bytes) appear in the data, the bytes the router writes for string values decode back to exactly those strings, contain no raw control characters or unescaped quotes, and the whole projected response decodes to the projected tree.", "quantifier": "all byte strings and all response trees", "why_tests_cant": "string escaping must hold for every byte sequence at every offset", "anchors": ["bin/router/src/executor/json_writer.rs: write_and_escape_string, format_string", "bin/router/src/executor/projection/response.rs"]}
{"id": "C06", "title": "Unauthorized fields never reach a subgraph", "statement": "After authorization in filter mode, the operation handed to the query planner selects no active field whose parent type, own rule or output type rule the caller does not satisfy.", "quantifier": "all schemas, rules, caller scopes, operations (any nesting of fields and fragments) and variable values", "why_tests_cant": "a security guarantee over all operations and all rule placements", "anchors": ["bin/router/src/pipeline/authorization/mod.rs: apply_authorization_to_operation", "bin/router/src/executor/operation_filter.rs", "bin/router/src/pipeline/nullify/rebuilder.rs: rebuild_nulled_selection_set"]}
{"id": "C07", "title": "Authorization removes nothing it should not", "statement": "A field the caller may read, with an unauthorized neither on its path nor forced by non-null propagation, is still selected after filtering; if the caller is authorized for everything the operation is unchanged; every removal is reported as an error naming the field's path.", "quantifier": "all schemas, operations, scopes", "why_tests_cant": "over-filtering shows only on particular shapes", "anchors": ["bin/router/src/executor/operation_filter.rs: FilteringContext", "bin/router/src/pipeline/nullify/rebuilder.rs"]}
{"id": "C08", "title": "Reject mode is all-or-nothing", "statement": "In reject mode the request is refused exactly when the operation contains an active field or fragment the caller is not authorized for; otherwise the operation is executed unchanged.", "quantifier": "all schemas, operations, scopes and variable values", "why_tests_cant": "decision procedure over all operations", "anchors": ["bin/router/src/pipeline/authorization/mod.rs: enforce_operation_authorization"]}
{"id": "C09", "title": "Unauthorized fields never appear in the response", "statement": "A field removed by authorization is shown as null (or propagates null) and never with a value, even when its value was fetched for internal reasons (as an entity key or @requires input).", "quantifier": "all schemas, operations, scopes, response data", "why_tests_cant": "leak appears only for certain combinations of fragments and internally fetched data", "anchors": ["bin/router/src/pipeline/nullify/rebuilder.rs: rebuild_nulled_projection_plan", "bin/router/src/executor/projection/plan.rs: FieldProjectionPlan"]}
{"id": "C10", "title": "Scope requirements are evaluated as written", "statement": "@requiresScopes(scopes: [[a,b],[c]]) admits exactly callers that are authenticated and hold all of one inner group; @authenticated admits exactly authenticated callers; holding more scopes never loses access.", "quantifier": "all rule groups and all scope sets", "why_tests_cant": "boolean function over unbounded sets", "anchors": ["bin/router/src/pipeline/authorization/mod.rs: AuthorizationChecker", "bin/router/src/pipeline/authorization/user_auth_context.rs"]}
{"id": "C11", "title": "A cached query plan is only reused for the same operation", "statement": "Two requests share a cached plan only if their operations ask for the same thing: distinct operations produce distinct cache-key input.", "quantifier": "all pairs of normalized operations", "why_tests_cant": "a collision is a needle in a haystack; found only by proving injectivity", "anchors": ["bin/router/src/query_planner/ast/hash.rs: ast_hash", "bin/router/src/pipeline/query_plan.rs: plan_operation_with_cache"]}
{"id": "C12", "title": "The plan cache respects progressive overrides", "statement": "Two requests that fall on the same side of every percentage threshold and have the same relevant labels active get the same override decision for every field; requests that would be routed differently never share a cache entry.", "quantifier": "all supergraphs, label sets and random percentages", "why_tests_cant": "random percentage per request; soundness of the discretization", "anchors": ["bin/router/src/pipeline/progressive_override.rs: StableOverrideContext", "bin/router/src/query_planner/graph/mod.rs: PlannerOverrideContext"]}
{"id": "C13", "title": "In-flight deduplication never serves stale or foreign results", "statement": "With request deduplication, a request receives either its own response or the response of a request with the same fingerprint that was still in flight when it arrived; it never receives the response of a call that had already completed, and a leader's cancellation or failure never leaves followers stuck on a dead entry.", "quantifier": "all interleavings of any number of concurrent requests, with cancellation at any point", "why_tests_cant": "concurrency: schedules are unbounded", "anchors": ["bin/router/src/executor/executors/inflight.rs", "bin/router/src/executor/executors/http.rs"]}
{"id": "C14", "title": "Only identical subgraph requests are deduplicated", "statement": "Two subgraph requests are merged into one only if method, endpoint, body and all headers agree.", "quantifier": "all pairs of requests", "why_tests_cant": "injectivity over all header maps", "anchors": ["bin/router/src/executor/executors/dedupe.rs: request_fingerprint"]}
{"id": "C15", "title": "Entities are deduplicated only when their representations are equal", "statement": "When entity representations are deduplicated before an _entities call, two objects share one representation only if the fields sent are equal.", "quantifier": "all pairs of JSON objects and requires selections", "why_tests_cant": "injectivity over all JSON", "anchors": ["bin/router/src/executor/response/value.rs: to_hash, hash_with_requires", "bin/router/src/executor/execution/plan.rs"]}
{"id": "C16", "title": "Every entity gets the result of its own representation", "statement": "For an _entities fetch, the i-th object found at the path receives exactly the result returned for the representation built from it, objects whose representation was skipped are untouched, and the number of representations sent equals the number of results expected.", "quantifier": "all response trees, paths and dedup patterns", "why_tests_cant": "index bookkeeping across dedup and traversal", "anchors": ["bin/router/src/executor/execution/plan.rs: prepare_job_future, process_job_result", "bin/router/src/executor/utils/traverse.rs"]}
{"id": "C17", "title": "Error masking cannot be bypassed", "statement": "With masking configured, an error that originated in a subgraph reaches the client only with that subgraph's configured message and only with the extension keys its policy allows.", "quantifier": "all errors, all masking configurations", "why_tests_cant": "adversarial subgraph content", "anchors": ["bin/router/src/executor/execution/error_masking.rs", "bin/router/src/executor/response/graphql_error.rs: add_subgraph_name"]}
{"id": "C18", "title": "Entity errors are relocated to every affected position", "statement": "An error reported at /_entities/i/... becomes one error per position that entity was read from, with the path rewritten to that position, and errors without an entity path are kept; none is lost.", "quantifier": "all errors and index maps", "why_tests_cant": "unbounded fan-out", "anchors": ["bin/router/src/executor/response/graphql_error.rs: normalize_entity_error, entity_index_and_path", "bin/router/src/executor/execution_context.rs: handle_errors"]}
{"id": "C19", "title": "Hop-by-hop headers are never propagated", "statement": "No configured header propagation rule makes the router forward a hop-by-hop header to a subgraph or from a subgraph to the client.", "quantifier": "all rule lists and header maps", "why_tests_cant": "all rule combinations", "anchors": ["bin/router/src/executor/headers/request.rs", "bin/router/src/executor/headers/response.rs", "bin/router/src/executor/headers/sanitizer.rs"]}
{"id": "C20", "title": "Response header aggregation strategies", "statement": "With `first` the client sees the first subgraph value in merge order, with `last` the last, with `append` all of them in order joined by a comma; headers that cannot be joined (set-cookie, www-authenticate) keep all their values as separate headers and none is lost.", "quantifier": "all sequences of subgraph responses", "why_tests_cant": "sequences are unbounded", "anchors": ["bin/router/src/executor/headers/response.rs: write, modify_client_response_headers"]}
{"id": "C21", "title": "The client Cache-Control is never more permissive than any subgraph's", "statement": "The merged Cache-Control does not depend on the order responses arrive in; if any subgraph said no-store, no-cache or private the response is not cacheable; max-age is at most every subgraph's; public only if every response said public.", "quantifier": "all multisets of subgraph Cache-Control values", "why_tests_cant": "merge over unbounded multisets, all header syntaxes", "anchors": ["bin/router/src/executor/headers/cache_control.rs"]}
{"id": "C22", "title": "CORS only admits configured origins", "statement": "Access-Control-Allow-Origin equals the request's Origin only if the configuration admits it (allow-any or the first matching policy); otherwise it is `null`; responses vary on Origin; credentials are only allowed if configured.", "quantifier": "all configurations and origins", "why_tests_cant": "security decision for every origin", "anchors": ["bin/router/src/pipeline/cors.rs"]}
{"id": "C23", "title": "CSRF prevention rejects exactly simple requests", "statement": "With CSRF prevention on, a request passes exactly when it carries a content type that browsers do not treat as simple, or one of the required headers.", "quantifier": "all header maps", "why_tests_cant": "security decision for every header map", "anchors": ["bin/router/src/pipeline/csrf_prevention.rs"]}
{"id": "C24", "title": "Variable coercion admits only well-typed values", "statement": "If the router accepts a request's variables then every declared non-null variable has a value (its own or the default), every value sent conforms to the declared type as the schema knows it, defaults are applied exactly when the variable is absent, and undeclared variables are dropped.", "quantifier": "all variable definitions, schemas and JSON values", "why_tests_cant": "recursive type structure", "anchors": ["bin/router/src/executor/variables/mod.rs: collect_variables, validate_runtime_value"]}
{"id": "C25", "title": "@skip/@include mean the same thing everywhere", "statement": "For the same variables, a conditional selection is considered active by the authorization filter, by plan execution and by the response projection in exactly the same cases, and these are the cases the GraphQL specification gives.", "quantifier": "all variable maps and condition combinations", "why_tests_cant": "three separate implementations must agree on all inputs", "anchors": ["bin/router/src/executor/operation_filter.rs: is_ignored", "bin/router/src/executor/execution/plan.rs: condition_node_by_variables, variable_equals_true", "bin/router/src/executor/projection/response.rs: check"]}
{"id": "C26", "title": "Demand control is enforced", "statement": "In enforce mode an operation whose estimated cost exceeds the maximum never reaches any subgraph; a subgraph whose own estimate exceeds its budget is never called; the estimate never wraps around and grows with list sizes.", "quantifier": "all plans, costs, list sizes and variables", "why_tests_cant": "arithmetic over unbounded expressions (saturation)", "anchors": ["bin/router/src/pipeline/demand_control/formula.rs", "bin/router/src/pipeline/demand_control/runtime.rs", "bin/router/src/executor/executors/map.rs"]}
{"id": "C27", "title": "Operation limits count the expanded operation", "statement": "Depth, alias and directive limits reject an operation exactly when the operation with all fragments expanded exceeds the limit, whatever order fragments are defined or visited in; they terminate on cyclic fragments.", "quantifier": "all documents with any fragment graph and any limits", "why_tests_cant": "memoisation over arbitrary fragment graphs", "anchors": ["bin/router/src/pipeline/validation/max_depth_rule.rs", "bin/router/src/pipeline/validation/max_aliases_rule.rs", "bin/router/src/pipeline/validation/max_directives_rule.rs"]}
{"id": "C28", "title": "Subscription event streams parse the same however the bytes are chunked", "statement": "For SSE and multipart subscription transports, the sequence of events delivered depends only on the bytes the subgraph sent, not on how the network split them into chunks.", "quantifier": "all byte streams and all ways to split them", "why_tests_cant": "split points are unbounded", "anchors": ["bin/router/src/executor/executors/sse.rs", "bin/router/src/executor/executors/multipart_subscribe.rs"]}
{"id": "C29", "title": "Long-lived client limit", "statement": "The number of concurrently open long-lived clients never exceeds the configured limit, a slot is released exactly once per client, and a client is refused only if the limit is currently reached.", "quantifier": "all interleavings of connects and disconnects", "why_tests_cant": "concurrency", "anchors": ["bin/router/src/pipeline/long_lived_client_limit.rs"]}
{"id": "C30", "title": "Slow subscription consumers", "statement": "A slow consumer never blocks the subgraph: it receives a subsequence of the events in order, loses events only when its buffer is full, and an open subscription stays open after a drop.", "quantifier": "all interleavings of producer and consumer steps, all buffer sizes", "why_tests_cant": "concurrency", "anchors": ["bin/router/src/executor/executors/subscription_buffer.rs"]}
{"id": "C31", "title": "Subgraph response parsing rejects ambiguous answers", "statement": "A subgraph response with neither data nor errors is an error; duplicate top-level data/errors/extensions keys are rejected; unknown keys are ignored; an error is never silently turned into success.", "quantifier": "all top-level JSON objects", "why_tests_cant": "adversarial inputs", "anchors": ["bin/router/src/executor/response/subgraph_response.rs"]}
{"id": "C32", "title": "Query plan simplification preserves execution", "statement": "Flattening nested sequences and parallels and merging fetches in the final plan preserves the set of fetches and every happens-before edge between them.", "quantifier": "all plan trees", "why_tests_cant": "structural rewriting over unbounded trees", "anchors": ["bin/router/src/query_planner/planner/query_plan.rs", "bin/router/src/query_planner/planner/query_plan/optimize.rs"]}
{"id": "C33", "title": "Normalization preserves the meaning of an operation", "statement": "Merging fields, inlining and flattening fragments, expanding types and dropping duplicates or statically skipped fields leaves, for every runtime type and variable assignment, the same set of response fields as the original operation.", "quantifier": "all operations and schemas", "why_tests_cant": "rewriting over unbounded ASTs", "anchors": ["bin/router/src/query_planner/ast/normalization/"]}
{"id": "C34", "title": "Fragment cycles are rejected and fragment inlining terminates", "statement": "Every cyclic fragment spread is reported as an error rather than recursing for ever; every acyclic document is expanded completely.", "quantifier": "all documents and fragment graphs", "why_tests_cant": "termination", "anchors": ["bin/router/src/query_planner/ast/normalization/pipeline/inline_fragment_spreads.rs"]}
{"id": "C35", "title": "Extensions aggregation", "statement": "Subgraph response extensions reach the client only for allowed keys, follow the configured strategy, never overwrite keys the router itself sets, and `queryPlan` is never taken from a subgraph.", "quantifier": "all sequences of subgraph extensions", "why_tests_cant": "sequences are unbounded", "anchors": ["bin/router/src/executor/extensions/aggregator.rs"]}
{"id": "C36", "title": "Type conditions and conditional projections combine correctly", "statement": "Combining type guards and include/skip conditions while building the response plan (union, intersection, and/or simplification) keeps exactly the runtime types and variable assignments of the parts.", "quantifier": "all conditions, type names and variable assignments", "why_tests_cant": "boolean algebra over unbounded expressions", "anchors": ["bin/router/src/executor/projection/plan.rs: TypeCondition, FieldProjectionCondition"]}
{"id": "C37", "title": "Path traversal visits the same objects for reading and writing", "statement": "The objects whose representations are collected for an entity fetch are exactly, and in the same order, the objects later written to, and the error path reported for each is its actual position in the response.", "quantifier": "all response trees and flatten paths", "why_tests_cant": "two separate recursive traversals must agree", "anchors": ["bin/router/src/executor/utils/traverse.rs"]}
{"id": "C38", "title": "Output and input rewrites keep the response readable", "statement": "Applying key renames and value setters requested by the planner keeps every key of the tree findable by later lookups and changes nothing else.", "quantifier": "all trees and rewrite paths", "why_tests_cant": "invariant of sorted objects under in-place rename", "anchors": ["bin/router/src/executor/execution/rewrites.rs"]}
{"id": "C39", "title": "Representations sent to subgraphs are well-formed", "statement": "The representations array sent to a subgraph is well-formed JSON; each representation contains the type name and exactly the required fields present in the data; objects without any required field are not sent.", "quantifier": "all trees and requires selections", "why_tests_cant": "buffer rollback logic over arbitrary nestings", "anchors": ["bin/router/src/executor/projection/request.rs: project_requires"]}
{"id": "C40", "title": "Subgraph operations are named without changing their meaning", "statement": "Inserting an operation name into a subgraph request changes only the name of the operation.", "quantifier": "all documents and names", "why_tests_cant": "text splicing at an offset", "anchors": ["bin/router/src/executor/json_writer.rs: write_named_operation", "bin/router/src/executor/execution/operation_name.rs"]}
{"id": "C41", "title": "Batched fetches are split back losslessly", "statement": "When several entity fetches are combined into one request with aliases, every result and every error is delivered to exactly the fetch it belongs to.", "quantifier": "all batches and responses", "why_tests_cant": "partition over unbounded aliases", "anchors": ["bin/router/src/executor/execution/plan.rs: partition_batch_errors_by_alias, collect_batched_entities_by_alias, merge_batch_alias_entities"]}
{"id": "C42", "title": "Failure isolation in plan execution", "statement": "A failing fetch contributes errors but no data, does not prevent independent fetches from running, and steps of a sequence run in order after all previous steps have completed.", "quantifier": "all plans and all schedules of fetch completions", "why_tests_cant": "concurrency", "anchors": ["bin/router/src/executor/execution/plan.rs: execute_plan_node"]}
{"id": "C43", "title": "Multipart subscription parts are delivered whole", "statement": "A part framed according to multipart/mixed (delimiter only at the start of a line) is delivered with exactly its body, in order, whatever the body contains.", "quantifier": "all boundaries, parts and chunkings", "why_tests_cant": "needs bodies that contain the delimiter text", "anchors": ["bin/router/src/executor/executors/multipart_subscribe.rs: find_next_part, parse_part, parse_boundary_from_header"]}
{"id": "C44", "title": "Fetch steps run after everything they depend on", "statement": "Optimising the fetch graph (dropping useless steps and redundant edges, merging steps) never loses a dependency and never creates a cycle; the waves built from the graph contain every step exactly once, each after all its parents and as early as possible; planning fails only for graphs that have no order.", "quantifier": "all fetch graphs and all sequences of passes", "why_tests_cant": "needs unusual dependency shapes between subgraphs", "anchors": ["bin/router/src/query_planner/planner/query_plan.rs: build_query_plan_from_fetch_graph, InDegree", "bin/router/src/query_planner/planner/fetch/optimize/mod.rs", "bin/router/src/query_planner/planner/fetch/fetch_graph.rs: is_descendant_of"]}
{"id": "C45", "title": "Mutation fields are executed one after another, in order", "statement": "The fetches of a mutation's top-level fields run in the order of the fields; a field's fetch starts only after the fetches that complete the previous field.", "quantifier": "all mutation fetch graphs", "why_tests_cant": "needs mutations spanning several subgraphs with timing", "anchors": ["bin/router/src/query_planner/planner/fetch/optimize/turn_mutations_into_sequence.rs"]}
{"id": "C46", "title": "Only equivalent client requests are deduplicated", "statement": "Two client requests are merged into one in-flight execution only if they have the same method and path, the same schema, the same normalized operation, the same variables and extensions, and the same values for every header the configured policy includes.", "quantifier": "all pairs of requests, all header policies, all JSON variables", "why_tests_cant": "injectivity of an encoding over all JSON values and header maps; a collision leaks one user's data to another", "anchors": ["bin/router/src/pipeline/mod.rs: connection_fingerprint, inbound_request_fingerprint, hash_graphql_variables, hash_graphql_value", "bin/router/src/shared_state.rs: dedupe header policy"]}
{"id": "C47", "title": "A subscription serves its clients from the first event and ends when they are gone", "statement": "The client that opens a subscription receives every event from the first one on (except reported lag), and when no client is left the router stops reading from the subgraph, whether or not subscriptions are shared.", "quantifier": "all interleavings of upstream events, joining, reading and leaving clients", "why_tests_cant": "depends on reference counts and timing of shared handles", "anchors": ["bin/router/src/pipeline/mod.rs: execute_planned_request", "bin/router/src/pipeline/active_subscriptions.rs", "bin/router/src/shared_state.rs: SharedRouterStreamResponse"]}
{"id": "C48", "title": "The response plan selects what the operation selects", "statement": "For every type an object of the response can have, the response plan built from the operation selects exactly the response keys and fields that the GraphQL algorithm CollectFields selects for that type and those variables, each key once, with the nullability of the field.", "quantifier": "all schemas, operations (nested fragments, aliases, @skip/@include), variables and object types", "why_tests_cant": "merging of overlapping fragments, type guards and conditions is a product of cases over types and variables", "anchors": ["bin/router/src/executor/projection/plan.rs: FieldProjectionPlan::from_operation"]}
{"id": "C49", "title": "The text of a subgraph operation says what the plan says", "statement": "The text the router writes for an operation it planned is, by the GraphQL grammar, the document the planner's tree stands for: its own parser reads it back as that tree, different trees have different texts, and putting an operation name into the text names the operation and changes nothing else.", "quantifier": "all operations, fragments, argument values, strings, variables, defaults, types and names", "why_tests_cant": "string escapes, floats, separators and short forms combine freely; snapshot tests fix a handful of texts", "anchors": ["bin/router/src/query_planner/ast/value.rs: Display for Value, write_graphql_string_literal", "bin/router/src/query_planner/ast/selection_set.rs: Display for SelectionSet, FieldSelection, InlineFragmentSelection", "bin/router/src/query_planner/ast/operation.rs: Display for OperationDefinition, SubgraphFetchOperation::from_anonymous_operation", "bin/router/src/query_planner/ast/document.rs: Display for Document"]}
{"id": "C50", "title": "The parser reads the GraphQL language", "statement": "A request document is accepted exactly when it is a GraphQL document (October 2021 lexical and syntactic grammar), and the tree built for it is the one the specification gives it; reading always ends without a panic; accepted documents are nested no deeper and have no more tokens than the configured limits.", "quantifier": "all texts, all nesting limits, all token limits", "why_tests_cant": "escape sequences, number formats, block-string indentation and adjacency of tokens combine freely; tests only sample texts", "anchors": ["lib/graphql-tools/src/parser/tokenizer.rs: take_token, skip_whitespace", "lib/graphql-tools/src/parser/common.rs: value, unquote_string, unquote_block_string", "lib/graphql-tools/src/parser/query/grammar.rs: parse_query, parse_query_with_token_limit"]}
{"id": "C51", "title": "Minifying a document keeps the document", "statement": "The minified text of a document, made from its text or from its tree, is read back as that document, is its own minified text, and is shared only by documents with the same tokens, so that the operation hash computed from it identifies the operation.", "quantifier": "all documents, strings, numbers and nesting", "why_tests_cant": "tokens that run together, string escapes and block-string indentation combine freely; tests only sample documents", "anchors": ["lib/graphql-tools/src/parser/query/minify.rs: minify_query, minify_query_document, Minifier", "bin/router/src/pipeline/parser.rs: ParseCacheEntry"]}
{"id": "C52", "title": "Sharing selections through fragments keeps the subgraph operation", "statement": "Rewriting a subgraph operation so that repeated selection sets become fragments never fails or panics for an operation that fits the supergraph, and replacing the spreads of the result by their fragments gives back the operation (up to the order of selections): no selection set is replaced by another one, every spread has exactly one fragment, on the right type and with a name the grammar allows.", "quantifier": "all supergraphs, operations, argument values, nestings and numbers of repeated sets; all hash functions", "why_tests_cant": "whether two selection sets are confused depends on pairs of argument values inside one operation, and the names on the number of fragments", "anchors": ["bin/router/src/query_planner/ast/minification/mod.rs: minify_operation", "bin/router/src/query_planner/ast/minification/stats.rs: walk_and_collect_stats", "bin/router/src/query_planner/ast/minification/transform.rs: transform_operation, get_or_create_fragment, generate_fragment_name", "bin/router/src/query_planner/ast/minification/selection_id.rs: generate_selection_id", "bin/router/src/query_planner/ast/hash.rs: ASTHash for SelectionSet, Value"]}
{"id": "C53", "title": "Clients see exactly the accessible part of the supergraph", "statement": "The schema used for validation and introspection contains every type, field, argument, enum value, input field, directive, membership and implementation of the supergraph that is not marked @inaccessible (itself or above it) and not federation machinery, with its public directives, plus the introspection fields on the query type, and nothing else; every name it uses is defined in it.", "quantifier": "all supergraphs", "why_tests_cant": "the transformer replaces or keeps each list depending on what is in it; tests sample a few schemas", "anchors": ["bin/router/src/query_planner/consumer_schema/mod.rs: ConsumerSchema::create_consumer_schema", "bin/router/src/query_planner/consumer_schema/prune_inacessible.rs: PruneInaccessible", "bin/router/src/query_planner/consumer_schema/strip_schema_internals.rs: StripSchemaInternals", "bin/router/src/query_planner/utils/schema_transformer.rs: SchemaTransformer"]}
{"id": "C54", "title": "Introspection tells clients about the schema as the specification prescribes", "statement": "Every valid introspection query on a sound consumer schema is answered without a panic, and the answer is the one section 4 of the GraphQL specification prescribes: for every type, field, argument, enum value, input field, directive and root, with deprecated members left out unless asked for, possible types and interfaces as declared, selection sets of equal response keys merged.", "quantifier": "all schemas, all introspection queries (any nesting, aliases, fragments, arguments, variables), all hash-table iteration orders", "why_tests_cant": "queries nest without bound through types of types; tests compare one standard query on a few schemas", "anchors": ["bin/router/src/executor/introspection/resolve.rs: resolve_introspection and the resolve_*_selections functions", "bin/router/src/executor/introspection/schema.rs: SchemaWithMetadata, possible types, root type names", "lib/graphql-tools/src/ast/ext.rs: type_by_name, type_map"]}
{"id": "C55", "title": "Splitting off introspection loses and invents nothing", "statement": "Before planning, an operation is split into the part about the schema (fields starting with two underscores, except __typename), answered by the router, and the rest, planned for subgraphs. Everything the operation asks for is asked for in exactly one of the two, at the same place (same enclosing fields, fragments, arguments and conditions) and in the same order; neither part has selections through which nothing is asked; the introspection operation exists only if it asks for something and defines exactly the variables it uses.", "quantifier": "all operations: any nesting of fields and fragments, any variables and conditions", "why_tests_cant": "mixed selections nest arbitrarily; tests have a few operations", "anchors": ["bin/router/src/executor/introspection/partition.rs: partition_operation, partition_selection_set", "bin/router/src/query_planner/ast/selection_set.rs: variable_usages", "bin/router/src/query_planner/ast/value.rs: variable_usages"]}
{"id": "C56", "title": "The planner picks the cheapest combination of paths", "statement": "Given for each leaf of the operation the paths that reach it, the planner returns a tree made of exactly one path per leaf, with common beginnings shared and nothing else in it, mutation fields kept apart; and no other choice of one path per leaf costs less, where a place costs 1, entering a subgraph or a requirement 1000 more, and shared places are paid once.", "quantifier": "all graphs, all numbers of leaves and alternatives, all requirement trees, queries and mutations, any cancellation token", "why_tests_cant": "the number of combinations is exponential; a wrong bound in branch and bound still returns a valid plan, so tests of results pass", "anchors": ["bin/router/src/query_planner/planner/best.rs: find_best_combination, find_initial_plan, explore_plan_combinations, calculate_min_remaining_costs, calculate_cost_of_tree", "bin/router/src/query_planner/planner/tree/query_tree_node.rs: merge_nodes, from_paths", "bin/router/src/query_planner/planner/tree/query_tree.rs: from_path, merge_trees"]}
{"id": "C57", "title": "Only requests with a valid token are authenticated", "statement": "Whatever requests, reloads of keys and cache evictions came before, a request counts as authenticated only if the token found in it (in the first configured location that has one) was checked at this request or one less than five seconds ago: signed by a key of a set loaded at that time, with an algorithm the token, the key and the configuration agree on, with the configured issuer and audience, and at most a minute past its expiry at this request even when cached. Where authentication is required nothing else passes; where it is not nothing is refused. A token that is valid under some loaded key is accepted.", "quantifier": "all configurations, all header lists, all histories of requests, key reloads and evictions, all times, any behaviour of the cryptography", "why_tests_cant": "the cache and the reloads make validity depend on the history; tests check single requests against one key set", "anchors": ["bin/router/src/jwt/mod.rs: lookup, find_matching_jwks, authenticate, try_decode_from_jwk, validate_headers", "bin/router/src/jwt/jwks_manager.rs: all, get_jwk_set, prefetch_sources, JwksSourceTask::run", "bin/router/src/jwt/context.rs: extract_scopes", "bin/router/src/shared_state.rs: JwtClaimsExpiry"]}
{"id": "C58", "title": "Fields that share a response name can be merged", "statement": "The validation rule on overlapping fields reports a conflict exactly when the GraphQL specification says that two fields of the same response name in some selection set (through fragments and through the selection sets below) cannot be merged: different fields or arguments where an object may have both, or types of different shapes anywhere. It comes to an end on every document.", "quantifier": "all schemas, all documents: any nesting, aliases, arguments, fragments, including fragments in cycles", "why_tests_cant": "the rule caches compared pairs of fragments and visited fragments; which pairs are skipped depends on the whole document", "anchors": ["lib/graphql-tools/src/validation/rules/overlapping_fields_can_be_merged.rs: OverlappingFieldsCanBeMerged", "lib/graphql-tools/src/ast/ext.rs: Value::compare, type_by_name, field_by_name", "lib/graphql-tools/src/ast/operation_visitor.rs: visit_document", "bin/router/src/pipeline/validation/mod.rs: validate_operation_with_cache"]}
{"id": "C59", "title": "Merging the selections of two fetch steps keeps what both ask for", "statement": "When the planner merges the selections of one fetch step into those of another (SafeSelectionSetMerger::merge_selection_set, and merge_selection_set for the variant without renaming, at the root or at a path), the result asks exactly for what both sides ask for: every path of response name, field, arguments and conditions of either side is in the result and there is nothing else, except that a field which shares its place with a different field of the other side is given a fresh reserved alias on the side chosen by the flags; every such alias is recorded, recorded aliases were given, and the steps that read a renamed field are told its new name.", "quantifier": "For all selection sets, paths, flags, hash functions of the arguments and starting counters.", "why_tests_cant": "The merge recurses over two trees and mixes in-place merging, deferred copies and deferred renames; which fields conflict depends on hashes, aliases and conditions at each level, and a lost field shows only as a null in a response for particular arguments.", "anchors": ["bin/router/src/query_planner/ast/safe_merge.rs", "bin/router/src/query_planner/ast/selection_set.rs", "bin/router/src/query_planner/ast/value.rs", "bin/router/src/query_planner/planner/fetch/selections.rs", "bin/router/src/query_planner/planner/fetch/optimize/apply_internal_aliases_patching.rs"]}
{"id": "C60", "title": "With required document ids only stored texts run", "statement": "Which text is executed is decided by the mode: where ids are required, exactly the stored text of the reported id is executed and the query text of the client is of no influence; where ids are accepted, a query text wins and an id is used only without one; where persisted documents are off, ids are ignored. The id is the first non-empty one along the configured selectors (document id, JSON path, query parameter, path parameter, Apollo hash), and each selector reads exactly the place that it names: the JSON path through objects only, the first decoded pair of the query string with the name, the path segment at the place of the template.", "quantifier": "For all requests (GET, JSON body, websocket, plugin override), all selector lists, all stores and all modes.", "why_tests_cant": "The query text can arrive by four routes and the id by five; a test tries a few of the combinations, and reading a query where none may be read gives the right answer for honest clients.", "anchors": ["bin/router/src/pipeline/execution_request.rs", "bin/router/src/pipeline/persisted_documents/extract/core.rs", "bin/router/src/pipeline/persisted_documents/extract/extractors/json_path.rs", "bin/router/src/pipeline/persisted_documents/extract/extractors/url_path_param.rs", "bin/router/src/pipeline/persisted_documents/extract/extractors/url_query_param.rs", "bin/router/src/pipeline/persisted_documents/types.rs", "bin/router/src/config/persisted_documents.rs", "bin/router/src/utils.rs"]}
{"id": "C61", "title": "A stored document is the one published under its id", "statement": "Whatever was asked before, whatever failed and whatever expired, the text given for a document id is one that an endpoint served for this id, or the last entry of the manifest for it; endpoints are tried in order until one serves it; 'not found' is answered because of a refusal now or within the configured time to live. A manifest on disk that changes while being watched is loaded again until the documents in memory are those of the file, whatever the interleaving of writes, events and reads; a manifest that cannot be read or parsed leaves the last good one; a polled object is taken when its tag changes. Different documents have different addresses.", "quantifier": "For all histories of lookups, evictions and time, all answers of the endpoints, all interleavings of watcher and task, all sequences of polls, all names, versions and ids.", "why_tests_cant": "The watcher, its dirty flag, its permit and the reading task interleave in more ways than tests provoke; stale texts show only after particular interleavings.", "anchors": ["bin/router/src/pipeline/persisted_documents/resolve/hive.rs", "bin/router/src/pipeline/persisted_documents/resolve/fs.rs", "bin/router/src/pipeline/persisted_documents/resolve/storage.rs", "bin/router/src/pipeline/persisted_documents/resolve/shared_file_manifest.rs", "lib/hive-console-sdk/src/persisted_documents.rs", "bin/router/src/storage/s3_runtime.rs"]}
{"id": "C62", "title": "Each place of a document is checked by the rules of validation", "statement": "For every document and schema, each of the seventeen validation rules that judge one place at a time (unique names of operations, fragments, arguments, variables, input fields and directives; lone anonymous operations; known types, fragments, directives and arguments; fragments on composite types; variables of input types; leaf selections; fields on the type they are selected on; spreads that can apply; required arguments) reports exactly the places that break the rule of the GraphQL specification, and running all rules in one walk reports what each of them reports alone.", "quantifier": "For all well-formed schemas and all documents, of any nesting, including documents that break many rules at once.", "why_tests_cant": "The rules share one walk whose stacks say which type a place is on, and some keep state from call to call; a wrong push or pop shows only for particular nestings.", "anchors": ["lib/graphql-tools/src/ast/operation_visitor.rs", "lib/graphql-tools/src/ast/ext.rs", "lib/graphql-tools/src/validation/validate.rs", "lib/graphql-tools/src/validation/rules/known_argument_names.rs", "lib/graphql-tools/src/validation/rules/known_directives.rs", "lib/graphql-tools/src/validation/rules/possible_fragment_spreads.rs", "lib/graphql-tools/src/validation/rules/fields_on_correct_type.rs", "lib/graphql-tools/src/validation/rules/leaf_field_selections.rs", "lib/graphql-tools/src/validation/rules/provided_required_arguments.rs", "lib/graphql-tools/src/validation/rules/unique_directives_per_location.rs", "bin/router/src/pipeline/validation/mod.rs"]}
{"id": "C63", "title": "Validation rules over fragment spreads report exactly the faults", "statement": "For a well formed schema and any document that can be walked, the rules no_unused_fragments, no_unused_variables, no_undefined_variables, variables_in_allowed_position, no_fragments_cycle and single_field_subscriptions report what the GraphQL specification asks: unused fragments are exactly those that no operation reaches; a variable is reported as unused (undefined) for an operation exactly when nothing reached from the operation uses it (something reached uses it and the operation does not define it); a variable is reported at a position exactly when its type, taking defaults into account, does not fit the type of the position; every reported cycle is a cycle along the reported names, and cyclic documents are reported; a subscription is reported exactly when it has several root fields or an introspection root field. No rule runs out of its search or panics.", "quantifier": "All schemas and documents of any size, any nesting of selections and values, any graph of fragments (cyclic or not).", "why_tests_cant": "The rules search graphs of fragments with shared visited sets, a manual stack, path indices and early exits; tests only try small graphs, and missed reports do not show up as failures.", "anchors": ["lib/graphql-tools/src/validation/rules/no_unused_fragments.rs", "lib/graphql-tools/src/validation/rules/no_unused_variables.rs", "lib/graphql-tools/src/validation/rules/no_undefined_variables.rs", "lib/graphql-tools/src/validation/rules/variables_in_allowed_position.rs", "lib/graphql-tools/src/validation/rules/no_fragments_cycle.rs", "lib/graphql-tools/src/validation/rules/single_field_subscriptions.rs", "lib/graphql-tools/src/ast/collect_fields.rs", "lib/graphql-tools/src/ast/ext.rs"]}
{"id": "C64", "title": "Literal values against the types of their places", "statement": "The rule on values of correct type reports exactly the faults of the argument values and variable defaults that the walk gives a type: null where null may not be, scalar and enum literals that the type does not take, missing required and undefined fields of input objects. A report never appears unless some value of the document does not fit the type of its place under input coercion, and without reports every value of the judged forms fits its type.", "quantifier": "all schemas with unique names, all documents, values of any nesting", "why_tests_cant": "Values nest without bound and the type of each place comes from a walk through fields, directives, lists and input objects; tests try a handful of literals per scalar, and would not show which combinations of wrapping and nesting are never looked at.", "anchors": ["lib/graphql-tools/src/validation/rules/values_of_correct_type.rs", "lib/graphql-tools/src/ast/operation_visitor.rs", "lib/graphql-tools/src/ast/ext.rs"]}
{"id": "C65", "title": "The planner's path search finds only what can be fetched, and always ends", "statement": "Every path that the search returns is a path of the query graph that extends the given one: a direct path by one edge to what was asked for; an indirect path by moves between subgraphs, none entered twice and none excluded, then one such edge. Every edge on it may be taken: no override forbids it, and each selection of its requirements can itself be fetched from where the path stands, along edges that may be taken. The cost of a path is the sum of the costs of its edges, and only the cheapest per subgraph are kept. On every graph whose indexes are in order the search ends without an error, also when requirements need each other in a circle; a requirement is rejected as circular exactly when it has something in common with the field searched for.", "quantifier": "For all query graphs, paths, targets, override contexts, exclusion lists and requirements of any nesting.", "why_tests_cant": "The search and the check of requirements call each other through four functions with exclusion lists that shrink the search; whether it ends, and whether a returned path can be executed, depends on the whole graph, and tests only try the supergraphs at hand.", "anchors": ["bin/router/src/query_planner/planner/walker/pathfinder.rs", "bin/router/src/query_planner/planner/walker/path.rs", "bin/router/src/query_planner/planner/walker/best_path.rs", "bin/router/src/query_planner/graph/edge.rs"]}
{"id": "C66", "title": "The walk over an operation gives every leaf a path that fetches it", "statement": "When the walk over an operation succeeds, every leaf of the operation has a set of alternative paths of equal cost, each of which enters a subgraph from the root and follows the selections down to that leaf one after the other, carrying their aliases, arguments and conditions, and every set belongs to a leaf; only below a fragment on a type that nothing leads to is the __typename at hand fetched instead. The candidates for a field are the cheapest per subgraph of all paths found from the current ones; among paths to a union field in several subgraphs exactly those to members that all of them have are kept; for an interface field that several subgraphs resolve, each path that is kept answers all the interface's fields by itself. The walk ends, with paths or with an error that names what is missing. A leaf that some path reaches is found.", "quantifier": "For all query graphs, supergraph definitions, override contexts and operations of any nesting.", "why_tests_cant": "Which alternatives survive depends on the whole graph and on every selection above; a path that skips a type condition or misses a subgraph yields a plan that runs and returns wrong or missing data only for some responses.", "anchors": ["bin/router/src/query_planner/planner/walker/mod.rs", "bin/router/src/query_planner/planner/walker/utils.rs", "bin/router/src/query_planner/planner/walker/pathfinder.rs", "bin/router/src/query_planner/state/supergraph_state.rs"]}
{"id": "C67", "title": "The graph that paths are searched in has exactly the moves that the supergraph allows", "statement": "The graph built from a supergraph has an edge between two places if and only if the supergraph allows that move: entering a root type in a subgraph that has one of its fields; a field of a type in a subgraph that resolves it, with its requirements and the subgraph that overrides it; a field of a union type to each member that the subgraph has for that field, and from there to the member; from an interface to an implementing object in the subgraph that says so; to an entity by a resolvable key of the subgraph moved to; from and to interface objects; into the view of a type that a @provides opens, and along what it selects. Its nodes are the roots and the ends of these edges, one per place, and no edge except those from a type to itself is there twice. It is built without an error or a panic for every supergraph that names only what it defines, and it satisfies what the search and the walk rely on. A view shows only what its own @provides selects.", "quantifier": "For all supergraphs (types, fields, join directives, subgraphs) of any size, all selections in keys, requires and provides of any nesting.", "why_tests_cant": "The graph is built once from a composed supergraph and never inspected; a missing edge makes some operation unplannable or its plan longer, and an edge too many yields a plan that asks a subgraph for a field that it cannot resolve.", "anchors": ["bin/router/src/query_planner/graph/mod.rs", "bin/router/src/query_planner/graph/node.rs", "bin/router/src/query_planner/graph/edge.rs", "bin/router/src/query_planner/state/supergraph_state.rs", "bin/router/src/query_planner/federation_spec/mod.rs"]}
{"id": "C68", "title": "A WebSocket connection follows the graphql-transport-ws protocol", "statement": "On one WebSocket connection, whatever the client sends and however handlers and streams interleave: nothing about an operation is written before the connection is acknowledged, and it is acknowledged once; every message about an operation carries an id that the client subscribed with before; what an operation writes is its responses, each once and in order, and then at most one of Complete and Error, and nothing after it; an operation that is over was answered, cancelled by the client, or closed the connection; a stream stops exactly when the client completes it or the connection goes down; an id that is in use is refused with 4409, messages before the acknowledgement with 4401, a second initialisation with 4429, and what cannot be read with 4400 or 1003.", "quantifier": "For all sequences of frames, outcomes of operations, events of streams and interleavings, of any length, with any number of operations at once.", "why_tests_cant": "The faults are races between the frame handler, the executor and the spawned stream tasks; a test sees one schedule of them.", "anchors": ["bin/router/src/pipeline/websocket_server.rs", "bin/router/src/executor/executors/websocket_common.rs", "bin/router/src/executor/executors/graphql_transport_ws.rs"]}
{"id": "C69", "title": "Subscriptions that share a WebSocket connection to a subgraph stay apart", "statement": "On one connection to a subgraph, whatever the server sends and whenever subscriptions start, are given up or are dropped: each subscription has an id of its own; its stream yields exactly the responses that the server sends for its id after it started, up to the first message that ends it (Error, Complete, or the end of the connection), and what that message says; no message for one id changes another stream; the map of subscriptions holds the live ones and nothing else; about each id the client writes at most one Subscribe and then at most one Complete, the latter exactly if the consumer drops a stream that the server has not ended; each ping is answered by one pong; when the connection ends every stream ends with an error. The handshake succeeds exactly when an acknowledgement comes before anything that is not allowed.", "quantifier": "For all sequences of frames, calls, failures of writes and drops, of any length, with any number of subscriptions up to the 2^64 - 2 ids.", "why_tests_cant": "The faults come from the interleaving of the dispatcher with calls and drops, and from servers that send what they should not.", "anchors": ["bin/router/src/executor/executors/websocket_client.rs", "bin/router/src/executor/executors/websocket_common.rs", "bin/router/src/executor/executors/graphql_transport_ws.rs"]}
{"id": "C70", "title": "The pool of WebSocket connections hands out the right connection, once", "statement": "However calls, cancellations, attempts to connect, closings and evictions interleave: a caller gets a connection only of the identity (subgraph, endpoint, fingerprint of headers and TLS) that it asked for; per identity there is at most one attempt to connect at a time, and the pool has an entry for it exactly as long as it runs; a call shares the open connection that there is, else joins the running attempt, else begins one; every caller that does not give up is answered exactly once, with what came of the attempt it waited for; what is handed out takes commands at that time; a late end, success or eviction of an old generation never removes or replaces a newer one.", "quantifier": "For all sequences of calls and events, of any length, over any number of identities, callers and generations.", "why_tests_cant": "The generation tokens exist for rare races (a cancelled attempt next to its successor, an eviction next to a reconnect), which tests do not schedule.", "anchors": ["bin/router/src/executor/executors/websocket_pool.rs"]}
{"id": "C71", "title": "Headers of operations over a WebSocket come from the configured sources", "statement": "Headers read from the payload of a connection or from the extensions of an operation are legal HTTP headers (token names in lower case, values without control characters) and come once; each operation has exactly the headers of the configured sources, the operation before the connection, whatever the order of the hash map; without `persist` operations do not affect one another; `persist` means nothing unless both sources are accepted; with it the latest value of a header counts for all later operations; what a router tells a subgraph in the payload of a connection is read back as the same headers.", "quantifier": "For all payloads, extensions, configurations, orders of iteration and sequences of operations.", "why_tests_cant": "Which of two entries wins depends on the seed of a hash map; tests use lower-case names, one operation and a flat payload.", "anchors": ["bin/router/src/pipeline/websocket_server.rs", "bin/router/src/config/websocket.rs", "bin/router/src/executor/executors/graphql_transport_ws.rs"]}
{"id": "C72", "title": "WebSocket messages are read as what was written", "statement": "Every message that the router writes as a client of a subgraph is read back by the router as a server as the same message, and the other way round; a JSON value is accepted exactly if it is a message of graphql-transport-ws, and with exactly its contents; no two messages are written alike; the only messages that both directions share are ping, pong and complete.", "quantifier": "For all messages, ids, payloads and JSON values, of any size.", "why_tests_cant": "The deserializers are written by hand because of a defect of derived ones; tests send well-formed messages of one client library.", "anchors": ["bin/router/src/executor/executors/graphql_transport_ws.rs"]}
{"id": "C73", "title": "Each caller of a pooled connection is answered once, and idle means idle", "statement": "Every caller that hands an operation to a pooled WebSocket connection is told exactly once that it was started or why not, unless it leaves; no caller is lost between permit, channel and owner, also when the connection is shut down meanwhile; operations are started in the order of their commands; the channel stays within its capacity; the counter of active operations is exact, so the connection is closed as idle only when nothing runs and nothing ended within the idle time; a shut connection starts nothing and admits nobody.", "quantifier": "For all interleavings of any number of callers, departures, completions, dispatcher failures, timers and shutdowns, all capacities and idle times.", "why_tests_cant": "The interesting cases are races between the idle timer, reservations made before the close and callers that are dropped; tests see one schedule.", "anchors": ["bin/router/src/executor/executors/websocket_pool.rs"]}
{"id": "C74", "title": "Usage reports are complete, bounded and true", "statement": "Every execution that is neither excluded nor sampled out is handed to the console in exactly one batch, in order, or is still in the buffer; the first execution of each key is always kept when at-least-once sampling is on, where the keys remembered are a window over the last distinct ones; buffer and batches are bounded; a posted report lists exactly the processable operations of its batch, its size is their number, and its map has exactly the records they refer to.", "quantifier": "For all histories of executions, exclusions, sampling decisions, flushes, cache evictions and answers of the console, and all configurations.", "why_tests_cant": "The ring of seen keys wraps around, batches arise from races of requests and the flush timer, and evictions fall between two reads; tests send a handful of reports.", "anchors": ["lib/hive-console-sdk/src/agent/usage_agent.rs", "lib/hive-console-sdk/src/agent/buffer.rs", "lib/hive-console-sdk/src/helpers.rs", "lib/hive-console-sdk/src/agent/utils.rs"]}
{"id": "C75", "title": "Operations reported as the same are the same", "statement": "What is reported of an operation does not depend on numbers, strings and aliases in it and contains none of them; hiding them identifies exactly the operations that differ in nothing else; the normal form is a rearrangement of the operation, is stable under normalising again, and is the same for all orders of arguments, directives, selections, variables and definitions.", "quantifier": "For all documents, however nested, and every sort that rearranges, sorts, and leaves sorted lists alone.", "why_tests_cant": "Whether two spellings fall together depends on nesting, ties and the positions the traversal skips; tests compare a few printed strings.", "anchors": ["lib/hive-console-sdk/src/agent/utils.rs", "lib/graphql-tools/src/ast/operation_transformer.rs"]}
{"id": "C76", "title": "The schema coordinates reported for an operation are those it uses", "statement": "For a walk that ends, the reported coordinates are exactly: each field with its type, the values of enums that fields give, each argument within the field it belongs to, with a mark where a value is given, what literal values and defaults show of input types, enums and scalars, and all that is within the types of the variables, however these types contain each other; the order in which the set of types is gone through does not matter; the collection always ends and fails exactly when a field or argument is met outside of a known type.", "quantifier": "For all schemas, also with input types that contain themselves, all documents, and all orders of iteration of the set.", "why_tests_cant": "What is visited before is skipped later, so a missing coordinate needs a particular order of types; tests compare a few operations on an acyclic schema.", "anchors": ["lib/hive-console-sdk/src/agent/utils.rs", "lib/graphql-tools/src/ast/operation_visitor.rs"]}
{"id": "C77", "title": "Events posted by subgraphs reach their subscription only, and in order", "statement": "An event that a subgraph posts is taken only with the right protocol, path, body and the verifier of that subscription, and then affects no other subscription; a subscription shows the messages sent to it, each once and in order, up to the first that ends it; at most 16 wait; whatever is registered has a stream that is not over, and a stream that is no longer registered ends after what waits for it; a subscription is evicted only after a silence longer than the heartbeat interval with its grace, and then always; refused requests change nothing and are told why.", "quantifier": "For all interleavings of any number of subscriptions, requests of subgraphs, answers, departures of clients, rounds of the enforcer and passing of time.", "why_tests_cant": "The races between handlers, enforcer and clients that leave depend on the schedule; tests post a few events to one subscription.", "anchors": ["bin/router/src/pipeline/http_callback.rs", "bin/router/src/executor/executors/http_callback.rs", "bin/router/src/schema_state.rs"]}
{"id": "C78", "title": "Coprocessors change only what they may of the request context", "statement": "Whatever patch a coprocessor answers with, the operation, the labels to resolve, the authentication and the telemetry in the request context are unchanged; a patch is taken exactly if all its entries are for keys outside of hive:: or for the two keys that may be set, with values of their type; then every key has the last value given for it and null removes it; a refused patch changes nothing; the context written for a coprocessor has exactly the selected keys, each once.", "quantifier": "For all contexts, patches and selections of keys.", "why_tests_cant": "The key space and the order of entries in a patch are unbounded, and whether something protected can be reached by some sequence of patches is not seen from examples.", "anchors": ["bin/router/src/executor/request_context/domains/mod.rs", "bin/router/src/executor/request_context/api/coprocessor.rs", "bin/router/src/executor/request_context/deser.rs", "bin/router/src/executor/coprocessor/runtime.rs"]}
{"id": "C79", "title": "A stage of a coprocessor does what the answer asks, and nothing else", "statement": "A stage goes on only if its condition does not hold or the coprocessor answered with success and the right version; then headers, body and context are what the answer says, headers of the connection are kept, and what it does not mention is unchanged; a break leaves message and context alone and answers with the status, headers and body given; a failure changes nothing; the parameters of the GraphQL request change at one stage only; headers that are returned as they were sent are unchanged.", "quantifier": "For all stages, messages, contexts and answers.", "why_tests_cant": "The combinations of stage, decision, headers, body and context, each of which may be wrong, are many; tests follow the path of one mutation at a time.", "anchors": ["bin/router/src/executor/coprocessor/runtime.rs", "bin/router/src/executor/coprocessor/stage.rs", "bin/router/src/executor/coprocessor/protocol.rs", "bin/router/src/executor/coprocessor/stages/router.rs", "bin/router/src/executor/coprocessor/stages/graphql.rs"]}
{"id": "C80", "title": "Every request is answered in the form agreed on, and errors inside the router stay inside", "statement": "The response mode holds exactly the content types that the Accept header agrees to, whatever boundaries it names; every request is answered, an error in the agreed form with all its errors; the text of an error inside the router has no influence on the response; the status of an error is at least 400 with application/graphql-response+json, 200 in a stream, and with application/json it is 200 just for errors of the operation or inside the router; with a stream only, queries are streamed.", "quantifier": "For all Accept headers, errors, modes, plugins and coprocessors.", "why_tests_cant": "The space is errors by modes by stages that may fail; the request that is not answered needs a browser request and a failing coprocessor at the same time.", "anchors": ["bin/router/src/pipeline/header.rs", "bin/router/src/pipeline/error.rs", "bin/router/src/pipeline/mod.rs", "bin/router/src/lib.rs"]}
