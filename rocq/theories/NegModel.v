(** The response mode that a request agrees on, and how errors of the pipeline are answered in it.
    Models bin/router/src/pipeline/{header,error}.rs and the places that use the mode: pipeline/mod.rs:139-150, 392-401, 636-707 and lib.rs:309-364.
    Names in media types are taken in one case. *)
From Coq Require Import String List Bool NArith.
Import ListNotations.
Local Open Scope string_scope.
Local Open Scope list_scope.

(** header.rs:22-40, 86-113, 176-189 *)
Inductive single := JSON | GraphQLResponseJSON.
Inductive stream := IncrementalDelivery | SSE | ApolloMultipartHTTP.
Inductive mode := SingleOnly (s : single) | StreamOnly (t : stream) | Dual (s : single) (t : stream) | Laboratory.
Definition default_mode : mode := SingleOnly JSON.
Record media := mkmedia { ty : string; subty : string; suffix : option string; params : list (string * string) }.
Definition param (n : string) (m : media) : option string := option_map snd (find (fun e => String.eqb (fst e) n) (params m)).
Definition single_media (s : single) : media :=
  match s with JSON => mkmedia "application" "json" None [] | GraphQLResponseJSON => mkmedia "application" "graphql-response" (Some "json") [] end.
Definition stream_media (t : stream) : media :=
  match t with
  | IncrementalDelivery => mkmedia "multipart" "mixed" None []
  | SSE => mkmedia "text" "event-stream" None []
  | ApolloMultipartHTTP => mkmedia "multipart" "mixed" None [("subscriptionSpec", "1.0")]
  end.
Definition html : media := mkmedia "text" "html" None [].
Definition singles : list media := map single_media [JSON; GraphQLResponseJSON].
Definition streams : list media := map stream_media [IncrementalDelivery; SSE; ApolloMultipartHTTP].
(** header.rs:42-62 *)
Definition single_of (m : media) : option single :=
  if String.eqb (ty m) "application" then
    if String.eqb (subty m) "graphql-response" && match suffix m with Some x => String.eqb x "json" | None => false end then Some GraphQLResponseJSON
    else if String.eqb (subty m) "json" && match suffix m with None => true | Some _ => false end then Some JSON else None
  else None.
(** header.rs:115-137 *)
Definition stream_of (m : media) : option stream :=
  if String.eqb (ty m) "multipart" && String.eqb (subty m) "mixed" then
    if match param "subscriptionSpec" m with Some x => String.eqb x "1.0" | None => false end then Some ApolloMultipartHTTP else Some IncrementalDelivery
  else if String.eqb (ty m) "text" && String.eqb (subty m) "event-stream" then Some SSE else None.
Definition media_eqb (a b : media) : bool :=
  String.eqb (ty a) (ty b) && String.eqb (subty a) (subty b) && match suffix a, suffix b with Some x, Some y => String.eqb x y | None, None => true | _, _ => false end &&
  match params a, params b with [], [] => true | _, _ => false end.


(** header.rs:200-230 *)
Definition can_stream (m : mode) : bool := match m with StreamOnly _ | Dual _ _ => true | _ => false end.
Definition single_type (m : mode) : option single := match m with SingleOnly s | Dual s _ => Some s | _ => None end.
Definition stream_type (m : mode) : option stream := match m with StreamOnly t | Dual _ t => Some t | _ => None end.
Definition prefer_ok (m : mode) : bool := match m with SingleOnly JSON | Dual JSON _ => true | _ => false end.

(** error.rs:52-186: [text] is what [Display] gives *)
Record gerror := mkgerror { message : string; code : option string }.
Inductive client_kind :=
| UnsupportedHttpMethod | InvalidHeaderValue | MissingContentTypeHeader | UnsupportedContentType | RequestHeadersTooLarge | GetMissingQueryParam | MutationNotAllowedOverHttpGet
| GetUnprocessableQueryParams | FailedToParseBody | FailedToParseVariables | FailedToParseExtensions | FailedToParseOperation | PersistedDocumentNotFound | PersistedDocumentIdRequired
| PersistedDocumentExtraction | NormalizationError | VariablesCoercionError | ValidationErrors (l : list gerror) | AuthorizationFailed (l : list gerror) | CsrfPreventionFailed
| JwtError (status : N) (code : string) | IntrospectionDisabled | SubscriptionsNotSupported | SubscriptionsTransportNotSupported | ReadBodyStreamError (status : N) (code : string) | TimeoutError
| CostEstimatedTooExpensive (headers : list (string * string)) | CostInvalidSlicingArguments.
Section Negotiate.
  (** [Accept::negotiate] of the crate [headers_accept] *)
  Variable pick : list media -> list media -> option media.
  Definition mixed (m : media) : bool := String.eqb (ty m) "multipart" && String.eqb (subty m) "mixed".
  Definition strip (m : media) : media := if mixed m then mkmedia (ty m) (subty m) (suffix m) (filter (fun e => negb (String.eqb (fst e) "boundary")) (params m)) else m.
  Definition bind {A B} (o : option A) (f : A -> option B) : option B := match o with Some x => f x | None => None end.
  (** header.rs:247-317; [header] is the parsed header, or [None] if it cannot be parsed *)
  Definition negotiate (laboratory get : bool) (header : option (list media)) : mode + client_kind :=
    match header with None => inr InvalidHeaderValue | Some accept =>
    let accept := if existsb (fun m => mixed m && match param "boundary" m with Some _ => true | None => false end) accept then map strip accept else accept in
    if laboratory && get && match pick accept (singles ++ streams ++ [html]) with Some m => media_eqb m html | None => false end then inl Laboratory
    else match bind (pick accept singles) single_of, bind (pick accept streams) stream_of with
         | Some s, Some t => inl (Dual s t)
         | Some s, None => inl (SingleOnly s)
         | None, Some t => inl (StreamOnly t)
         | None, None => inr UnsupportedContentType
         end
    end.
End Negotiate.

Inductive internal_kind := NoSupergraphAvailable (headers : list (string * string)) | PlanExecutionError (code : string) | CoprocessorError (status : N) (code : string) | OtherInternal (code : string).
Inductive perror := Client (k : client_kind) (text : string) | Internal (k : internal_kind) (text : string).

Definition client_code (k : client_kind) : string :=
  match k with
  | UnsupportedHttpMethod => "METHOD_NOT_ALLOWED" | InvalidHeaderValue => "INVALID_HEADER" | MissingContentTypeHeader => "MISSING_CONTENT_TYPE_HEADER" | UnsupportedContentType => "UNSUPPORTED_CONTENT_TYPE"
  | RequestHeadersTooLarge => "REQUEST_HEADER_FIELDS_TOO_LARGE" | GetMissingQueryParam => "MISSING_QUERY_PARAM" | MutationNotAllowedOverHttpGet => "MUTATION_NOT_ALLOWED_OVER_HTTP_GET"
  | GetUnprocessableQueryParams => "UNPROCESSABLE_QUERY_PARAMS" | FailedToParseBody | FailedToParseVariables | FailedToParseExtensions => "BAD_REQUEST" | FailedToParseOperation => "GRAPHQL_PARSE_FAILED"
  | PersistedDocumentNotFound => "PERSISTED_DOCUMENT_NOT_FOUND" | PersistedDocumentIdRequired => "PERSISTED_DOCUMENT_ID_REQUIRED" | PersistedDocumentExtraction => "PERSISTED_DOCUMENT_EXTRACTION_FAILED"
  | NormalizationError => "OPERATION_RESOLUTION_FAILURE" | VariablesCoercionError => "BAD_USER_INPUT" | ValidationErrors _ => "GRAPHQL_VALIDATION_FAILED" | AuthorizationFailed _ => "UNAUTHORIZED_OPERATION"
  | CsrfPreventionFailed => "CSRF_PREVENTION_FAILED" | JwtError _ c | ReadBodyStreamError _ c => c | IntrospectionDisabled => "INTROSPECTION_DISABLED" | SubscriptionsNotSupported => "SUBSCRIPTIONS_NOT_SUPPORTED"
  | SubscriptionsTransportNotSupported => "SUBSCRIPTIONS_TRANSPORT_NOT_SUPPORTED" | TimeoutError => "GATEWAY_TIMEOUT" | CostEstimatedTooExpensive _ => "COST_ESTIMATED_TOO_EXPENSIVE"
  | CostInvalidSlicingArguments => "COST_INVALID_SLICING_ARGUMENTS"
  end.
Definition internal_code (k : internal_kind) : string :=
  match k with NoSupergraphAvailable _ => "NO_SUPERGRAPH_AVAILABLE" | PlanExecutionError c | CoprocessorError _ c | OtherInternal c => c end.
(** error.rs:357-445 *)
Definition ok_or_bad (ok : bool) : N := if ok then 200%N else 400%N.
Definition client_status (k : client_kind) (ok : bool) : N :=
  match k with
  | UnsupportedHttpMethod | MutationNotAllowedOverHttpGet => 405%N
  | InvalidHeaderValue | GetUnprocessableQueryParams | GetMissingQueryParam | FailedToParseBody | FailedToParseVariables | FailedToParseExtensions | NormalizationError => 400%N
  | PersistedDocumentNotFound | PersistedDocumentIdRequired | PersistedDocumentExtraction | FailedToParseOperation | VariablesCoercionError | ValidationErrors _ | CostEstimatedTooExpensive _
  | CostInvalidSlicingArguments => ok_or_bad ok
  | AuthorizationFailed _ | CsrfPreventionFailed | IntrospectionDisabled => 403%N
  | MissingContentTypeHeader | SubscriptionsTransportNotSupported => 406%N
  | UnsupportedContentType | SubscriptionsNotSupported => 415%N
  | RequestHeadersTooLarge => 431%N
  | JwtError n _ | ReadBodyStreamError n _ => n
  | TimeoutError => 504%N
  end.
Definition internal_status (k : internal_kind) (ok : bool) : N :=
  match k with NoSupergraphAvailable _ => 503%N | _ => if ok then 200%N else match k with CoprocessorError n _ => n | _ => 500%N end end.
Definition status_of (e : perror) (ok : bool) : N := match e with Client k _ => client_status k ok | Internal k _ => internal_status k ok end.
Definition code_of (e : perror) : string := match e with Client k _ => client_code k | Internal k _ => internal_code k end.
(** error.rs:455-463 *)
Definition message_of (e : perror) : string := match e with Client _ t => t | Internal _ _ => "Internal server error" end.
Definition more_headers (e : perror) : list (string * string) := match e with Client (CostEstimatedTooExpensive h) _ | Internal (NoSupergraphAvailable h) _ => h | _ => [] end.
Definition errors_of (e : perror) : list gerror :=
  match e with
  | Client (ValidationErrors l) _ | Client (AuthorizationFailed l) _ => l
  | Client (CostEstimatedTooExpensive _) _ => [mkgerror (message_of e) (Some "COST_ESTIMATED_TOO_EXPENSIVE")]
  | _ => [mkgerror (message_of e) (Some (code_of e))]
  end.
Inductive framing := Whole (s : single) | Streamed (t : stream) | Page | Other.
Record response := mkresponse { r_status : N; r_headers : list (string * string); r_errors : list gerror; r_framing : framing }.
Section Respond.
  (** the hooks of plugins *)
  Variable plugins : list gerror -> N -> list gerror * N.
  (** error.rs:473-603; [None] is the panic of [unreachable!] *)
  Definition handle_error (e : perror) (m : mode) : option response :=
    let status := match m with StreamOnly _ => 200%N | _ => status_of e (prefer_ok m) end in
    let '(errs, status) := plugins (errors_of e) status in
    match m with
    | SingleOnly s | Dual s _ => Some (mkresponse status (more_headers e) errs (Whole s))
    | StreamOnly t => Some (mkresponse status (more_headers e) errs (Streamed t))
    | Laboratory => None
    end.
  (** mod.rs:392-401, 636-707: an operation that is to be executed, a subscription or not, with the framing of its result *)
  Definition run (subscriptions : bool) (m : mode) (is_subscription : bool) : framing + client_kind :=
    if is_subscription && (negb subscriptions || negb (can_stream m)) then inr SubscriptionsNotSupported
    else if is_subscription then match stream_type m with Some t => inl (Streamed t) | None => inr SubscriptionsTransportNotSupported end
    else match single_type m with Some s => inl (Whole s) | None => inr UnsupportedContentType end.
  (** mod.rs:126-150: what the handler gives after the mode is agreed on *)
  Inductive early := EarlyResponse (r : response) | Negotiated (m : mode + client_kind) (text : string).
  Definition handler (x : early) (rest : mode -> response + perror) : mode * (response + perror) :=
    match x with
    | EarlyResponse r => (default_mode, inl r)
    | Negotiated (inr k) t => (default_mode, inr (Client k t))
    | Negotiated (inl Laboratory) _ => (Laboratory, inl (mkresponse 200 [] [] Page))
    | Negotiated (inl m) _ => (m, rest m)
    end.
  (** lib.rs:309-364; [coprocessor] is the stage of the response *)
  Definition dispatch (x : early) (rest : mode -> response + perror) (coprocessor : option (response -> response + perror)) : option response :=
    let '(m, r) := handler x rest in
    match match r with inl r => Some r | inr e => handle_error e m end with
    | None => None
    | Some r => match coprocessor with
                | None => Some r
                | Some f => match f r with inl r' => Some r' | inr e => handle_error e m end
                end
    end.
End Respond.
