(** C80: Errors are answered in the form that was agreed on. *)
From Coq Require Import String List Bool NArith.
From Verif Require Import NegModel NegSpec NegProofs.
Import ListNotations.
Local Open Scope string_scope.
Local Open Scope list_scope.

(** The mode holds exactly the types that were agreed on, for a single response and for a stream; nothing agreed on is an error. *)
Theorem C80_mode : forall pick, (forall a o m, pick a o = Some m -> In m o) ->
  forall lab get a c, Forall2 cleaned a c -> negotiate pick lab get (Some a) <> inl Laboratory ->
  match negotiate pick lab get (Some a) with
  | inl m => mode_media m = (pick c [s_json; s_graphql], pick c [s_multipart; s_events; s_apollo])
  | inr k => k = UnsupportedContentType /\ pick c [s_json; s_graphql] = None /\ pick c [s_multipart; s_events; s_apollo] = None
  end.
Proof. intros pick P lab get a c C N. rewrite <- (map_strip a c C). exact (mode_of pick P lab get a N). Qed.

(** The page is given exactly to a GET that prefers HTML to all else, if it is enabled. *)
Theorem C80_laboratory : forall pick lab get a c, Forall2 cleaned a c ->
  (negotiate pick lab get (Some a) = inl Laboratory <-> lab = true /\ get = true /\ pick c [s_json; s_graphql; s_multipart; s_events; s_apollo; s_html] = Some s_html).
Proof.
  intros pick lab get a c C. rewrite <- (map_strip a c C), laboratory_iff. split.
  - intros (L & G & x & Q & P). injection Q as <-. now repeat split.
  - intros (L & G & P). repeat split; try assumption. exists a. now split.
Qed.

(** A header that cannot be parsed is an error. *)
Theorem C80_unparsed : forall pick lab get, negotiate pick lab get None = inr InvalidHeaderValue.
Proof. reflexivity. Qed.

(** Boundaries in the header have no influence. *)
Theorem C80_boundary : forall pick lab get a b c, Forall2 cleaned a c -> Forall2 cleaned b c -> negotiate pick lab get (Some a) = negotiate pick lab get (Some b).
Proof. exact boundary_free. Qed.

(** What went wrong inside the router has no influence on the response, also with plugins. *)
Theorem C80_secret : forall plugins k t t' m, handle_error plugins (Internal k t) m = handle_error plugins (Internal k t') m.
Proof. exact secret. Qed.
Theorem C80_secret_message : forall k t m r, handle_error no_plugins (Internal k t) m = Some r -> exists c, r_errors r = [mkgerror "Internal server error" (Some c)].
Proof. exact secret_message. Qed.

(** Every error is in the response. *)
Theorem C80_errors : forall e m r, handle_error no_plugins e m = Some r ->
  match e with Client (ValidationErrors l) _ | Client (AuthorizationFailed l) _ => r_errors r = l | Client _ t => exists c, r_errors r = [mkgerror t (Some c)] | Internal _ _ => r_errors r <> [] end.
Proof. exact errors_kept. Qed.

(** The form of the response is the one agreed on. *)
Theorem C80_framing : forall plugins e m r, handle_error plugins e m = Some r ->
  r_framing r = match m with SingleOnly s | Dual s _ => Whole s | StreamOnly t => Streamed t | Laboratory => Page end.
Proof. exact framed. Qed.

(** A stream starts with success. *)
Theorem C80_status_stream : forall e t r, handle_error no_plugins e (StreamOnly t) = Some r -> r_status r = 200%N.
Proof. exact status_stream. Qed.
(** With [application/graphql-response+json] an error is never a success. *)
Theorem C80_status_graphql : forall e m r, single_type m = Some GraphQLResponseJSON -> sane e -> handle_error no_plugins e m = Some r -> (400 <= r_status r)%N.
Proof. exact status_graphql. Qed.
(** With [application/json] just the errors of the operation and those inside the router are. *)
Theorem C80_status_json : forall e m r, single_type m = Some JSON -> sane e -> handle_error no_plugins e m = Some r ->
  (r_status r = 200%N <-> soft e) /\ (r_status r = 200 \/ 400 <= r_status r)%N.
Proof. exact status_json. Qed.

(** The only request that is not answered: a GET for the page for which the coprocessor fails. *)
Theorem C80_answered : forall plugins x rest cop, dispatch plugins x rest cop = None <->
  exists t f e, x = Negotiated (inl Laboratory) t /\ cop = Some f /\ f (mkresponse 200 [] [] Page) = inr e.
Proof. exact dispatch_none. Qed.
Theorem C80_answered_refuted : ~ (forall plugins x rest cop, dispatch plugins x rest cop <> None).
Proof.
  intros H. refine (H no_plugins (Negotiated (inl Laboratory) "") (fun _ => inl (mkresponse 200 [] [] (Whole JSON))) (Some (fun _ => inr (Internal (CoprocessorError 500 "COPROCESSOR_SEND") "no answer"))) _).
  reflexivity.
Qed.

(** What operations are run in a mode, and how the result is given. *)
Theorem C80_run : forall subs m sub, m <> Laboratory ->
  run subs m sub =
  (if sub then match subs, snd (mode_media m), stream_type m with true, Some _, Some t => inl (Streamed t) | _, _, _ => inr SubscriptionsNotSupported end
   else match m with SingleOnly s | Dual s _ => inl (Whole s) | _ => inr UnsupportedContentType end).
Proof. exact run_spec. Qed.
(** header.rs:179 says that queries are streamed if only a stream is agreed on. *)
Theorem C80_stream_only_refuted : ~ (forall t, run true (StreamOnly t) false = inl (Streamed t)).
Proof. intros H. specialize (H SSE). discriminate. Qed.

(** The first offer that is accepted by name. *)
Definition first_offer (a o : list media) : option media := find (fun m => existsb (fun x => String.eqb (ty x) (ty m) && String.eqb (subty x) (subty m)) a) o.
Example C80_negotiate_example :
  map (fun a => negotiate first_offer true true (Some a))
    [[s_json]; [s_graphql; s_events]; [s_events]; [mkmedia "multipart" "mixed" None [("boundary", "-")]]; [s_html]; [mkmedia "image" "png" None []]] =
  [inl (SingleOnly JSON); inl (Dual GraphQLResponseJSON SSE); inl (StreamOnly SSE); inl (StreamOnly IncrementalDelivery); inl Laboratory; inr UnsupportedContentType].
Proof. reflexivity. Qed.
Example C80_strip_example : strip (mkmedia "multipart" "mixed" None [("boundary", "-"); ("subscriptionSpec", "1.0")]) = s_apollo.
Proof. reflexivity. Qed.
Example C80_statuses :
  map (fun k => (client_status k false, client_code k))
    [UnsupportedHttpMethod; InvalidHeaderValue; MissingContentTypeHeader; UnsupportedContentType; RequestHeadersTooLarge; GetMissingQueryParam; MutationNotAllowedOverHttpGet; CsrfPreventionFailed;
     IntrospectionDisabled; AuthorizationFailed []; SubscriptionsNotSupported; SubscriptionsTransportNotSupported; TimeoutError; JwtError 401 "X"; ValidationErrors []; NormalizationError] =
  [(405, "METHOD_NOT_ALLOWED"); (400, "INVALID_HEADER"); (406, "MISSING_CONTENT_TYPE_HEADER"); (415, "UNSUPPORTED_CONTENT_TYPE"); (431, "REQUEST_HEADER_FIELDS_TOO_LARGE"); (400, "MISSING_QUERY_PARAM");
   (405, "MUTATION_NOT_ALLOWED_OVER_HTTP_GET"); (403, "CSRF_PREVENTION_FAILED"); (403, "INTROSPECTION_DISABLED"); (403, "UNAUTHORIZED_OPERATION"); (415, "SUBSCRIPTIONS_NOT_SUPPORTED");
   (406, "SUBSCRIPTIONS_TRANSPORT_NOT_SUPPORTED"); (504, "GATEWAY_TIMEOUT"); (401, "X"); (400, "GRAPHQL_VALIDATION_FAILED"); (400, "OPERATION_RESOLUTION_FAILURE")]%N.
Proof. reflexivity. Qed.
Example C80_headers_example :
  handle_error no_plugins (Internal (NoSupergraphAvailable [("retry-after", "10")]) "secret") (SingleOnly JSON) =
  Some (mkresponse 503 [("retry-after", "10")] [mkgerror "Internal server error" (Some "NO_SUPERGRAPH_AVAILABLE")] (Whole JSON)).
Proof. reflexivity. Qed.
Example C80_dispatch_example :
  dispatch no_plugins (Negotiated (inr UnsupportedContentType) "no") (fun _ => inl (mkresponse 200 [] [] Other)) None = Some (mkresponse 415 [] [mkgerror "no" (Some "UNSUPPORTED_CONTENT_TYPE")] (Whole JSON)).
Proof. reflexivity. Qed.

Print Assumptions C80_mode.
Print Assumptions C80_laboratory.
Print Assumptions C80_unparsed.
Print Assumptions C80_boundary.
Print Assumptions C80_secret.
Print Assumptions C80_secret_message.
Print Assumptions C80_errors.
Print Assumptions C80_framing.
Print Assumptions C80_status_stream.
Print Assumptions C80_status_graphql.
Print Assumptions C80_status_json.
Print Assumptions C80_answered.
Print Assumptions C80_answered_refuted.
Print Assumptions C80_run.
Print Assumptions C80_stream_only_refuted.
