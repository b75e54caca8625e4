(** What is expected of the response mode and of error responses. *)
From Coq Require Import String List Bool NArith.
From Verif Require Import NegModel.
Import ListNotations.
Local Open Scope string_scope.
Local Open Scope list_scope.

Definition s_json := mkmedia "application" "json" None [].
Definition s_graphql := mkmedia "application" "graphql-response" (Some "json") [].
Definition s_multipart := mkmedia "multipart" "mixed" None [].
Definition s_events := mkmedia "text" "event-stream" None [].
Definition s_apollo := mkmedia "multipart" "mixed" None [("subscriptionSpec", "1.0")].
Definition s_html := mkmedia "text" "html" None [].
Definition of_single (s : single) : media := match s with JSON => s_json | GraphQLResponseJSON => s_graphql end.
Definition of_stream (t : stream) : media := match t with IncrementalDelivery => s_multipart | SSE => s_events | ApolloMultipartHTTP => s_apollo end.
(** the types a mode answers in: for a single response, and for a stream *)
Definition mode_media (m : mode) : option media * option media :=
  match m with
  | SingleOnly s => (Some (of_single s), None)
  | StreamOnly t => (None, Some (of_stream t))
  | Dual s t => (Some (of_single s), Some (of_stream t))
  | Laboratory => (None, None)
  end.
Fixpoint no_boundary (l : list (string * string)) : list (string * string) :=
  match l with [] => [] | (n, v) :: r => if string_dec n "boundary" then no_boundary r else (n, v) :: no_boundary r end.
(** a multipart type loses its boundary, any other type is kept *)
Definition cleaned (a b : media) : Prop :=
  ((ty a = "multipart" /\ subty a = "mixed") /\ b = mkmedia (ty a) (subty a) (suffix a) (no_boundary (params a))) \/ (~ (ty a = "multipart" /\ subty a = "mixed") /\ b = a).
(** the statuses that an error carries itself are statuses of errors *)
Definition sane (e : perror) : Prop :=
  match e with
  | Client (JwtError n _) _ | Client (ReadBodyStreamError n _) _ | Internal (CoprocessorError n _) _ => (400 <= n)%N
  | _ => True
  end.
(** the errors about the operation itself, and those inside the router: with [application/json] these are answered with 200 *)
Definition soft (e : perror) : Prop :=
  match e with
  | Client k _ => match k with
                  | PersistedDocumentNotFound | PersistedDocumentIdRequired | PersistedDocumentExtraction | FailedToParseOperation | VariablesCoercionError | ValidationErrors _
                  | CostEstimatedTooExpensive _ | CostInvalidSlicingArguments => True
                  | _ => False
                  end
  | Internal (NoSupergraphAvailable _) _ => False
  | Internal _ _ => True
  end.
Definition no_plugins (l : list gerror) (n : N) : list gerror * N := (l, n).
