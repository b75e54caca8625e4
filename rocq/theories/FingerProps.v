(** Only identical requests are shared. *)
From Coq Require Import String List NArith ZArith Bool.
From Verif Require Import StrUtil JsonModel HeadersModel RequiresModel RequiresSpec FingerModel FingerSpec FingerProofs.
Import ListNotations.
Local Open Scope N_scope.

(** C14: requests with the same fingerprint, if the hash tells the two apart, have the same method,
    resource, body, and the same last printable value of every header. *)
Theorem C14_shared_requests_agree : forall H r r', ok_sreq r -> ok_sreq r' -> tells H (enc_sreq r) (enc_sreq r') ->
  fingerprint H r = fingerprint H r' ->
  r_method r = r_method r' /\ same_uri (r_uri r) (r_uri r') /\ r_body r = r_body r' /\
  forall n, last_visible n (r_headers r) = last_visible n (r_headers r').
Proof. exact shared_requests_agree. Qed.
Print Assumptions C14_shared_requests_agree.

(** C14: all headers agree, when no name is repeated and values are printable. *)
Theorem C14_shared_headers_agree_partial : forall H r r', ok_sreq r -> ok_sreq r' -> plain (r_headers r) -> plain (r_headers r') ->
  tells H (enc_sreq r) (enc_sreq r') -> fingerprint H r = fingerprint H r' ->
  r_method r = r_method r' /\ same_uri (r_uri r) (r_uri r') /\ r_body r = r_body r' /\ same_headers (r_headers r) (r_headers r').
Proof. exact shared_plain_requests_agree. Qed.
Print Assumptions C14_shared_headers_agree_partial.

(** C14: without plugins a request is shared exactly if sharing is on and the operation may be shared. *)
Theorem C14_shares_iff_enabled : forall enabled op, shares enabled op [] = true <-> enabled = true /\ op = true.
Proof. exact shares_only_enabled. Qed.
Print Assumptions C14_shares_iff_enabled.

(** C14: requests that differ in a repeated header are shared. *)
Theorem C14_repeated_headers_refuted : exists r r', ok_sreq r /\ ok_sreq r' /\
  (forall n v, In (n, v) (r_headers r) \/ In (n, v) (r_headers r') -> visible v = true) /\
  (forall H, fingerprint H r = fingerprint H r') /\ ~ same_headers (r_headers r) (r_headers r').
Proof. exact repeated_headers_ignored. Qed.
Print Assumptions C14_repeated_headers_refuted.

(** C14: requests that differ in a value with bytes outside ASCII are shared. *)
Theorem C14_opaque_headers_refuted : exists r r', ok_sreq r /\ ok_sreq r' /\ NoDup (map fst (r_headers r)) /\ NoDup (map fst (r_headers r')) /\
  (forall H, fingerprint H r = fingerprint H r') /\ ~ same_headers (r_headers r) (r_headers r').
Proof. exact opaque_values_ignored. Qed.
Print Assumptions C14_opaque_headers_refuted.

(** C14: a plugin that sets the documented flag to true turns sharing off. *)
Theorem C14_plugin_flag_refuted : exists plugins, dedupe_flag true true plugins = true /\ shares true true plugins = false /\
  dedupe_flag true true [] = false /\ shares true true [] = true.
Proof. exact plugin_flag_inverted. Qed.
Print Assumptions C14_plugin_flag_refuted.

(** C46: client requests with the same fingerprint agree in method, path, schema, operation, variables,
    extensions, and the printable values of every included header. *)
Theorem C46_shared_client_requests_agree : forall H p c c', ok_creq c -> ok_creq c' -> no_collision H p c c' ->
  client_fingerprint H p c = client_fingerprint H p c' -> same_client_request p c c' /\ same_included p (c_headers c) (c_headers c').
Proof. exact client_requests_agree. Qed.
Print Assumptions C46_shared_client_requests_agree.

(** C46: the bytes of a JSON value determine it, whatever follows. *)
Theorem C46_json_bytes_injective : forall v v' r r', ok_json v -> ok_json v' ->
  (enc_json v ++ r = enc_json v' ++ r')%list -> v = v' /\ r = r'.
Proof. exact json_inj. Qed.
Print Assumptions C46_json_bytes_injective.

(** C46: included headers agree, when no name is repeated and values are printable. *)
Theorem C46_included_headers_agree_partial : forall p h h' n, same_included p h h' -> plain h -> plain h' ->
  should_include p n = true -> hget_all n h = hget_all n h'.
Proof. exact client_headers_agree. Qed.
Print Assumptions C46_included_headers_agree_partial.

(** C46: client requests that differ in a value with bytes outside ASCII are shared. *)
Theorem C46_opaque_headers_refuted : exists c c', ok_creq c /\ ok_creq c' /\ NoDup (map fst (c_headers c)) /\ NoDup (map fst (c_headers c')) /\
  (forall H, client_fingerprint H PAll c = client_fingerprint H PAll c') /\ ~ same_headers (c_headers c) (c_headers c').
Proof. exact opaque_client_values_ignored. Qed.
Print Assumptions C46_opaque_headers_refuted.

(** C46: client requests that differ in the order of the values of a header are shared. *)
Theorem C46_header_order_refuted : exists c c', ok_creq c /\ ok_creq c' /\
  (forall n v, In (n, v) (c_headers c) \/ In (n, v) (c_headers c') -> visible v = true) /\
  (forall H, client_fingerprint H PAll c = client_fingerprint H PAll c') /\ ~ same_headers (c_headers c) (c_headers c').
Proof. exact client_order_ignored. Qed.
Print Assumptions C46_header_order_refuted.

(** The hypotheses hold of requests, and different requests have different bytes. *)
Example requests_exist : ok_sreq (w_req alice) /\ ok_creq (w_creq bob) /\ plain [("accept", "*/*")]%string.
Proof.
  split; [apply ok_sreq_w, ok_two; [discriminate|reflexivity..]|]. split; [apply ok_creq_w, ok_two; [discriminate|reflexivity..]|].
  split; [constructor; [intros []|constructor]|]. intros n v [E|[]]; injection E as _ <-; reflexivity.
Qed.
Example different_bytes : enc_sreq (w_req [("a", "b")]%string) <> enc_sreq (w_req [("a", "c")]%string) /\
  enc_json (VArr [VStr "a"; VStr "b"]%string) <> enc_json (VArr [VStr "ab"]%string).
Proof. split; intros E; discriminate E. Qed.
(** An invariant hash that never collides on two given inputs exists. *)
Example tells_exists : tells (fun l => if (length l =? 1)%nat then 1 else 0) [1] [1; 2].
Proof. intros E. discriminate E. Qed.
