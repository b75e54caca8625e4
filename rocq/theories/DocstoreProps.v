(* C61: the texts of persisted documents come from the store, under their id. *)
From Coq Require Import String Ascii List Bool NArith.
From Verif Require Import StrUtil DocstoreModel DocstoreSpec DocstoreProofs.
Import ListNotations.
Local Open Scope string_scope.
Local Open Scope list_scope.

Theorem C61_app_id_syntax : forall v i, id_syntax v = App i <-> i = v /\ exists n ve d, app_id n ve d v.
Proof. exact syntax_app. Qed.

Theorem C61_plain_id_syntax : forall v d, id_syntax v = Plain d <-> d = v /\ free "~" v.
Proof. exact syntax_plain. Qed.

Theorem C61_document_of_client : forall name version id r, app_document_id name version id = inl r <->
  (r = id /\ exists n v d, app_id n v d id) \/
  (free "~" id /\ exists n v, name = Some n /\ version = Some v /\ r = (n ++ "~" ++ v ++ "~" ++ id)%string).
Proof. exact app_document_iff. Qed.

(* Names and versions without slashes: one address for one document. *)
Theorem C61_address_tells_document_partial : forall e n v d n' v' d',
  free "~" n -> free "~" v -> free "~" d -> free "~" n' -> free "~" v' -> free "~" d' ->
  free "/" n -> free "/" v -> free "/" n' -> free "/" v' ->
  cdn_url e (n ++ "~" ++ v ++ "~" ++ d) = cdn_url e (n' ++ "~" ++ v' ++ "~" ++ d') -> n = n' /\ v = v' /\ d = d'.
Proof. exact url_tells. Qed.

Theorem C61_first_endpoint : forall l last t, from_endpoints last l = inl t <-> served l t.
Proof. exact endpoints_ok. Qed.

Theorem C61_refusal : forall l, from_endpoints None l = inr NotFound <-> refused l.
Proof. exact endpoints_refused. Qed.

(* Whatever was asked before, a text is one that an endpoint served for that id. *)
Theorem C61_text_was_served : forall ttl H id l s' t,
  lookup ttl (sdk_run ttl sdk_start H) id l = (s', inl t) ->
  exists l', In (Lookup id l') (H ++ [Lookup id l]) /\ served l' t.
Proof. exact text_was_served. Qed.

(* "Not found" is answered because of a refusal, now or less than the time to live ago. *)
Theorem C61_not_found_why : forall ttl H id l s', lookup ttl (sdk_run ttl sdk_start H) id l = (s', inr NotFound) ->
  refused l \/ exists d H1 H2 l', ttl = Some d /\ H = H1 ++ Lookup id l' :: H2 /\ refused l' /\
    (s_now (sdk_run ttl sdk_start H) < s_now (sdk_run ttl sdk_start H1) + d)%N.
Proof. exact not_found_why. Qed.

Theorem C61_failover : forall ttl s id l t, missing ttl s id = false -> get id (s_cache s) = None -> served l t ->
  snd (lookup ttl s id l) = inl t.
Proof. exact failover. Qed.

Theorem C61_caches_agree : forall ttl H id, missing ttl (sdk_run ttl sdk_start H) id = true ->
  get id (s_cache (sdk_run ttl sdk_start H)) = None.
Proof. exact no_conflict. Qed.

Theorem C61_text_stays : forall ttl H id l t l',
  snd (lookup ttl (sdk_run ttl sdk_start H) id l) = inl t ->
  snd (lookup ttl (fst (lookup ttl (sdk_run ttl sdk_start H) id l)) id l') = inl t.
Proof. exact cached_stays. Qed.

Theorem C61_manifest_entry : forall docs id t, find_document docs id = Some t <-> last_entry docs id t.
Proof. exact find_last. Qed.

Theorem C61_manifest_kinds : forall m d, documents m = Some d <->
  m = KeyValue d \/ m = Apollo "apollo-persisted-query-manifest" 1 d.
Proof. exact documents_iff. Qed.

(* Once all has come to rest, the documents are those of the file, if it is well formed. *)
Theorem C61_settled_is_fresh : forall parse c w es, watch_start parse c = Some w -> ~ In ReadFails es ->
  settled (watch_run parse w (Watch :: es)) ->
  forall d, load parse (w_file (watch_run parse w (Watch :: es))) = Some d ->
  w_docs (watch_run parse w (Watch :: es)) = d.
Proof. exact settled_fresh. Qed.

(* It does come to rest when nobody writes. *)
Theorem C61_reload_catches_up : forall parse c w es, watch_start parse c = Some w -> ~ In ReadFails es ->
  forall d, load parse (w_file (watch_run parse w (Watch :: es))) = Some d ->
  w_docs (watch_run parse w (Watch :: es ++ quiet)) = d.
Proof. exact catches_up. Qed.

(* Whatever goes wrong, the documents are those of contents that the file has had. *)
Theorem C61_last_good_is_kept : forall parse c w es, watch_start parse c = Some w ->
  exists c', In c' (c :: written es) /\ load parse c' = Some (w_docs (watch_run parse w es)).
Proof. exact kept_run. Qed.

Theorem C61_poll_is_fresh : forall parse o p os c e d, poll_start parse o = Some p ->
  tags_tell (o :: seen os ++ [mkobject c e]) -> load parse c = Some d ->
  o_docs (poll parse (fold_left (poll parse) os p) (Some (mkobject c e))) = d.
Proof. exact poll_fresh. Qed.

Theorem C61_poll_keeps : forall parse p o,
  (forall c e, o = Some (mkobject c e) -> load parse c = None) -> poll parse p o = p.
Proof. exact poll_keeps. Qed.

(* Witnesses *)
Definition one_entry (c : string) : option manifest :=
  if String.eqb c "" then None else Some (KeyValue [("x", c)]).

Example C61_lookup_example :
  snd (lookup (Some 5%N) sdk_start "a~1~x" [Broken "timeout"; Success "{ me }"]) = inl "{ me }".
Proof. vm_compute. reflexivity. Qed.

Example C61_reload_example :
  exists w, watch_start one_entry "A" = Some w /\
    w_docs (watch_run one_entry w (Watch :: [Write ""; Mark; Notify; Wake; Swap; Write "B"; Read; Mark; Store; Notify] ++ quiet))
    = [("x", "B")].
Proof. eexists. split; [reflexivity|vm_compute; reflexivity]. Qed.

(* Slashes in names: two documents of different applications share an address. *)
Theorem C61_address_tells_document_refuted :
  exists a b, app_document_id (Some "shop/web") (Some "1") "x" = inl a /\
    app_document_id (Some "shop") (Some "web/1") "x" = inl b /\ a <> b /\
    cdn_url "https://cdn" a = cdn_url "https://cdn" b.
Proof. exists "shop/web~1~x", "shop~web/1~x". split; [vm_compute; reflexivity|]. split; [vm_compute; reflexivity|]. split; [discriminate|vm_compute; reflexivity]. Qed.

(* A client can name an address outside of the documents of any application. *)
Theorem C61_address_escapes_refuted :
  exists a, app_document_id None None "a~1~../../../supergraph" = inl a /\
    cdn_url "https://cdn" a = "https://cdn/apps/a/1/../../../supergraph".
Proof. exists "a~1~../../../supergraph". split; vm_compute; reflexivity. Qed.

(* A name with a tilde makes an id that the router would not accept from a client. *)
Theorem C61_client_name_refuted :
  exists a, app_document_id (Some "a~b") (Some "1") "x" = inl a /\ id_syntax a = Invalid.
Proof. exists "a~b~1~x". split; vm_compute; reflexivity. Qed.

(* A failure of the CDN is answered, and remembered, as a document that does not exist. *)
Theorem C61_failure_is_not_absence_refuted :
  let '(s, r) := lookup (Some 5%N) sdk_start "a~1~x" [Status 500] in
  r = inr NotFound /\ snd (lookup (Some 5%N) s "a~1~x" [Success "{ me }"]) = inr NotFound.
Proof. vm_compute. split; reflexivity. Qed.

(* A document that an endpoint says is missing is a fetch error when the next endpoint is down. *)
Theorem C61_absence_is_reported_refuted :
  snd (lookup (Some 5%N) sdk_start "a~1~x" [Status 404; Broken "timeout"]) = inr (Fetch "timeout").
Proof. vm_compute. reflexivity. Qed.

(* A change between the first read and the start of the watcher is never loaded. *)
Theorem C61_change_before_watch_refuted :
  exists w, watch_start one_entry "A" = Some w /\
    let w' := watch_run one_entry w (Write "B" :: Watch :: quiet) in
    settled w' /\ load one_entry (w_file w') = Some [("x", "B")] /\ w_docs w' = [("x", "A")].
Proof.
  eexists. split; [reflexivity|]. cbv zeta. split; [vm_compute; repeat split|].
  split; vm_compute; reflexivity.
Qed.

(* A read that fails is not tried again. *)
Theorem C61_failed_read_refuted :
  exists w, watch_start one_entry "A" = Some w /\
    let w' := watch_run one_entry w (Watch :: Write "B" :: Mark :: Notify :: Wake :: Swap :: ReadFails :: quiet) in
    settled w' /\ load one_entry (w_file w') = Some [("x", "B")] /\ w_docs w' = [("x", "A")].
Proof.
  eexists. split; [reflexivity|]. cbv zeta. split; [vm_compute; repeat split|].
  split; vm_compute; reflexivity.
Qed.
Print Assumptions C61_app_id_syntax.
Print Assumptions C61_plain_id_syntax.
Print Assumptions C61_document_of_client.
Print Assumptions C61_address_tells_document_partial.
Print Assumptions C61_first_endpoint.
Print Assumptions C61_refusal.
Print Assumptions C61_text_was_served.
Print Assumptions C61_not_found_why.
Print Assumptions C61_failover.
Print Assumptions C61_caches_agree.
Print Assumptions C61_text_stays.
Print Assumptions C61_manifest_entry.
Print Assumptions C61_manifest_kinds.
Print Assumptions C61_settled_is_fresh.
Print Assumptions C61_reload_catches_up.
Print Assumptions C61_last_good_is_kept.
Print Assumptions C61_poll_is_fresh.
Print Assumptions C61_poll_keeps.
Print Assumptions C61_address_tells_document_refuted.
Print Assumptions C61_address_escapes_refuted.
Print Assumptions C61_client_name_refuted.
Print Assumptions C61_failure_is_not_absence_refuted.
Print Assumptions C61_absence_is_reported_refuted.
Print Assumptions C61_change_before_watch_refuted.
Print Assumptions C61_failed_read_refuted.
