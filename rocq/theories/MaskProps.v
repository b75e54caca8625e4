(** Error masking cannot be bypassed. *)
From Coq Require Import String List NArith Bool.
From Verif Require Import JsonModel EntityModel MaskModel MaskSpec MaskProofs.
Import ListNotations.
Local Open Scope string_scope.

(** C17: a tagged error becomes exactly what the policy of its subgraph says: message, and per key. *)
Theorem C17_mask_exact : forall c s e, wf_error e -> e_service e = Some s ->
  exists e', mask c [e] = [e'] /\ masked_as c s e e' /\ wf_error e'.
Proof. exact mask_as. Qed.
Print Assumptions C17_mask_exact.

(** C17: whatever extensions a subgraph sends, no other extension takes the name of a field. *)
Theorem C17_read_errors_wf : forall raws es, read_errors raws = Some es -> Forall wf_error es.
Proof. exact read_errors_wf. Qed.
Print Assumptions C17_read_errors_wf.

(** C17: errors of a fetch conform to the policy of the subgraph, if it does not claim another name. *)
Theorem C17_fetch_errors_conform_partial : forall c s aff raws es m e', read_errors raws = Some es -> Forall (honest s) es ->
  In e' (mask c (handle_errors s aff (Some es) m)) -> conforms c s e'.
Proof. exact fetch_errors_conform. Qed.
Print Assumptions C17_fetch_errors_conform_partial.

(** C17: so do failures of the fetch itself. *)
Theorem C17_failures_conform : forall c msg code s aff e', In e' (mask c [failure msg code (Some s) aff]) -> conforms c s e'.
Proof. exact failures_conform. Qed.
Print Assumptions C17_failures_conform.

(** C17: each error is masked on its own, in order; none is lost. *)
Theorem C17_one_for_one : forall c es, mask c es = flat_map (fun e => mask c [e]) es /\ length (mask c es) = length es.
Proof. exact (fun c es => conj (mask_each c es) (mask_length c es)). Qed.
Print Assumptions C17_one_for_one.

(** C17: for an event these are the errors so far, those of the event and those of its entity fetches. *)
Theorem C17_event_parts : forall c initial event fetched, event_errors c initial event fetched =
  (mask c initial ++ match event with Some es => mask c es | None => [] end ++ mask c fetched)%list.
Proof. exact event_errors_parts. Qed.
Print Assumptions C17_event_parts.

(** C17: masking twice shows nothing else. *)
Theorem C17_mask_idempotent : forall c e, wf_error e -> forall k, exists e1 e2, mask c [e] = [e1] /\ mask c [e1] = [e2] /\
  e_message e2 = e_message e1 /\ e_path e2 = e_path e1 /\ aget k (ext_pairs e2) = aget k (ext_pairs e1).
Proof. exact mask_idem. Qed.
Print Assumptions C17_mask_idempotent.

(** C17: errors of the router itself are not touched. *)
Theorem C17_own_errors_kept : forall c e, e_service e = None -> mask c [e] = [e].
Proof. exact untagged_kept. Qed.
Print Assumptions C17_own_errors_kept.

(** C17: a subgraph that sends the name of another subgraph gets the policy of that one. *)
Theorem C17_claimed_service_refuted : exists c s raws es e', read_errors raws = Some es /\ m_enabled c = true /\ redacts c s = true /\
  In e' (mask c (handle_errors s None (Some es) None)) /\ e_message e' <> m_message c.
Proof. exact claimed_service_bypasses. Qed.
Print Assumptions C17_claimed_service_refuted.

(** C17: errors inside subscription events are not masked. *)
Theorem C17_event_errors_refuted : exists c raws es e', read_errors raws = Some es /\ Forall (fun e => e_service e = None) es /\ m_enabled c = true /\
  (forall s, redacts c s = true) /\ In e' (event_errors c [] (Some es) []) /\ e_message e' <> m_message c.
Proof. exact event_errors_bypass. Qed.
Print Assumptions C17_event_errors_refuted.

Example masked_example :
  let c := mkcfg true "Unexpected error" true (Some (Allow ["code"])) (Some [("open", mksub (Some false) (Some (Deny ["debug"])))]) in
  mask c (handle_errors "products" None (read_errors [mkraw "boom" [] None [("debug", VStr "x"); ("code", VStr "E")]]) None)
    = [mkerr "Unexpected error" [] None (Some "E") None None []] /\
  mask c (handle_errors "open" None (read_errors [mkraw "boom" [] None [("debug", VStr "x"); ("a", VStr "y")]]) None)
    = [mkerr "boom" [] None (Some "DOWNSTREAM_SERVICE_ERROR") (Some "open") None [("a", VStr "y")]].
Proof. split; reflexivity. Qed.
