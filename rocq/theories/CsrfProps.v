(** C23: CSRF prevention rejects exactly simple requests. *)
From Coq Require Import String Ascii List Bool.
From Verif Require Import StrUtil HeadersModel HeadersSpec CacheControlModel CsrfModel CsrfSpec
  CsrfProofs.
Import ListNotations.
Local Open Scope string_scope.

(** A request that passes could not have been sent cross-site without a preflight. *)
Theorem C23_no_simple_request_passes c h :
  cs_enabled c = true -> cs_required c <> [] -> trimmed_values h ->
  perform_csrf_prevention c h = true -> has_required (cs_required c) h \/ preflighted_type h.
Proof. exact (csrf_sound c h). Qed.

(** Conversely such requests pass, unless their content type merely begins like a simple one
    or is not printable. *)
Theorem C23_preflighted_passes_partial c h :
  ordinary_type h -> has_required (cs_required c) h \/ preflighted_type h ->
  perform_csrf_prevention c h = true.
Proof. exact (csrf_complete c h). Qed.

(** A required header always suffices. *)
Theorem C23_required_header_passes c h :
  has_required (cs_required c) h -> perform_csrf_prevention c h = true.
Proof. exact (csrf_required c h). Qed.

(** Switched on without required headers, which is what [csrf: {}] means, the check lets
    every simple request pass. *)
Theorem C23_no_required_headers_refuted :
  exists c h, cs_enabled c = true /\ trimmed_values h /\
    ~ has_required (cs_required c) h /\ ~ preflighted_type h /\
    perform_csrf_prevention c h = true.
Proof.
  exists {| cs_enabled := true; cs_required := [] |}, [("content-type", "text/plain")].
  split; [reflexivity|]. split; [|split; [|split; [|reflexivity]]].
  - intros v [<-|[]]. reflexivity.
  - intros [n [v [[] _]]].
  - intros [v [E N]]. vm_compute in E. injection E as <-. apply N. left. reflexivity.
Qed.

(** A content type that only begins like a simple one is rejected although browsers
    preflight it. *)
Theorem C23_prefix_refuted :
  exists c h, preflighted_type h /\ perform_csrf_prevention c h = false.
Proof.
  exists {| cs_enabled := true; cs_required := ["x-csrf-token"] |},
    [("content-type", "text/plain-graphql")].
  split; [|reflexivity]. exists "text/plain-graphql". split; [reflexivity|].
  intros [H|[H|[H|[]]]]; vm_compute in H; discriminate H.
Qed.

(** Non-vacuity. *)
Example C23_ex :
  let c := {| cs_enabled := true; cs_required := ["x-csrf-token"] |} in
  perform_csrf_prevention c [("content-type", "Text/Plain ;a=b")] = false /\
  perform_csrf_prevention c [] = false /\
  perform_csrf_prevention c [("content-type", "application/json")] = true /\
  perform_csrf_prevention c [("content-type", "text/plain"); ("x-csrf-token", "")] = true.
Proof. vm_compute. repeat split; reflexivity. Qed.

Print Assumptions C23_no_simple_request_passes.
Print Assumptions C23_preflighted_passes_partial.
Print Assumptions C23_required_header_passes.
Print Assumptions C23_no_required_headers_refuted.
Print Assumptions C23_prefix_refuted.
