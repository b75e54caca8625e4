(** C22: CORS only admits configured origins. *)
From Coq Require Import String Ascii List Bool NArith.
From Verif Require Import StrUtil HeadersModel HeadersSpec CacheControlModel CorsModel CorsSpec
  CorsProofs.
Import ListNotations.
Local Open Scope string_scope.

(** An origin is echoed in [Access-Control-Allow-Origin] exactly when the configuration
    admits it; otherwise the answer is [null]. *)
Theorem C22_echo_iff_admitted (matches : list string -> string -> bool) cfg req o st h :
  cc_enabled cfg = true -> (cc_any cfg = true \/ cc_policies cfg <> []) ->
  rq_options req = false -> hget "origin" (rq_headers req) = Some o -> printable o = true ->
  o <> "null" ->
  (lines "access-control-allow-origin" (snd (respond matches cfg req (st, h))) = [o] <->
   admitted matches cfg o) /\
  (~ admitted matches cfg o ->
   lines "access-control-allow-origin" (snd (respond matches cfg req (st, h))) = ["null"]).
Proof. exact (respond_echo matches cfg req o st h). Qed.

(** Every other header of an admitted answer follows the documented inheritance. *)
Theorem C22_admitted_headers_partial (matches : list string -> string -> bool) cfg req o g st h :
  cc_enabled cfg = true -> well_written cfg -> rq_options req = false ->
  hget "origin" (rq_headers req) = Some o -> printable o = true ->
  governed matches cfg o g -> no_credential_override cfg g ->
  fst (respond matches cfg req (st, h)) = st /\
  forall n, n <> "vary" ->
    lines n (snd (respond matches cfg req (st, h))) = expected cfg g req o h n.
Proof. exact (respond_admitted matches cfg req o g st h). Qed.

(** At most one policy governs an origin. *)
Theorem C22_governed_unique (matches : list string -> string -> bool) cfg o g g' :
  governed matches cfg o g -> governed matches cfg o g' -> g = g'.
Proof. exact (governed_unique matches cfg o g g'). Qed.

(** An answer to an admitted origin varies on it, and keeps what it varied on. *)
Theorem C22_vary_partial (matches : list string -> string -> bool) cfg req o g st h :
  cc_enabled cfg = true -> well_written cfg -> rq_options req = false ->
  hget "origin" (rq_headers req) = Some o -> printable o = true ->
  governed matches cfg o g -> plain_vary h ->
  forall t, In t (vary_members (snd (respond matches cfg req (st, h)))) <->
    In t (vary_members h) \/ (o <> "null" /\ t = "origin") \/
    (asks_reflected cfg g req /\ t = "access-control-request-headers").
Proof. exact (respond_vary matches cfg req o g st h). Qed.

(** A rejected origin changes nothing but [Access-Control-Allow-Origin]. *)
Theorem C22_rejected (matches : list string -> string -> bool) cfg c req o st h :
  from_config cfg = Some c -> rq_options req = false ->
  hget "origin" (rq_headers req) = Some o -> printable o = true -> ~ admitted matches cfg o ->
  respond matches cfg req (st, h) = (st, hinsert "access-control-allow-origin" "null" h).
Proof. exact (respond_rejected matches cfg c req o st h). Qed.

(** Preflight answers never reach the handler; configured preflight headers win, the
    policy's over the global ones. *)
Theorem C22_preflight_partial (matches : list string -> string -> bool) cfg req o g st h :
  cc_enabled cfg = true -> well_written cfg -> rq_options req = true ->
  hget "origin" (rq_headers req) = Some o -> printable o = true ->
  governed matches cfg o g -> no_credential_override cfg g ->
  fst (respond matches cfg req (st, h)) = 204%N /\
  forall n, n <> "vary" ->
    lines n (snd (respond matches cfg req (st, h))) =
    match eff_preflight cfg g n with
    | Some v => [v]
    | None => expected cfg g req o [("content-length", "0")] n
    end.
Proof. exact (respond_preflight matches cfg req o g st h). Qed.

Theorem C22_preflight_rejected (matches : list string -> string -> bool) cfg c req o st h :
  from_config cfg = Some c -> rq_options req = true ->
  hget "origin" (rq_headers req) = Some o -> printable o = true -> ~ admitted matches cfg o ->
  respond matches cfg req (st, h) =
  (204%N, [("content-length", "0"); ("access-control-allow-origin", "null")]).
Proof. exact (respond_preflight_rejected matches cfg c req o st h). Qed.

(** Without an [Origin] header, and with CORS off, answers are left alone. *)
Theorem C22_no_origin (matches : list string -> string -> bool) cfg req st h :
  hget "origin" (rq_headers req) = None -> rq_options req = false ->
  respond matches cfg req (st, h) = (st, h).
Proof. exact (respond_no_origin matches cfg req st h). Qed.

Theorem C22_off (matches : list string -> string -> bool) cfg req r :
  cc_enabled cfg = false \/ (cc_any cfg = false /\ cc_policies cfg = []) ->
  respond matches cfg req r = r.
Proof. exact (respond_off matches cfg req r). Qed.

(** ** Findings *)
Definition plain_policy (os : list string) (cr : option bool) : policy_cfg :=
  {| pc_origins := Some os; pc_match := None; pc_credentials := cr; pc_allow_headers := None;
     pc_methods := None; pc_expose := None; pc_max_age := None; pc_preflight := [] |}.
Definition plain_cfg (ps : list policy_cfg) (cr : bool) : cors_cfg :=
  {| cc_enabled := true; cc_any := false; cc_policies := ps; cc_credentials := cr;
     cc_allow_headers := None; cc_methods := None; cc_expose := None; cc_max_age := None;
     cc_preflight := [] |}.
Definition from_origin (o : string) : request :=
  {| rq_options := false; rq_headers := [("origin", o)] |}.
Definition no_regex (ps : list string) (o : string) : bool := false.

(** A page with the opaque origin [null] (sandboxed frame, local file) is rejected by the
    configuration, yet the answer names its origin, which browsers take as permission. *)
Theorem C22_null_origin_refuted :
  exists cfg o, cc_enabled cfg = true /\ ~ admitted no_regex cfg o /\
    lines "access-control-allow-origin" (snd (respond no_regex cfg (from_origin o) (200%N, []))) = [o].
Proof.
  exists (plain_cfg [plain_policy ["https://a.example"] None] false), "null".
  split; [reflexivity|]. split; [|vm_compute; reflexivity].
  intros [g G]. inversion G as [A|pre p post A El Hp Hc]; subst; [discriminate A|].
  assert (I : In p [plain_policy ["https://a.example"] None]).
  { change (cc_policies _) with [plain_policy ["https://a.example"] None] in El.
    rewrite El. apply in_or_app. right. left. reflexivity. }
  destruct I as [<-|[]]. destruct Hc as [[l [El' Hl]]|[ps [Ep _]]]; [|discriminate Ep].
  injection El' as <-. destruct Hl as [Hl|[]]. discriminate Hl.
Qed.

(** The answer to a rejected origin differs from the answer to an admitted one but does
    not say that it varies on the origin. *)
Theorem C22_rejected_vary_refuted :
  exists cfg o o', 
    lines "access-control-allow-origin" (snd (respond no_regex cfg (from_origin o) (200%N, []))) <>
    lines "access-control-allow-origin" (snd (respond no_regex cfg (from_origin o') (200%N, []))) /\
    ~ In "origin" (vary_members (snd (respond no_regex cfg (from_origin o) (200%N, [])))).
Proof.
  exists (plain_cfg [plain_policy ["https://a.example"] None] false),
    "https://b.example", "https://a.example".
  split; [vm_compute; discriminate|]. vm_compute. intros [].
Qed.

(** A policy cannot switch off credentials that are on globally. *)
Theorem C22_credentials_refuted :
  exists cfg o g, governed no_regex cfg o g /\ eff_credentials cfg g = false /\
    lines "access-control-allow-credentials"
      (snd (respond no_regex cfg (from_origin o) (200%N, []))) = ["true"].
Proof.
  exists (plain_cfg [plain_policy ["https://a.example"] (Some false)] true), "https://a.example",
    (Some (plain_policy ["https://a.example"] (Some false))).
  split; [|split; vm_compute; reflexivity].
  apply (Gov_first _ _ _ [] _ []); [reflexivity|reflexivity|intros q []|].
  left. exists ["https://a.example"]. split; [reflexivity|left; reflexivity].
Qed.

(** Only the first [Vary] line survives. *)
Theorem C22_vary_lines_refuted :
  exists cfg o h, ~ plain_vary h /\ In "accept" (vary_members h) /\
    ~ In "accept" (vary_members (snd (respond no_regex cfg (from_origin o) (200%N, h)))).
Proof.
  exists (plain_cfg [plain_policy ["https://a.example"] None] false), "https://a.example",
    [("vary", "Cookie"); ("vary", "Accept")].
  split; [|split].
  - intros [P|[v [P _]]]; vm_compute in P; discriminate P.
  - vm_compute. right. left. reflexivity.
  - vm_compute. intros [H|[H|[]]]; discriminate H.
Qed.

(** Non-vacuity. *)
Example C22_ex_admitted :
  respond no_regex (plain_cfg [plain_policy ["https://a.example"] (Some true)] false)
    (from_origin "https://a.example") (200%N, [("vary", "Accept")]) =
  (200%N, [("access-control-allow-origin", "https://a.example"); ("vary", "Accept, Origin");
           ("access-control-allow-credentials", "true")]).
Proof. vm_compute. reflexivity. Qed.

Print Assumptions C22_echo_iff_admitted.
Print Assumptions C22_admitted_headers_partial.
Print Assumptions C22_governed_unique.
Print Assumptions C22_vary_partial.
Print Assumptions C22_rejected.
Print Assumptions C22_preflight_partial.
Print Assumptions C22_preflight_rejected.
Print Assumptions C22_no_origin.
Print Assumptions C22_off.
Print Assumptions C22_null_origin_refuted.
Print Assumptions C22_rejected_vary_refuted.
Print Assumptions C22_credentials_refuted.
Print Assumptions C22_vary_lines_refuted.
