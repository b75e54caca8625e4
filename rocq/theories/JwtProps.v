(** C57: authentication by JSON web tokens. *)
From Coq Require Import String Ascii List NArith Bool.
From Verif Require Import StrUtil JwtModel JwtSpec JwtText JwtProofs JwtCases.
Import ListNotations.
Local Open Scope string_scope.
Local Open Scope list_scope.

(** The token is the one in the first configured location that says anything; its prefix, the white space around
    it, and the quotes of a cookie are dropped; a header that is not text, or without the prefix, ends the search. *)
Theorem C57_lookup : forall ls h r, lookup ls h = r <-> found ls h r.
Proof. intros. symmetry. apply lookup_found. Qed.
Print Assumptions C57_lookup.

(** Whatever requests, reloads of keys, and evictions came before, a request is only taken as authenticated if the
    token in it was checked, at this request or at one less than five seconds ago that carried it too: signed by a
    key of a set that could be read at that time, with an algorithm that the key, the token, and the configuration
    agree on, the issuer and all the audiences as configured.  The claims are those of the token, and it is at most
    one minute past its expiry at this request, cache or not. *)
Theorem C57_sound : forall cfg read_header usable fits signed read_claims evs ms h x,
  answer cfg read_header usable fits signed read_claims evs ms h = Ok (Some x) ->
  found (g_locations cfg) h (Ok (x_prefix x, x_token x)) /\ x_scopes_claim x = g_scopes_claim cfg /\
  (exists e, c_exp (x_claims x) = Some e /\ (ms / 1000 <= e + 60)%N) /\
  exists pre ms0 h0 post q, evs ++ [Request ms h] = pre ++ Request ms0 h0 :: post /\ (ms < ms0 + 5000)%N /\
    found (g_locations cfg) h0 (Ok (q, x_token x)) /\
    checked cfg read_header usable fits signed read_claims pre ms0 (x_token x) (x_claims x).
Proof. exact answer_sound. Qed.
Print Assumptions C57_sound.

(** Where authentication is required no request passes without; where it is not, no request fails for it. *)
Theorem C57_required : forall cfg read_header usable fits signed read_claims evs ms h, g_require cfg = Some true ->
  answer cfg read_header usable fits signed read_claims evs ms h <> Ok None.
Proof. exact answer_required. Qed.
Print Assumptions C57_required.
Theorem C57_optional : forall cfg read_header usable fits signed read_claims evs ms h e, g_require cfg <> Some true ->
  answer cfg read_header usable fits signed read_claims evs ms h <> Err e.
Proof. exact answer_optional. Qed.
Print Assumptions C57_optional.

(** A token signed by a key of the set picked is accepted, with its claims: partial, as only one set is looked at. *)
Theorem C57_accepted_partial : forall cfg read_header usable fits signed read_claims evs ms h srcs sets q t hd set k c,
  latest evs srcs -> readable srcs sets -> found (g_locations cfg) h (Ok (q, t)) ->
  read_header t = Some hd -> picked sets hd set -> In k set ->
  verifies cfg read_header usable fits signed k t -> acceptable cfg read_claims (ms / 1000) t c ->
  answer cfg read_header usable fits signed read_claims evs ms h = Ok (Some (mkcontext c t q (g_scopes_claim cfg))).
Proof. exact answer_complete. Qed.
Print Assumptions C57_accepted_partial.

(** ... and one that was not seen for five seconds and that no key of the set picked has signed is refused. *)
Theorem C57_refused : forall cfg read_header usable fits signed read_claims evs ms h srcs sets q t,
  latest evs srcs -> readable srcs sets -> found (g_locations cfg) h (Ok (q, t)) ->
  (forall pre ms0 h0 post q', evs = pre ++ Request ms0 h0 :: post -> found (g_locations cfg) h0 (Ok (q', t)) -> (ms0 + 5000 <= ms)%N) ->
  (forall hd set k c, read_header t = Some hd -> picked sets hd set -> In k set ->
     verifies cfg read_header usable fits signed k t -> ~ acceptable cfg read_claims (ms / 1000) t c) ->
  forall x, answer cfg read_header usable fits signed read_claims evs ms h <> Ok (Some x).
Proof. exact answer_refused. Qed.
Print Assumptions C57_refused.

(** Valid tokens are refused: when a set of another provider has a key of the same id; when an earlier set has a
    key for encryption; when neither the token names a key nor the keys name an algorithm. *)
Theorem C57_accepted_refuted :
  (exists a b, a <> b /\ refused_though_valid (plain_config bearer None) (any_header (Some "1")) all_usable all_fit good_signs (any_claims None None) (two a b) now request) /\
  (exists a b, k_alg a = Some (Other "RSA-OAEP") /\ refused_though_valid (plain_config bearer None) (any_header None) all_usable all_fit good_signs (any_claims None None) (two a b) now request) /\
  (exists k, k_alg k = None /\ refused_though_valid (plain_config bearer None) (any_header None) all_usable all_fit good_signs (any_claims None None) [Keys [mksource (Some [k]) false]] now request).
Proof.
  split; [eexists; eexists; split; [|exact shared_kid]; discriminate|].
  split; [eexists; eexists; split; [|exact encryption_key]; reflexivity|].
  eexists; split; [|exact no_algorithm]; reflexivity.
Qed.
Print Assumptions C57_accepted_refuted.

(** While the keys of a provider are being replaced its tokens are refused. *)
Theorem C57_reload_refuted : let ask b := answer (plain_config bearer None) (any_header (Some "1")) all_usable all_fit good_signs (any_claims None None)
    [Keys [mksource (Some [good (Some "1") None]) b]] now request in
  (exists x, ask false = Ok (Some x)) /\ ask true = Err FailedToLocateProvider.
Proof. exact locked_set. Qed.
Print Assumptions C57_reload_refuted.

(** A token for us and for someone else is refused, though one audience in common is enough (RFC 7519, 4.1.3). *)
Theorem C57_audience_refuted : let ask aud := answer (plain_config bearer (Some ["us"])) (any_header (Some "1")) all_usable all_fit good_signs (any_claims (Some aud) None)
    [Keys [mksource (Some [good (Some "1") None]) false]] now request in
  (exists x, ask (Multiple ["us"]) = Ok (Some x)) /\ ask (Multiple ["us"; "them"]) = Err (AllFailed [FailedToDecode]).
Proof. exact several_audiences. Qed.
Print Assumptions C57_audience_refuted.

(** A token in a later location, or in a second Cookie header, is not seen. *)
Theorem C57_locations_refuted : let ask h := answer (plain_config (bearer ++ [InCookie "jwt"]) None) (any_header (Some "1")) all_usable all_fit good_signs (any_claims None None)
    [Keys [mksource (Some [good (Some "1") None]) false]] now h in
  (exists x, ask [("cookie", "jwt=tok")] = Ok (Some x)) /\
  ask [("authorization", "Basic dXNlcg=="); ("cookie", "jwt=tok")] = Err (LookupFailed MismatchedPrefix) /\
  ask [("cookie", "a=b"); ("cookie", "jwt=tok")] = Err (LookupFailed LookupNotFound).
Proof. exact hidden_cookie. Qed.
Print Assumptions C57_locations_refuted.

(** A token is accepted before the time its [nbf] claim sets. *)
Theorem C57_not_before_refuted : exists x,
  answer (plain_config bearer None) (any_header (Some "1")) all_usable all_fit good_signs (any_claims None (Some 1500%N))
    [Keys [mksource (Some [good (Some "1") None]) false]] now request = Ok (Some x) /\
  c_nbf (x_claims x) = Some 1500%N /\ (now / 1000 + 60 < 1500)%N.
Proof. exact not_yet. Qed.
Print Assumptions C57_not_before_refuted.

(** The scopes of a token: from the claim configured, else [scope], else [scopes]; the pieces of a string between
    spaces, or the strings of an array. *)
Theorem C57_scopes : forall x, NoDup (map fst (c_more (x_claims x))) ->
  granted (match x_scopes_claim x with Some n => [n] | None => ["scope"; "scopes"] end) (c_more (x_claims x)) (extract_scopes x).
Proof. exact extract_ok. Qed.
Print Assumptions C57_scopes.

(** At start the keys of files, and of remote providers marked [prefetch], must be had or the router stops; other
    providers start without keys.  Keys once had are never lost. *)
Theorem C57_prefetch : forall ps l, prefetch ps = Some l <->
  Forall2 (fun p held => match fst p with
                         | File | Remote _ (Some true) => snd p <> None /\ held = snd p
                         | _ => held = None
                         end) ps l.
Proof. exact prefetch_spec. Qed.
Print Assumptions C57_prefetch.
Theorem C57_keys_kept : forall p l held, held <> None -> fold_left (fun h f => tick p f h) l held <> None.
Proof. exact ticks_keep. Qed.
Theorem C57_keys_renewed : forall interval pre fetched held,
  tick (Remote (Some interval) pre) (Some fetched) held = Some fetched /\ tick (Remote (Some interval) pre) None held = held /\
  tick File (Some fetched) held = held.
Proof. now repeat split. Qed.
Print Assumptions C57_keys_renewed.
Print Assumptions C57_keys_kept.
(** A remote provider with neither [prefetch] nor an interval never has keys, though they are documented to be
    fetched when the first request comes in; and keys that fail to be prefetched stop the router, though that is
    documented to be ignored. *)
Theorem C57_on_demand_refuted : forall l,
  prefetch [(Remote None (Some false), Some [good (Some "1") None])] = Some [None] /\
  fold_left (fun h f => tick (Remote None (Some false)) f h) l None = None /\
  prefetch [(Remote None (Some true), None)] = None.
Proof. intro l. split; [reflexivity|]. split; [apply ticks_none|reflexivity]. Qed.
Print Assumptions C57_on_demand_refuted.

(** A token is checked once, served from the cache, and refused once the key is gone and five seconds have passed;
    a cached token does not outlive its expiry by more than the minute of leeway. *)
Example C57_example :
  let cfg := plain_config bearer None in
  let ask := answer cfg (any_header (Some "1")) all_usable all_fit good_signs (any_claims None None) in
  let keys := Keys [mksource (Some [bad (Some "0") None; good (Some "1") None]) false] in
  (exists x, ask [keys; Request 1000%N request; Keys []] 5999%N request = Ok (Some x) /\ extract_scopes x = Some ["a"; "b"]) /\
  ask [keys; Request 1000%N request; Keys []] 6000%N request = Err FailedToLocateProvider /\
  ask [keys; Request 1000%N request; Keys []; Evict (fun _ => false)] 1001%N request = Err FailedToLocateProvider /\
  (exists x, ask [keys] 2060999%N request = Ok (Some x)) /\
  ask [keys] 2061000%N request = Err (AllFailed [FailedToDecode; FailedToDecode]) /\
  lookup [InCookie "jwt"; InHeader "X-Token" None] [("Cookie", "a; jwt = ""t=1"" ;jwt=2")] = Ok (None, "t=1") /\
  lookup bearer [("authorization", "Bearertok ")] = Ok (Some "Bearer", "tok").
Proof.
  split; [eexists; split; vm_compute; reflexivity|]. split; [vm_compute; reflexivity|]. split; [vm_compute; reflexivity|].
  split; [eexists; vm_compute; reflexivity|]. split; [vm_compute; reflexivity|]. split; vm_compute; reflexivity.
Qed.
