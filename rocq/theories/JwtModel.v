(** Authentication by JSON web tokens.
    Models bin/router/src/jwt/{mod,jwks_manager,context}.rs and the claims cache of shared_state.rs:277-316.
    The cryptography and the JSON of the jsonwebtoken crate are parameters; its checks on the claims are
    written out ([Validation::new] requires [exp], allows 60 seconds of leeway, and does not look at [nbf]). *)
From Coq Require Import String Ascii List NArith Bool.
From Verif Require Import StrUtil.
Import ListNotations.
Local Open Scope string_scope.
Local Open Scope list_scope.

(** [jsonwebtoken::Algorithm] *)
Inductive alg := HS256 | HS384 | HS512 | RS256 | RS384 | RS512 | ES256 | ES384 | PS256 | PS384 | PS512 | EdDSA.
Definition alg_eqb (a b : alg) : bool :=
  match a, b with
  | HS256, HS256 | HS384, HS384 | HS512, HS512 | RS256, RS256 | RS384, RS384 | RS512, RS512 | ES256, ES256
  | ES384, ES384 | PS256, PS256 | PS384, PS384 | PS512, PS512 | EdDSA, EdDSA => true
  | _, _ => false
  end.
(** [jwk::KeyAlgorithm]: one of those, or one that is not for signatures, on which [Algorithm::from_str] fails *)
Inductive key_algorithm := Signs (a : alg) | Other (name : string).

(** The parts of [jwk::Jwk] the router looks at; [k_material] stands for the rest *)
Record jwk := mkjwk { k_id : option string; k_alg : option key_algorithm; k_material : string }.
Definition jwk_set : Type := list jwk.

Record header := mkheader { h_alg : alg; h_kid : option string }.
(** [Audience], context.rs:51-56 *)
Inductive audience := Single (s : string) | Multiple (l : list string).
(** A value of [additional_claims]: a string, an array (of strings and other things), or anything else *)
Inductive claim := CStr (s : string) | CArr (l : list (option string)) | COther.
(** [JwtClaims], context.rs:58-86 *)
Record claims := mkclaims {
  c_iss : option string; c_aud : option audience; c_exp : option N; c_nbf : option N;
  c_more : list (string * claim) }.

Inductive location := InHeader (name : string) (prefix : option string) | InCookie (name : string).
(** [JwtAuthConfig], config/jwt_auth.rs:9-54 *)
Record config := mkconfig {
  g_locations : list location;
  g_issuers : option (list string);
  g_audiences : option (list string);
  g_require : option bool;
  g_algorithms : option (list alg);
  g_scopes_claim : option string }.

(** errors.rs:5-34 *)
Inductive lookup_error := LookupNotFound | MismatchedPrefix | NotText.
Inductive jwt_error :=
| LookupFailed (e : lookup_error)
| InvalidJwtHeader
| InvalidDecodingKey
| FailedToLocateProvider
| AlgorithmNotSupported
| FailedToDecode
| AllFailed (l : list jwt_error).
Inductive result (A E : Type) := Ok (a : A) | Err (e : E).
Arguments Ok {A E}. Arguments Err {A E}.

(** [HeaderMap::get]: the first value; names are compared in lower case *)
Definition headers : Type := list (string * string).
Fixpoint header_get (n : string) (h : headers) : option string :=
  match h with
  | [] => None
  | (k, v) :: h' => if String.eqb (lower k) (lower n) then Some v else header_get n h'
  end.
(** [HeaderValue::to_str]: visible ASCII, space and tab *)
Definition visible (c : ascii) : bool := let n := N_of_ascii c in (((32 <=? n) && (n <? 127)) || (n =? 9))%N.
Definition to_str (v : string) : option string := if all_chars visible v then Some v else None.
Fixpoint strip_prefix (p s : string) : option string :=
  match p, s with
  | "", _ => Some s
  | String a p', String b s' => if Ascii.eqb a b then strip_prefix p' s' else None
  | _, _ => None
  end.

(** [Cookie::parse] and [name_value_trimmed] of the cookie crate: cut at the first [=], trimmed, the name
    not empty, one pair of quotes around the value dropped *)
Definition quote : ascii := "034"%char.
Definition trim_quotes (s : string) : string :=
  if Nat.ltb (String.length s) 2 then s
  else match String.get 0 s, String.get (String.length s - 1) s with
       | Some a, Some b => if (Ascii.eqb a quote && Ascii.eqb b quote)%bool then String.substring 1 (String.length s - 2) s else s
       | _, _ => s
       end.
Definition parse_cookie (s : string) : option (string * string) :=
  match split_once "="%char s with
  | None => None
  | Some (n, v) => if String.eqb (trim n) "" then None else Some (trim n, trim_quotes (trim v))
  end.
Fixpoint find_cookie (n : string) (items : list string) : option string :=
  match items with
  | [] => None
  | i :: items' =>
      match parse_cookie i with
      | Some (k, v) => if String.eqb k n then Some v else find_cookie n items'
      | None => find_cookie n items'
      end
  end.

(** [JwtAuthRuntime::lookup], mod.rs:56-125 *)
Fixpoint lookup (ls : list location) (h : headers) : result (option string * string) lookup_error :=
  match ls with
  | [] => Err LookupNotFound
  | InHeader n prefix :: ls' =>
      match header_get n h with
      | None => lookup ls' h
      | Some raw =>
          match to_str raw with
          | None => Err NotText
          | Some s =>
              match prefix with
              | Some p => match strip_prefix p s with
                          | Some rest => Ok (Some p, trim rest)
                          | None => Err MismatchedPrefix
                          end
              | None => Ok (None, s)
              end
          end
      end
  | InCookie n :: ls' =>
      match header_get "cookie" h with
      | None => lookup ls' h
      | Some raw =>
          match to_str raw with
          | None => lookup ls' h
          | Some s => match find_cookie n (split_on ";"%char s) with
                      | Some v => Ok (None, v)
                      | None => lookup ls' h
                      end
          end
      end
  end.

(** [find_matching_jwks], mod.rs:127-157 *)
Definition has_kid (kid : string) (set : jwk_set) : bool :=
  existsb (fun k => match k_id k with Some v => String.eqb v kid | None => false end) set.
Fixpoint by_kid (kid : string) (sets : list jwk_set) : option jwk_set :=
  match sets with
  | [] => None
  | s :: sets' => if has_kid kid s then Some s else by_kid kid sets'
  end.
Fixpoint set_by_alg (a : alg) (keys : jwk_set) : result bool jwt_error :=
  match keys with
  | [] => Ok false
  | k :: keys' =>
      match k_alg k with
      | Some (Signs b) => if alg_eqb b a then Ok true else set_by_alg a keys'
      | Some (Other _) => Err AlgorithmNotSupported
      | None => set_by_alg a keys'
      end
  end.
Fixpoint by_alg (a : alg) (sets : list jwk_set) : result jwk_set jwt_error :=
  match sets with
  | [] => Err FailedToLocateProvider
  | s :: sets' =>
      match set_by_alg a s with
      | Err e => Err e
      | Ok true => Ok s
      | Ok false => by_alg a sets'
      end
  end.
Definition find_matching (h : header) (sets : list jwk_set) : result jwk_set jwt_error :=
  match h_kid h with
  | Some kid => match by_kid kid sets with
                | Some s => Ok s
                | None => by_alg (h_alg h) sets
                end
  | None => by_alg (h_alg h) sets
  end.

(** A source of keys, jwks_manager.rs:63-67: the last set read, and whether a writer holds the lock *)
Record source := mksource { s_set : option jwk_set; s_locked : bool }.
(** [JwksManager::all], jwks_manager.rs:27-39, and [get_jwk_set], jwks_manager.rs:181-190 *)
Fixpoint all_sets (l : list source) : list jwk_set :=
  match l with
  | [] => []
  | s :: l' => match s_set s with
               | Some set => if s_locked s then all_sets l' else set :: all_sets l'
               | None => all_sets l'
               end
  end.

Section Decode.
  Variable cfg : config.
  (** jsonwebtoken: [decode_header]; [DecodingKey::from_jwk] on the key material; whether the key is of the
      family of an algorithm; whether the signature of the token verifies; the claims of the token *)
  Variable read_header : string -> option header.
  Variable usable : string -> bool.
  Variable fits : string -> alg -> bool.
  Variable signed : string -> alg -> string -> bool.
  Variable read_claims : string -> option claims.

  Definition mem (s : string) (l : list string) : bool := existsb (String.eqb s) l.

  (** [jsonwebtoken::decode] with the [Validation] of mod.rs:226-239 *)
  Definition validate (now : N) (c : claims) : bool :=
    match c_exp c with
    | None => false
    | Some exp => negb (exp <? now - 60)%N
    end
    && match g_issuers cfg, c_iss c with
       | Some l, Some i => mem i l
       | _, _ => true
       end
    && match g_audiences cfg, c_aud c with
       | Some l, Some (Single a) => mem a l
       | Some l, Some (Multiple m) => existsb (fun a => mem a l) m
       | _, _ => true
       end.
  Definition decode (now : N) (token material : string) (a : alg) : option claims :=
    if negb (fits material a) then None
    else
      match read_header token with
      | None => None
      | Some h =>
          if negb (alg_eqb (h_alg h) a) then None
          else if negb (signed material (h_alg h) token) then None
          else match read_claims token with
               | None => None
               | Some c => if validate now c then Some c else None
               end
      end.

  (** [try_decode_from_jwk], mod.rs:203-282 *)
  Definition try_decode (now : N) (h : header) (token : string) (k : jwk) : result claims jwt_error :=
    if negb (usable (k_material k)) then Err InvalidDecodingKey
    else
      match (match k_alg k with
             | Some (Signs a) => Some a
             | Some (Other _) => None
             | None => Some (h_alg h)
             end) with
      | None => Err AlgorithmNotSupported
      | Some a =>
          if match g_algorithms cfg with Some l => negb (existsb (alg_eqb a) l) | None => false end
          then Err AlgorithmNotSupported
          else
            match decode now token (k_material k) a with
            | None => Err FailedToDecode
            | Some c =>
                if match g_issuers cfg, c_iss c with
                   | Some l, Some i => negb (mem i l)
                   | Some _, None => true
                   | None, _ => false
                   end
                then Err FailedToDecode
                else if match g_audiences cfg, c_aud c with
                        | Some l, Some (Single a) => negb (mem a l)
                        | Some l, Some (Multiple m) => negb (forallb (fun a => mem a l) m)
                        | Some _, None => true
                        | None, _ => false
                        end
                then Err FailedToDecode
                else Ok c
            end
      end.
  (** [decode_and_validate_token], mod.rs:181-201 *)
  Fixpoint first_ok (now : N) (h : header) (token : string) (keys : list jwk) : result claims (list jwt_error) :=
    match keys with
    | [] => Err []
    | k :: keys' =>
        match try_decode now h token k with
        | Ok c => Ok c
        | Err e => match first_ok now h token keys' with
                   | Ok c => Ok c
                   | Err es => Err (e :: es)
                   end
        end
    end.
  (** [authenticate], mod.rs:159-179, past the lookup *)
  Definition authenticate (now : N) (sets : list jwk_set) (token : string) : result claims jwt_error :=
    match read_header token with
    | None => Err InvalidJwtHeader
    | Some h =>
        match find_matching h sets with
        | Err e => Err e
        | Ok keys => match first_ok now h token keys with
                     | Ok c => Ok c
                     | Err es => Err (AllFailed es)
                     end
        end
    end.

  (** The cache: token, claims, and the moment (in milliseconds) at which the entry expires *)
  Definition cache : Type := list (string * (claims * N)).
  Fixpoint cache_get (ms : N) (token : string) (c : cache) : option claims :=
    match c with
    | [] => None
    | (t, (p, until)) :: c' => if (String.eqb t token && (ms <? until)%N)%bool then Some p else cache_get ms token c'
    end.
  (** [JwtClaimsExpiry::expire_after_create], shared_state.rs:282-315, in milliseconds *)
  Definition time_to_live (ms : N) (c : claims) : N :=
    match c_exp c with
    | None => 5000%N
    | Some exp => let now := (ms / 1000)%N in
                  if (exp <=? now)%N then 0%N else N.min 5000 ((exp - now) * 1000)
    end.

  Record context := mkcontext {
    x_claims : claims; x_token : string; x_prefix : option string; x_scopes_claim : option string }.

  (** [validate_headers], mod.rs:284-324; [try_get_with] keeps what succeeds *)
  Definition required : bool := match g_require cfg with Some true => true | _ => false end.
  Definition validate_headers (ms : N) (sets : list jwk_set) (h : headers) (c : cache)
      : result (option context) jwt_error * cache :=
    match lookup (g_locations cfg) h with
    | Err e => (if required then Err (LookupFailed e) else Ok None, c)
    | Ok (prefix, token) =>
        let done p := Ok (Some (mkcontext p token prefix (g_scopes_claim cfg))) in
        match cache_get ms token c with
        | Some p => (done p, c)
        | None =>
            match authenticate (ms / 1000) sets token with
            | Ok p => (done p, (token, (p, (ms + time_to_live ms p)%N)) :: c)
            | Err e => (if required then Err e else Ok None, c)
            end
        end
    end.

  (** The router over time: requests, new states of the sources of keys, and evictions from the cache *)
  Inductive event :=
  | Request (ms : N) (h : headers)
  | Keys (l : list source)
  | Evict (keep : string -> bool).
  Definition step (st : list source * cache) (e : event) : list source * cache :=
    match e with
    | Request ms h => (fst st, snd (validate_headers ms (all_sets (fst st)) h (snd st)))
    | Keys l => (l, snd st)
    | Evict keep => (fst st, filter (fun x => keep (fst x)) (snd st))
    end.
  Definition run (l : list event) : list source * cache := fold_left step l ([], []).
  Definition answer (l : list event) (ms : N) (h : headers) : result (option context) jwt_error :=
    fst (validate_headers ms (all_sets (fst (run l))) h (snd (run l))).
End Decode.

(** [extract_scopes], context.rs:23-48 *)
Fixpoint claim_get (n : string) (l : list (string * claim)) : option claim :=
  match l with [] => None | (k, v) :: l' => if String.eqb k n then Some v else claim_get n l' end.
Definition extract_scopes (x : context) : option (list string) :=
  let m := c_more (x_claims x) in
  let found := match x_scopes_claim x with
               | Some n => claim_get n m
               | None => match claim_get "scope" m with Some c => Some c | None => claim_get "scopes" m end
               end in
  match found with
  | Some (CStr s) => Some (split_on " "%char s)
  | Some (CArr l) => Some (flat_map (fun o => match o with Some s => [s] | None => [] end) l)
  | _ => None
  end.

(** [JwksProviderSourceConfig], config/jwt_auth.rs:105-132 *)
Inductive provider := Remote (polling : option N) (prefetch : option bool) | File.
(** [should_prefetch] and [should_poll_in_background], jwks_manager.rs:164-179 *)
Definition should_prefetch (p : provider) : bool :=
  match p with Remote _ (Some b) => b | Remote _ None => false | File => true end.
Definition should_poll (p : provider) : bool := match p with Remote _ _ => true | File => false end.
(** [JwksSourceTask::run], jwks_manager.rs:77-102: the loop only runs with an interval *)
Definition task_loops (p : provider) : bool := match p with Remote (Some _) _ => true | _ => false end.
(** [load_and_store_jwks], jwks_manager.rs:118-155; [None] when the keys cannot be had or read *)
Definition load (fetched : option jwk_set) (held : option jwk_set) : option jwk_set :=
  match fetched with Some s => Some s | None => held end.
(** [prefetch_sources], jwks_manager.rs:41-52: the first failure stops the router *)
Fixpoint prefetch (ps : list (provider * option jwk_set)) : option (list (option jwk_set)) :=
  match ps with
  | [] => Some []
  | (p, fetched) :: ps' =>
      if should_prefetch p
      then match fetched with
           | None => None
           | Some s => match prefetch ps' with Some l => Some (load (Some s) None :: l) | None => None end
           end
      else match prefetch ps' with Some l => Some (None :: l) | None => None end
  end.
(** One tick of the background task of a source, jwks_manager.rs:90-99 and 54-60 *)
Definition tick (p : provider) (fetched held : option jwk_set) : option jwk_set :=
  if (should_poll p && task_loops p)%bool then load fetched held else held.
