(** CORS headers of the router: /repo/bin/router/src/pipeline/cors.rs and
    /repo/bin/router/src/config/cors.rs.  Header maps are those of [HeadersModel].
    Regex matching ([regex_automata::meta::Regex::is_match] of a pattern set) is the
    oracle [matches]; a configuration whose patterns do not compile never starts
    (cors.rs:118-128, [CORSConfigError]), so only configurations that compile appear. *)
From Coq Require Import String Ascii List Bool NArith.
From Verif Require Import StrUtil HeadersModel CacheControlModel.
Import ListNotations.
Local Open Scope string_scope.

(** config/cors.rs:115-171 *)
Record policy_cfg := {
  pc_origins : option (list string);
  pc_match : option (list string);
  pc_credentials : option bool;
  pc_allow_headers : option (list string);
  pc_methods : option (list string);
  pc_expose : option (list string);
  pc_max_age : option N;
  pc_preflight : headers
}.

(** config/cors.rs:10-113 *)
Record cors_cfg := {
  cc_enabled : bool;
  cc_any : bool;
  cc_policies : list policy_cfg;
  cc_credentials : bool;
  cc_allow_headers : option (list string);
  cc_methods : option (list string);
  cc_expose : option (list string);
  cc_max_age : option N;
  cc_preflight : headers
}.

(** cors.rs:19-27 *)
Record compiled := {
  cp_methods : option string;
  cp_allow_headers : option string;
  cp_expose : option string;
  cp_credentials : option string;
  cp_max_age : option string;
  cp_preflight : headers
}.

(** [HeaderValue::from_str(s).ok()]: only visible ASCII and tabs. *)
Definition from_str (s : string) : option string := to_str s.

(** cors.rs:253-258 *)
Definition header_value_from_list (l : option (list string)) : option string :=
  match l with
  | None | Some [] => None
  | Some v => from_str (join ", " v)
  end.

Definition or_else {A} (a b : option A) : option A :=
  match a with Some x => Some x | None => b end.

(** cors.rs:262-272; [HeaderMap::extend] appends. *)
Definition merge_preflight (global overrides : headers) : headers :=
  match overrides with
  | [] => global
  | _ => fold_left (fun h kv => happend (fst kv) (snd kv) h) overrides global
  end.

(** cors.rs:30-53 *)
Definition policy_from_config (p : policy_cfg) (g : compiled) : compiled :=
  {| cp_methods := or_else (header_value_from_list (pc_methods p)) (cp_methods g);
     cp_allow_headers :=
       or_else (header_value_from_list (pc_allow_headers p)) (cp_allow_headers g);
     cp_expose := or_else (header_value_from_list (pc_expose p)) (cp_expose g);
     cp_credentials :=
       match pc_credentials p with Some true => Some "true" | _ => cp_credentials g end;
     cp_max_age :=
       match pc_max_age p with Some n => from_str (N_to_dec n) | None => cp_max_age g end;
     cp_preflight := merge_preflight (cp_preflight g) (pc_preflight p) |}.

(** cors.rs:178-191 *)
Definition global_policy (c : cors_cfg) : compiled :=
  {| cp_methods := header_value_from_list (cc_methods c);
     cp_allow_headers := header_value_from_list (cc_allow_headers c);
     cp_expose := header_value_from_list (cc_expose c);
     cp_credentials := if cc_credentials c then Some "true" else None;
     cp_max_age := match cc_max_age c with Some n => from_str (N_to_dec n) | None => None end;
     cp_preflight := cc_preflight c |}.

(** cors.rs:112-116 and 131-147; a rule keeps its patterns only if there are any
    (118-121). *)
Record rule := {
  r_origins : list string;
  r_pattern : option (list string);
  r_policy : compiled
}.

Definition build_regex_many (ps : list string) : option (list string) :=
  match ps with [] => None | _ => Some ps end.

Definition rule_from_config (p : policy_cfg) (g : compiled) : rule :=
  {| r_origins := match pc_origins p with Some l => l | None => [] end;
     r_pattern := match pc_match p with Some ps => build_regex_many ps | None => None end;
     r_policy := policy_from_config p g |}.

(** cors.rs:166-169 *)
Inductive cors := AllowAll (policy : compiled) | ByOrigin (rules : list rule).

(** cors.rs:172-210 *)
Definition from_config (c : cors_cfg) : option cors :=
  if negb (cc_enabled c) then None
  else
    let g := global_policy c in
    if cc_any c then Some (AllowAll g)
    else match map (fun p => rule_from_config p g) (cc_policies c) with
         | [] => None
         | rs => Some (ByOrigin rs)
         end.

(** [str::eq_ignore_ascii_case] *)
Definition eq_ignore_case (a b : string) : bool := String.eqb (lower a) (lower b).

(** cors.rs:274-301 *)
Definition append_vary (token : string) (h : headers) : headers :=
  match match hget "vary" h with Some v => to_str v | None => None end with
  | Some existing =>
      if existsb (fun t => eq_ignore_case (trim t) token) (split_on "," existing) then h
      else match (if String.eqb existing "" then from_str token
                  else from_str (existing ++ ", " ++ token)) with
           | Some v => hinsert "vary" v h
           | None => h
           end
  | None =>
      match from_str token with Some v => hinsert "vary" v h | None => h end
  end.

Section Cors.
Context (matches : list string -> string -> bool).

(** cors.rs:149-163 *)
Definition matches_origin (r : rule) (origin : string) : bool :=
  if existsb (fun o => String.eqb o origin) (r_origins r) then true
  else match r_pattern r with Some ps => matches ps origin | None => false end.

(** cors.rs:212-220 *)
Definition find_policy_for_origin (c : cors) (origin : string) : option compiled :=
  match c with
  | AllowAll p => Some p
  | ByOrigin rs => option_map r_policy (find (fun r => matches_origin r origin) rs)
  end.

Definition set_opt (n : string) (v : option string) (h : headers) : headers :=
  match v with Some x => hinsert n x h | None => h end.

(** A request: is its method OPTIONS, and its headers. *)
Record request := { rq_options : bool; rq_headers : headers }.

(** cors.rs:58-109 *)
Definition apply_to (p : compiled) (req : request) (origin : string) (h : headers) : headers :=
  let h := hinsert "access-control-allow-origin" origin h in
  let h := if String.eqb origin "null" then h else append_vary "Origin" h in
  let h :=
    match cp_methods p with
    | Some v => hinsert "access-control-allow-methods" v h
    | None =>
        match hget "access-control-request-method" (rq_headers req) with
        | Some m => hinsert "access-control-allow-methods" m h
        | None => h
        end
    end in
  let h :=
    match cp_allow_headers p with
    | Some v => hinsert "access-control-allow-headers" v h
    | None =>
        match hget "access-control-request-headers" (rq_headers req) with
        | Some m =>
            append_vary "Access-Control-Request-Headers"
              (hinsert "access-control-allow-headers" m h)
        | None => h
        end
    end in
  let h := set_opt "access-control-allow-credentials" (cp_credentials p) h in
  let h := set_opt "access-control-expose-headers" (cp_expose p) h in
  let h := set_opt "access-control-max-age" (cp_max_age p) h in
  if rq_options req
  then fold_left (fun h kv => hinsert (fst kv) (snd kv) h) (cp_preflight p) h
  else h.

(** cors.rs:236-250 *)
Definition set_headers (c : cors) (req : request) (h : headers) : headers :=
  match hget "origin" (rq_headers req) with
  | None => h
  | Some o =>
      let seen := match to_str o with Some s => s | None => "" end in
      match find_policy_for_origin c seen with
      | Some p => apply_to p req o h
      | None => hinsert "access-control-allow-origin" "null" h
      end
  end.

(** cors.rs:222-234: the answer to an OPTIONS request before its headers are set. *)
Definition get_early_response (req : request) : option (N * headers) :=
  if rq_options req then Some (204%N, [("content-length", "0")]) else None.

(** lib.rs:331-345 with pipeline/mod.rs:127-136: the headers of the final response,
    [handler] being what the rest of the router answers. *)
Definition respond (cfg : cors_cfg) (req : request) (handler : N * headers) : N * headers :=
  match from_config cfg with
  | None => handler
  | Some c =>
      let '(st, h) := match get_early_response req with Some r => r | None => handler end in
      (st, set_headers c req h)
  end.

End Cors.
