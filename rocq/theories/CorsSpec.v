(** What config/cors.rs documents, stated over the configuration and header lines. *)
From Coq Require Import String Ascii List Bool NArith.
From Verif Require Import StrUtil HeadersModel HeadersSpec CacheControlModel CorsModel.
Import ListNotations.
Local Open Scope string_scope.

Section CorsSpec.
Context (matches : list string -> string -> bool).

(** An origin falls under a policy if it is listed or matched by the policy's patterns. *)
Definition covers (p : policy_cfg) (o : string) : Prop :=
  (exists l, pc_origins p = Some l /\ In o l) \/
  (exists ps, pc_match p = Some ps /\ ps <> [] /\ matches ps o = true).

(** The settings a request from [o] gets: the global ones ([None]) if every origin is
    allowed, otherwise those of the first policy covering [o]. *)
Inductive governed (c : cors_cfg) (o : string) : option policy_cfg -> Prop :=
| Gov_any : cc_any c = true -> governed c o None
| Gov_first pre p post :
    cc_any c = false ->
    cc_policies c = (pre ++ p :: post)%list ->
    (forall q, In q pre -> ~ covers q o) ->
    covers p o ->
    governed c o (Some p).

Definition admitted (c : cors_cfg) (o : string) : Prop := exists g, governed c o g.

End CorsSpec.

(** Documented inheritance: a non-empty list of the policy, else the global one. *)
Definition eff_list (f : policy_cfg -> option (list string)) (gl : option (list string))
  (g : option policy_cfg) : option (list string) :=
  match (match g with Some p => f p | None => None end) with
  | Some (x :: l) => Some (x :: l)
  | _ => match gl with Some (x :: l) => Some (x :: l) | _ => None end
  end.

Definition eff_max_age (c : cors_cfg) (g : option policy_cfg) : option N :=
  match (match g with Some p => pc_max_age p | None => None end) with
  | Some n => Some n
  | None => cc_max_age c
  end.

Definition eff_credentials (c : cors_cfg) (g : option policy_cfg) : bool :=
  match (match g with Some p => pc_credentials p | None => None end) with
  | Some b => b
  | None => cc_credentials c
  end.

(** Configured value, else the value the browser asked for, else what was there. *)
Definition or_reflect (l : option (list string)) (req before : list string)
  : list string :=
  match l with
  | Some l => [join ", " l]
  | None => match req with [] => before | v :: _ => [v] end
  end.

(** The lines of every header but [Vary] on the answer to a request that is not a
    preflight, [o] being an admitted origin and [h] the headers before CORS. *)
Definition expected (c : cors_cfg) (g : option policy_cfg) (req : request) (o : string)
  (h : headers) (n : string) : list string :=
  if String.eqb n "access-control-allow-origin" then [o]
  else if String.eqb n "access-control-allow-methods" then
    or_reflect (eff_list pc_methods (cc_methods c) g)
      (lines "access-control-request-method" (rq_headers req)) (lines n h)
  else if String.eqb n "access-control-allow-headers" then
    or_reflect (eff_list pc_allow_headers (cc_allow_headers c) g)
      (lines "access-control-request-headers" (rq_headers req)) (lines n h)
  else if String.eqb n "access-control-allow-credentials" then
    if eff_credentials c g then ["true"] else lines n h
  else if String.eqb n "access-control-expose-headers" then
    match eff_list pc_expose (cc_expose c) g with
    | Some l => [join ", " l]
    | None => lines n h
    end
  else if String.eqb n "access-control-max-age" then
    match eff_max_age c g with Some a => [N_to_dec a] | None => lines n h end
  else lines n h.

(** Names written in a configuration are printable. *)
Definition printable (s : string) : bool := all_chars visible_char s.
Definition printable_list (l : option (list string)) : Prop :=
  match l with Some l => Forall (fun s => printable s = true) l | None => True end.
Definition well_written (c : cors_cfg) : Prop :=
  printable_list (cc_methods c) /\ printable_list (cc_allow_headers c) /\
  printable_list (cc_expose c) /\
  Forall (fun p => printable_list (pc_methods p) /\ printable_list (pc_allow_headers p) /\
                   printable_list (pc_expose p)) (cc_policies c).

(** The members of the [Vary] header: comma separated, case-insensitive, over all lines. *)
Definition vary_members (h : headers) : list string :=
  filter (fun t => negb (String.eqb t ""))
    (flat_map (fun v => map (fun t => lower (trim t)) (split_on "," v)) (lines "vary" h)).

(** At most one [Vary] line, and it is printable. *)
Definition plain_vary (h : headers) : Prop :=
  lines "vary" h = [] \/ exists v, lines "vary" h = [v] /\ printable v = true.

(** The value a list of preflight headers gives a name: the last one. *)
Definition last_line (n : string) (h : headers) : option string :=
  match rev (lines n h) with [] => None | v :: _ => Some v end.

(** No policy switches off credentials that are on globally. *)
Definition no_credential_override (c : cors_cfg) (g : option policy_cfg) : Prop :=
  match g with Some p => pc_credentials p <> Some false \/ cc_credentials c = false | None => True end.

(** The value an operator wants on preflight answers for a name. *)
Definition eff_preflight (cfg : cors_cfg) (g : option policy_cfg) (n : string) : option string :=
  match (match g with Some p => last_line n (pc_preflight p) | None => None end) with
  | Some v => Some v
  | None => last_line n (cc_preflight cfg)
  end.

(** The browser asked for headers and the answer repeats what it asked. *)
Definition asks_reflected (c : cors_cfg) (g : option policy_cfg) (req : request) : Prop :=
  eff_list pc_allow_headers (cc_allow_headers c) g = None /\
  lines "access-control-request-headers" (rq_headers req) <> [].
