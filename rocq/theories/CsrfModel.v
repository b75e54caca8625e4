(** CSRF prevention: /repo/bin/router/src/pipeline/csrf_prevention.rs and
    /repo/bin/router/src/config/csrf.rs. *)
From Coq Require Import String Ascii List Bool.
From Verif Require Import StrUtil HeadersModel CacheControlModel.
Import ListNotations.
Local Open Scope string_scope.

(** config/csrf.rs:10-37; header names are kept in lower case, as in a header map. *)
Record csrf_cfg := { cs_enabled : bool; cs_required : list string }.

(** csrf_prevention.rs:12-16 *)
Definition non_preflighted : list string :=
  ["application/x-www-form-urlencoded"; "multipart/form-data"; "text/plain"].

(** [str::starts_with] *)
Fixpoint starts_with (p s : string) : bool :=
  match p, s with
  | EmptyString, _ => true
  | String a p', String b s' => Ascii.eqb a b && starts_with p' s'
  | String _ _, EmptyString => false
  end.

(** csrf_prevention.rs:52-57 *)
Definition is_simple_content_type (ct : string) : bool :=
  existsb (fun t => starts_with t (lower ct)) non_preflighted.

(** csrf_prevention.rs:61-66 *)
Definition request_requires_preflight (h : headers) : bool :=
  match match hget "content-type" h with Some v => to_str v | None => None end with
  | Some ct => negb (is_simple_content_type ct)
  | None => false
  end.

(** [HeaderMap::contains_key] *)
Definition contains_key (h : headers) (n : string) : bool :=
  match hget n h with Some _ => true | None => false end.

(** csrf_prevention.rs:19-48: [true] is [Ok], [false] is [CsrfPreventionFailed]. *)
Definition perform_csrf_prevention (c : csrf_cfg) (h : headers) : bool :=
  if negb (cs_enabled c) || match cs_required c with [] => true | _ => false end then true
  else if request_requires_preflight h then true
  else existsb (contains_key h) (cs_required c).
