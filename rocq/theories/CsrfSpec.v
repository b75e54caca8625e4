(** What config/csrf.rs documents, and the Fetch standard's notion of a simple request. *)
From Coq Require Import String Ascii List Bool.
From Verif Require Import StrUtil HeadersModel HeadersSpec CacheControlModel CsrfModel.
Import ListNotations.
Local Open Scope string_scope.

(** The essence of a MIME type: up to the parameters, trimmed, in lower case. *)
Definition essence (v : string) : string :=
  match split_on ";" v with t :: _ => lower (trim t) | [] => "" end.

Definition simple_essences : list string :=
  ["text/plain"; "application/x-www-form-urlencoded"; "multipart/form-data"].

(** A request with a content type a browser sends cross-site only after a preflight. *)
Definition preflighted_type (h : headers) : Prop :=
  exists v, hd_error (lines "content-type" h) = Some v /\ ~ In (essence v) simple_essences.

Definition has_required (required : list string) (h : headers) : Prop :=
  exists n v, In n required /\ In v (lines n h).

(** The value of a parsed header line has no leading white space. *)
Definition trimmed_values (h : headers) : Prop :=
  forall v, In v (lines "content-type" h) -> trim_start v = v.

(** The type is printable and does not merely begin like a simple one. *)
Definition ordinary_type (h : headers) : Prop :=
  forall v, hd_error (lines "content-type" h) = Some v ->
    all_chars visible_char v = true /\
    ~ (exists s r, In s simple_essences /\ r <> "" /\ essence v = s ++ r).
