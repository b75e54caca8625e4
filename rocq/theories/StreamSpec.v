(** What a subscription transport should deliver, written from the wire formats. *)
From Coq Require Import String Ascii List NArith Bool.
From Verif Require Import StrUtil Utf8 StreamModel.
Import ListNotations.
Local Open Scope string_scope.
Local Open Scope bool_scope.

Definition data_of (f : frame) : string := match f with FData d => d | _ => "" end.
Definition bytes_of (frames : list frame) : string := fold_right append "" (map data_of frames).

(** Frames of a body that is read without a transport error. *)
Definition no_read_error (frames : list frame) : bool :=
  forallb (fun f => match f with FError => false | _ => true end) frames.

Definition concat_all (l : list string) : string := fold_right append "" l.

(** Text without line ends. *)
Definition one_line (s : string) : bool :=
  all_chars (fun c => negb (Ascii.eqb c LF) && negb (Ascii.eqb c CR)) s.

(** ** Server-sent events (graphql-sse "distinct connections" mode) *)
Inductive wire_event :=
| WNext (data_lines : list string)
| WComplete
| WComment (text : string).

Definition event_lines (e : wire_event) : list string :=
  match e with
  | WNext ls => "event: next" :: map (fun l => "data: " ++ l) ls
  | WComplete => ["event: complete"]
  | WComment t => [":" ++ t]
  end.

(** Both line endings are allowed. *)
Definition eol (crlf_style : bool) : string := if crlf_style then crlf else lf.

Definition encode_event (st : bool) (e : wire_event) : string :=
  concat_all (map (fun l => l ++ eol st) (event_lines e)) ++ eol st.

Definition encode_events (st : bool) (es : list wire_event) : string :=
  concat_all (map (encode_event st) es).

Definition sane_event (e : wire_event) : bool :=
  match e with
  | WNext ls =>
      forallb (fun l => one_line l && String.eqb (trim l) l && utf8_ok l) ls
      && negb (String.eqb (join lf ls) "")
  | WComplete => true
  | WComment t => one_line t && utf8_ok t
  end.

Section Deliver.
  Variable resp : Type.
  Variable deser : string -> option resp.
  Variable get_from : string -> string -> lookup.

  (** Events are delivered one by one; the stream ends at `complete` or at the first payload
      that cannot be read. *)
  Fixpoint sse_deliver (es : list wire_event) : run_result resp :=
    match es with
    | [] => ([], false)
    | WNext ls :: es' =>
        match deser (join lf ls) with
        | Some r => emit resp [inl r] (sse_deliver es')
        | None => ([inr EInvalidResponse], true)
        end
    | WComplete :: _ => ([], true)
    | WComment _ :: es' => sse_deliver es'
    end.

  (** ** multipart/mixed: header lines and body *)
  Record mpart := Part { p_headers : list string; p_body : string }.

  Definition encode_content (p : mpart) : string :=
    concat_all (map (fun l => l ++ crlf) (p_headers p)) ++ crlf ++ p_body p ++ crlf.

  (** What follows a delimiter. *)
  Fixpoint encode_tail (boundary : string) (ps : list mpart) : string :=
    match ps with
    | [] => "--" ++ crlf
    | p :: ps' => crlf ++ encode_content p ++ delimiter boundary ++ encode_tail boundary ps'
    end.

  Definition encode_multipart (boundary : string) (ps : list mpart) : string :=
    delimiter boundary ++ encode_tail boundary ps.

  (** The delimiter does not occur in the part. *)
  Definition sane_part (boundary : string) (p : mpart) : bool :=
    forallb (fun l => one_line l && negb (String.eqb l "") && utf8_ok l) (p_headers p)
    && negb (Nat.eqb (List.length (p_headers p)) 0)
    && String.eqb (trim (p_body p)) (p_body p)
    && negb (String.eqb (p_body p) "")
    && utf8_ok (p_body p)
    && match find_sub (delimiter boundary) (encode_content p) with None => true | Some _ => false end.

  (** As required by RFC 2046: the delimiter is not at the start of a line of the part. *)
  Definition rfc_part (boundary : string) (p : mpart) : bool :=
    forallb (fun l => one_line l && negb (String.eqb l "") && utf8_ok l) (p_headers p)
    && negb (Nat.eqb (List.length (p_headers p)) 0)
    && String.eqb (trim (p_body p)) (p_body p)
    && negb (String.eqb (p_body p) "")
    && utf8_ok (p_body p)
    && negb (existsb (fun l => starts_with (delimiter boundary) l)
                     (split_on LF (encode_content p))).

  Definition sane_boundary (b : string) : bool := negb (String.eqb b "") && one_line b.

  Fixpoint mp_deliver (ps : list mpart) : list (item resp) :=
    match ps with
    | [] => []
    | p :: ps' =>
        match extract_payload resp deser get_from (p_body p) with
        | inl (Some r) => inl r :: mp_deliver ps'
        | inl None => mp_deliver ps'
        | inr e => [inr e]
        end
    end.
End Deliver.

(** Chunks that end at the end of a line. *)
Fixpoint ends_line (s : string) : bool :=
  match s with
  | EmptyString => true
  | String c EmptyString => Ascii.eqb c LF
  | String _ s' => ends_line s'
  end.
