(** C28 (chunking of streaming bodies) and C43 (multipart framing). *)
From Coq Require Import String Ascii List NArith Bool.
From Verif Require Import StrUtil Utf8 StreamModel StreamSpec StreamProofs.
Import ListNotations.
Local Open Scope string_scope.

(** Server-sent events: two ways of chunking the same bytes give the same events and end the
    stream in the same way, unless the buffer limit is exceeded. *)
Theorem C28_sse_chunking_is_invisible :
  forall (resp : Type) (deser : string -> option resp) (limit : N) (f1 f2 : list frame),
    no_read_error f1 = true -> no_read_error f2 = true -> bytes_of f1 = bytes_of f2 ->
    ~ In (inr EBufferLimit) (fst (sse_run resp deser limit f1)) ->
    ~ In (inr EBufferLimit) (fst (sse_run resp deser limit f2)) ->
    sse_run resp deser limit f1 = sse_run resp deser limit f2.
Proof. exact sse_chunking. Qed.
Print Assumptions C28_sse_chunking_is_invisible.

(** With the limit: what was delivered before it is a prefix of what the bytes contain. *)
Theorem C28_sse_limit_only_truncates :
  forall (resp : Type) (deser : string -> option resp) (limit : N) (frames : list frame),
    no_read_error frames = true ->
    sse_run resp deser limit frames = sse_whole resp deser (bytes_of frames) \/
    exists pre post,
      sse_run resp deser limit frames = ((pre ++ [inr EBufferLimit])%list, true) /\
      fst (sse_whole resp deser (bytes_of frames)) = (pre ++ post)%list.
Proof. exact sse_reference. Qed.
Print Assumptions C28_sse_limit_only_truncates.

(** Every event a subgraph frames (either line ending) is delivered, in order, whatever the
    chunks. *)
Theorem C28_sse_events_are_delivered :
  forall (resp : Type) (deser : string -> option resp) (limit : N) (crlf_style : bool)
         (es : list wire_event) (frames : list frame),
    forallb sane_event es = true -> no_read_error frames = true ->
    bytes_of frames = encode_events crlf_style es ->
    ~ In (inr EBufferLimit) (fst (sse_run resp deser limit frames)) ->
    sse_run resp deser limit frames = sse_deliver resp deser es.
Proof. exact sse_delivers. Qed.
Print Assumptions C28_sse_events_are_delivered.

Example C28_sse_example :
  let deser := fun s => Some s in
  sse_run string deser 1000
    [FData ("event: next" ++ lf ++ "data: {}"); FData lf; FTrailers; FData (lf ++ "event: complete" ++ crlf);
     FData (String CR ""); FData lf]
  = ([inl "{}"], true) /\
  sse_run string deser 1000
    [FData ("event: next" ++ lf ++ "data: {}"); FData lf; FTrailers; FData (lf ++ "event: complete" ++ lf);
     FData (":" ++ lf)]
  = ([inl "{}"], false) /\
  bytes_of [FData ("event: next" ++ crlf); FData ("data: {}" ++ crlf ++ crlf)]
  = encode_events true [WNext ["{}"]] /\ sane_event (WNext ["{}"]) = true.
Proof. vm_compute. repeat split; reflexivity. Qed.

(** A read error ends the stream after everything delivered before it, for both transports. *)
Theorem C28_read_error_is_reported_last :
  forall resp limit state cut frames st buf more,
    run resp limit state cut st buf (frames ++ FError :: more) =
    let r := run resp limit state cut st buf frames in
    if snd r then r else emit resp (fst r) ([inr EStreamRead], true).
Proof. exact run_read_error. Qed.
Print Assumptions C28_read_error_is_reported_last.

(** multipart/mixed, any bytes: chunk boundaries do not matter if they are line ends. *)
Theorem C28_multipart_line_chunks_partial :
  forall (resp : Type) (deser : string -> option resp) (get_from : string -> string -> lookup)
         (limit : N) (boundary : string), sane_boundary boundary = true ->
  forall f1 f2 : list frame,
    no_read_error f1 = true -> no_read_error f2 = true -> bytes_of f1 = bytes_of f2 ->
    line_chunks f1 = true -> line_chunks f2 = true ->
    ~ In (inr EBufferLimit) (fst (mp_run resp deser limit get_from boundary f1)) ->
    ~ In (inr EBufferLimit) (fst (mp_run resp deser limit get_from boundary f2)) ->
    mp_run resp deser limit get_from boundary f1 = mp_run resp deser limit get_from boundary f2.
Proof. exact mp_chunking. Qed.
Print Assumptions C28_multipart_line_chunks_partial.

(** multipart/mixed, well-formed streams: every part is delivered, in order, whatever the
    chunks. *)
Theorem C28_multipart_parts_are_delivered_partial :
  forall (resp : Type) (deser : string -> option resp) (get_from : string -> string -> lookup)
         (limit : N) (boundary : string), sane_boundary boundary = true ->
  forall (ps : list mpart) (frames : list frame),
    forallb (sane_part boundary) ps = true -> no_read_error frames = true ->
    bytes_of frames = encode_multipart boundary ps ->
    ~ In (inr EBufferLimit) (fst (mp_run resp deser limit get_from boundary frames)) ->
    fst (mp_run resp deser limit get_from boundary frames) = mp_deliver resp deser get_from ps.
Proof. exact mp_delivers. Qed.
Print Assumptions C28_multipart_parts_are_delivered_partial.

Example C28_multipart_example :
  let p := Part ["content-type: application/json"] "{1}" in
  sane_boundary "graphql" = true /\ sane_part "graphql" p = true /\
  mp_run string Some 1000 (fun _ _ => LMissing) "graphql"
    [FData "--gra"; FData ("phql" ++ String CR ""); FData (lf ++ "content-type: application/json" ++ crlf);
     FData (crlf ++ "{1}" ++ String CR ""); FData (lf ++ "--graphql"); FData ("--" ++ crlf)]
  = ([inl "{1}"], false) /\
  mp_deliver string Some (fun _ _ => LMissing) [p] = [inl "{1}"].
Proof. vm_compute. repeat split; reflexivity. Qed.

(** Finding: the end marker is only recognised if it arrives in one chunk with the
    delimiter.  When a chunk ends between [--boundary] and [--], the subscription does not end
    until the subgraph closes the connection, and text after the end is read as parts. *)
Theorem C28_multipart_end_marker_split_refuted :
  exists (deser : string -> option string) (get_from : string -> string -> lookup) (b : string)
         (f1 f2 g1 g2 : list frame) (limit : N),
    sane_boundary b = true /\
    bytes_of f1 = bytes_of f2 /\ no_read_error f1 = true /\ no_read_error f2 = true /\
    mp_run string deser limit get_from b f1 = ([inl "{1}"], true) /\
    mp_run string deser limit get_from b f2 = ([inl "{1}"], false) /\
    bytes_of g1 = bytes_of g2 /\ no_read_error g1 = true /\ no_read_error g2 = true /\
    fst (mp_run string deser limit get_from b g1) <> fst (mp_run string deser limit get_from b g2).
Proof.
  exists Some, (fun _ _ => LMissing), "b",
    [FData ("--b" ++ crlf ++ "{1}" ++ crlf ++ "--b--" ++ crlf)],
    [FData ("--b" ++ crlf ++ "{1}" ++ crlf ++ "--b"); FData ("--" ++ crlf)],
    [FData ("--b" ++ crlf ++ "{1}" ++ crlf ++ "--b--" ++ crlf ++ "--b")],
    [FData ("--b" ++ crlf ++ "{1}" ++ crlf ++ "--b"); FData ("--" ++ crlf ++ "--b")], 1000%N.
  vm_compute. repeat split; try reflexivity. discriminate.
Qed.
Print Assumptions C28_multipart_end_marker_split_refuted.

(** ** C43 *)

(** A boundary announced in the Content-Type header is the one used. *)
Theorem C43_announced_boundary_is_used :
  forall b : string, b <> "" -> all_chars (fun c => negb (Ascii.eqb c """")) b = true ->
    parse_boundary ("multipart/mixed; boundary=""" ++ b ++ """") = inl b.
Proof. exact parse_boundary_quoted. Qed.
Print Assumptions C43_announced_boundary_is_used.

(** Parts whose text does not contain the delimiter are delivered with their whole body. *)
Theorem C43_parts_are_delivered_whole_partial :
  forall (resp : Type) (deser : string -> option resp) (get_from : string -> string -> lookup)
         (limit : N) (boundary : string), sane_boundary boundary = true ->
  forall (ps : list mpart) (frames : list frame),
    forallb (sane_part boundary) ps = true -> no_read_error frames = true ->
    bytes_of frames = encode_multipart boundary ps ->
    ~ In (inr EBufferLimit) (fst (mp_run resp deser limit get_from boundary frames)) ->
    fst (mp_run resp deser limit get_from boundary frames) = mp_deliver resp deser get_from ps.
Proof. exact mp_delivers. Qed.
Print Assumptions C43_parts_are_delivered_whole_partial.

(** Finding: the delimiter is searched anywhere, not only at the start of a line.  A JSON
    string containing it (for the common boundary [-], three dashes) cuts the part in two. *)
Theorem C43_delimiter_inside_a_line_refuted :
  exists (deser : string -> option string) (get_from : string -> string -> lookup)
         (boundary : string) (p : mpart) (limit : N),
    sane_boundary boundary = true /\ rfc_part boundary p = true /\
    mp_deliver string deser get_from [p] = [inl (p_body p)] /\
    mp_run string deser limit get_from boundary [FData (encode_multipart boundary [p])]
      = ([inr EInvalidResponse], true).
Proof.
  exists (fun s => if String.eqb s "{""a"":""x---y""}" then Some s else None), (fun _ _ => LMissing), "-",
    (Part ["content-type: application/json"] "{""a"":""x---y""}"), 1000%N.
  vm_compute. repeat split; reflexivity.
Qed.
Print Assumptions C43_delimiter_inside_a_line_refuted.
