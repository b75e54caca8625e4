(** Subscription transports: how the bytes of a subgraph's streaming response body are cut
    into events.

    Sources:
    - bin/router/src/executor/executors/sse.rs
    - bin/router/src/executor/executors/multipart_subscribe.rs

    Bytes are [string]s.  A response body is a list of frames (hyper's [Body::frame]): data
    chunks, trailers (ignored), a read error, or the end of the list for the end of the
    body.  [SubgraphResponse::deserialize_from_bytes] and
    [sonic_rs::get_from_str] are oracles. *)
From Coq Require Import String Ascii List NArith Bool.
From Verif Require Import StrUtil Utf8.
Import ListNotations.
Local Open Scope string_scope.
Local Open Scope bool_scope.

Definition LF : ascii := "010".
Definition CR : ascii := "013".
Definition lf : string := String LF EmptyString.
Definition crlf : string := String CR (String LF EmptyString).

(** [slice.drain(..n)]: what is removed and what stays. *)
Fixpoint take (n : nat) (s : string) : string :=
  match n, s with
  | S n', String c s' => String c (take n' s')
  | _, _ => EmptyString
  end.

Fixpoint drop (n : nat) (s : string) : string :=
  match n, s with
  | S n', String _ s' => drop n' s'
  | _, _ => s
  end.

(** [haystack.windows(needle.len()).position(|w| w == needle)], [str::find(&str)]. *)
Fixpoint find_sub (needle s : string) : option nat :=
  if starts_with needle s then Some 0
  else match s with
       | EmptyString => None
       | String _ s' => option_map S (find_sub needle s')
       end.

(** [iter().position(|&b| b == c)], [str::find(char)]. *)
Fixpoint find_char (c : ascii) (s : string) : option nat :=
  match s with
  | EmptyString => None
  | String d s' => if Ascii.eqb c d then Some 0 else option_map S (find_char c s')
  end.

Inductive frame :=
| FData (d : string)
| FTrailers
| FError.

(** [str::lines]: pieces ending with a line feed; the line feed and one carriage return
    before it are removed; a last piece without line feed is kept as it is unless empty. *)
Definition strip_cr (l : string) : string :=
  (fix go (s : string) : string :=
     match s with
     | EmptyString => EmptyString
     | String c EmptyString => if Ascii.eqb c CR then EmptyString else s
     | String c s' => String c (go s')
     end) l.

Fixpoint lines_aux (cur : string) (s : string) : list string :=
  match s with
  | EmptyString => match cur with EmptyString => [] | _ => [cur] end
  | String c s' =>
      if Ascii.eqb c LF then strip_cr cur :: lines_aux EmptyString s'
      else lines_aux (cur ++ String c EmptyString) s'
  end.

Definition lines (s : string) : list string := lines_aux EmptyString s.

Section Transport.
  Variable resp : Type.
  (** [SubgraphResponse::deserialize_from_bytes] *)
  Variable deser : string -> option resp.
  (** buffer limit; 10 MiB in both files (sse.rs:13, multipart_subscribe.rs:15) *)
  Variable limit : N.

  Inductive stream_error :=
  | EInvalidUtf8 | EStreamRead | EInvalidResponse | EBufferLimit
  | EFuel (* model artefact, proved unreachable *).

  Definition item : Type := (resp + stream_error)%type.

  (** What the consumer of the stream sees: the items, and whether the stream ended by
      itself ([true]) or only because the body ended ([false]). *)
  Definition run_result : Type := (list item * bool)%type.

  Definition emit (o : list item) (r : run_result) : run_result := (o ++ fst r, snd r)%list.

  (** ** Server-sent events *)

  (** [find_sse_event_boundary], sse.rs:104-121. *)
  Fixpoint find_sse_event_boundary (s : string) : option nat :=
    match s with
    | String a t =>
        match t with
        | String b u =>
            if Ascii.eqb a CR && Ascii.eqb b LF && starts_with crlf u then Some 4
            else if Ascii.eqb a LF && Ascii.eqb b LF then Some 2
            else option_map S (find_sse_event_boundary t)
        | EmptyString => None
        end
    | EmptyString => None
    end.

  (** [SubgraphSseEvent], sse.rs:97-101. *)
  Record sse_event := Event { ev_name : option string; ev_data : string }.

  Definition finish_event (ev : option string) (ds : list string) : option sse_event :=
    match ev, ds with
    | None, [] => None
    | _, _ => Some (Event ev (join lf ds))
    end.

  (** The line loop of [parse], sse.rs:128-172. *)
  Fixpoint parse_lines (ev : option string) (ds : list string) (ls : list string)
    : option sse_event :=
    match ls with
    | [] => finish_event ev ds
    | EmptyString :: ls' =>
        match finish_event ev ds with
        | Some e => Some e
        | None => parse_lines ev ds ls'
        end
    | l :: ls' =>
        if starts_with ":" l then parse_lines ev ds ls'
        else match split_once ":" l with
             | None => parse_lines ev ds ls'
             | Some (field, value) =>
                 let value := trim value in
                 if String.eqb field "event" then parse_lines (Some value) ds ls'
                 else if String.eqb field "data" then parse_lines ev (ds ++ [value]) ls'
                 else parse_lines ev ds ls'
             end
    end.

  (** [parse], sse.rs:125-180. *)
  Definition sse_parse (raw : string) : option sse_event + stream_error :=
    if utf8_ok raw then inl (parse_lines None [] (lines raw)) else inr EInvalidUtf8.

  (** One iteration of the inner loop, sse.rs:40-73: items produced and whether to return. *)
  Definition sse_handle (raw : string) : list item * bool :=
    match sse_parse raw with
    | inr e => ([inr e], true)
    | inl None => ([], false)
    | inl (Some e) =>
        match ev_name e with
        | Some n =>
            if String.eqb n "next" && negb (String.eqb (ev_data e) "") then
              match deser (ev_data e) with
              | Some r => ([inl r], false)
              | None => ([inr EInvalidResponse], true)
              end
            else if String.eqb n "complete" then ([], true)
            else ([], false)
        | None => ([], false)
        end
    end.

  (** ** Both transports have the same outer loop: cut what can be cut from the buffer,
      then wait for a frame (sse.rs:38-93, multipart_subscribe.rs:91-137). *)
  Section Machine.
    Variable state : Type.
    (** Cut once: new state, remaining buffer, items, finished. *)
    Variable cut : state -> string -> option (state * string * list item * bool).

    (** [while let Some(..) = find(&buffer) { .. }]: [inl] = wait for more, [inr] = return. *)
    Fixpoint drain_loop (fuel : nat) (st : state) (buf : string)
      : list item * option (state * string) :=
      match cut st buf with
      | None => ([], Some (st, buf))
      | Some (st', rest, items, fin) =>
          match fuel with
          | O => ([inr EFuel], None)
          | S f =>
              if fin then (items, None)
              else let r := drain_loop f st' rest in ((items ++ fst r)%list, snd r)
          end
      end.

    (** Every cut removes at least one byte, so the buffer length bounds the loop. *)
    Definition drain (st : state) (buf : string) := drain_loop (String.length buf) st buf.

    Fixpoint run (st : state) (buf : string) (frames : list frame) : run_result :=
      let d := drain st buf in
      match snd d with
      | None => (fst d, true)
      | Some (st', rest) =>
          emit (fst d)
            match frames with
            | [] => ([], false)
            | FData x :: fr =>
                let b := rest ++ x in
                if (limit <? N.of_nat (String.length b))%N then ([inr EBufferLimit], true)
                else run st' b fr
            | FTrailers :: fr => run st' rest fr
            | FError :: _ => ([inr EStreamRead], true)
            end
      end.
  End Machine.

  (** [parse_to_stream], sse.rs:27-95. *)
  Definition sse_cut (st : unit) (buf : string) : option (unit * string * list item * bool) :=
    match find_sse_event_boundary buf with
    | None => None
    | Some n => let h := sse_handle (take n buf) in Some (tt, drop n buf, fst h, snd h)
    end.

  Definition sse_run (frames : list frame) : run_result := run unit sse_cut tt "" frames.

  (** ** multipart/mixed *)

  (** [sonic_rs::get_from_str(body, &[key])]. *)
  Inductive lookup := LFound (raw : string) | LMissing | LInvalid.
  Variable get_from : string -> string -> lookup.

  Section Boundary.
    Variable boundary : string.
    Definition delimiter : string := "--" ++ boundary.
    Definition end_marker : string := "--" ++ boundary ++ "--".

    (** [find_next_part], multipart_subscribe.rs:143-185.  Result: end of the part, bytes to
        skip after it, whether this was the end marker. *)
    Definition find_next_part (buf : string) (started : bool) : option (nat * nat * bool) :=
      match find_sub delimiter buf with
      | None => None
      | Some pos =>
          if negb started then
            let after := pos + String.length delimiter in
            match find_char LF (drop after buf) with
            | None => None
            | Some nl => Some (0, after + nl + 1, false)
            end
          else
            let is_end := starts_with end_marker (drop pos buf) in
            let marker := if is_end then end_marker else delimiter in
            let after := pos + String.length marker in
            let skip := match find_char LF (drop after buf) with
                        | Some nl => String.length marker + nl + 1
                        | None => String.length marker
                        end in
            Some (pos, skip, is_end)
      end.

    (** [extract_body_after_headers], multipart_subscribe.rs:201-209. *)
    Definition extract_body (content : string) : string :=
      match find_sub (crlf ++ crlf) content with
      | Some p => trim (drop (p + 4) content)
      | None =>
          match find_sub (lf ++ lf) content with
          | Some p => trim (drop (p + 2) content)
          | None => trim content
          end
      end.

    (** [extract_payload], multipart_subscribe.rs:211-263. *)
    Definition extract_payload (body : string) : option resp + stream_error :=
      let parse (s : string) :=
        match deser s with Some r => inl (Some r) | None => inr EInvalidResponse end in
      if String.eqb body "{}" then inl None
      else match get_from body "payload" with
           | LFound raw =>
               if String.eqb raw "null" then
                 match get_from body "errors" with
                 | LFound e => parse ("{""errors"":" ++ e ++ "}")
                 | _ => inl None
                 end
               else parse raw
           | LMissing => parse body
           | LInvalid => inr EInvalidResponse
           end.

    (** [parse_part], multipart_subscribe.rs:187-199. *)
    Definition parse_part (raw : string) : option resp + stream_error :=
      if utf8_ok raw then
        let body := extract_body raw in
        if String.eqb body "" then inl None else extract_payload body
      else inr EInvalidUtf8.

    (** One iteration of the inner loop, multipart_subscribe.rs:92-118. *)
    Definition mp_cut (started : bool) (buf : string) : option (bool * string * list item * bool) :=
      match find_next_part buf started with
      | None => None
      | Some (part_end, skip_len, is_end) =>
          if negb started then Some (true, drop skip_len buf, [], false)
          else
            let part := take part_end buf in
            let rest := drop skip_len (drop part_end buf) in
            let h := if String.eqb part "" then ([], false)
                     else match parse_part part with
                          | inl (Some r) => ([inl r], false)
                          | inl None => ([], false)
                          | inr e => ([inr e], true)
                          end in
            Some (true, rest, fst h, snd h || is_end)
      end.

    (** [parse_to_stream], multipart_subscribe.rs:76-140. *)
    Definition mp_run (frames : list frame) : run_result := run bool mp_cut false "" frames.
  End Boundary.
End Transport.

(** [parse_boundary_from_header], multipart_subscribe.rs:41-74, on ASCII header values
    ([HeaderValue::to_str] only yields visible ASCII). *)
Inductive boundary_error := MissingBoundary | UnclosedQuote | EmptyBoundary.

Fixpoint take_while (p : ascii -> bool) (s : string) : string :=
  match s with
  | EmptyString => EmptyString
  | String c s' => if p c then String c (take_while p s') else EmptyString
  end.

Definition parse_boundary (content_type : string) : string + boundary_error :=
  let ct := trim content_type in
  match find_sub "boundary=" (lower ct) with
  | None => inr MissingBoundary
  | Some p =>
      let remaining := drop (p + 9) ct in
      let b :=
        match remaining with
        | String """" inside =>
            match find_char """" inside with
            | None => inr UnclosedQuote
            | Some e => inl (take e inside)
            end
        | _ => inl (take_while (fun c => negb (Ascii.eqb c ";" || is_ws c)) remaining)
        end in
      match b with
      | inr e => inr e
      | inl EmptyString => inr EmptyBoundary
      | inl s => inl s
      end
  end.
