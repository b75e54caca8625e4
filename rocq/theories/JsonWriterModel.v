(** The JSON string writer.
    Models bin/router/src/executor/json_writer.rs. *)
From Coq Require Import String Ascii List NArith Arith Bool.
From Verif Require Import StrUtil.
Import ListNotations.
Local Open Scope list_scope.

Definition byte := ascii.
Definition bytes := list ascii.
Definition chr (n : N) : byte := ascii_of_N n.

(** The comparison of [escaped_mask] (json_writer.rs:440-458); the table [NEED_ESCAPED]
    (json_writer.rs:362-371) has a 1 at exactly the same bytes. *)
Definition needs_escape (c : byte) : bool :=
  (N.leb (N_of_ascii c) 31 || N.eqb (N_of_ascii c) 34 || N.eqb (N_of_ascii c) 92)%bool.

Definition hex_digit (n : N) : byte := if N.leb n 9 then chr (48 + n) else chr (87 + n).

(** [QUOTE_TAB], json_writer.rs:92-360; [[]] is the entry with length 0. *)
Definition quote_tab (c : byte) : bytes :=
  let n := N_of_ascii c in
  if N.eqb n 8 then [chr 92; chr 98]            (* \b *)
  else if N.eqb n 9 then [chr 92; chr 116]      (* \t *)
  else if N.eqb n 10 then [chr 92; chr 110]     (* \n *)
  else if N.eqb n 12 then [chr 92; chr 102]     (* \f *)
  else if N.eqb n 13 then [chr 92; chr 114]     (* \r *)
  else if N.leb n 31 then
    [chr 92; chr 117; chr 48; chr 48; hex_digit (n / 16); hex_digit (n mod 16)]   (* \u00XX *)
  else if N.eqb n 34 then [chr 92; chr 34]
  else if N.eqb n 92 then [chr 92; chr 92]
  else [].

(** Progress of the writer: the bytes between the original end of the vector and [dst_ptr],
    and the largest offset (from the same origin) any unsafe write has touched so far. *)
Record wstate := mkw { written : bytes; touched : nat }.
Definition touch (w : wstate) (n : nat) : wstate :=
  mkw (written w) (Nat.max (touched w) (length (written w) + n)).
Definition advance (w : wstate) (bs : bytes) : wstate := mkw (written w ++ bs) (touched w).

(** [escape_unchecked], json_writer.rs:377-408.  [None]: one of the two [assert!]s fails. *)
Fixpoint escape_unchecked (src : bytes) (w : wstate) : option (bytes * wstate) :=
  match src with
  | [] => None
  | c :: src' =>
      match quote_tab c with
      | [] => None
      | e => let w := advance (touch w 8) e in
             match src' with
             | [] => Some ([], w)
             | d :: _ => if needs_escape d then escape_unchecked src' w else Some (src', w)
             end
      end
  end.

(** [mask.first_offset()] when the mask is not all zero *)
Fixpoint first_offset (chunk : bytes) : option nat :=
  match chunk with
  | [] => None
  | c :: r => if needs_escape c then Some 0
              else match first_offset r with Some n => Some (S n) | None => None end
  end.

Section Lanes.
  (** [LANES], json_writer.rs:432-436: 16 or 32 *)
  Variable lanes : nat.
  (** What the vector load finds after the end of the string (json_writer.rs:505-512): bytes of
      the same page, or old contents of [temp].  Arbitrary. *)
  Variable beyond : bytes -> bytes.

  (** Tail loop, json_writer.rs:501-536.  [None]: assertion failure or fuel exhausted. *)
  Fixpoint tail_loop (fuel : nat) (src : bytes) (w : wstate) : option wstate :=
    match src with
    | [] => Some w
    | _ =>
        match fuel with
        | O => None
        | S fuel =>
            let chunk := firstn lanes (src ++ beyond src) in
            let w := touch w lanes in
            match first_offset (firstn (length src) chunk) with   (* clear_high_bits *)
            | None => Some (advance w src)
            | Some n =>
                match escape_unchecked (skipn n src) (advance w (firstn n src)) with
                | None => None
                | Some (src', w) => tail_loop fuel src' w
                end
            end
        end
    end.

  (** Main loop, json_writer.rs:471-497, falling through to the tail. *)
  Fixpoint main_loop (fuel : nat) (src : bytes) (w : wstate) : option wstate :=
    match fuel with
    | O => None
    | S fuel' =>
        if lanes <=? length src then
          let chunk := firstn lanes src in
          let w := touch w lanes in
          match first_offset chunk with
          | None => main_loop fuel' (skipn lanes src) (advance w chunk)
          | Some n =>
              match escape_unchecked (skipn n src) (advance w (firstn n src)) with
              | None => None
              | Some (src', w) => main_loop fuel' src' w
              end
          end
        else tail_loop fuel src w
    end.

  Definition quote : bytes := [chr 34].

  (** [format_string], json_writer.rs:429-550 *)
  Definition format_string (input : bytes) (need_quote : bool) : option wstate :=
    let w := if need_quote then advance (touch (mkw [] 0) 1) quote else mkw [] 0 in
    match main_loop (S (length input)) input w with
    | None => None
    | Some w => Some (if need_quote then advance (touch w 1) quote else w)
    end.

  (** [reserve], json_writer.rs:434: bytes available after the original end *)
  Definition reserved (input : bytes) : nat := length input * 6 + 32 + 3.
End Lanes.

(** The result of [write_and_escape_string] as a string; [escape_simple] is the byte-by-byte
    writer used by the rest of the models, shown equal in JsonWriterProofs. *)
Fixpoint escape (s : string) : string :=
  match s with
  | EmptyString => EmptyString
  | String c r =>
      match quote_tab c with
      | [] => String c (escape r)
      | e => (string_of_list_ascii e ++ escape r)%string
      end
  end.
Definition quoted (s : string) : string := (String (chr 34) (escape s) ++ String (chr 34) "")%string.

(** [write_named_operation], json_writer.rs:12-46.  [None]: slicing out of range (panic). *)
Fixpoint take_str (n : nat) (s : string) : string :=
  match n, s with
  | S n, String c r => String c (take_str n r)
  | _, _ => ""%string
  end.
Fixpoint drop_str (n : nat) (s : string) : string :=
  match n, s with
  | S n, String _ r => drop_str n r
  | _, _ => s
  end.
Definition write_named_operation (name : string) (pos : nat) (input : string) : option string :=
  let q := String (chr 34) "" in
  if (pos =? 0) && starts_with "{" input then
    Some (q ++ escape "query " ++ escape name ++ escape " " ++ escape input ++ q)%string
  else if Nat.ltb (String.length input) pos then None
  else
    Some (q ++ escape (take_str pos input) ++ (if Nat.ltb 0 pos then escape " " else "")
            ++ escape name ++ escape (drop_str pos input) ++ q)%string.
