(** A JSON reader (RFC 8259), used as the independent specification of what a byte string
    written by the router means.  Nothing here models router code. *)
From Coq Require Import String Ascii List NArith Bool.
Import ListNotations.
Local Open Scope string_scope.

Inductive jval :=
| JNull
| JBool (b : bool)
| JNum (text : string)
| JStr (s : string)
| JArr (l : list jval)
| JObj (o : list (string * jval)).

Definition code (c : ascii) : N := N_of_ascii c.
Definition is_jws (c : ascii) : bool :=
  (N.eqb (code c) 32 || N.eqb (code c) 9 || N.eqb (code c) 10 || N.eqb (code c) 13)%bool.
Fixpoint skip_ws (s : string) : string :=
  match s with
  | String c r => if is_jws c then skip_ws r else s
  | EmptyString => EmptyString
  end.

(** ** Strings *)
Definition hex_val (c : ascii) : option N :=
  let n := code c in
  if (N.leb 48 n && N.leb n 57)%bool then Some (n - 48)%N
  else if (N.leb 97 n && N.leb n 102)%bool then Some (n - 87)%N
  else if (N.leb 65 n && N.leb n 70)%bool then Some (n - 55)%N
  else None.

Definition hex4 (a b c d : ascii) : option N :=
  match hex_val a, hex_val b, hex_val c, hex_val d with
  | Some a, Some b, Some c, Some d => Some (((a * 16 + b) * 16 + c) * 16 + d)%N
  | _, _, _, _ => None
  end.

(** UTF-8 encoding of a code point *)
Definition utf8 (n : N) : string :=
  let ch k := ascii_of_N k in
  if N.ltb n 128 then String (ch n) ""
  else if N.ltb n 2048 then String (ch (192 + n / 64)%N) (String (ch (128 + n mod 64)%N) "")
  else if N.ltb n 65536 then
    String (ch (224 + n / 4096)%N) (String (ch (128 + n / 64 mod 64)%N) (String (ch (128 + n mod 64)%N) ""))
  else String (ch (240 + n / 262144)%N) (String (ch (128 + n / 4096 mod 64)%N)
         (String (ch (128 + n / 64 mod 64)%N) (String (ch (128 + n mod 64)%N) ""))).

Definition push (p : string) (r : option (string * string)) : option (string * string) :=
  match r with Some (a, b) => Some (p ++ a, b) | None => None end.

(** Reads the inside of a string up to its closing quote. *)
Fixpoint read_string (s : string) : option (string * string) :=
  match s with
  | EmptyString => None
  | String c r =>
      if N.eqb (code c) 34 then Some ("", r)
      else if N.leb (code c) 31 then None
      else if N.eqb (code c) 92 then
        match r with
        | EmptyString => None
        | String e r =>
            let n := code e in
            if N.eqb n 34 then push (String e "") (read_string r)
            else if N.eqb n 92 then push (String e "") (read_string r)
            else if N.eqb n 47 then push (String e "") (read_string r)
            else if N.eqb n 98 then push (String (ascii_of_N 8) "") (read_string r)
            else if N.eqb n 102 then push (String (ascii_of_N 12) "") (read_string r)
            else if N.eqb n 110 then push (String (ascii_of_N 10) "") (read_string r)
            else if N.eqb n 114 then push (String (ascii_of_N 13) "") (read_string r)
            else if N.eqb n 116 then push (String (ascii_of_N 9) "") (read_string r)
            else if N.eqb n 117 then
              match r with
              | String a (String b (String c (String d r))) =>
                  match hex4 a b c d with
                  | None => None
                  | Some u =>
                      if (N.leb 55296 u && N.ltb u 56320)%bool then   (* high surrogate *)
                        match r with
                        | String x (String y (String a (String b (String c (String d r))))) =>
                            if (N.eqb (code x) 92 && N.eqb (code y) 117)%bool then
                              match hex4 a b c d with
                              | Some v =>
                                  if (N.leb 56320 v && N.ltb v 57344)%bool then
                                    push (utf8 (65536 + (u - 55296) * 1024 + (v - 56320))%N) (read_string r)
                                  else None
                              | None => None
                              end
                            else None
                        | _ => None
                        end
                      else if (N.leb 56320 u && N.ltb u 57344)%bool then None
                      else push (utf8 u) (read_string r)
                  end
              | _ => None
              end
            else None
        end
      else push (String c "") (read_string r)
  end.

(** ** Numbers *)
Definition is_dig (c : ascii) : bool := (N.leb 48 (code c) && N.leb (code c) 57)%bool.
Fixpoint digits (s : string) : string * string :=
  match s with
  | String c r => if is_dig c then let '(a, b) := digits r in (String c a, b) else ("", s)
  | EmptyString => ("", "")
  end.
Definition sign_opt (s : string) : string * string :=
  match s with
  | String c r => if (N.eqb (code c) 43 || N.eqb (code c) 45)%bool then (String c "", r) else ("", s)
  | EmptyString => ("", "")
  end.
Definition nonempty (s : string) : bool := match s with EmptyString => false | _ => true end.
Definition read_int (s : string) : option (string * string) :=
  let '(d, r) := digits s in
  match d with
  | EmptyString => None
  | String c (String _ _) => if N.eqb (code c) 48 then None else Some (d, r)   (* no leading zero *)
  | _ => Some (d, r)
  end.
Definition read_frac (s : string) : option (string * string) :=
  match s with
  | String c r =>
      if N.eqb (code c) 46 then
        let '(d, r) := digits r in if nonempty d then Some (String c d, r) else None
      else Some ("", s)
  | EmptyString => Some ("", "")
  end.
Definition read_exp (s : string) : option (string * string) :=
  match s with
  | String c r =>
      if (N.eqb (code c) 101 || N.eqb (code c) 69)%bool then
        let '(g, r) := sign_opt r in
        let '(d, r) := digits r in if nonempty d then Some (String c (g ++ d), r) else None
      else Some ("", s)
  | EmptyString => Some ("", "")
  end.
Definition read_number (s : string) : option (string * string) :=
  let '(m, s) := match s with
                 | String c r => if N.eqb (code c) 45 then (String c "", r) else ("", s)
                 | EmptyString => ("", s)
                 end in
  match read_int s with
  | None => None
  | Some (i, s) =>
      match read_frac s with
      | None => None
      | Some (f, s) =>
          match read_exp s with
          | None => None
          | Some (e, s) => Some (m ++ i ++ f ++ e, s)
          end
      end
  end.

Fixpoint strip (p s : string) : option string :=
  match p, s with
  | EmptyString, _ => Some s
  | String a p, String b s => if Ascii.eqb a b then strip p s else None
  | _, _ => None
  end.

(** ** Values.  [fuel] bounds nesting and length; running out is a failure. *)
Section Lists.
  Variable read_value : string -> option (jval * string).
  Fixpoint read_items (fuel : nat) (s : string) : option (list jval * string) :=
    match fuel with
    | O => None
    | S fuel =>
        match read_value s with
        | None => None
        | Some (v, s) =>
            match skip_ws s with
            | String c r =>
                if N.eqb (code c) 93 then Some ([v], r)
                else if N.eqb (code c) 44 then
                  match read_items fuel r with Some (l, s) => Some (v :: l, s) | None => None end
                else None
            | EmptyString => None
            end
        end
    end.
  Fixpoint read_members (fuel : nat) (s : string) : option (list (string * jval) * string) :=
    match fuel with
    | O => None
    | S fuel =>
        match skip_ws s with
        | String q s =>
            if N.eqb (code q) 34 then
              match read_string s with
              | None => None
              | Some (k, s) =>
                  match skip_ws s with
                  | String c s =>
                      if N.eqb (code c) 58 then
                        match read_value s with
                        | None => None
                        | Some (v, s) =>
                            match skip_ws s with
                            | String c r =>
                                if N.eqb (code c) 125 then Some ([(k, v)], r)
                                else if N.eqb (code c) 44 then
                                  match read_members fuel r with
                                  | Some (l, s) => Some ((k, v) :: l, s)
                                  | None => None
                                  end
                                else None
                            | EmptyString => None
                            end
                        end
                      else None
                  | EmptyString => None
                  end
              end
            else None
        | EmptyString => None
        end
    end.
End Lists.

Fixpoint read_value (fuel : nat) (s : string) : option (jval * string) :=
  match fuel with
  | O => None
  | S fuel =>
      match skip_ws s with
      | EmptyString => None
      | String c r =>
          let n := code c in
          if N.eqb n 123 then
            match skip_ws r with
            | String d r' => if N.eqb (code d) 125 then Some (JObj [], r')
                             else match read_members (read_value fuel) fuel r with
                                  | Some (o, s) => Some (JObj o, s)
                                  | None => None
                                  end
            | EmptyString => None
            end
          else if N.eqb n 91 then
            match skip_ws r with
            | String d r' => if N.eqb (code d) 93 then Some (JArr [], r')
                             else match read_items (read_value fuel) fuel r with
                                  | Some (l, s) => Some (JArr l, s)
                                  | None => None
                                  end
            | EmptyString => None
            end
          else if N.eqb n 34 then
            match read_string r with Some (k, s) => Some (JStr k, s) | None => None end
          else if N.eqb n 110 then
            match strip "ull" r with Some s => Some (JNull, s) | None => None end
          else if N.eqb n 116 then
            match strip "rue" r with Some s => Some (JBool true, s) | None => None end
          else if N.eqb n 102 then
            match strip "alse" r with Some s => Some (JBool false, s) | None => None end
          else match read_number (String c r) with
               | Some (t, s) => Some (JNum t, s)
               | None => None
               end
      end
  end.

(** A complete JSON document. *)
Definition decode (s : string) : option jval :=
  match read_value (S (String.length s)) s with
  | Some (v, r) => if nonempty (skip_ws r) then None else Some v
  | None => None
  end.

(** What may follow a value inside a document. *)
Definition delimited (s : string) : Prop :=
  match s with
  | EmptyString => True
  | String c _ => (code c = 44 \/ code c = 93 \/ code c = 125)%N
  end.

(** [s] is the text of [v], also when followed by more of a document. *)
Definition text_of (s : string) (v : jval) : Prop :=
  s <> "" /\
  forall rest fuel, delimited rest -> (String.length s <= fuel)%nat ->
    read_value (S fuel) (s ++ rest) = Some (v, rest).
