(** Reading a GraphQL document: lib/graphql-tools/src/parser/{tokenizer,helpers,common}.rs and
    query/grammar.rs.  Text is a byte string holding UTF-8.  Positions and error messages are left out. *)
From Coq Require Import String Ascii List NArith ZArith Bool Arith DecimalString.
From Verif Require Import StrUtil Ast CondModel NormModel JsonWriterModel.
Import ListNotations.
Local Open Scope string_scope.
Local Open Scope list_scope.

(** tokenizer.rs:10-24 *)
Inductive tkind := KPunct | KName | KInt | KFloat | KString | KBlock.
Record token := mktok { tok_kind : tkind; tok_text : string }.

Definition is (d c : ascii) : bool := Ascii.eqb c d.
Definition one_of (l : list ascii) (c : ascii) : bool := existsb (fun d => Ascii.eqb c d) l.
Definition between (lo hi c : ascii) : bool :=
  (N.leb (N_of_ascii lo) (N_of_ascii c) && N.leb (N_of_ascii c) (N_of_ascii hi))%bool.
Definition digit (c : ascii) : bool := between "0" "9" c.
Definition name_start (c : ascii) : bool := (is "_" c || between "a" "z" c || between "A" "Z" c)%bool.
Definition name_continue (c : ascii) : bool := (name_start c || digit c)%bool.
Definition tab : ascii := "009".
Definition lf : ascii := "010".
Definition cr : ascii := "013".
Definition dquote : ascii := "034".
Definition bslash : ascii := "092".

Fixpoint span (p : ascii -> bool) (s : string) : string * string :=
  match s with
  | EmptyString => ("", "")
  | String c s' => if p c then let '(a, b) := span p s' in (String c a, b) else ("", s)
  end.
Fixpoint all (p : ascii -> bool) (s : string) : bool :=
  match s with EmptyString => true | String c s' => (p c && all p s')%bool end.
Definition tail (s : string) : string := match s with String _ s' => s' | EmptyString => "" end.
(** The last index at which [p] holds. *)
Fixpoint last_index (p : ascii -> bool) (s : string) : option nat :=
  match s with
  | EmptyString => None
  | String c s' => match last_index p s' with Some i => Some (S i) | None => if p c then Some 0 else None end
  end.

(** tokenizer.rs:91-130; every caller passes text that starts with a digit or a minus. *)
Definition check_int (v : string) : bool :=
  (String.eqb v "0" || String.eqb v "-0"
   || (negb (starts_with "0" v) && negb (String.eqb v "-") && negb (starts_with "-0" v) && all digit (tail v)))%bool.
Definition check_dec (v : string) : bool := (negb (String.eqb v "") && all digit v)%bool.
Definition check_exp (v : string) : bool :=
  match v with
  | EmptyString => false
  | String c v' => if (negb (is "-" c) && negb (is "+" c) && negb (between "1" "8" c))%bool then false else all digit v'
  end.
Definition slice (i j : nat) (s : string) : string := take_str (j - i) (drop_str i s).
Definition check_float (v : string) (exponent real : option nat) : bool :=
  match exponent, real with
  | Some e, Some r => if Nat.ltb e r then false
      else (check_int (take_str r v) && check_dec (slice (S r) e v) && check_exp (drop_str (S e) v))%bool
  | Some e, None => (check_int (take_str e v) && check_exp (drop_str (S e) v))%bool
  | None, Some r => (check_int (take_str r v) && check_dec (drop_str (S r) v))%bool
  | None, None => false
  end.

(** tokenizer.rs:262-270: the characters that end a number *)
Definition number_end : ascii -> bool :=
  one_of [" "; lf; cr; tab; ","; "#"; "!"; "$"; ":"; "="; "@"; "|"; "&"; "("; ")"; "["; "]"; "{"; "}"]%char.

(** tokenizer.rs:312-337: from after the opening quote, up to and with the closing one *)
Fixpoint scan_string (escaped : bool) (s : string) : option (string * string) :=
  match s with
  | EmptyString => None
  | String c s' =>
      if (is dquote c && negb escaped)%bool then Some (String c "", s')
      else if is lf c then None
      else match scan_string (negb escaped && is bslash c)%bool s' with
           | Some (a, b) => Some (String c a, b)
           | None => None
           end
  end.
(** tokenizer.rs:298-310: from after the opening quotes; [escaped] says that the text before ends with a
    backslash. *)
Fixpoint scan_block (escaped : bool) (s : string) : option (string * string) :=
  match s with
  | EmptyString => None
  | String c s1 =>
      let skip := match scan_block (is bslash c) s1 with
                  | Some (a, b) => Some (String c a, b)
                  | None => None
                  end in
      match s1 with
      | String d (String e s3) =>
          if (is dquote c && is dquote d && is dquote e)%bool then
            if escaped then
              match scan_block false s3 with
              | Some (a, b) => Some (String c (String d (String e a)), b)
              | None => None
              end
            else Some (String c (String d (String e "")), s3)
          else skip
      | _ => skip
      end
  end.

(** [take_token], tokenizer.rs:182-347: the kind and text of the token, the rest, and whether
    [advance_token] counts it (only there is [token_count] increased). *)
Definition scan_token (s : string) : option (tkind * string * string * bool) :=
  match s with
  | EmptyString => None
  | String c s' =>
      if one_of ["("; "["; "{"; ")"; "]"; "}"; "!"; "$"; ":"; "="; "@"; "|"; "&"]%char c
      then Some (KPunct, String c "", s', true)
      else if is "." c then
        match s' with
        | String d (String e s3) => if (is "." d && is "." e)%bool then Some (KPunct, "...", s3, true) else None
        | _ => None
        end
      else if name_start c then
        let '(n, r) := span name_continue s' in
        Some (KName, String c n, r, negb (String.eqb r ""))
      else if (is "-" c || digit c)%bool then
        let '(n, r) := span (fun d => negb (number_end d)) s' in
        let v := String c n in
        match last_index (one_of ["e"; "E"]%char) v, last_index (is ".") v with
        | None, None => if check_int v then Some (KInt, v, r, true) else None
        | e, d => if check_float v e d then Some (KFloat, v, r, false) else None
        end
      else if is dquote c then
        if starts_with (String dquote (String dquote "")) s' then
          match scan_block false (tail (tail s')) with
          | Some (a, r) => Some (KBlock, String c (String c (String c a)), r, false)
          | None => None
          end
        else match scan_string false s' with
             | Some (a, r) => Some (KString, String c a, r, false)
             | None => None
             end
      else None
  end.

(** [skip_whitespace], tokenizer.rs:349-385 *)
Fixpoint skip_ws (comment : bool) (s : string) : string :=
  match s with
  | EmptyString => ""
  | String c s1 =>
      if comment then skip_ws (negb (is cr c || is lf c))%bool s1
      else if (is cr c || is tab c || is lf c || is " " c || is "," c)%bool then skip_ws false s1
      else if is "#" c then skip_ws true s1
      else match s1 with
           | String d (String e s3) =>
               if (is "239" c && is "187" d && is "191" e)%bool then skip_ws false s3 else s
           | _ => s
           end
  end.

(** [LexErr] keeps the tokens before the text that is none. *)
Inductive lexed := LexOk (ts : list token) | LexErr (ts : list token) | LexFuel.
Definition lcons (t : token) (l : lexed) : lexed :=
  match l with LexOk ts => LexOk (t :: ts) | LexErr ts => LexErr (t :: ts) | LexFuel => LexFuel end.

(** The tokens [uncons] gives one after the other (tokenizer.rs:55-71).  The grammar never goes back by
    more than the one token [next_state] remembers, so each token is taken once.  [depth] is
    [recursion_limit], [limit] is [token_limit]: it is checked before the end of the input is. *)
Fixpoint lex (fuel : nat) (depth : N) (limit : option N) (count : N) (s : string) : lexed :=
  match fuel with
  | O => LexFuel
  | S f =>
      if match limit with Some l => N.leb l count | None => false end then LexErr []
      else match s with
           | EmptyString => LexOk []
           | String c _ =>
               match scan_token s with
               | None => LexErr []
               | Some (k, v, r, counted) =>
                   let count' := match limit with Some _ => if counted then N.succ count else count | None => count end in
                   if one_of ["("; "["; "{"]%char c then
                     if N.eqb depth 0 then LexErr []
                     else lcons (mktok k v) (lex f (N.pred depth) limit count' (skip_ws false r))
                   else if one_of [")"; "]"; "}"]%char c then
                     lcons (mktok k v) (lex f (N.succ depth) limit count' (skip_ws false r))
                   else lcons (mktok k v) (lex f depth limit count' (skip_ws false r))
               end
           end
  end.
Definition tokens (depth : N) (limit : option N) (s : string) : lexed :=
  lex (S (String.length s)) depth limit 0 (skip_ws false s).

(** * Literals *)
(** The outcomes of a combine parser: [PPeek] is [PeekErr] (nothing was taken), [PErr] is [CommitErr]. *)
Inductive pres (A : Type) := POk (a : A) | PPeek | PErr | PPanic | PFuel.
Arguments POk {A} a.
Arguments PPeek {A}.
Arguments PErr {A}.
Arguments PPanic {A}.
Arguments PFuel {A}.
Definition pmap {A B} (k : A -> B) (r : pres A) : pres B :=
  match r with POk a => POk (k a) | PPeek => PPeek | PErr => PErr | PPanic => PPanic | PFuel => PFuel end.

(** [i64::from_str] on text accepted by [check_int], common.rs:137-150 *)
Definition parse_i64 (v : string) : option Z :=
  let '(neg, body) := match v with String "-" b => (true, b) | _ => (false, v) end in
  match NilEmpty.uint_of_string body with
  | Some u =>
      let z := (if neg then - Z.of_uint u else Z.of_uint u)%Z in
      if ((-9223372036854775808 <=? z) && (z <=? 9223372036854775807))%Z then Some z else None
  | None => None
  end.

(** [char::to_digit(16)] and [u32::from_str_radix(_, 16)] on four characters: a leading plus is accepted *)
Definition hex_digit_value (c : ascii) : option N :=
  if digit c then Some (N_of_ascii c - 48)%N
  else if between "a" "f" c then Some (N_of_ascii c - 87)%N
  else if between "A" "F" c then Some (N_of_ascii c - 55)%N
  else None.
Fixpoint radix16 (acc : N) (l : list ascii) : option N :=
  match l with
  | [] => Some acc
  | c :: l' => match hex_digit_value c with Some d => radix16 (acc * 16 + d) l' | None => None end
  end.
Definition from_str_radix16 (a b c d : ascii) : option N :=
  if is "+" a then radix16 0 [b; c; d] else radix16 0 [a; b; c; d].
(** [String::push] of a code point below 0x10000 *)
Definition push_char (n : N) (s : string) : string :=
  let ch k := ascii_of_N k in
  if N.ltb n 128 then String (ch n) s
  else if N.ltb n 2048 then String (ch (192 + n / 64)%N) (String (ch (128 + n mod 64)%N) s)
  else String (ch (224 + n / 4096)%N) (String (ch (128 + n / 64 mod 64)%N) (String (ch (128 + n mod 64)%N) s)).
Definition surrogate (n : N) : bool := (N.leb 55296 n && N.leb n 57343)%bool.

(** [unquote_string], common.rs:224-283, on what is between the quotes *)
Fixpoint unquote (s : string) : pres string :=
  match s with
  | EmptyString => POk ""
  | String c s1 =>
      if is bslash c then
        match s1 with
        | EmptyString => PPanic
        | String e s2 =>
            if (is dquote e || is bslash e || is "/" e)%bool then pmap (String e) (unquote s2)
            else if is "b" e then pmap (String "016") (unquote s2)
            else if is "f" e then pmap (String "012") (unquote s2)
            else if is "n" e then pmap (String lf) (unquote s2)
            else if is "r" e then pmap (String cr) (unquote s2)
            else if is "t" e then pmap (String tab) (unquote s2)
            else if is "u" e then
              match s2 with
              | String h1 (String h2 (String h3 (String h4 s6))) =>
                  match from_str_radix16 h1 h2 h3 h4 with
                  | Some n => if surrogate n then PErr else pmap (push_char n) (unquote s6)
                  | None => PErr
                  end
              | _ => PErr
              end
            else PErr
        end
      else pmap (String c) (unquote s1)
  end.
Definition unquote_string (v : string) : pres string :=
  unquote (take_str (String.length v - 2) (tail v)).

(** [str::lines] *)
Fixpoint lines (s : string) : list string :=
  match s with
  | EmptyString => []
  | String c s1 =>
      let more := match lines s1 with [] => [String c ""] | p :: ps => String c p :: ps end in
      if is lf c then "" :: lines s1
      else if is cr c then
        match s1 with
        | String d s2 => if is lf d then "" :: lines s2 else more
        | EmptyString => more
        end
      else more
  end.
(** The bytes of leading white space: [line.len() - line.trim_start().len()] *)
Definition ws1 (a : ascii) : bool := (between "009" "013" a || is " " a)%bool.
Definition ws2 (a b : ascii) : bool := (is "194" a && (is "133" b || is "160" b))%bool.
Definition ws3 (a b c : ascii) : bool :=
  ((is "225" a && is "154" b && is "128" c)
   || (is "226" a && is "128" b && (between "128" "138" c || is "168" c || is "169" c || is "175" c))
   || (is "226" a && is "129" b && is "159" c)
   || (is "227" a && is "128" b && is "128" c))%bool.
Fixpoint leading_ws (s : string) : nat :=
  match s with
  | EmptyString => 0
  | String a s1 =>
      if ws1 a then S (leading_ws s1)
      else match s1 with
           | EmptyString => 0
           | String b s2 =>
               if ws2 a b then 2 + leading_ws s2
               else match s2 with
                    | EmptyString => 0
                    | String c s3 => if ws3 a b c then 3 + leading_ws s3 else 0
                    end
           end
  end.
(** [None] is [usize::MAX]. *)
Definition min_indent (m : option nat) (i : nat) : option nat :=
  match m with Some k => Some (Nat.min k i) | None => Some i end.
(** The loop of common.rs:182-196: the common indent, the first and the last line that is not blank *)
Fixpoint survey (idx : nat) (ls : list string) (acc : option nat * option nat * nat) : option nat * option nat * nat :=
  match ls with
  | [] => acc
  | l :: ls' =>
      let '(common, first, last) := acc in
      let i := leading_ws l in
      survey (S idx) ls'
        (if Nat.eqb i (String.length l) then acc
         else (if Nat.eqb idx 0 then common else min_indent common i,
               match first with Some f => Some f | None => Some idx end, idx))
  end.
(** [&s[n..]]: a panic when [n] is inside a character *)
Definition boundary (n : nat) (s : string) : bool :=
  match drop_str n s with
  | EmptyString => true
  | String c _ => negb (between "128" "191" c)
  end.
(** [x.replace(r#"\""""#, r#"""""#)] *)
Fixpoint unescape_block (s : string) : string :=
  match s with
  | EmptyString => ""
  | String c s1 =>
      match s1 with
      | String d (String e (String f s4)) =>
          if (is bslash c && is dquote d && is dquote e && is dquote f)%bool
          then String d (String e (String f (unescape_block s4)))
          else String c (unescape_block s1)
      | _ => String c (unescape_block s1)
      end
  end.
Definition cut_line (common : option nat) (idx : nat) (l : string) : pres string :=
  match common with
  | Some k =>
      if (negb (Nat.eqb idx 0) && Nat.leb k (String.length l))%bool
      then if boundary k l then POk (unescape_block (drop_str k l)) else PPanic
      else POk (unescape_block l)
  | None => POk (unescape_block l)
  end.
Fixpoint cut_lines (common : option nat) (idx : nat) (ls : list string) : pres (list string) :=
  match ls with
  | [] => POk []
  | l :: ls' =>
      match cut_line common idx l with
      | POk a => pmap (cons a) (cut_lines common (S idx) ls')
      | PPeek => PPeek | PErr => PErr | PPanic => PPanic | PFuel => PFuel
      end
  end.
(** common.rs:167-222, on what is between the triple quotes *)
Definition unquote_block (s : string) : pres string :=
  let ls := lines s in
  match survey 0 ls (None, None, 0) with
  | (_, None, _) => POk ""
  | (common, Some first, last) =>
      pmap (String.concat (String lf "")) (cut_lines common first (firstn (last - first + 1) (skipn first ls)))
  end.
Definition unquote_block_string (v : string) : pres string :=
  unquote_block (take_str (String.length v - 6) (drop_str 3 v)).

(** * The grammar *)
Definition parse_result (A : Type) := pres (A * list token).
Definition committed {A} (r : pres A) : pres A := match r with PPeek => PErr | r => r end.
(** A parser [k] that runs after something was taken. *)
Definition then_ {A B} (r : parse_result A) (k : A -> list token -> parse_result B) : parse_result B :=
  match r with
  | POk (a, ts) => committed (k a ts)
  | PPeek => PPeek | PErr => PErr | PPanic => PPanic | PFuel => PFuel
  end.

(** helpers.rs *)
Definition kind_eqb (a b : tkind) : bool :=
  match a, b with
  | KPunct, KPunct | KName, KName | KInt, KInt | KFloat, KFloat | KString, KString | KBlock, KBlock => true
  | _, _ => false
  end.
Definition word (k : tkind) (v : string) (ts : list token) : parse_result unit :=
  match ts with
  | t :: r => if (kind_eqb (tok_kind t) k && String.eqb (tok_text t) v)%bool then POk (tt, r) else PPeek
  | [] => PPeek
  end.
Definition punct := word KPunct.
Definition ident := word KName.
Definition name (ts : list token) : parse_result string :=
  match ts with
  | t :: r => if kind_eqb (tok_kind t) KName then POk (tok_text t, r) else PPeek
  | [] => PPeek
  end.

(** [many]: up to the first [PeekErr] *)
Fixpoint many {A} (fuel : nat) (p : list token -> parse_result A) (ts : list token) : parse_result (list A) :=
  match fuel with
  | O => PFuel
  | S f =>
      match p ts with
      | POk (a, r) => pmap (fun '(l, r') => (a :: l, r')) (many f p r)
      | PPeek => POk ([], ts)
      | PErr => PErr | PPanic => PPanic | PFuel => PFuel
      end
  end.
Definition many1 {A} (fuel : nat) (p : list token -> parse_result A) (ts : list token) : parse_result (list A) :=
  then_ (p ts) (fun a r => pmap (fun '(l, r') => (a :: l, r')) (many fuel p r)).
Definition optional {A} (p : list token -> parse_result A) (ts : list token) : parse_result (option A) :=
  match p ts with
  | POk (a, r) => POk (Some a, r)
  | PPeek => POk (None, ts)
  | PErr => PErr | PPanic => PPanic | PFuel => PFuel
  end.

Section Grammar.
  (** [f64::from_str]: the bits of the number *)
  Variable parse_f64 : string -> option N.

  (** common.rs:317-333 *)
  Definition plain_value (ts : list token) : parse_result gvalue :=
    match ts with
    | [] => PPeek
    | t :: r =>
        match tok_kind t with
        | KName =>
            if String.eqb (tok_text t) "true" then POk (GBool true, r)
            else if String.eqb (tok_text t) "false" then POk (GBool false, r)
            else if String.eqb (tok_text t) "null" then POk (GNull, r)
            else POk (GEnum (tok_text t), r)
        | KInt => match parse_i64 (tok_text t) with Some z => POk (GInt z, r) | None => PErr end
        | KFloat => match parse_f64 (tok_text t) with Some b => POk (GFloat b, r) | None => PErr end
        | KString => committed (pmap (fun s => (GStr s, r)) (unquote_string (tok_text t)))
        | KBlock => committed (pmap (fun s => (GStr s, r)) (unquote_block_string (tok_text t)))
        | KPunct => PPeek
        end
    end.

  (** A name, a colon and what [p] reads *)
  Definition entry {A} (p : list token -> parse_result A) (ts : list token) : parse_result (string * A) :=
    then_ (name ts) (fun k r => then_ (punct ":" r) (fun _ r => pmap (fun '(v, r') => ((k, v), r')) (p r))).

  (** [value] and, with [const], [default_value]: common.rs:335-373 *)
  Fixpoint value (fuel : nat) (const : bool) (ts : list token) : parse_result gvalue :=
    match fuel with
    | O => PFuel
    | S f =>
        match plain_value ts with
        | PPeek =>
            match (if const then PPeek else punct "$" ts) with
            | POk (_, r) => committed (pmap (fun '(v, r') => (GVar v, r')) (name r))
            | _ =>
                match punct "[" ts with
                | POk (_, r) =>
                    then_ (committed (many f (value f const) r)) (fun l r' =>
                      pmap (fun '(_, r'') => (GList l, r'')) (punct "]" r'))
                | _ =>
                    then_ (punct "{" ts) (fun _ r =>
                      then_ (committed (many f (entry (value f const)) r)) (fun l r' =>
                        pmap (fun '(_, r'') => (GObj l, r'')) (punct "}" r')))
                end
            end
        | r => r
        end
    end.

  (** common.rs:120-135 *)
  Definition arguments (fuel : nat) (ts : list token) : parse_result (list (string * gvalue)) :=
    pmap (fun '(o, r) => (match o with Some l => l | None => [] end, r))
      (optional (fun ts => then_ (punct "(" ts) (fun _ r =>
         then_ (committed (many1 fuel (entry (value fuel false)) r)) (fun l r' =>
           pmap (fun '(_, r'') => (l, r'')) (punct ")" r')))) ts).

  (** common.rs:102-118 *)
  Definition directives (fuel : nat) : list token -> parse_result (list directive) :=
    many fuel (fun ts => then_ (punct "@" ts) (fun _ r => then_ (name r) (fun n r' =>
      pmap (fun '(a, r'') => ({| d_name := n; d_args := a |}, r'')) (arguments fuel r')))).

  (** common.rs:375-399 *)
  Fixpoint parse_type (fuel : nat) (ts : list token) : parse_result tnode :=
    match fuel with
    | O => PFuel
    | S f =>
        then_ (match name ts with
               | POk (n, r) => POk (TNamed n, r)
               | _ => then_ (punct "[" ts) (fun _ r => then_ (parse_type f r) (fun t r' =>
                        pmap (fun '(_, r'') => (TList t, r'')) (punct "]" r')))
               end)
              (fun t r => pmap (fun '(o, r') => (match o with Some _ => TNonNull t | None => t end, r'))
                               (optional (punct "!") r))
    end.

  (** grammar.rs:80-97; [p] reads one selection *)
  Definition selection_set (fuel : nat) (p : list token -> parse_result nsel) (ts : list token) : parse_result (list nsel) :=
    then_ (punct "{" ts) (fun _ r => then_ (committed (many1 fuel p r)) (fun l r' =>
      pmap (fun '(_, r'') => (l, r'')) (punct "}" r'))).

  (** grammar.rs:11-44 *)
  Definition field (fuel : nat) (p : list token -> parse_result nsel) (ts : list token) : parse_result nsel :=
    then_ (name ts) (fun n r =>
    then_ (optional (fun ts => then_ (punct ":" ts) (fun _ r => name r)) r) (fun o r =>
    then_ (arguments fuel r) (fun args r =>
    then_ (directives fuel r) (fun ds r =>
      pmap (fun '(sub, r') =>
              (let '(nm, al) := match o with Some m => (m, Some n) | None => (n, None) end in
               NField al nm args ds (match sub with Some l => l | None => [] end), r'))
           (optional (selection_set fuel p) r))))).

  (** grammar.rs:46-78: after the dots, the parser of an inline fragment takes nothing only when there is no
      "on", no directive and no brace. *)
  Definition inline_fragment (fuel : nat) (p : list token -> parse_result nsel) (ts : list token) : parse_result nsel :=
    match optional (fun ts => then_ (ident "on" ts) (fun _ r => name r)) ts with
    | POk (tc, r) =>
        match directives fuel r with
        | POk (ds, r') =>
            let body := pmap (fun '(l, r'') => (NInline tc ds l, r'')) (selection_set fuel p r') in
            match tc, ds with
            | None, [] => body
            | _, _ => committed body
            end
        | PPeek => PPeek | PErr => PErr | PPanic => PPanic | PFuel => PFuel
        end
    | PPeek => PPeek | PErr => PErr | PPanic => PPanic | PFuel => PFuel
    end.
  Definition fragment_spread (fuel : nat) (ts : list token) : parse_result nsel :=
    then_ (name ts) (fun n r => pmap (fun '(ds, r') => (NSpread n ds, r')) (directives fuel r)).
  Fixpoint selection (fuel : nat) (ts : list token) : parse_result nsel :=
    match fuel with
    | O => PFuel
    | S f =>
        match field f (selection f) ts with
        | PPeek =>
            then_ (punct "..." ts) (fun _ r =>
              match inline_fragment f (selection f) r with
              | PPeek => fragment_spread f r
              | q => q
              end)
        | q => q
        end
    end.

  (** query/ast.rs; [PSelections] is [OperationDefinition::SelectionSet] *)
  Inductive pdef :=
  | PSelections (sels : list nsel)
  | POperation (kind : opkind) (name : option string) (vars : list vardef) (dirs : list directive) (sels : list nsel)
  | PFragment (name tc : string) (dirs : list directive) (sels : list nsel).

  (** grammar.rs:127-164 *)
  Definition variable_definition (fuel : nat) (ts : list token) : parse_result vardef :=
    then_ (punct "$" ts) (fun _ r => then_ (name r) (fun n r => then_ (punct ":" r) (fun _ r =>
    then_ (parse_type fuel r) (fun t r =>
      pmap (fun '(d, r') => (mkvardef n t d, r'))
        (optional (fun ts => then_ (punct "=" ts) (fun _ r => value fuel true r)) r))))).
  Definition variable_definitions (fuel : nat) (ts : list token) : parse_result (list vardef) :=
    pmap (fun '(o, r) => (match o with Some l => l | None => [] end, r))
      (optional (fun ts => then_ (punct "(" ts) (fun _ r =>
         then_ (committed (many1 fuel (variable_definition fuel) r)) (fun l r' =>
           pmap (fun '(_, r'') => (l, r'')) (punct ")" r')))) ts).
  (** Runs after the keyword was taken. *)
  Definition operation_common (fuel : nat) (kind : opkind) (ts : list token) : parse_result pdef :=
    then_ (optional name ts) (fun n r =>
    then_ (variable_definitions fuel r) (fun vs r =>
    then_ (directives fuel r) (fun ds r =>
      pmap (fun '(l, r') => (POperation kind n vs ds l, r')) (selection_set fuel (selection fuel) r)))).

  (** grammar.rs:99-243 *)
  Definition fragment_definition (fuel : nat) (ts : list token) : parse_result pdef :=
    then_ (ident "fragment" ts) (fun _ r => then_ (name r) (fun n r =>
    then_ (ident "on" r) (fun _ r => then_ (name r) (fun tc r =>
    then_ (directives fuel r) (fun ds r =>
      pmap (fun '(l, r') => (PFragment n tc ds l, r')) (selection_set fuel (selection fuel) r)))))).
  Definition or {A} (p q : list token -> parse_result A) (ts : list token) : parse_result A :=
    match p ts with PPeek => q ts | r => r end.
  Definition definition (fuel : nat) : list token -> parse_result pdef :=
    or (fun ts => pmap (fun '(l, r) => (PSelections l, r)) (selection_set fuel (selection fuel) ts))
    (or (fun ts => then_ (ident "query" ts) (fun _ r => operation_common fuel KQuery r))
    (or (fun ts => then_ (ident "mutation" ts) (fun _ r => operation_common fuel KMutation r))
    (or (fun ts => then_ (ident "subscription" ts) (fun _ r => operation_common fuel KSubscription r))
        (fragment_definition fuel)))).

  (** grammar.rs:251-290: [handle_token_stream] *)
  Definition parse_tokens (ts : list token) : pres (list pdef) :=
    let fuel := S (length ts) in
    match many1 fuel (definition fuel) ts with
    | POk (ds, []) => POk ds
    | POk (_, _ :: _) => PErr
    | PPeek => PErr | PErr => PErr | PPanic => PPanic | PFuel => PFuel
    end.

  Definition parse_query (depth : N) (limit : option N) (s : string) : pres (list pdef) :=
    match tokens depth limit s with
    | LexOk ts => parse_tokens ts
    | LexErr ts => match parse_tokens ts with POk _ => PErr | r => r end
    | LexFuel => PFuel
    end.
End Grammar.
