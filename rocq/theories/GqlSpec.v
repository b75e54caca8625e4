(** The GraphQL language, after the specification: the lexical grammar (section 2.1), what a literal means
    (2.9), and the tokens a document is written with (2.2-2.11).  Text is a byte string holding UTF-8. *)
From Coq Require Import String Ascii List NArith ZArith Bool Arith.
From Verif Require Import Utf8 Ast CondModel NormModel JsonText GqlModel.
Import ListNotations.
Local Open Scope string_scope.
Local Open Scope list_scope.

(** * Characters *)
Definition among (l : string) (c : ascii) : Prop := In c (list_ascii_of_string l).
Definition Digit : ascii -> Prop := among "0123456789".
Definition NameStart : ascii -> Prop := among "ABCDEFGHIJKLMNOPQRSTUVWXYZabcdefghijklmnopqrstuvwxyz_".
Definition NameContinue (c : ascii) : Prop := NameStart c \/ Digit c.
Definition LineTerminator (c : ascii) : Prop := N_of_ascii c = 10%N \/ N_of_ascii c = 13%N.
Fixpoint each_char (P : ascii -> Prop) (s : string) : Prop :=
  match s with EmptyString => True | String c s' => P c /\ each_char P s' end.
Definition first_not (P : ascii -> Prop) (s : string) : Prop :=
  match s with EmptyString => True | String c _ => ~ P c end.

(** * Lexemes *)
Definition Name (v : string) : Prop :=
  match v with EmptyString => False | String c v' => NameStart c /\ each_char NameContinue v' end.
Definition Punctuator (v : string) : Prop :=
  In v ["!"; "$"; "&"; "("; ")"; "..."; ":"; "="; "@"; "["; "]"; "{"; "|"; "}"].
Inductive IntegerPart : string -> Prop :=
| int_zero : IntegerPart "0"
| int_minus_zero : IntegerPart "-0"
| int_digits d ds : Digit d -> d <> "0"%char -> each_char Digit ds -> IntegerPart (String d ds)
| int_minus_digits d ds : Digit d -> d <> "0"%char -> each_char Digit ds -> IntegerPart (String "-" (String d ds)).
Inductive FractionalPart : string -> Prop :=
| frac d ds : Digit d -> each_char Digit ds -> FractionalPart (String "." (String d ds)).
Inductive ExponentPart : string -> Prop :=
| exp_plain e d ds : among "eE" e -> Digit d -> each_char Digit ds -> ExponentPart (String e (String d ds))
| exp_sign e g d ds : among "eE" e -> among "+-" g -> Digit d -> each_char Digit ds ->
    ExponentPart (String e (String g (String d ds))).
Inductive FloatText : string -> Prop :=
| float_frac i f : IntegerPart i -> FractionalPart f -> FloatText (i ++ f)%string
| float_exp i e : IntegerPart i -> ExponentPart e -> FloatText (i ++ e)%string
| float_both i f e : IntegerPart i -> FractionalPart f -> ExponentPart e -> FloatText (i ++ f ++ e)%string.

(** [chars raw s]: the characters [raw] of a string literal stand for [s].  An escape of a surrogate stands
    for a character only together with the other half. *)
Definition bs : string := String "092" "".
Inductive escaped_as : string -> string -> Prop :=
| esc_quote : escaped_as (String "034" "") (String "034" "")
| esc_backslash : escaped_as bs bs
| esc_slash : escaped_as "/" "/"
| esc_b : escaped_as "b" (String "008" "")
| esc_f : escaped_as "f" (String "012" "")
| esc_n : escaped_as "n" (String "010" "")
| esc_r : escaped_as "r" (String "013" "")
| esc_t : escaped_as "t" (String "009" "")
| esc_u a b c d n : hex4 a b c d = Some n -> (n < 55296 \/ 57343 < n)%N ->
    escaped_as (String "u" (String a (String b (String c (String d ""))))) (utf8 n)
| esc_pair a b c d hi a' b' c' d' lo :
    hex4 a b c d = Some hi -> hex4 a' b' c' d' = Some lo ->
    (55296 <= hi <= 56319)%N -> (56320 <= lo <= 57343)%N ->
    escaped_as (String "u" (String a (String b (String c (String d
                 (String "092" (String "u" (String a' (String b' (String c' (String d' "")))))))))))
               (utf8 (65536 + (hi - 55296) * 1024 + (lo - 56320)))%N.
Section Chars.
  Variable esc : string -> string -> Prop.
  Inductive chars_with : string -> string -> Prop :=
  | chars_end : chars_with "" ""
  | chars_plain c r s : c <> "034"%char -> c <> "092"%char -> ~ LineTerminator c -> chars_with r s ->
      chars_with (String c r) (String c s)
  | chars_escape e v r s : esc e v -> chars_with r s -> chars_with (bs ++ e ++ r)%string (v ++ s)%string.
End Chars.
Definition chars : string -> string -> Prop := chars_with escaped_as.
Definition quote1 : string := String "034" "".
Definition quote3 : string := String "034" (String "034" (String "034" "")).

(** A block string up to and with its closing quotes, and what is between: no three quotes but after a backslash *)
Inductive block_closed : string -> string -> Prop :=
| block_end : block_closed quote3 ""
| block_escape t r : block_closed t r -> block_closed (bs ++ quote3 ++ t)%string (bs ++ quote3 ++ r)%string
| block_char c t r : (forall u, String c t <> (quote3 ++ u)%string) -> (forall u, String c t <> (bs ++ quote3 ++ u)%string) ->
    block_closed t r -> block_closed (String c t) (String c r).

Inductive lexeme : tkind -> string -> Prop :=
| lexeme_punct v : Punctuator v -> lexeme KPunct v
| lexeme_name v : Name v -> lexeme KName v
| lexeme_int v : IntegerPart v -> lexeme KInt v
| lexeme_float v : FloatText v -> lexeme KFloat v
| lexeme_string r s : chars r s -> lexeme KString (quote1 ++ r ++ quote1)%string
| lexeme_block t r : block_closed t r -> lexeme KBlock (quote3 ++ t)%string.

(** What may not come next (the lookahead restrictions) *)
Definition ends (k : tkind) (v rest : string) : Prop :=
  match k with
  | KName => first_not NameContinue rest
  | KInt | KFloat => first_not (fun c => NameContinue c \/ c = "."%char) rest
  | KString => v = (quote1 ++ quote1)%string -> first_not (fun c => c = "034"%char) rest
  | KPunct | KBlock => True
  end.

Inductive ignored : string -> string -> Prop :=
| ign_bom rest : ignored (String "239" (String "187" (String "191" ""))) rest
| ign_char c rest : among " ," c \/ c = "009"%char \/ LineTerminator c -> ignored (String c "") rest
| ign_comment t rest : each_char (fun c => ~ LineTerminator c) t ->
    first_not (fun c => ~ LineTerminator c) rest -> ignored (String "#" t) rest.

Section Lexes.
  Variable lexeme : tkind -> string -> Prop.
  Variable ends : tkind -> string -> string -> Prop.
  Inductive lexes_with : string -> list token -> Prop :=
  | lexes_end : lexes_with "" []
  | lexes_ignored i s ts : ignored i s -> lexes_with s ts -> lexes_with (i ++ s)%string ts
  | lexes_token k v s ts : lexeme k v -> ends k v s -> lexes_with s ts -> lexes_with (v ++ s)%string (mktok k v :: ts).
End Lexes.
Definition lexes : string -> list token -> Prop := lexes_with lexeme ends.

(** * What a block string means: section 2.9.4, BlockStringValue *)
(** Three quotes after a backslash stand for three quotes. *)
Inductive unescapes : string -> string -> Prop :=
| unesc_end : unescapes "" ""
| unesc_quotes r s : unescapes r s -> unescapes (bs ++ quote3 ++ r) (quote3 ++ s)
| unesc_char c r s : (forall t, String c r <> (bs ++ quote3 ++ t)%string) -> unescapes r s -> unescapes (String c r) (String c s).

Definition add_char (c : ascii) (ls : list string) : list string :=
  match ls with [] => [String c ""] | l :: r => String c l :: r end.
(** Line terminators are LF, CR LF, and CR. *)
Fixpoint split_lines (s : string) : list string :=
  match s with
  | EmptyString => [""]
  | String c s1 =>
      if ascii_dec c "010" then "" :: split_lines s1
      else if ascii_dec c "013" then
        match s1 with
        | String d s2 => if ascii_dec d "010" then "" :: split_lines s2 else "" :: split_lines s1
        | EmptyString => "" :: split_lines s1
        end
      else add_char c (split_lines s1)
  end.
Definition white (c : ascii) : bool := if ascii_dec c " " then true else if ascii_dec c "009" then true else false.
Fixpoint indent (l : string) : nat := match l with String c l' => if white c then S (indent l') else 0 | EmptyString => 0 end.
Fixpoint blank (l : string) : bool := match l with String c l' => if white c then blank l' else false | EmptyString => true end.
Fixpoint without (k : nat) (l : string) : string :=
  match k, l with S k', String _ l' => without k' l' | _, _ => l end.
(** The least indent of the lines that are not blank *)
Fixpoint common_indent (ls : list string) : option nat :=
  match ls with
  | [] => None
  | l :: r =>
      if blank l then common_indent r
      else match common_indent r with Some k => Some (Nat.min (indent l) k) | None => Some (indent l) end
  end.
Definition dedent (ls : list string) : list string :=
  match ls with
  | [] => []
  | l :: r => l :: match common_indent r with Some k => map (without k) r | None => r end
  end.
Fixpoint strip_front (ls : list string) : list string :=
  match ls with [] => [] | l :: r => if blank l then strip_front r else l :: r end.
Fixpoint strip_back (ls : list string) : list string :=
  match ls with
  | [] => []
  | l :: r => match strip_back r with [] => if blank l then [] else [l] | r' => l :: r' end
  end.
Definition block_value (s : string) : string :=
  String.concat (String "010" "") (strip_back (strip_front (dedent (split_lines s)))).

(** * What a token says *)
Inductive dtok := DPunct (v : string) | DName (v : string) | DInt (z : Z) | DFloat (bits : N) | DStr (s : string).

Definition digit_value (c : ascii) : Z := Z.of_N (N_of_ascii c - 48).
Fixpoint digits_value (acc : Z) (s : string) : Z :=
  match s with EmptyString => acc | String c s' => digits_value (acc * 10 + digit_value c) s' end.
Definition int_value (v : string) : Z :=
  match v with
  | EmptyString => 0
  | String c v' => if ascii_dec c "-" then - digits_value 0 v' else digits_value 0 v
  end.
Definition in_i64 (z : Z) : Prop := (- 2 ^ 63 <= z < 2 ^ 63)%Z.

Section Means.
  (** The number a float literal stands for *)
  Variable f64_of : string -> option N.
  Inductive means : token -> dtok -> Prop :=
  | means_punct v : means (mktok KPunct v) (DPunct v)
  | means_name v : means (mktok KName v) (DName v)
  | means_int v : in_i64 (int_value v) -> means (mktok KInt v) (DInt (int_value v))
  | means_float v b : f64_of v = Some b -> means (mktok KFloat v) (DFloat b)
  | means_string r s : chars r s -> means (mktok KString (quote1 ++ r ++ quote1)%string) (DStr s)
  | means_block t r v : block_closed t r -> unescapes r v -> means (mktok KBlock (quote3 ++ t)%string) (DStr (block_value v)).
End Means.

(** * The tokens of a document *)
Definition framed (o c : string) (ts : list dtok) : list dtok := DPunct o :: ts ++ [DPunct c].
Definition keyed (k : string) (ts : list dtok) : list dtok := DName k :: DPunct ":" :: ts.
Fixpoint value_tokens (v : gvalue) : list dtok :=
  match v with
  | GVar n => [DPunct "$"; DName n]
  | GInt z => [DInt z]
  | GFloat b => [DFloat b]
  | GStr s => [DStr s]
  | GBool b => [DName (if b then "true" else "false")]
  | GNull => [DName "null"]
  | GEnum s => [DName s]
  | GList l => framed "[" "]" (flat_map value_tokens l)
  | GObj o => framed "{" "}" (flat_map (fun kv => keyed (fst kv) (value_tokens (snd kv))) o)
  end.
Fixpoint type_tokens (t : tnode) : list dtok :=
  match t with
  | TNamed n => [DName n]
  | TList t => framed "[" "]" (type_tokens t)
  | TNonNull t => type_tokens t ++ [DPunct "!"]
  end.
Definition argument_tokens (args : list (string * gvalue)) : list dtok :=
  match args with
  | [] => []
  | _ => framed "(" ")" (flat_map (fun kv => keyed (fst kv) (value_tokens (snd kv))) args)
  end.
Definition directive_tokens (ds : list directive) : list dtok :=
  flat_map (fun d => DPunct "@" :: DName (d_name d) :: argument_tokens (d_args d)) ds.
Definition alias_tokens (al : option string) : list dtok :=
  match al with Some a => [DName a; DPunct ":"] | None => [] end.
Definition on_tokens (tc : option string) : list dtok :=
  match tc with Some t => [DName "on"; DName t] | None => [] end.
Fixpoint selection_tokens (x : nsel) : list dtok :=
  match x with
  | NField al n args ds sub =>
      alias_tokens al ++ DName n :: argument_tokens args ++ directive_tokens ds ++
      match sub with [] => [] | _ => framed "{" "}" (flat_map selection_tokens sub) end
  | NSpread n ds => DPunct "..." :: DName n :: directive_tokens ds
  | NInline tc ds sub =>
      DPunct "..." :: on_tokens tc ++ directive_tokens ds ++ framed "{" "}" (flat_map selection_tokens sub)
  end.
Definition set_tokens (l : list nsel) : list dtok := framed "{" "}" (flat_map selection_tokens l).
Definition vardef_tokens (v : vardef) : list dtok :=
  DPunct "$" :: DName (vd_name v) :: DPunct ":" :: type_tokens (vd_type v) ++
  match vd_default v with Some d => DPunct "=" :: value_tokens d | None => [] end.
Definition vardefs_tokens (vs : list vardef) : list dtok :=
  match vs with [] => [] | _ => framed "(" ")" (flat_map vardef_tokens vs) end.
Definition keyword (k : opkind) : string :=
  match k with KQuery => "query" | KMutation => "mutation" | KSubscription => "subscription" end.
Definition definition_tokens (d : pdef) : list dtok :=
  match d with
  | PSelections l => set_tokens l
  | POperation k n vs ds l =>
      DName (keyword k) :: match n with Some n => [DName n] | None => [] end ++
      vardefs_tokens vs ++ directive_tokens ds ++ set_tokens l
  | PFragment n tc ds l =>
      DName "fragment" :: DName n :: DName "on" :: DName tc :: directive_tokens ds ++ set_tokens l
  end.

(** Trees the grammar can produce *)
Fixpoint value_ok (const : bool) (v : gvalue) : Prop :=
  match v with
  | GVar _ => const = false
  | GEnum s => s <> "true" /\ s <> "false" /\ s <> "null"
  | GList l => (fix go l := match l with [] => True | x :: l' => value_ok const x /\ go l' end) l
  | GObj o => (fix go o := match o with [] => True | x :: o' => value_ok const (snd x) /\ go o' end) o
  | _ => True
  end.
Fixpoint type_ok (t : tnode) : Prop :=
  match t with
  | TNamed _ => True
  | TList t => type_ok t
  | TNonNull t => type_ok t /\ match t with TNonNull _ => False | _ => True end
  end.
Definition args_ok (args : list (string * gvalue)) : Prop := Forall (fun kv => value_ok false (snd kv)) args.
Definition dirs_ok (ds : list directive) : Prop := Forall (fun d => args_ok (d_args d)) ds.
Fixpoint selection_ok (x : nsel) : Prop :=
  match x with
  | NField _ _ args ds sub =>
      args_ok args /\ dirs_ok ds /\
      (fix go l := match l with [] => True | y :: l' => selection_ok y /\ go l' end) sub
  | NSpread n ds => n <> "on" /\ dirs_ok ds
  | NInline _ ds sub =>
      dirs_ok ds /\ sub <> [] /\ (fix go l := match l with [] => True | y :: l' => selection_ok y /\ go l' end) sub
  end.
Definition set_ok (l : list nsel) : Prop := l <> [] /\ Forall selection_ok l.
Definition vardef_ok (v : vardef) : Prop :=
  type_ok (vd_type v) /\ match vd_default v with Some d => value_ok true d | None => True end.
Definition definition_ok (d : pdef) : Prop :=
  match d with
  | PSelections l => set_ok l
  | POperation _ _ vs ds l => Forall vardef_ok vs /\ dirs_ok ds /\ set_ok l
  | PFragment n _ ds l => n <> "on" /\ dirs_ok ds /\ set_ok l
  end.
Definition document_tokens (ds : list pdef) : list dtok := flat_map definition_tokens ds.
Definition document_ok (ds : list pdef) : Prop := ds <> [] /\ Forall definition_ok ds.

(** How deep brackets are nested *)
Definition deepest (l : list nat) : nat := fold_right Nat.max 0 l.
Fixpoint value_depth (v : gvalue) : nat :=
  match v with
  | GList l => S (deepest (map value_depth l))
  | GObj o => S (deepest (map (fun kv => value_depth (snd kv)) o))
  | _ => 0
  end.
Fixpoint type_depth (t : tnode) : nat :=
  match t with TNamed _ => 0 | TList t => S (type_depth t) | TNonNull t => type_depth t end.
Definition args_depth (args : list (string * gvalue)) : nat :=
  match args with [] => 0 | _ => S (deepest (map (fun kv => value_depth (snd kv)) args)) end.
Definition dirs_depth (ds : list directive) : nat := deepest (map (fun d => args_depth (d_args d)) ds).
Fixpoint selection_depth (x : nsel) : nat :=
  match x with
  | NField _ _ args ds sub =>
      Nat.max (args_depth args) (Nat.max (dirs_depth ds)
        (match sub with [] => 0 | _ => S (deepest (map selection_depth sub)) end))
  | NSpread _ ds => dirs_depth ds
  | NInline _ ds sub => Nat.max (dirs_depth ds) (S (deepest (map selection_depth sub)))
  end.
Definition set_depth (l : list nsel) : nat := S (deepest (map selection_depth l)).
Definition vardef_depth (v : vardef) : nat :=
  Nat.max (type_depth (vd_type v)) (match vd_default v with Some d => value_depth d | None => 0 end).
Definition definition_depth (d : pdef) : nat :=
  match d with
  | PSelections l => set_depth l
  | POperation _ _ vs ds l =>
      Nat.max (match vs with [] => 0 | _ => S (deepest (map vardef_depth vs)) end) (Nat.max (dirs_depth ds) (set_depth l))
  | PFragment _ _ ds l => Nat.max (dirs_depth ds) (set_depth l)
  end.
Definition document_depth (ds : list pdef) : nat := deepest (map definition_depth ds).

(** The text [s] is the document [ds]. *)
Definition denotes (f64_of : string -> option N) (s : string) (ds : list pdef) : Prop :=
  exists ts, lexes s ts /\ document_ok ds /\ Forall2 (means f64_of) ts (document_tokens ds).

(** * The part of the language the router reads *)
(** No \b, and no escaped surrogates *)
Definition simple_escape (e v : string) : Prop := escaped_as e v /\ e <> "b" /\ String.length e <= 5.
(** The text [v] has [p] in it. *)
Definition contains (p v : string) : Prop := exists a b, v = (a ++ p ++ b)%string.
(** White space of Unicode that is none of GraphQL *)
Definition other_space (n : N) : Prop :=
  In n [11; 12; 133; 160; 5760; 8192; 8193; 8194; 8195; 8196; 8197; 8198; 8199; 8200; 8201; 8202; 8232; 8233; 8239; 8287; 12288]%N.
Definition plain_spaces (s : string) : Prop := forall n, other_space n -> ~ contains (utf8 n) s.
Definition no_lone_cr (s : string) : Prop := forall a b, s = (a ++ String "013" b)%string -> exists b', b = String "010" b'.
(** A blank line between others is empty, or has the common indent. *)
Definition inner_lines (s : string) : Prop :=
  forall a l b x y k, split_lines s = a ++ l :: b -> In x a -> blank x = false -> In y b -> blank y = false -> blank l = true ->
    common_indent (tl (split_lines s)) = Some k -> l = "" \/ k <= String.length l.
Definition plain_block (s : string) : Prop := utf8_ok s = true /\ plain_spaces s /\ no_lone_cr s /\ inner_lines s.
(** The first digit of an exponent without a sign is neither 0 nor 9. *)
Definition plain_exponent (v : string) : Prop :=
  forall a e d b, v = (a ++ String e (String d b))%string -> among "eE" e -> ~ among "09" d.
Inductive plain_lexeme : tkind -> string -> Prop :=
| plain_punct v : Punctuator v -> plain_lexeme KPunct v
| plain_name v : Name v -> plain_lexeme KName v
| plain_int v : IntegerPart v -> plain_lexeme KInt v
| plain_float v : FloatText v -> plain_exponent v -> plain_lexeme KFloat v
| plain_string r s : chars_with simple_escape r s -> plain_lexeme KString (quote1 ++ r ++ quote1)%string
| plain_blocks t r : block_closed t r -> plain_block r -> plain_lexeme KBlock (quote3 ++ t)%string.
(** A number is followed by white space, a comma, a comment, a one-character punctuator or nothing. *)
Definition plain_ends (k : tkind) (v rest : string) : Prop :=
  match k with
  | KInt | KFloat => first_not (fun c => ~ (among " ,#!$&():=@[]{}|" c \/ c = "009"%char \/ LineTerminator c)) rest
  | _ => ends k v rest
  end.
Definition plainly : string -> list token -> Prop := lexes_with plain_lexeme plain_ends.

(** Tokens the router takes as they are meant, if it takes them *)
Definition plain_token (t0 : token) : Prop :=
  match tok_kind t0 with
  | KBlock => forall t r, tok_text t0 = (quote3 ++ t)%string -> block_closed t r -> plain_block r
  | KString => ~ contains (String "013" "") (tok_text t0) /\ ~ contains (bs ++ "b") (tok_text t0)
               /\ ~ contains (bs ++ "u+") (tok_text t0)
  | _ => True
  end.
(** Tokens counted against a limit *)
Definition weight (ts : list token) : nat :=
  length (filter (fun t => match tok_kind t with KPunct | KName | KInt => true | _ => false end) ts).
Definition counted (d : dtok) : bool := match d with DStr _ | DFloat _ => false | _ => true end.
Definition not_on (d : pdef) : Prop := match d with PFragment n _ _ _ => n <> "on" | _ => True end.
(** The text has a character outside ASCII in it. *)
Definition wide (s : string) : Prop := exists a c b, s = (a ++ String c b)%string /\ (128 <= N_of_ascii c)%N.
