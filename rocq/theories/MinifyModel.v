(** Minified documents: lib/graphql-tools/src/parser/query/minify.rs. *)
From Coq Require Import String Ascii List NArith ZArith Bool.
From Verif Require Import StrUtil Ast CondModel NormModel JsonWriterModel ProjModel GqlModel.
Import ListNotations.
Local Open Scope string_scope.
Local Open Scope list_scope.

(** minify.rs:16-40; [after]: the token before is no punctuator *)
Definition non_punctuator (t : token) : bool := negb (kind_eqb (tok_kind t) KPunct).
Fixpoint join_tokens (after : bool) (ts : list token) : string :=
  match ts with
  | [] => ""
  | t :: ts' =>
      (if (after && non_punctuator t)%bool then " " else "") ++ tok_text t ++ join_tokens (non_punctuator t) ts'
  end%string.
(** [TokenStream::new]: 50 nested brackets, no limit on tokens (tokenizer.rs:134-136) *)
Definition minify_query (s : string) : option string :=
  match tokens 50 None s with
  | LexOk ts => Some (join_tokens false ts)
  | LexErr _ | LexFuel => None
  end.

(** The [Minifier], minify.rs:58-85.  [block_indent] is 2 but while the lines of a block are written. *)
Record minifier := mkmin { buffer : string; last_was_non_punctuator : bool }.
Definition write_non_punctuator (s : string) (m : minifier) : minifier :=
  mkmin (buffer m ++ (if last_was_non_punctuator m then " " else "") ++ s) true.
Definition write_punctuator (s : string) (m : minifier) : minifier := mkmin (buffer m ++ s) false.

(** minify.rs:311-365: [write_quoted].  [{:04}] is decimal. *)
Definition newline (c : ascii) : bool := is lf c.
Definition escaping (c : ascii) : bool :=
  (is dquote c || is bslash c || N.ltb (N_of_ascii c) 32 || is "127" c)%bool.
Fixpoint some_char (p : ascii -> bool) (s : string) : bool :=
  match s with EmptyString => false | String c s' => (p c || some_char p s')%bool end.
Definition pad4 (s : string) : string :=
  match String.length s with 0 => "0000" | 1 => "000" ++ s | 2 => "00" ++ s | 3 => "0" ++ s | _ => s end%string.
Definition unicode_escape (n : N) : string := (String bslash "u" ++ pad4 (N_to_dec n))%string.
(** Characters of four bytes are those above U+FFFF. *)
Fixpoint quoted_chars (s : string) : string :=
  match s with
  | EmptyString => ""
  | String c s1 =>
      if is cr c then (String bslash "r" ++ quoted_chars s1)%string
      else if is lf c then (String bslash "n" ++ quoted_chars s1)%string
      else if is tab c then (String bslash "t" ++ quoted_chars s1)%string
      else if (is dquote c || is bslash c)%bool then String bslash (String c (quoted_chars s1))
      else if N.ltb (N_of_ascii c) 32 then (unicode_escape (N_of_ascii c) ++ quoted_chars s1)%string
      else if N.ltb (N_of_ascii c) 240 then String c (quoted_chars s1)
      else match s1 with
           | String d (String e (String f s4)) =>
               (unicode_escape ((N_of_ascii c - 240) * 262144 + (N_of_ascii d - 128) * 4096
                                + (N_of_ascii e - 128) * 64 + (N_of_ascii f - 128)) ++ quoted_chars s4)%string
           | _ => String c (quoted_chars s1)
           end
  end.
(** [match_indices] of three quotes, each written as a backslash and two quotes *)
Fixpoint block_line (s : string) : string :=
  match s with
  | EmptyString => ""
  | String c s1 =>
      match s1 with
      | String d (String e s3) =>
          if (is dquote c && is dquote d && is dquote e)%bool
          then String bslash (String dquote (String dquote (block_line s3)))
          else String c (block_line s1)
      | _ => String c (block_line s1)
      end
  end.
Definition three_quotes : string := String dquote (String dquote (String dquote "")).
Definition block_text (s : string) : string :=
  (three_quotes ++ String lf ""
   ++ String.concat "" (map (fun l => (if Nat.eqb (leading_ws l) (String.length l) then "" else "    " ++ block_line l)
                                      ++ String lf "")%string (GqlModel.lines s))
   ++ "  " ++ three_quotes)%string.
Definition quoted_text (s : string) : string :=
  (if negb (some_char newline s) then
     if negb (some_char (fun c => negb (newline c) && escaping c)%bool s) then String dquote (s ++ String dquote "")
     else String dquote (quoted_chars s ++ String dquote "")
   else block_text s)%string.
Definition write_quoted (s : string) : minifier -> minifier := write_non_punctuator (quoted_text s).

(** One after the other *)
Definition write_each {A} (w : A -> minifier -> minifier) : list A -> minifier -> minifier :=
  fix go l m := match l with [] => m | x :: l' => go l' (w x m) end.

Section Minifier.
  (** [ryu::Buffer::format] on the number with these bits *)
  Variable ryu : N -> string.

  (** minify.rs:375-427 *)
  Fixpoint write_value (v : gvalue) (m : minifier) : minifier :=
    match v with
    | GVar n => write_non_punctuator n (write_punctuator "$" m)
    | GInt z => write_non_punctuator (i64_text z) m
    | GFloat b => write_non_punctuator (ryu b) m
    | GStr s => write_quoted s m
    | GBool b => write_non_punctuator (if b then "true" else "false") m
    | GNull => write_non_punctuator "null" m
    | GEnum n => write_non_punctuator n m
    | GList l => write_punctuator "]" (write_each write_value l (write_punctuator "[" m))
    | GObj o =>
        write_punctuator "}" (write_each (fun kv m => write_value (snd kv) (write_punctuator ":" (write_non_punctuator (fst kv) m)))
                                         o (write_punctuator "{" m))
    end.
  (** minify.rs:268-281 *)
  Definition write_arguments (args : list (string * gvalue)) (m : minifier) : minifier :=
    match args with
    | [] => m
    | _ => write_punctuator ")" (write_each (fun kv m => write_value (snd kv) (write_punctuator ":" (write_non_punctuator (fst kv) m)))
                                            args (write_punctuator "(" m))
    end.
  (** minify.rs:259-266 *)
  Definition write_directives : list directive -> minifier -> minifier :=
    write_each (fun d m => write_arguments (d_args d) (write_non_punctuator (d_name d) (write_punctuator "@" m))).
  (** minify.rs:242-257 *)
  Fixpoint write_type (t : tnode) (m : minifier) : minifier :=
    match t with
    | TNamed n => write_non_punctuator n m
    | TList t => write_punctuator "]" (write_type t (write_punctuator "[" m))
    | TNonNull t => write_punctuator "!" (write_type t m)
    end.
  (** minify.rs:222-240 *)
  Definition write_variable_definitions (vs : list vardef) (m : minifier) : minifier :=
    match vs with
    | [] => m
    | _ =>
        write_punctuator ")" (write_each (fun v m =>
          let m := write_type (vd_type v) (write_punctuator ":" (write_non_punctuator (vd_name v) (write_punctuator "$" m))) in
          match vd_default v with Some d => write_value d (write_punctuator "=" m) | None => m end)
        vs (write_punctuator "(" m))
    end.
  (** minify.rs:212-220 *)
  Definition write_type_condition (tc : string) (m : minifier) : minifier :=
    write_non_punctuator tc (write_non_punctuator "on" m).
  (** minify.rs:168-210 *)
  Fixpoint write_selection (x : nsel) (m : minifier) : minifier :=
    match x with
    | NField al n args ds sub =>
        let m := match al with Some a => write_punctuator ":" (write_non_punctuator a m) | None => m end in
        let m := write_directives ds (write_arguments args (write_non_punctuator n m)) in
        match sub with
        | [] => m
        | _ => write_punctuator "}" (write_each write_selection sub (write_punctuator "{" m))
        end
    | NSpread n ds => write_directives ds (write_non_punctuator n (write_punctuator "..." m))
    | NInline tc ds sub =>
        let m := write_punctuator "..." m in
        let m := match tc with Some t => write_type_condition t m | None => m end in
        write_punctuator "}" (write_each write_selection sub (write_punctuator "{" (write_directives ds m)))
    end.
  Definition write_selection_set (l : list nsel) (m : minifier) : minifier :=
    write_punctuator "}" (write_each write_selection l (write_punctuator "{" m)).
  (** minify.rs:117-166 *)
  Definition keyword_text (k : opkind) : string :=
    match k with KQuery => "query" | KMutation => "mutation" | KSubscription => "subscription" end.
  Definition write_definition (d : pdef) (m : minifier) : minifier :=
    match d with
    | PSelections l => write_selection_set l m
    | POperation k n vs ds l =>
        let m := write_non_punctuator (keyword_text k) m in
        let m := match n with Some n => write_non_punctuator n m | None => m end in
        write_selection_set l (write_directives ds (write_variable_definitions vs m))
    | PFragment n tc ds l =>
        write_selection_set l (write_directives ds (write_type_condition tc (write_non_punctuator n (write_non_punctuator "fragment" m))))
    end.
  Definition minify_query_document (ds : list pdef) : string :=
    buffer (write_each write_definition ds (mkmin "" false)).
End Minifier.
