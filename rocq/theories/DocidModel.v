(* Which document a request runs: taking the id of a persisted document from a
   request, and the policy on client queries.
   Modelled: bin/router/src/pipeline/execution_request.rs,
   bin/router/src/pipeline/persisted_documents/extract/core.rs,
   bin/router/src/pipeline/persisted_documents/extract/extractors/*.rs,
   bin/router/src/pipeline/persisted_documents/types.rs. *)
From Coq Require Import String Ascii List Bool NArith.
From Verif Require Import StrUtil Utf8.
Import ListNotations.
Local Open Scope string_scope.
Local Open Scope list_scope.

(* sonic_rs::Value / OwnedLazyValue, as far as ids are read from them:
   extractors/json_path.rs:73-104.  Numbers that fit u64 are kept apart. *)
Inductive pvalue :=
| PNull
| PStr (s : string)
| PNum (n : N)
| PObj (o : list (string * pvalue))
| POther.

(* HashMap filled entry by entry: the last entry of a key is kept. *)
Fixpoint hget {A} (k : string) (l : list (string * A)) : option A :=
  match l with
  | [] => None
  | (k', v) :: r => match hget k r with Some w => Some w | None => if String.eqb k' k then Some v else None end
  end.

(* Value::get on an object: the first entry of a key. *)
Fixpoint oget {A} (k : string) (l : list (string * A)) : option A :=
  match l with
  | [] => None
  | (k', v) :: r => if String.eqb k' k then Some v else oget k r
  end.

(* types.rs:24-36 *)
Definition doc_id (s : string) : option string := match s with "" => None | _ => Some s end.

(* json_path.rs:79-86, 97-103 *)
Definition id_value (v : pvalue) : option string :=
  match v with PStr s => Some s | PNum n => Some (N_to_dec n) | _ => None end.

(* json_path.rs:74-77, 91-94 *)
Definition child (v : pvalue) (k : string) : option pvalue :=
  match v with PObj o => oget k o | _ => None end.

(* json_path.rs:106-118 *)
Fixpoint along (v : pvalue) (segs : list string) : option string :=
  match segs with
  | [] => id_value v
  | k :: r => match child v k with Some w => along w r | None => None end
  end.

(* hooks/on_graphql_params.rs GraphQLParams *)
Record params := mkparams {
  p_query : option string;
  p_opname : option string;
  p_variables : list (string * pvalue);
  p_extensions : option (list (string * pvalue)) }.

(* core.rs:99-116 *)
Record context := mkcontext {
  c_params : params;
  c_docid : option string;
  c_extra : option (list (string * pvalue));
  c_relative : option string;
  c_query : option string }.

(* json_path.rs:56-63 *)
Definition along_map (o : list (string * pvalue)) (segs : list string) : option string :=
  match segs with
  | [] => None
  | k :: r => match hget k o with Some v => along v r | None => None end
  end.

(* json_path.rs:37-54 *)
Definition json_path (c : context) (segs : list string) : option string :=
  match segs with
  | [] => None
  | first :: rest =>
      if (String.eqb first "query" || String.eqb first "operationName" || String.eqb first "variables")%bool then None
      else if String.eqb first "extensions"
      then match p_extensions (c_params c) with Some o => along_map o rest | None => None end
      else match c_extra c with
           | Some m => match hget first m with Some v => along v rest | None => None end
           | None => None
           end
  end.

(* slice[..n] == prefix, returning what follows *)
Fixpoint strip (p s : string) : option string :=
  match p, s with
  | "", _ => Some s
  | String a p', String b s' => if Ascii.eqb a b then strip p' s' else None
  | _, "" => None
  end.

Fixpoint before (c : ascii) (s : string) : string :=
  match s with
  | "" => ""
  | String d r => if Ascii.eqb d c then "" else String d (before c r)
  end.

Fixpoint has (c : ascii) (s : string) : bool :=
  match s with
  | "" => false
  | String d r => (Ascii.eqb d c || has c r)%bool
  end.

Definition amp : ascii := "&"%char.
Definition eqs : ascii := "="%char.

(* url_query_param.rs:59-117; [boundary] is is_pair_boundary (123-125), the
   candidates of memchr_iter are the positions holding [n0] *)
Fixpoint scan (n0 : ascii) (name : string) (boundary : bool) (s : string) : option string :=
  match s with
  | "" => None
  | String c r =>
      let next := scan n0 name (Ascii.eqb c amp) r in
      if (Ascii.eqb c n0 && boundary)%bool then
        match strip name s with
        | None => next
        | Some "" => None
        | Some (String sep v) =>
            if Ascii.eqb sep amp then None
            else if negb (Ascii.eqb sep eqs) then next
            else match v with
                 | "" => None
                 | String d _ => if Ascii.eqb d amp then None else Some (before amp v)
                 end
        end
      else next
  end.

(* url_query_param.rs:47-57 *)
Definition find_first_value (query name : string) : option string :=
  match name with
  | "" => None
  | String n0 _ => scan n0 name true query
  end.

Definition hex_digit (c : ascii) : option N :=
  let n := N_of_ascii c in
  if ((48 <=? n) && (n <=? 57))%N%bool then Some (n - 48)%N
  else if ((65 <=? n) && (n <=? 70))%N%bool then Some (n - 55)%N
  else if ((97 <=? n) && (n <=? 102))%N%bool then Some (n - 87)%N
  else None.

(* percent_encoding::percent_decode: a percent sign without two hexadecimal
   digits stands for itself *)
Fixpoint percent_decode (s : string) : string :=
  match s with
  | "" => ""
  | String c r =>
      if Ascii.eqb c "%"%char then
        match r with
        | String a (String b r') =>
            match hex_digit a, hex_digit b with
            | Some x, Some y => String (ascii_of_N (16 * x + y)%N) (percent_decode r')
            | _, _ => String c (percent_decode r)
            end
        | _ => String c (percent_decode r)
        end
      else String c (percent_decode r)
  end.

(* url_query_param.rs:173-182 *)
Fixpoint replace_plus (s : string) : string :=
  match s with
  | "" => ""
  | String c r => String (if Ascii.eqb c "+"%char then " "%char else c) (replace_plus r)
  end.

Definition checked (s : string) : option string := if utf8_ok s then Some s else None.

(* url_query_param.rs:144-171 *)
Definition decode_if_needed (v : string) : option string :=
  if (negb (has "%"%char v) && negb (has "+"%char v))%bool then Some v
  else if negb (has "+"%char v) then checked (percent_decode v)
  else checked (percent_decode (replace_plus v)).

(* url_query_param.rs:41-44 *)
Definition query_param (raw name : string) : option string :=
  match find_first_value raw name with
  | Some v => decode_if_needed v
  | None => None
  end.

(* url_path_param.rs:39-47 *)
Inductive tseg := TId | TAny | TLit (s : string).

Definition template_seg (s : string) : tseg :=
  if String.eqb s ":id" then TId else if String.eqb s "*" then TAny else TLit s.

Definition slash : ascii := "/"%char.

(* url_path_param.rs:29 split('/').skip(1) *)
Definition template_segs (t : string) : list tseg := map template_seg (tl (split_on slash t)).

(* matchit::Router::at with the one route: a parameter takes one whole
   non-empty segment *)
Fixpoint match_segs (ts : list tseg) (ps : list string) : option (option string) :=
  match ts, ps with
  | [], [] => Some None
  | t :: ts', p :: ps' =>
      match t with
      | TLit l => if String.eqb l p then match_segs ts' ps' else None
      | TAny => if String.eqb p "" then None else match_segs ts' ps'
      | TId => if String.eqb p "" then None
               else match match_segs ts' ps' with Some _ => Some (Some p) | None => None end
      end
  | _, _ => None
  end.

(* url_path_param.rs:17-21 *)
Definition path_param (ts : list tseg) (relative : option string) : option string :=
  match relative with
  | None => None
  | Some p =>
      match split_on slash p with
      | "" :: ps => match match_segs ts ps with
                    | Some (Some id) => doc_id id
                    | _ => None
                    end
      | _ => None
      end
  end.

(* trim_end_matches('/') *)
Fixpoint trim_slashes (s : string) : string :=
  match s with
  | "" => ""
  | String c r => match trim_slashes r with
                  | "" => if Ascii.eqb c slash then "" else String c ""
                  | t => String c t
                  end
  end.

(* core.rs:254-268 *)
Definition endpoint_path (e : string) : string :=
  if (String.eqb e "" || String.eqb e "/")%bool then "/"
  else trim_slashes (if starts_with "/" e then e else String slash e).

(* core.rs:270-284 *)
Definition relative_path (endpoint p : string) : option string :=
  if String.eqb endpoint "/" then Some p
  else match strip endpoint p with
       | None => None
       | Some suf => if (negb (String.eqb suf "") && negb (starts_with "/" suf))%bool then None else Some suf
       end.

(* config/persisted_documents.rs PersistedDocumentExtractorConfig *)
Inductive selector :=
| JsonPath (path : string)
| UrlQueryParam (name : string)
| UrlPathParam (template : string).

Definition bind_id (o : option string) : option string :=
  match o with Some s => doc_id s | None => None end.

(* core.rs:213-252 with the extractors *)
Definition extract (sel : selector) (c : context) : option string :=
  match sel with
  | JsonPath path =>
      if String.eqb path "documentId" then bind_id (c_docid c)
      else bind_id (json_path c (split_on "."%char path))
  | UrlQueryParam name =>
      match c_query c with Some raw => bind_id (query_param raw name) | None => None end
  | UrlPathParam t => path_param (template_segs t) (c_relative c)
  end.

(* core.rs:217-239, json_path.rs:23-33 *)
Definition needs_extra (sel : selector) : bool :=
  match sel with
  | JsonPath path =>
      if String.eqb path "documentId" then false
      else if String.eqb path "extensions.persistedQuery.sha256Hash" then false
      else match split_on "."%char path with
           | [] => false
           | first :: _ => negb (String.eqb first "extensions")
           end
  | _ => false
  end.

(* core.rs:203-209 *)
Fixpoint first_id (sels : list selector) (c : context) : option string :=
  match sels with
  | [] => None
  | s :: r => match extract s c with Some id => Some id | None => first_id r c end
  end.

(* the part of the request that the code reads *)
Record request := mkrequest { r_path : string; r_query : option string }.

Record config := mkconfig {
  enabled : bool;
  selectors : list selector;
  endpoint : string }.

(* execution_request.rs:138-161, core.rs:192-210 *)
Definition select (cf : config) (rq : request) (p : params) (docid : option string)
    (extra : option (list (string * pvalue))) : option string :=
  if enabled cf then
    first_id (selectors cf)
      (mkcontext p docid extra (relative_path (endpoint_path (endpoint cf)) (r_path rq)) (r_query rq))
  else None.

(* execution_request.rs:55-82, 208-250: the fields of a JSON body.
   utils.rs:53-67: a field may be repeated only after a null *)
Record body := mkbody {
  b_query : option string;
  b_opname : option string;
  b_variables : option (list (string * pvalue));
  b_extensions : option (list (string * pvalue));
  b_docid : option string;
  b_extra : option (list (string * pvalue)) }.

Definition as_string (v : pvalue) : option (option string) :=
  match v with PNull => Some None | PStr s => Some (Some s) | _ => None end.
Definition as_map (v : pvalue) : option (option (list (string * pvalue))) :=
  match v with PNull => Some None | PObj o => Some (Some o) | _ => None end.
Definition as_docid (v : pvalue) : option (option string) :=
  match v with PNull => Some None | PStr s => Some (Some s) | PNum n => Some (Some (N_to_dec n)) | _ => None end.

Definition once {A} (slot : option A) (v : option (option A)) : option (option A) :=
  match slot with Some _ => None | None => v end.

Definition body_entry (b : body) (k : string) (v : pvalue) : option body :=
  if String.eqb k "query" then
    match once (b_query b) (as_string v) with
    | Some q => Some (mkbody q (b_opname b) (b_variables b) (b_extensions b) (b_docid b) (b_extra b))
    | None => None end
  else if String.eqb k "operationName" then
    match once (b_opname b) (as_string v) with
    | Some q => Some (mkbody (b_query b) q (b_variables b) (b_extensions b) (b_docid b) (b_extra b))
    | None => None end
  else if String.eqb k "variables" then
    match once (b_variables b) (as_map v) with
    | Some q => Some (mkbody (b_query b) (b_opname b) q (b_extensions b) (b_docid b) (b_extra b))
    | None => None end
  else if String.eqb k "extensions" then
    match once (b_extensions b) (as_map v) with
    | Some q => Some (mkbody (b_query b) (b_opname b) (b_variables b) q (b_docid b) (b_extra b))
    | None => None end
  else if String.eqb k "documentId" then
    match once (b_docid b) (as_docid v) with
    | Some q => Some (mkbody (b_query b) (b_opname b) (b_variables b) (b_extensions b) q (b_extra b))
    | None => None end
  else Some (mkbody (b_query b) (b_opname b) (b_variables b) (b_extensions b) (b_docid b)
               (match b_extra b with Some m => Some (m ++ [(k, v)]) | None => None end)).

Fixpoint body_entries (b : body) (l : list (string * pvalue)) : option body :=
  match l with
  | [] => Some b
  | (k, v) :: r => match body_entry b k v with Some b' => body_entries b' r | None => None end
  end.

Definition read_body (capture : bool) (l : list (string * pvalue)) : option body :=
  body_entries (mkbody None None None None None (if capture then Some [] else None)) l.

Definition body_params (b : body) : params :=
  mkparams (b_query b) (b_opname b) (match b_variables b with Some m => m | None => [] end) (b_extensions b).

(* the query string of a GET request, as decoded by ntex::web::types::Query *)
Record get_input := mkget {
  g_query : option string;
  g_opname : option string;
  g_docid : option string;
  g_variables : option string;
  g_extensions : option string }.

Inductive source :=
| Override (p : params)                 (* websocket messages, plugins *)
| Get (input : option get_input)        (* None: the query string does not decode *)
| Post (content_type : option string) (fields : option (list (string * pvalue)))  (* None: not a JSON object *)
| OtherMethod.

Inductive failure :=
| BadQueryString | BadVariables | BadExtensions | BadContentType | NoContentType | BadBody | BadMethod
| ExpressionFailed | IdRequired | NoStorage | Unresolved (e : string).

Inductive outcome (A : Type) := Good (a : A) | Fail (f : failure).
Arguments Good {A} a.
Arguments Fail {A} f.

Fixpoint contains (p s : string) : bool :=
  (starts_with p s || match s with "" => false | String _ r => contains p r end)%bool.

Record operation := mkop { o_params : params; o_id : option string }.

Section Prepare.
(* sonic_rs::from_str to a map *)
Variable parse_map : string -> option (list (string * pvalue)).
(* the configured storage, for one request with one client identity *)
Variable resolver : option (string -> string + string).   (* inl text | inr error *)
(* persisted_documents/mod.rs require_id: a fixed flag or an expression over the request *)
Variable require_id : option bool.
Variable skip : bool.

(* execution_request.rs:257-275 *)
Definition parse_opt (o : option string) (bad : failure) : outcome (option (list (string * pvalue))) :=
  match o with
  | None => Good None
  | Some "" => Good None
  | Some s => match parse_map s with Some m => Good (Some m) | None => Fail bad end
  end.

(* execution_request.rs:253-286 *)
Definition get_params (g : get_input) : outcome params :=
  match parse_opt (g_variables g) BadVariables with
  | Fail f => Fail f
  | Good vs =>
      match parse_opt (g_extensions g) BadExtensions with
      | Fail f => Fail f
      | Good es => Good (mkparams (g_query g) (g_opname g) (match vs with Some m => m | None => [] end) es)
      end
  end.

(* execution_request.rs:473-561 *)
Definition decode (cf : config) (rq : request) (src : source) : outcome operation :=
  match src with
  | Override p => Good (mkop p (select cf rq p None None))
  | Get None => Fail BadQueryString
  | Get (Some g) =>
      match get_params g with
      | Fail f => Fail f
      | Good p => Good (mkop p (select cf rq p (g_docid g) None))
      end
  | Post None _ => Fail NoContentType
  | Post (Some ct) fields =>
      if negb (contains "application/json" ct) then Fail BadContentType
      else match fields with
           | None => Fail BadBody
           | Some l =>
               match read_body (enabled cf && existsb needs_extra (selectors cf)) l with
               | None => Fail BadBody
               | Some b => Good (mkop (body_params b) (select cf rq (body_params b) (b_docid b) (b_extra b)))
               end
           end
  | OtherMethod => Fail BadMethod
  end.

Definition set_query (q : option string) (p : params) : params :=
  mkparams q (p_opname p) (p_variables p) (p_extensions p).

(* execution_request.rs:563-608 *)
Definition enforce (cf : config) (op : operation) : outcome operation :=
  if negb (enabled cf) then Good (mkop (o_params op) None)
  else match require_id with
       | None => Fail ExpressionFailed
       | Some need =>
           if (need && negb skip)%bool then
             match o_id op with
             | None => Fail IdRequired
             | Some id => Good (mkop (set_query None (o_params op)) (Some id))
             end
           else match p_query (o_params op) with
                | Some _ => Good (mkop (o_params op) None)
                | None => Good op
                end
       end.

(* execution_request.rs:610-641 *)
Definition fill (op : operation) : outcome operation :=
  match o_id op with
  | None => Good op
  | Some id =>
      match resolver with
      | None => Fail NoStorage
      | Some f => match f id with
                  | inl text => Good (mkop (set_query (Some text) (o_params op)) (Some id))
                  | inr e => Fail (Unresolved e)
                  end
      end
  end.

(* execution_request.rs:416-445, 470 *)
Definition prepare (cf : config) (rq : request) (src : source) : outcome operation :=
  match decode cf rq src with
  | Fail f => Fail f
  | Good op =>
      match enforce cf op with
      | Fail f => Fail f
      | Good op' =>
          if enabled cf then match p_query (o_params op') with None => fill op' | Some _ => Good op' end
          else Good op'
      end
  end.
End Prepare.
