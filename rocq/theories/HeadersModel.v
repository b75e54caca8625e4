(** Header propagation between client, router and subgraphs.
    Models bin/router/src/executor/headers/{sanitizer,request,response,plan}.rs and the
    constants of bin/router/src/config/headers.rs.

    A header map is an ordered list of (name, value) lines with lower-case names
    ([http::HeaderName] normalises names).  [http::HeaderMap] keeps the relative order of
    the values of one name, which is all the theorems look at; the order between lines of
    different names is not meaningful in the model. *)
From Coq Require Import String Ascii List Bool NArith.
From Verif Require Import StrUtil.
Import ListNotations.
Local Open Scope string_scope.

Definition headers := list (string * string).

Definition mem (s : string) (l : list string) : bool := existsb (String.eqb s) l.

(** config/headers.rs:11-23 *)
Definition hop_by_hop : list string :=
  ["connection"; "keep-alive"; "proxy-authenticate"; "proxy-authorization"; "te";
   "trailer"; "transfer-encoding"; "upgrade"; "proxy-connection"; "host";
   "content-length"].

(** config/headers.rs:27 *)
Definition never_join : list string := ["set-cookie"; "www-authenticate"].

(** sanitizer.rs:6-19 *)
Definition is_denied_header (n : string) : bool := mem n hop_by_hop.
Definition is_denied_response_header (n : string) : bool :=
  is_denied_header n || mem n ["content-type"].
Definition is_never_join_header (n : string) : bool := mem n never_join.

(** [HeaderMap::get] (first value), [get_all], [append], [remove], [insert]. *)
Fixpoint hget (n : string) (h : headers) : option string :=
  match h with
  | [] => None
  | (m, v) :: h' => if String.eqb n m then Some v else hget n h'
  end.
Definition hget_all (n : string) (h : headers) : list string :=
  map snd (filter (fun kv => String.eqb n (fst kv)) h).
Definition happend (n v : string) (h : headers) : headers := (h ++ [(n, v)])%list.
Definition hremove (n : string) (h : headers) : headers :=
  filter (fun kv => negb (String.eqb n (fst kv))) h.
Definition hinsert (n v : string) (h : headers) : headers := happend n v (hremove n h).

(** plan.rs:112-117 *)
Inductive strategy := First | Last | Append.

(** Result of a VRL expression (external): error, a value that is not a header value
    ([vrl_value_to_header_value] gives [None]), or a header value. *)
Inductive expr_result := ExprErr | ExprNone | ExprVal (v : string).

(** plan.rs:27-98.  Compiled regexes are predicates on the header name, compiled
    expressions are functions of the evaluation context (subgraph name, subgraph
    headers, client headers). *)
Inductive request_rule :=
| RqPropagateNamed (names : list string) (default rename : option string)
| RqPropagateRegex (include exclude : option (string -> bool))
| RqInsertStatic (name value : string)
| RqInsertExpr (name : string) (expr : string -> headers -> expr_result)
| RqRemoveNamed (names : list string)
| RqRemoveRegex (re : string -> bool).

Inductive response_rule :=
| RsPropagateNamed (names : list string) (rename default : option string) (s : strategy)
| RsPropagateRegex (include exclude : option (string -> bool)) (s : strategy)
| RsInsertStatic (name value : string) (s : strategy)
| RsInsertExpr (name : string) (expr : string -> headers -> headers -> expr_result) (s : strategy)
| RsRemoveNamed (names : list string)
| RsRemoveRegex (re : string -> bool).

Definition or_name (o : option string) (n : string) : string :=
  match o with Some m => m | None => n end.

(** ** Requests to subgraphs: request.rs *)

Inductive hresult (A : Type) := HOk (a : A) | HErr.   (* HErr: HeaderRuleRuntimeError *)
Arguments HOk {A} _.
Arguments HErr {A}.

(** request.rs:74-86, the loop; returns the output and [matched]. *)
Fixpoint rq_named_loop (names : list string) (rename : option string) (client : headers)
    (out : headers) (matched : bool) : headers * bool :=
  match names with
  | [] => (out, matched)
  | n :: names' =>
      if is_denied_header n then rq_named_loop names' rename client out matched
      else match hget n client with
           | Some v => rq_named_loop names' rename client (happend (or_name rename n) v out) true
           | None => rq_named_loop names' rename client out matched
           end
  end.

Definition regex_selects (include exclude : option (string -> bool)) (n : string) : bool :=
  match include with
  | None => false
  | Some inc => inc n && negb (match exclude with Some e => e n | None => false end)
  end.

(** request.rs:52-226 *)
Definition apply_request_rule (subgraph : string) (client : headers) (out : headers)
    (r : request_rule) : hresult headers :=
  match r with
  | RqPropagateNamed names default rename =>
      let '(out1, matched) := rq_named_loop names rename client out false in
      if matched then HOk out1
      else match default, names with
           | Some d, n0 :: _ =>
               let dest := or_name rename n0 in
               if is_denied_header dest then HOk out1 else HOk (happend dest d out1)
           | _, _ => HOk out1
           end
  | RqPropagateRegex include exclude =>
      HOk (fold_left (fun o kv =>
             if is_denied_header (fst kv) then o
             else if regex_selects include exclude (fst kv) then happend (fst kv) (snd kv) o
             else o) client out)
  | RqInsertStatic n v =>
      if is_denied_header n then HOk out
      else if is_never_join_header n then HOk (happend n v out) else HOk (hinsert n v out)
  | RqInsertExpr n e =>
      if is_denied_header n then HOk out
      else match e subgraph client with
           | ExprErr => HErr
           | ExprNone => HOk out
           | ExprVal v =>
               if is_never_join_header n then HOk (happend n v out) else HOk (hinsert n v out)
           end
  | RqRemoveNamed names =>
      HOk (fold_left (fun o n => if is_denied_header n then o else hremove n o) names out)
  | RqRemoveRegex re =>
      HOk (filter (fun kv => is_denied_header (fst kv) || negb (re (fst kv))) out)
  end.

(** request.rs:17-41: global rules first, then those of the subgraph; stops at the first
    failing expression. *)
Fixpoint apply_request_rules (subgraph : string) (client : headers) (rules : list request_rule)
    (out : headers) : hresult headers :=
  match rules with
  | [] => HOk out
  | r :: rules' =>
      match apply_request_rule subgraph client out r with
      | HOk out' => apply_request_rules subgraph client rules' out'
      | HErr => HErr
      end
  end.

(** ** Responses from subgraphs: response.rs *)

(** response.rs:319-324; the hash map is an association list with unique names. *)
Definition agg := list (string * (strategy * list string)).

Fixpoint aget (n : string) (a : agg) : option (strategy * list string) :=
  match a with
  | [] => None
  | (m, e) :: a' => if String.eqb n m then Some e else aget n a'
  end.
Fixpoint aset (n : string) (e : strategy * list string) (a : agg) : agg :=
  match a with
  | [] => [(n, e)]
  | (m, f) :: a' => if String.eqb n m then (m, e) :: a' else (m, f) :: aset n e a'
  end.
Definition aremove (n : string) (a : agg) : agg :=
  filter (fun kv => negb (String.eqb n (fst kv))) a.

(** response.rs:350-384 [ResponseHeaderAggregator::write]: once an entry exists its own
    strategy decides, not the one of the rule that writes. *)
Definition write (n v : string) (s : strategy) (a : agg) : agg :=
  match aget n a with
  | None => aset n (if is_never_join_header n then Append else s, [v]) a
  | Some (s0, vs) =>
      match s0, vs with
      | First, [] => aset n (s0, [v]) a
      | First, _ :: _ => a
      | Last, _ => aset n (s0, [v]) a
      | Append, _ => aset n (s0, (vs ++ [v])%list) a
      end
  end.

(** response.rs:91-113, the loop; the list [writes] are the values propagated. *)
Fixpoint rs_named_loop (names : list string) (rename : option string) (s : strategy)
    (sub : headers) (a : agg) (matched : bool) : agg * bool :=
  match names with
  | [] => (a, matched)
  | n :: names' =>
      if is_denied_response_header n then rs_named_loop names' rename s sub a matched
      else
        let vs := if is_never_join_header n then hget_all n sub
                  else match hget n sub with Some v => [v] | None => [] end in
        rs_named_loop names' rename s sub
          (fold_left (fun a v => write (or_name rename n) v s a) vs a)
          (matched || match vs with [] => false | _ => true end)
  end.

(** response.rs:61-254 *)
Definition apply_response_rule (subgraph : string) (sub client : headers) (a : agg)
    (r : response_rule) : hresult agg :=
  match r with
  | RsPropagateNamed names rename default s =>
      let '(a1, matched) := rs_named_loop names rename s sub a false in
      if matched then HOk a1
      else match default, names with
           | Some d, n0 :: _ =>
               let dest := or_name rename n0 in
               if is_denied_response_header dest then HOk a1 else HOk (write dest d s a1)
           | _, _ => HOk a1
           end
  | RsPropagateRegex include exclude s =>
      HOk (fold_left (fun a kv =>
             if is_denied_response_header (fst kv) then a
             else if regex_selects include exclude (fst kv) then write (fst kv) (snd kv) s a
             else a) sub a)
  | RsInsertStatic n v s =>
      if is_denied_response_header n then HOk a
      else HOk (write n v (if is_never_join_header n then Append else s) a)
  | RsInsertExpr n e s =>
      if is_denied_response_header n then HOk a
      else match e subgraph sub client with
           | ExprErr => HErr
           | ExprNone => HOk a
           | ExprVal v => HOk (write n v (if is_never_join_header n then Append else s) a)
           end
  | RsRemoveNamed names =>
      HOk (fold_left (fun a n => if is_denied_response_header n then a else aremove n a) names a)
  | RsRemoveRegex re =>
      HOk (filter (fun kv => is_denied_response_header (fst kv) || negb (re (fst kv))) a)
  end.

(** response.rs:22-46.  An expression error stops the rules of this response; what was
    written before it stays (the accumulator is mutated in place). *)
Fixpoint apply_response_rules (subgraph : string) (sub client : headers)
    (rules : list response_rule) (a : agg) : agg :=
  match rules with
  | [] => a
  | r :: rules' =>
      match apply_response_rule subgraph sub client a r with
      | HOk a' => apply_response_rules subgraph sub client rules' a'
      | HErr => a
      end
  end.

(** execution/plan.rs:1095, 1127: every subgraph response (successful or failed) goes
    through the rules, in the order responses are processed.  [rules_of] is the global
    list followed by the subgraph's own list. *)
Definition apply_responses (rules_of : string -> list response_rule) (client : headers)
    (resps : list (string * headers)) (a : agg) : agg :=
  fold_left (fun a r => apply_response_rules (fst r) (snd r) client (rules_of (fst r)) a) resps a.

(** Bytes allowed in an [http::HeaderValue]: visible bytes, tab and obs-text. *)
Definition valid_value_char (c : ascii) : bool :=
  let n := N_of_ascii c in ((32 <=? n) && negb (n =? 127) || (n =? 9))%N.
Definition valid_value (v : string) : bool := all_chars valid_value_char v.

(** response.rs:293-317 *)
Definition join_with_comma (vs : list string) : option string :=
  let s := join ", " vs in if valid_value s then Some s else None.

(** response.rs:259-289, one entry. *)
Definition emit_entry (out : headers) (n : string) (e : strategy * list string) : option headers :=
  match snd e with
  | [] => Some out
  | _ :: _ =>
      if is_never_join_header n then Some (fold_left (fun o v => happend n v o) (snd e) out)
      else match snd e, fst e with
           | [v], _ => Some (hinsert n v out)
           | vs, Append => match join_with_comma vs with
                           | Some j => Some (hinsert n j out)
                           | None => None
                           end
           | _, _ => Some out
           end
  end.

(** response.rs:259-289; the entries come in any order (hash map iteration). *)
Fixpoint emit (out : headers) (a : agg) : option headers :=
  match a with
  | [] => Some out
  | (n, e) :: a' => match emit_entry out n e with Some out' => emit out' a' | None => None end
  end.
