(** Naming subgraph operations and writing subgraph request bodies.
    Models bin/router/src/executor/execution/operation_name.rs,
    bin/router/src/query_planner/ast/operation.rs:70-102, 172-206,
    bin/router/src/executor/executors/http.rs:63-65, 81-157 and
    bin/router/src/executor/executors/graphql_transport_ws.rs:108-132. *)
From Coq Require Import String Ascii List NArith ZArith Bool Arith.
From Verif Require Import StrOrd StrUtil JsonModel JsonWriterModel ProjModel.
Import ListNotations.
Local Open Scope string_scope.

(** ** Which subgraphs get a name, operation_name.rs:5-82 *)
Inductive forward := FNone | FAll | FOnly (subgraphs : list string).
Definition mem (x : string) (l : list string) : bool := existsb (String.eqb x) l.

(** [only], operation_name.rs:51-57 *)
Definition fw_only (l : list string) : forward := match l with [] => FNone | _ => FOnly l end.
(** [all_except], operation_name.rs:59-74 *)
Definition fw_all_except (known excluded : list string) : forward :=
  match excluded with
  | [] => FAll
  | _ => fw_only (filter (fun s => negb (mem s excluded)) known)
  end.
(** [new], operation_name.rs:14-41; [overrides]: the per-subgraph [forward_operation_name] *)
Definition fw_new (all : bool) (overrides : list (string * option bool)) (known : list string) : forward :=
  if all then
    fw_all_except known (map fst (filter (fun kv => match snd kv with Some false => true | _ => false end) overrides))
  else
    fw_only (map fst (filter (fun kv => match snd kv with Some true => true | _ => false end) overrides)).
(** [should_forward], operation_name.rs:76-82 *)
Definition should_forward (f : forward) (s : string) : bool :=
  match f with FNone => false | FAll => true | FOnly l => mem s l end.

(** [generate], operation_name.rs:102-121 *)
Definition generate (f : forward) (client_name : option string) (subgraph : string) (id : Z) : option string :=
  if should_forward f subgraph then
    match client_name with
    | Some n => Some (n ++ "__" ++ i64_text id)
    | None => None
    end
  else None.

(** ** Printing anonymous operations, ast/operation.rs:172-206 *)
Inductive okind := KQuery | KMutation | KSubscription.
Definition kind_text (k : okind) : string :=
  match k with KQuery => "query" | KMutation => "mutation" | KSubscription => "subscription" end.

(** [Display for OperationDefinition] and [Document]; variable definitions, the selection set
    and the fragments are texts. *)
Definition vars_text (vars : list string) : string :=
  match vars with [] => "" | _ => "(" ++ join ", " vars ++ ")" end.
Definition op_text (kind : okind) (name : option string) (vars : list string) (sel : string) : string :=
  if (match kind with KQuery => true | _ => false end
      && match name with None | Some "" => true | _ => false end
      && match vars with [] => true | _ => false end)%bool
  then sel
  else kind_text kind ++ (match name with Some n => " " ++ n ++ " " | None => "" end) ++ vars_text vars ++ sel.
Definition doc_text (kind : okind) (name : option string) (vars : list string) (sel frags : string) : string :=
  op_text kind name vars sel ++ frags.

(** [name_write_position], ast/operation.rs:81-95 *)
Fixpoint strip_prefix (p s : string) : option string :=
  match p, s with
  | EmptyString, _ => Some s
  | String a p, String b s => if Ascii.eqb a b then strip_prefix p s else None
  | _, _ => None
  end.
Definition pos_for (k s : string) : option nat :=
  match strip_prefix k s with
  | Some suffix => if (starts_with "(" suffix || starts_with "{" suffix)%bool then Some (String.length k) else None
  | None => None
  end.
Definition name_write_position (s : string) : nat :=
  match pos_for "query" s with
  | Some n => n
  | None => match pos_for "mutation" s with
            | Some n => n
            | None => match pos_for "subscription" s with Some n => n | None => 0 end
            end
  end.

(** ** The WebSocket transport inserts the name in the plain text, graphql_transport_ws.rs:108-126.
    [None]: slicing out of range (panic). *)
Definition ws_query (name : string) (pos : nat) (input : string) : option string :=
  if (Nat.eqb pos 0 && starts_with "{" input)%bool then Some ("query " ++ name ++ " " ++ input)
  else if Nat.ltb (String.length input) pos then None
  else Some (take_str pos input ++ " " ++ name ++ drop_str pos input).

(** ** [build_request_body], http.rs:81-157 *)
Definition qt : string := String (chr 34) "".
(** the shared body of the two variable loops, http.rs:100-132 *)
Definition put_vars (vars : list (string * string)) (acc : bool * string) : bool * string :=
  fold_left
    (fun (acc : bool * string) (kv : string * string) =>
       let '(first, body) := acc in
       let body := if first then body ++ "," ++ qt ++ "variables" ++ qt ++ ":{" else body ++ "," in
       (false, body ++ qt ++ fst kv ++ qt ++ ":" ++ snd kv))
    vars acc.
(** [vars]: the selected client variables, serialized by [sonic_rs]; [raw]: byte values prepared
    by the executor; [ext]: the serialized extensions when there are any. *)
Definition build_request_body (query : string) (pos : nat) (name : option string)
           (vars raw : list (string * string)) (ext : option string) : option string :=
  let body := "{" ++ qt ++ "query" ++ qt ++ ":" in
  match (match name with
         | Some n => match write_named_operation n pos query with Some t => Some (body ++ t) | None => None end
         | None => Some (body ++ quoted query)
         end) with
  | None => None
  | Some body =>
      let '(first, body) := put_vars raw (put_vars vars (true, body)) in
      let body := if first then body else body ++ "}" in
      let body := match name with
                  | Some n => body ++ "," ++ qt ++ "operationName" ++ qt ++ ":" ++ qt ++ n ++ qt
                  | None => body
                  end in
      let body := match ext with
                  | Some e => body ++ "," ++ qt ++ "extensions" ++ qt ++ ":" ++ e
                  | None => body
                  end in
      Some (body ++ "}")
  end.
