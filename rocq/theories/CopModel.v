(** What a stage of a coprocessor does with the answer it gets.
    Models bin/router/src/executor/coprocessor/{protocol,stage,runtime}.rs and stages/{router,graphql}.rs.
    A [HeaderMap] is the list of its entries with names in lower case; a [HashMap] is the list of its entries in the order of its iteration;
    one value of a header and a list of one value are not told apart, the code treats them alike.  Bodies are the texts that [parse_json_body] gives. *)
From Coq Require Import String List Bool NArith ZArith.
From Verif Require Import JsonModel CtxModel.
Import ListNotations.
Local Open Scope string_scope.
Local Open Scope list_scope.

(** protocol.rs:12-25 *)
Inductive control := Continue | Break (status : N).
(** [StatusCode::from_u16] *)
Definition valid_status (n : N) : bool := (100 <=? n)%N && (n <=? 999)%N.
(** protocol.rs:27-41 *)
Definition write_control (c : control) : value := match c with Continue => VStr "continue" | Break n => VObj [("break", VU64 n)] end.
(** protocol.rs:43-124; a [u16] is read from a number without a sign *)
Definition read_control (v : value) : option control :=
  match v with
  | VStr s => if String.eqb s "continue" then Some Continue else None
  | VObj [] => None
  | VObj ((k, x) :: rest) =>
      if negb (String.eqb k "break") then None
      else match x with
           | VU64 n => if negb (n <? 65536)%N then None else if negb (valid_status n) then None else match rest with [] => Some (Break n) | _ :: _ => None end
           | _ => None
           end
  | _ => None
  end.

Definition hmap := list (string * string).
(** config/headers.rs:11-23 *)
Definition hop_by_hop (n : string) : bool :=
  existsb (String.eqb n) ["connection"; "keep-alive"; "proxy-authenticate"; "proxy-authorization"; "te"; "trailer"; "transfer-encoding"; "upgrade"; "proxy-connection"; "host"; "content-length"].
Definition hmap_append (n v : string) (h : hmap) : hmap := h ++ [(n, v)].
Definition hmap_remove (n : string) (h : hmap) : hmap := filter (fun e => negb (String.eqb (fst e) n)) h.
(** [HttpResponseBuilder::set_header] puts the value in place of those there are *)
Definition hmap_set (n v : string) (h : hmap) : hmap := hmap_remove n h ++ [(n, v)].

Inductive failure :=
| ConditionEvaluation | SendFailed | UnexpectedStatus (n : N) | Undecodable | UnsupportedVersion (n : N) | InvalidHeaderName | InvalidHeaderValue
| InvalidContext | ContextError (e : error) | InvalidStageBody | ForbiddenStageMutation.

(** on_graphql_params.rs: [GraphQLParams] *)
Record params := mkparams { p_query : option string; p_name : option string; p_variables : list (string * value); p_extensions : option (list (string * value)) }.
(** graphql.rs:509-520 *)
Record gbody := mkgbody { g_query : option string; g_name : option string; g_variables : option (list (string * value)); g_extensions : option (list (string * value)) }.
(** stage.rs:167-180; the version as it was read *)
Record payload := mkpayload { y_version : N; y_control : control; y_headers : option (list (string * list string)); y_body : option string; y_context : option string }.
Inductive stage := RouterRequest | RouterResponse | GraphqlRequest | GraphqlAnalysis | GraphqlResponse.
(** The message a stage works on: its headers, its body if it has one, the parameters of the GraphQL request *)
Record message := mkmessage { m_headers : hmap; m_body : option string; m_params : params }.
Record response := mkresponse { r_status : N; r_headers : hmap; r_body : option string }.
Record performed := mkperformed { d_body : bool; d_headers : bool; d_context : bool }.
Inductive outcome := Continued (d : performed) | Broke (r : response) | Failed (f : failure).

Section Stage.
  (** [HeaderName::from_str], which lowers the case; [HeaderValue::from_str]; the readers of a patch and of a GraphQL body; [str::trim] being empty *)
  Variable header_name : string -> option string.
  Variable header_value : string -> bool.
  Variable read_patch : string -> option (list (string * value)).
  Variable read_gbody : string -> option gbody.
  Variable blank : string -> bool.

  (** stage.rs:137-164 *)
  Fixpoint put_values (f : string -> string -> hmap -> hmap) (n : string) (vs : list string) (h : hmap) : hmap * option failure :=
    match vs with
    | [] => (h, None)
    | v :: vs' => if header_value v then put_values f n vs' (f n v h) else (h, Some InvalidHeaderValue)
    end.
  Fixpoint for_each (f : string -> string -> hmap -> hmap) (l : list (string * list string)) (h : hmap) : hmap * option failure :=
    match l with
    | [] => (h, None)
    | (k, vs) :: l' =>
        match header_name k with
        | None => (h, Some InvalidHeaderName)
        | Some n =>
            if hop_by_hop n then for_each f l' h
            else let '(h', e) := put_values f n vs h in match e with None => for_each f l' h' | Some _ => (h', e) end
        end
    end.
  (** stage.rs:113-135 *)
  Definition replace_into (l : list (string * list string)) (h : hmap) : hmap * option failure :=
    for_each hmap_append l (fold_left (fun h n => hmap_remove n h) (filter (fun n => negb (hop_by_hop n)) (map fst h)) h).
  Definition apply_to_response (l : list (string * list string)) : hmap * option failure := for_each hmap_set l [].

  (** stage.rs:73-99 *)
  Definition break_output (p : payload) : option (response + failure) :=
    match y_control p with
    | Continue => None
    | Break n =>
        let '(h, e) := match y_headers p with Some l => apply_to_response l | None => ([], None) end in
        match e with Some f => Some (inr f) | None => Some (inl (mkresponse n h (y_body p))) end
    end.
  (** graphql.rs:448-486 *)
  Definition over {A} (a : option A) (b : option A) : option A := match a with Some _ => a | None => b end.
  Definition apply_gbody (g : gbody) (p : params) : params + failure :=
    match g_query g with
    | Some q => if blank q then inr InvalidStageBody else
        inl (mkparams (Some q) (over (g_name g) (p_name p)) (match g_variables g with Some v => v | None => p_variables p end) (over (g_extensions g) (p_extensions p)))
    | None => inl (mkparams (p_query p) (over (g_name g) (p_name p)) (match g_variables g with Some v => v | None => p_variables p end) (over (g_extensions g) (p_extensions p)))
    end.
  Definition set_headers (h : hmap) (m : message) : message := mkmessage h (m_body m) (m_params m).
  (** router.rs:162-186, 264-290; graphql.rs:209-227, 287-309, 392-413: an empty text leaves no body at the stages of the router *)
  Definition mutate_body (s : stage) (b : string) (m : message) : message * option failure :=
    match s with
    | RouterRequest | RouterResponse => (mkmessage (m_headers m) (if String.eqb b "" then None else Some b) (m_params m), None)
    | GraphqlResponse => (mkmessage (m_headers m) (Some b) (m_params m), None)
    | GraphqlAnalysis => (m, Some ForbiddenStageMutation)
    | GraphqlRequest =>
        match read_gbody b with
        | None => (m, Some Undecodable)
        | Some g => match apply_gbody g (m_params m) with inl p => (mkmessage (m_headers m) (m_body m) p, None) | inr f => (m, Some f) end
        end
    end.
  Definition apply_mutations (s : stage) (p : payload) (m : message) : message * option failure :=
    let '(m1, e) := match y_headers p with Some l => let '(h, e) := replace_into l (m_headers m) in (set_headers h m, e) | None => (m, None) end in
    match e with
    | Some _ => (m1, e)
    | None => match y_body p with Some b => mutate_body s b m1 | None => (m1, None) end
    end.

  (** What came of the call: nothing, a status and a body that is read as a payload or not *)
  Inductive answer := NoAnswer | Answer (status : N) (p : option payload).
  Definition success (n : N) : bool := (200 <=? n)%N && (n <? 300)%N.
  Definition is_some {A} (o : option A) : bool := match o with Some _ => true | None => false end.
  (** runtime.rs:87-185; [runs] is the value of the condition *)
  Definition execute (s : stage) (runs : option bool) (a : answer) (m : message) (c : context) : message * context * outcome :=
    match runs with
    | None => (m, c, Failed ConditionEvaluation)
    | Some false => (m, c, Continued (mkperformed false false false))
    | Some true =>
        match a with
        | NoAnswer => (m, c, Failed SendFailed)
        | Answer n p =>
            if negb (success n) then (m, c, Failed (UnexpectedStatus n))
            else match p with
                 | None => (m, c, Failed Undecodable)
                 | Some p =>
                     if negb (y_version p =? 1)%N then (m, c, Failed (UnsupportedVersion (y_version p)))
                     else match break_output p with
                          | Some (inl r) => (m, c, Broke r)
                          | Some (inr f) => (m, c, Failed f)
                          | None =>
                              let '(c', e) := match y_context p with
                                              | None => (c, None)
                                              | Some t => match read_patch t with
                                                          | None => (c, Some InvalidContext)
                                                          | Some l => let '(c', e) := apply_patch l c in (c', option_map ContextError e)
                                                          end
                                              end in
                              match e with
                              | Some f => (m, c', Failed f)
                              | None =>
                                  let '(m', e) := apply_mutations s p m in
                                  match e with
                                  | Some f => (m', c', Failed f)
                                  | None => (m', c', Continued (mkperformed (is_some (y_body p)) (is_some (y_headers p)) (is_some (y_context p))))
                                  end
                              end
                          end
                 end
        end
    end.

  (** stage.rs:272-318: a header is sent with its values that are text, [text] is [HeaderValue::to_str] *)
  Variable text : string -> bool.
  Fixpoint group (n v : string) (l : list (string * list string)) : list (string * list string) :=
    match l with [] => [(n, [v])] | (k, vs) :: l' => if String.eqb k n then (k, vs ++ [v]) :: l' else (k, vs) :: group n v l' end.
  Definition written_headers (h : hmap) : list (string * list string) :=
    fold_left (fun l e => if text (snd e) then group (fst e) (snd e) l else l) h [].
End Stage.
