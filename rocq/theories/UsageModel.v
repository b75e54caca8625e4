(** The usage agent: what is reported to the console about executed operations.
    Models lib/hive-console-sdk/src/agent/{buffer.rs,usage_agent.rs:85-370,470-500}, lib/hive-console-sdk/src/helpers.rs:6-82
    and lib/hive-console-sdk/src/agent/utils.rs:797-830. *)
From Coq Require Import String List NArith ZArith Bool Arith.
Import ListNotations.
Local Open Scope string_scope.
Local Open Scope list_scope.

(** [FifoSet], helpers.rs:35-82: a ring of values and the set of the same values *)
Record fifo := mkfifo { order : list N; seen : list N; next_evict : nat; capacity : nat }.
Definition fifo_new (c : nat) : fifo := mkfifo [] [] 0 c.
Definition nmem (v : N) (l : list N) : bool := existsb (N.eqb v) l.
Definition nremove (v : N) (l : list N) : list N := filter (fun x => negb (N.eqb v x)) l.
Fixpoint set_at (i : nat) (v : N) (l : list N) : list N :=
  match l, i with [], _ => [] | _ :: l', O => v :: l' | x :: l', S i' => x :: set_at i' v l' end.
(** helpers.rs:62-81 *)
Definition fifo_insert (s : fifo) (v : N) : bool * fifo :=
  if nmem v (seen s) then (false, s)
  else let '(o, sn) := if Nat.eqb (length (seen s)) (capacity s)
                       then (set_at (next_evict s) v (order s), nremove (nth (next_evict s) (order s) 0%N) (seen s))
                       else (order s ++ [v], seen s) in
       (true, mkfifo o (v :: sn) (Nat.modulo (next_evict s + 1) (capacity s)) (capacity s)).

(** [ExecutionReport], usage_agent.rs:38-51; schemas are named *)
Inductive kind := Query | Mutation | Subscription.
Record exec := mkexec { x_schema : string; x_client : option string; x_version : option string; x_time : N; x_nanos : N; x_ok : bool;
  x_errors : N; x_body : string; x_name : option string; x_kind : option kind; x_document : option string }.
Record processed := mkproc { p_operation : string; p_hash : string; p_coordinates : list string }.
(** The types of the report, usage-report-v2.schema.json *)
Record entry := mkentry { e_key : string; e_time : N; e_ok : bool; e_nanos : N; e_errors : N; e_document : option string; e_client : option (string * string) }.
Record info := mkinfo { i_operation : string; i_name : option string; i_fields : list string }.
Record report := mkreport { r_size : N; r_map : list (string * info); r_entries : list entry }.

(** usage_agent.rs:85-87 *)
Definition non_empty (s : option string) : option string := match s with Some "" => None | _ => s end.
Definition or_empty (s : option string) : string := match s with Some x => x | None => "" end.
Definition u64_max : N := 18446744073709551615%N.
Definition entry_of (p : processed) (x : exec) : entry :=
  mkentry (p_hash p) (x_time x) (x_ok x) (if (x_nanos x <=? u64_max)%N then x_nanos x else u64_max) (x_errors x) (x_document x)
    (match non_empty (x_client x), non_empty (x_version x) with
     | None, None => None
     | c, v => Some (or_empty c, or_empty v)
     end).
Fixpoint get {A} (k : string) (l : list (string * A)) : option A :=
  match l with [] => None | (k', a) :: l' => if String.eqb k k' then Some a else get k l' end.
Definition add_op (p : processed) (x : exec) (r : report) : report :=
  mkreport (r_size r + 1)
    (match get (p_hash p) (r_map r) with
     | Some _ => r_map r
     | None => r_map r ++ [(p_hash p, mkinfo (p_operation p) (non_empty (x_name x)) (p_coordinates p))]
     end)
    (r_entries r ++ [entry_of p x]).

Inductive result (A : Type) := Ok (a : A) | Err (e : string).
Arguments Ok {A}. Arguments Err {A}.
(** What moka evicts before the key is looked for, and between finding and reading it *)
Definition evictions : Type := list string * list string.
Definition cache : Type := list (string * option processed).
Definition evict (ks : list string) (c : cache) : cache := filter (fun x => negb (existsb (String.eqb (fst x)) ks)) c.

(** [AgentError], as far as [send_report] tells *)
Inductive trouble := Unauthorized | Forbidden | RateLimited | BreakerOpen | Unknown (e : string) | NotABoolean (e : string).
(** What becomes of a request: the circuit breaker refuses it, it fails, or it has a status *)
Inductive net := Rejected | Unreachable (e : string) | Status (code : N) (body : string).
Inductive outcome := Fine | Trouble (t : trouble) | Panic.
(** usage_agent.rs:278-303 *)
Definition send (n : net) : outcome :=
  match n with
  | Rejected => Trouble BreakerOpen
  | Unreachable e => Trouble (Unknown e)
  | Status 200 _ => Fine
  | Status 401 _ => Trouble Unauthorized
  | Status 403 _ => Trouble Forbidden
  | Status 429 _ => Trouble RateLimited
  | Status _ b => Trouble (Unknown b)
  end.

(** [Exclude] and [SamplingKey], usage_agent.rs:69-84 *)
Inductive exclude := Names (l : list string) | Expression.
Inductive sampling_key := ByName | ByType | ByBody.
Record config := mkconfig { c_size : nat; c_exclude : option exclude; c_rate : Z; (* in millionths *) c_once : option (list sampling_key * nat) }.
Definition key_value (x : exec) (k : sampling_key) : string :=
  match k with
  | ByName => match x_name x with Some n => n | None => "anonymous" end
  | ByType => match x_kind x with None | Some Query => "query" | Some Mutation => "mutation" | Some Subscription => "subscription" end
  | ByBody => x_body x
  end.

(** What became of the reports taken from the buffer at once *)
Inductive fate := Posted (r : report) (n : net) | Nothing (r : report) | Crashed.
Record agent := mkagent { a_buffer : list exec; a_once : option fifo; a_cache : cache; a_log : list (list exec * fate) }.
Definition agent_new (c : config) : agent :=
  mkagent [] (match c_once c with Some (_, n) => Some (fifo_new (Nat.max n 1)) | None => None end) [] [].
Inductive action :=
| Add (x : exec) (expression : result bool) (coin : bool) (ev : list evictions) (n : net)
| Flush (ev : list evictions) (n : net).

Section Agent.
  (** [OperationProcessor::transform] on a body and a schema, and the hash of the values of a key *)
  Variable transform : string -> string -> result (option processed).
  Variable hash : list string -> N.

  (** utils.rs:814-830; [None] is the panic of [expect] *)
  Definition process (c : cache) (e : evictions) (body schema : string) : option (result (option processed) * cache) :=
    let c1 := evict (fst e) c in
    match get body c1 with
    | Some _ =>
        let c2 := evict (snd e) c1 in
        match get body c2 with Some r => Some (Ok r, c2) | None => None end
    | None =>
        match transform body schema with
        | Ok r => Some (Ok r, (body, r) :: c1)
        | Err m => Some (Err m, c1)
        end
    end.
  (** usage_agent.rs:184-276 *)
  Fixpoint produce (c : cache) (ev : list evictions) (l : list exec) (r : report) : option (report * cache) :=
    match l with
    | [] => Some (r, c)
    | x :: l' =>
        match process c (hd ([], []) ev) (x_body x) (x_schema x) with
        | None => None
        | Some (Ok (Some p), c') => produce c' (tl ev) l' (add_op p x r)
        | Some (_, c') => produce c' (tl ev) l' r
        end
    end.
  Definition empty_report : report := mkreport 0 [] [].
  (** usage_agent.rs:305-311; a panic leaves the cache as it was when the panic came, which nobody can tell *)
  Definition handle (a : agent) (drained : list exec) (ev : list evictions) (n : net) : agent * outcome :=
    match drained with
    | [] => (a, Fine)
    | _ =>
        match produce (a_cache a) ev drained empty_report with
        | None => (mkagent (a_buffer a) (a_once a) (a_cache a) (a_log a ++ [(drained, Crashed)]), Panic)
        | Some (r, c') =>
            if (r_size r =? 0)%N then (mkagent (a_buffer a) (a_once a) c' (a_log a ++ [(drained, Nothing r)]), Fine)
            else (mkagent (a_buffer a) (a_once a) c' (a_log a ++ [(drained, Posted r n)]), send n)
        end
    end.
  (** usage_agent.rs:322-345 *)
  Definition should_exclude (c : config) (x : exec) (expression : result bool) : result bool :=
    match c_exclude c with
    | None => Ok false
    | Some (Names l) => Ok (match x_name x with Some n => existsb (fun m => String.eqb m n) l | None => false end)
    | Some Expression => expression
    end.
  (** usage_agent.rs:164-182 *)
  Definition should_sample (c : config) (s : option fifo) (x : exec) (coin : bool) : bool * option fifo :=
    let '(first, s') := match s, c_once c with
                        | Some f, Some (ks, _) => let '(b, f') := fifo_insert f (hash (map (key_value x) ks)) in (b, Some f')
                        | _, _ => (false, s)
                        end in
    (if first then true else if (1000000 <=? c_rate c)%Z then true else if (c_rate c <=? 0)%Z then false else coin, s').
  (** buffer.rs:24-33 *)
  Definition buffer_add (size : nat) (b : list exec) (x : exec) : list exec * option (list exec) :=
    if Nat.leb size (length b) then ([], Some (b ++ [x])) else (b ++ [x], None).
  (** usage_agent.rs:385-425 and 313-319 *)
  Definition act (c : config) (a : agent) (m : action) : agent * outcome :=
    match m with
    | Add x expression coin ev n =>
        match should_exclude c x expression with
        | Err e => (a, Trouble (NotABoolean e))
        | Ok true => (a, Fine)
        | Ok false =>
            let '(b, s') := should_sample c (a_once a) x coin in
            if b then
              let '(buf, drained) := buffer_add (c_size c) (a_buffer a) x in
              let a' := mkagent buf s' (a_cache a) (a_log a) in
              match drained with Some d => handle a' d ev n | None => (a', Fine) end
            else (mkagent (a_buffer a) s' (a_cache a) (a_log a), Fine)
        end
    | Flush ev n => handle (mkagent [] (a_once a) (a_cache a) (a_log a)) (a_buffer a) ev n
    end.
  Fixpoint acts (c : config) (a : agent) (l : list action) : agent :=
    match l with [] => a | m :: l' => acts c (fst (act c a m)) l' end.
End Agent.
