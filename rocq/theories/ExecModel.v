(** Execution of a query plan.
    Models bin/router/src/executor/execution/plan.rs:717-723,827-868,870-899,903-1071,1079-1184,
    1601-1735 and the node types of query_planner/planner/plan_nodes.rs:34-44. *)
From Coq Require Import String List NArith Bool Arith Permutation.
From Verif Require Import StrOrd JsonModel MergeModel Ast TraverseModel RewriteModel ProjModel RequiresModel EntityModel.
Import ListNotations.
Local Open Scope list_scope.

(** [FetchNode], plan_nodes.rs:300-343: the parts the executor uses.  [f_id] stands for the
    operation text and its variables. *)
Record fetch := mkfetch {
  f_id : nat;
  f_service : string;
  f_requires : option (list sel);
  f_in : list rewrite;
  f_out : list rewrite }.
(** [BatchFetchNode] *)
Record batch := mkbatch { b_id : nat; b_service : string; b_aliases : list alias }.

(** [PlanNode]; [NOther] are the subscription and defer nodes, which are not executed here. *)
Inductive node :=
| NFetch (f : fetch)
| NBatch (b : batch)
| NFlatten (path : list fseg) (inner : node)
| NSequence (l : list node)
| NParallel (l : list node)
| NCondition (var : string) (i e : option node)
| NOther.

(** What a request carries besides the fixed operation: the raw variable values. *)
Inductive job_kind :=
| KFetch (f : fetch) (at_ : option (list fseg))
| KFlatten (f : fetch) (path : list fseg) (j : job)
| KBatch (b : batch) (vars : list (string * string)) (sts : list astate).

(** The outcome of a request: an error raised on the way (already converted into a GraphQL
    error), or a response; a response with a bad status carries one error more (plan.rs:1601-1703).
    [pre] are the errors of propagating the response headers, reported first (1086-1104, 1121-1136). *)
Inductive outcome := OErr (pre : list gerror) (e : gerror) | OOk (pre : list gerror) (r : response).

(** [ExecutionContext]: the data and the errors.  Headers and extensions are aggregated
    separately (C20, C21, C35). *)
Record ectx := mkctx { c_data : value; c_errors : list gerror }.

Inductive prep := PPanic | PNone | PJob (k : job_kind).

Section X.
  Variable ryu : N -> string.
  Variable pt : ptypes.
  Variable xxh : list N -> N.
  (** the printed form of a path, for [affected_path] *)
  Variable show : list fseg -> string.
  (** [variable_values] *)
  Variable vars : option (list (string * value)).

  (** [condition_node_by_variables], plan.rs:1706-1719 *)
  Definition condition_branch (var : string) (i e : option node) : option node :=
    match vars with
    | None => None
    | Some vs =>
        match get var vs with
        | None => None
        | Some (VBool true) => i
        | Some _ => e
        end
    end.

  Definition prepare_leaf (n : node) (data : value) : prep :=
    match n with
    | NFetch f => PJob (KFetch f None)
    | NBatch b =>
        match prepare_batch ryu pt xxh (b_aliases b) data [] with
        | None => PPanic
        | Some (vs, sts) =>
            if forallb (fun s => is_nil (as_index s)) sts then PNone else PJob (KBatch b vs sts)
        end
    | NFlatten p (NFetch f) =>
        match f_requires f with
        | None => PJob (KFetch f (Some p))
        | Some sels =>
            match prepare_flatten ryu pt xxh sels (f_in f) p data with
            | None => PPanic
            | Some None => PNone
            | Some (Some j) => PJob (KFlatten f p j)
            end
        end
    | _ => PNone
    end.
  (** [prepare_job_future], plan.rs:903-1071: conditions are followed, anything that is not a
      fetch yields nothing. *)
  Fixpoint prepare_job (n : node) (data : value) {struct n} : prep :=
    match n with
    | NCondition v i e =>
        match vars with
        | None => PNone
        | Some vs =>
            match get v vs with
            | None => PNone
            | Some (VBool true) => match i with Some n' => prepare_job n' data | None => PNone end
            | Some _ => match e with Some n' => prepare_job n' data | None => PNone end
            end
        end
    | _ => prepare_leaf n data
    end.
  Fixpoint prepare_all (l : list node) (data : value) : option (list job_kind) :=
    match l with
    | [] => Some []
    | n :: l' =>
        match prepare_job n data, prepare_all l' data with
        | PPanic, _ | _, None => None
        | PNone, Some ks => Some ks
        | PJob k, Some ks => Some (k :: ks)
        end
    end.

  (** [process_job_result], plan.rs:1079-1319; [None] is a panic of a rewrite. *)
  Definition process_job (k : job_kind) (o : outcome) (c : ectx) : option ectx :=
    match o with
    | OErr pre e => Some (mkctx (c_data c) (c_errors c ++ pre ++ [e]))
    | OOk pre r =>
        let done := fun d_es : value * list gerror =>
          mkctx (fst d_es) (c_errors c ++ pre ++ snd d_es) in
        match k with
        | KFetch f None =>
            match apply_rewrites pt (f_out f) (r_data r) with
            | None => None
            | Some d => Some (done (deep_merge (c_data c) d, handle_errors (f_service f) None (r_errors r) None))
            end
        | KFetch f (Some p) =>
            match apply_rewrites pt (f_out f) (r_data r) with
            | None => None
            | Some d =>
                let '(data', _) := visit_mut unit (fun t _ s => (deep_merge t d, s)) pt p (c_data c) None tt in
                Some (done (data', handle_errors (f_service f) (Some (show p)) (r_errors r) None))
            end
        | KFlatten f p j =>
            match process_flatten pt (f_service f) (show p) p j (f_out f) r (c_data c) with
            | None => None
            | Some x => Some (done x)
            end
        | KBatch b _ sts =>
            match process_batch pt (b_service b) show sts r (c_data c) with
            | None => None
            | Some x => Some (done x)
            end
        end
    end.

  (** The subgraphs' behaviour: what comes back for a request. *)
  Variable answer : job_kind -> outcome.

  Fixpoint process_all (ks : list job_kind) (c : ectx) : option ectx :=
    match ks with
    | [] => Some c
    | k :: ks' => match process_job k (answer k) c with
                  | Some c' => process_all ks' c'
                  | None => None
                  end
    end.

  (** What is observed from outside. *)
  Inductive event := Sent (k : job_kind) | Done (k : job_kind).

  (** [execute_plan_node], plan.rs:828-868, as a relation: the answers of the requests of a
      parallel node arrive in any order. *)
  Inductive run : node -> ectx -> list event -> ectx -> Prop :=
  | run_parallel l c ks ks' c' :
      prepare_all l (c_data c) = Some ks -> Permutation ks ks' -> process_all ks' c = Some c' ->
      run (NParallel l) c (map Sent ks ++ map Done ks') c'
  | run_sequence l c tr c' : run_list l c tr c' -> run (NSequence l) c tr c'
  | run_branch v i e n c tr c' : condition_branch v i e = Some n -> run n c tr c' -> run (NCondition v i e) c tr c'
  | run_no_branch v i e c : condition_branch v i e = None -> run (NCondition v i e) c [] c
  | run_leaf n c k c' :
      match n with NParallel _ | NSequence _ | NCondition _ _ _ => False | _ => True end ->
      prepare_job n (c_data c) = PJob k -> process_job k (answer k) c = Some c' ->
      run n c [Sent k; Done k] c'
  | run_idle n c :
      match n with NParallel _ | NSequence _ | NCondition _ _ _ => False | _ => True end ->
      prepare_job n (c_data c) = PNone -> run n c [] c
  with run_list : list node -> ectx -> list event -> ectx -> Prop :=
  | run_nil c : run_list [] c [] c
  | run_cons n l c tr1 c1 tr2 c2 :
      run n c tr1 c1 -> run_list l c1 tr2 c2 -> run_list (n :: l) c (tr1 ++ tr2) c2.
End X.
