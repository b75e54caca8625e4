(** Entity fetches: building representations, placing results, relocating errors, batches.
    Models bin/router/src/executor/execution/plan.rs:742-760,899-1071,1185-1319,1325-1599,
    execution_context.rs:46-73 and response/graphql_error.rs:66-330. *)
From Coq Require Import String Ascii List NArith ZArith Bool Arith.
From Verif Require Import StrOrd StrUtil JsonModel JsonWriterModel MergeModel Ast TraverseModel RewriteModel
  ProjModel RequiresModel.
Import ListNotations.
Local Open Scope string_scope.

(** ** Errors *)
(** [GraphQLError] with its extensions, graphql_error.rs:9-19, 300-312.  Locations and the
    remaining extensions are carried along unchanged. *)
Record gerror := mkerr {
  e_message : string;
  e_locations : list (N * N);
  e_path : option (list eseg);
  e_code : option string;
  e_service : option string;
  e_affected : option string;
  e_ext : list (string * value) }.

(** graphql_error.rs:205-213 *)
Definition add_subgraph_name (name : string) (e : gerror) : gerror :=
  mkerr (e_message e) (e_locations e) (e_path e)
    (match e_code e with Some c => Some c | None => Some "DOWNSTREAM_SERVICE_ERROR" end)
    (match e_service e with Some s => Some s | None => Some name end)
    (e_affected e) (e_ext e).
(** graphql_error.rs:230-233 *)
Definition add_affected_path (p : string) (e : gerror) : gerror :=
  mkerr (e_message e) (e_locations e) (e_path e) (e_code e) (e_service e) (Some p) (e_ext e).
Definition with_path (p : option (list eseg)) (e : gerror) : gerror :=
  mkerr (e_message e) (e_locations e) p (e_code e) (e_service e) (e_affected e) (e_ext e).

(** [entity_index_and_path], graphql_error.rs:282-296 *)
Definition entity_index_and_path (e : gerror) : option (nat * list eseg) :=
  match e_path e with
  | Some (EStr s :: EIdx i :: rest) => if String.eqb s "_entities" then Some (i, rest) else None
  | _ => None
  end.

(** [HashMap<&usize, Vec<GraphQLErrorPath>>] *)
Definition emap := list (nat * list (list eseg)).
Fixpoint eget (i : nat) (m : emap) : option (list (list eseg)) :=
  match m with
  | [] => None
  | (j, ps) :: m' => if Nat.eqb i j then Some ps else eget i m'
  end.
(** [.entry(i).or_insert_with(Vec::new).push(p)] *)
Fixpoint epush (i : nat) (p : list eseg) (m : emap) : emap :=
  match m with
  | [] => [(i, [p])]
  | (j, ps) :: m' => if Nat.eqb i j then (j, (ps ++ [p])%list) :: m' else (j, ps) :: epush i p m'
  end.

(** [normalize_entity_error], graphql_error.rs:97-119 *)
Definition normalize_entity_error (m : emap) (e : gerror) : list gerror :=
  match entity_index_and_path e with
  | Some (i, rest) =>
      match eget i m with
      | Some paths => map (fun p => with_path (Some (p ++ rest)%list) e) paths
      | None => [e]
      end
  | None => [e]
  end.

(** [handle_errors], execution_context.rs:46-73: what is appended to [ctx.errors] *)
Definition handle_errors (name : string) (affected : option string) (errors : option (list gerror))
  (m : option emap) : list gerror :=
  match errors with
  | None => []
  | Some es =>
      flat_map (fun e =>
        let e := add_subgraph_name name e in
        let e := match affected with Some p => add_affected_path p e | None => e end in
        match m with Some m => normalize_entity_error m e | None => [e] end) es
  end.

(** ** Building the representations *)
Section E.
  Variable ryu : N -> string.
  Variable pt : ptypes.
  (** Xxh3 over the bytes fed to the hasher *)
  Variable xxh : list N -> N.

  (** [representation_hashes], [representation_hash_to_index], [index], [filtered_representations] *)
  Record pstate := mkps {
    ps_hashes : list (option N);
    ps_index : list (N * nat);
    ps_count : nat;
    ps_buf : string }.

  Fixpoint nget (h : N) (l : list (N * nat)) : option nat :=
    match l with
    | [] => None
    | (h', i) :: l' => if N.eqb h h' then Some i else nget h l'
    end.

  (** The callback of [traverse_and_callback], plan.rs:989-1027 and 1527-1564.  [None] is a
      panic (a fragment spread in the requirement, or a rename with an empty path). *)
  Definition add_entity (sels : list sel) (rws : list rewrite) (e : value) (s : pstate) : option pstate :=
    if is_null e then Some (mkps (ps_hashes s ++ [None]) (ps_index s) (ps_count s) (ps_buf s))
    else
      match hash_with pt sels e with
      | None => None
      | Some bytes =>
          let h := xxh bytes in
          let hashes := (ps_hashes s ++ [Some h])%list in
          match nget h (ps_index s) with
          | Some _ => Some (mkps hashes (ps_index s) (ps_count s) (ps_buf s))
          | None =>
              match apply_rewrites pt rws e with
              | None => None
              | Some e' =>
                  let '(projected, buf) := project_requires ryu pt sels e' (ps_buf s) (is_nil (ps_index s)) None in
                  if projected
                  then Some (mkps hashes (ps_index s ++ [(h, ps_count s)]) (S (ps_count s)) buf)
                  else Some (mkps hashes (ps_index s) (ps_count s) buf)
              end
          end
      end.
  Fixpoint add_entities (sels : list sel) (rws : list rewrite) (es : list value) (s : pstate) : option pstate :=
    match es with
    | [] => Some s
    | e :: es' => match add_entity sels rws e s with
                  | Some s' => add_entities sels rws es' s'
                  | None => None
                  end
    end.

  (** What a flatten fetch remembers while the request is in flight, plan.rs:725-733 *)
  Record job := mkjob {
    j_text : string;                  (* the value of [$representations] *)
    j_hashes : list (option N);
    j_index : list (N * nat) }.
  (** plan.rs:976-1034; [Some None]: there is nothing to fetch. *)
  Definition prepare_flatten (sels : list sel) (rws : list rewrite) (p : list fseg) (data : value)
    : option (option job) :=
    match add_entities sels rws (visit pt p data) (mkps [] [] 0 "[") with
    | None => None
    | Some s =>
        if is_nil (ps_index s) then Some None
        else Some (Some (mkjob (ps_buf s ++ "]") (ps_hashes s) (ps_index s)))
    end.

  (** ** Placing the results *)
  (** The callback of [traverse_and_callback_mut], plan.rs:1221-1249 and 1452-1480.  The state is
      ([index], [entity_index_error_map]); error paths are passed only when the map exists. *)
  Definition place (hashes : list (option N)) (index : list (N * nat)) (entities : list value)
    (target : value) (ep : option (list eseg)) (st : nat * emap) : value * (nat * emap) :=
    let '(i, m) := st in
    match nth_error hashes i with
    | Some (Some h) =>
        match nget h index with
        | Some j =>
            let m := match ep with Some p => epush j p m | None => m end in
            match nth_error entities j with
            | Some en => (deep_merge target en, (S i, m))
            | None => (target, (S i, m))
            end
        | None => (target, (S i, m))
        end
    | _ => (target, (S i, m))
    end.

  (** value.rs:54-70 (the removal of the member is not observable for one key) *)
  Definition take_entities_by_key (k : string) (data : value) : option (list value) :=
    match data with
    | VObj o => match get k o with Some (VArr l) => Some l | _ => None end
    | _ => None
    end.

  Record response := mkresp { r_data : value; r_errors : option (list gerror) }.

  (** [ExecutionJob::FlattenFetch], plan.rs:1185-1261: the new data and the errors appended.
      Rewriting runs rewrite by rewrite over all entities, which is the same as entity by
      entity.  [None] is the panic of an empty rename path. *)
  Definition process_flatten (name : string) (affected : string) (p : list fseg) (j : job)
    (out : list rewrite) (r : response) (data : value) : option (value * list gerror) :=
    match take_entities_by_key "_entities" (r_data r) with
    | Some ents =>
        match map_opt (apply_rewrites pt out) ents with
        | None => None
        | Some ents =>
            let e0 := match r_errors r with Some _ => Some [] | None => None end in
            let '(data', (_, m)) :=
              visit_mut (nat * emap) (place (j_hashes j) (j_index j) ents) pt p data e0 (0, []) in
            Some (data', handle_errors name (Some affected) (r_errors r)
                           (match r_errors r with Some _ => Some m | None => None end))
        end
    | None => Some (data, handle_errors name (Some affected) (r_errors r) None)
    end.

  (** ** Batches *)
  (** [EntityBatchAlias], plan_nodes.rs:345-355; [a_affected] is the printed path of the only
      merge path (plan.rs:1290-1294). *)
  Record alias := mkalias {
    a_alias : string;
    a_var : string;
    a_paths : list (list fseg);
    a_requires : list sel;
    a_in : list rewrite;
    a_out : list rewrite }.
  (** [AliasBatchState] *)
  Record astate := mkas {
    as_alias : alias;
    as_index : list (N * nat);
    as_paths : list (list fseg * list (option N)) }.

  Definition fseg_eqb (a b : fseg) : bool :=
    match a, b with
    | FList, FList => true
    | FField x, FField y => String.eqb x y
    | FTypes x, FTypes y =>
        (fix eqb (x y : list string) : bool :=
           match x, y with
           | [], [] => true
           | s :: x', t :: y' => String.eqb s t && eqb x' y'
           | _, _ => false
           end) x y
    | _, _ => false
    end.
  Fixpoint path_eqb (p q : list fseg) : bool :=
    match p, q with
    | [], [] => true
    | a :: p', b :: q' => fseg_eqb a b && path_eqb p' q'
    | _, _ => false
    end.

  (** [path_groups], plan.rs:1512-1522: the distinct paths in order of first occurrence *)
  Fixpoint groups (ps : list (list fseg)) (seen : list (list fseg)) : list (list fseg) :=
    match ps with
    | [] => []
    | p :: ps' => if existsb (path_eqb p) seen then groups ps' seen else p :: groups ps' (p :: seen)
    end.
  Fixpoint pget (p : list fseg) (l : list (list fseg * list (option N))) : list (option N) :=
    match l with
    | [] => []
    | (q, h) :: l' => if path_eqb p q then h else pget p l'
    end.
  (** plan.rs:1524-1571: one walk per group; the hash table and the buffer are shared. *)
  Fixpoint walk_groups (sels : list sel) (rws : list rewrite) (gs : list (list fseg)) (data : value)
    (s : pstate) : option (list (list fseg * list (option N)) * pstate) :=
    match gs with
    | [] => Some ([], s)
    | p :: gs' =>
        match add_entities sels rws (visit pt p data) (mkps [] (ps_index s) (ps_count s) (ps_buf s)) with
        | None => None
        | Some s' =>
            match walk_groups sels rws gs' data s' with
            | Some (r, s2) => Some ((p, ps_hashes s') :: r, s2)
            | None => None
            end
        end
    end.
  (** one turn of the loop plan.rs:1503-1596: the alias state and its representations *)
  Definition prepare_alias (a : alias) (data : value) : option (astate * string) :=
    match walk_groups (a_requires a) (a_in a) (groups (a_paths a) []) data (mkps [] [] 0 "[") with
    | None => None
    | Some (hs, s) =>
        Some (mkas a (ps_index s) (map (fun p => (p, pget p hs)) (a_paths a)), ps_buf s ++ "]")
    end.
  (** [raw_variable_values]: the first alias of a variable name sets it *)
  Fixpoint prepare_batch (al : list alias) (data : value) (vars : list (string * string))
    : option (list (string * string) * list astate) :=
    match al with
    | [] => Some (vars, [])
    | a :: al' =>
        match prepare_alias a data with
        | None => None
        | Some (st, text) =>
            let vars := match get (a_var a) vars with
                        | Some _ => vars
                        | None => (vars ++ [(a_var a, text)])%list
                        end in
            match prepare_batch al' data vars with
            | Some (vs, sts) => Some (vs, st :: sts)
            | None => None
            end
        end
    end.

  (** the alias an error belongs to, plan.rs:1333-1365: a map filled in order, so the last
      alias of a name wins *)
  Fixpoint alias_index (n : string) (al : list astate) (i : nat) (found : option nat) : option nat :=
    match al with
    | [] => found
    | a :: al' => alias_index n al' (S i) (if String.eqb n (a_alias (as_alias a)) then Some i else found)
    end.
  Definition error_alias (al : list astate) (e : gerror) : option nat :=
    match e_path e with
    | Some (EStr n :: _) => alias_index n al 0 None
    | _ => None
    end.
  (** plan.rs:1367-1377 *)
  Definition to_entities_path (e : gerror) : gerror :=
    match e_path e with
    | Some (EStr _ :: rest) => with_path (Some (EStr "_entities" :: rest)) e
    | _ => e
    end.
  (** [partition_batch_errors_by_alias], plan.rs:1325-1389 *)
  Definition errors_of_alias (al : list astate) (i : nat) (es : list gerror) : list gerror :=
    map to_entities_path (filter (fun e => match error_alias al e with Some j => Nat.eqb i j | None => false end) es).
  Definition unmatched_errors (al : list astate) (es : list gerror) : list gerror :=
    filter (fun e => match error_alias al e with Some _ => false | None => true end) es.

  (** [collect_batched_entities_by_alias], plan.rs:1391-1410: the array is taken out, so a second
      alias of the same name would find nothing. *)
  Fixpoint remove_key (k : string) (o : list (string * value)) : list (string * value) :=
    match o with
    | [] => []
    | (k', v) :: o' => if String.eqb k k' then o' else (k', v) :: remove_key k o'
    end.
  Fixpoint collect_entities (al : list astate) (data : value) : list (option (list value)) :=
    match al with
    | [] => []
    | a :: al' =>
        take_entities_by_key (a_alias (as_alias a)) data ::
        collect_entities al' (match data with VObj o => VObj (remove_key (a_alias (as_alias a)) o) | _ => data end)
    end.

  (** the loop over merge paths, plan.rs:1439-1482 *)
  Fixpoint place_paths (index : list (N * nat)) (entities : list value)
    (ps : list (list fseg * list (option N))) (e0 : option (list eseg)) (data : value) (m : emap) : value * emap :=
    match ps with
    | [] => (data, m)
    | (p, hashes) :: ps' =>
        let '(data', (_, m')) := visit_mut (nat * emap) (place hashes index entities) pt p data e0 (0, m) in
        place_paths index entities ps' e0 data' m'
    end.
  (** [merge_batch_alias_entities], plan.rs:1413-1485 *)
  Definition merge_alias (a : astate) (entities : option (list value)) (has_errors : bool) (data : value)
    : option (value * option emap) :=
    match entities with
    | None => Some (data, if has_errors then Some [] else None)
    | Some ents =>
        match map_opt (apply_rewrites pt (a_out (as_alias a))) ents with
        | None => None
        | Some ents =>
            if is_nil (as_index a) then Some (data, if has_errors then Some [] else None)
            else
              let '(data', m) := place_paths (as_index a) ents (as_paths a)
                                   (if has_errors then Some [] else None) data [] in
              Some (data', if has_errors then Some m else None)
        end
    end.

  (** plan.rs:1278-1303; [i] is the position of the first alias of the list in the batch. *)
  Fixpoint merge_aliases (name : string) (affected : list fseg -> string) (all : list astate) (es : list gerror)
    (al : list (astate * option (list value))) (i : nat) (data : value) : option (value * list gerror) :=
    match al with
    | [] => Some (data, [])
    | (a, ents) :: al' =>
        let mine := errors_of_alias all i es in
        let alias_errors := if is_nil mine then None else Some mine in
        match merge_alias a ents (negb (is_nil mine)) data with
        | None => None
        | Some (data', m) =>
            let aff := match as_paths a with [(p, _)] => Some (affected p) | _ => None end in
            match merge_aliases name affected all es al' (S i) data' with
            | Some (d, errs) => Some (d, (handle_errors name aff alias_errors m ++ errs)%list)
            | None => None
            end
        end
    end.
  (** [ExecutionJob::BatchFetch], plan.rs:1262-1315 *)
  Definition process_batch (name : string) (affected : list fseg -> string) (al : list astate)
    (r : response) (data : value) : option (value * list gerror) :=
    let es := match r_errors r with Some es => es | None => [] end in
    match merge_aliases name affected al es (combine al (collect_entities al (r_data r))) 0 data with
    | None => None
    | Some (d, errs) =>
        Some (d, (errs ++ handle_errors name None (Some (unmatched_errors al es)) None)%list)
    end.
End E.
