(** Demand control: the cost formula of a plan, its evaluation, and the two places that enforce it.
    Models pipeline/demand_control/formula.rs, pipeline/demand_control/runtime.rs,
    executor/execution/demand_control/mod.rs:40-50, 60-75, 665-680, executor/executors/map.rs:290-331, 562-593,
    pipeline/mod.rs:875-925 and state/supergraph_state.rs:995-1004, 1103-1129. *)
From Coq Require Import String List Bool NArith ZArith.
From Verif Require Import StrOrd Ast JsonModel MergeModel TraverseModel RewriteModel RequiresModel EntityModel
  ExecModel CondModel.
Import ListNotations.
Local Open Scope N_scope.
Local Open Scope string_scope.
Local Open Scope list_scope.

(** ** [u64] *)
Definition u64_max : N := 18446744073709551615.
Definition sat (n : N) : N := N.min u64_max n.
Definition sat_add (a b : N) : N := sat (a + b).
Definition sat_mul (a b : N) : N := sat (a * b).
(** [Iterator::sum] of [u64] in a release build *)
Definition wrap_add (a b : N) : N := (a + b) mod (u64_max + 1).
Definition wrap_sum (l : list N) : N := fold_left wrap_add l 0.

(** ** The schema, as far as costs go *)
(** [ListSizeDirective], federation_spec/demand_control.rs:54-66; a path of a slicing argument has at
    least one segment (102-105). *)
Record list_size := mkls {
  ls_assumed : option N;
  ls_slicing : option (list (string * list string));
  ls_sized : option (list (list string));
  ls_require_one : bool }.
(** [SupergraphField], supergraph_state.rs:1058-1068 *)
Record cfield := mkcf {
  cf_type : tnode;
  cf_cost : option N;
  cf_list_size : option list_size;
  cf_arg_costs : list (string * N);
  cf_arg_types : list (string * tnode) }.
(** [SupergraphDefinition] *)
Inductive cdef :=
| DObject (cost : option N) (fields : list (string * cfield))
| DInterface (fields : list (string * cfield))
| DUnion
| DEnum (cost : option N)
| DScalar (cost : option N)
| DInput (fields : list (string * (option N * tnode))).
Definition cschema := list (string * cdef).

(** supergraph_state.rs:995-1004 *)
Definition def_fields (d : cdef) : list (string * cfield) :=
  match d with DObject _ fs | DInterface fs => fs | _ => [] end.
(** supergraph_state.rs:1108-1129 *)
Fixpoint unwrap_non_null (t : tnode) : tnode := match t with TNonNull t' => unwrap_non_null t' | _ => t end.
Fixpoint is_list (t : tnode) : bool := match t with TList _ => true | TNonNull t' => is_list t' | TNamed _ => false end.
Fixpoint inner_type (t : tnode) : string := match t with TList t' | TNonNull t' => inner_type t' | TNamed n => n end.

Definition or_zero (o : option N) : N := match o with Some n => n | None => 0 end.
(** demand_control/mod.rs:665-680 *)
Definition definition_cost (sc : cschema) (t : string) : N :=
  match get t sc with
  | None => 0
  | Some (DObject c _) => match c with Some w => w | None => 1 end
  | Some (DInterface _) | Some DUnion => 1
  | Some (DEnum c) | Some (DScalar c) => or_zero c
  | Some (DInput _) => 0
  end.
Definition field_def (sc : cschema) (parent name : string) : option cfield :=
  match get parent sc with Some d => get name (def_fields d) | None => None end.

(** ** Cost expressions: formula.rs:32-59 *)
Inductive cexpr :=
| EConst (n : N)
| EAdd (l : list cexpr)
| EMul (a b : cexpr)
| ECond (var : string) (t e : cexpr)
| EListSize (field : string) (args : list (gvalue * list string)) (require_one : bool) (default : N)
| EInput (v : gvalue) (t : tnode)
| EFuel.

(** formula.rs:62-84 *)
Fixpoint consts (l : list cexpr) (total : N) : N :=
  match l with
  | [] => total
  | EConst n :: l' => consts l' (sat_add total n)
  | _ :: l' => consts l' total
  end.
Definition is_const (e : cexpr) : bool := match e with EConst _ => true | _ => false end.
Definition add_nonzero (l : list cexpr) : cexpr :=
  let c := consts l 0 in
  match filter (fun e => negb (is_const e)) l ++ (if N.ltb 0 c then [EConst c] else []) with
  | [] => EConst 0
  | [e] => e
  | es => EAdd es
  end.
(** formula.rs:87-95 *)
Definition mul (a b : cexpr) : cexpr :=
  match a, b with
  | EConst 0, _ | _, EConst 0 => EConst 0
  | EConst 1, _ => b
  | _, EConst 1 => a
  | EConst m, EConst n => EConst (sat_mul m n)
  | _, _ => EMul a b
  end.

Section Compile.
Context (sc : cschema) (dsize : N).

(** formula.rs:767-777 *)
Fixpoint is_input_typed (t : tnode) : bool :=
  match t with
  | TNonNull t' | TList t' => is_input_typed t'
  | TNamed n => match get n sc with Some (DInput _) => true | _ => false end
  end.

(** formula.rs:625-642 *)
Definition apply_conditions (include_if skip_if : option string) (e : cexpr) : cexpr :=
  let e := match include_if with Some v => ECond v e (EConst 0) | None => e end in
  match skip_if with Some v => ECond v (EConst 0) e | None => e end.

(** formula.rs:644-682 *)
Definition slicing_values (paths : list (string * list string)) (args : list (string * gvalue)) : list (gvalue * list string) :=
  flat_map (fun p => match get (fst p) args with Some v => [(v, snd p)] | None => [] end) paths.
Definition size_expr (d : list_size) (name : string) (args : option (list (string * gvalue))) : cexpr :=
  match ls_assumed d with
  | Some n => EConst n
  | None =>
      match ls_slicing d with
      | None => EConst dsize
      | Some paths =>
          let vs := match args with Some a => slicing_values paths a | None => [] end in
          if negb (ls_require_one d) && match vs with [] => true | _ => false end then EConst dsize
          else EListSize name vs (ls_require_one d) dsize
      end
  end.

Definition overrides := list (list string * cexpr).
(** formula.rs:381-390 *)
Definition own_override (name : string) (ov : overrides) : option cexpr :=
  match find (fun p => match fst p with [x] => String.eqb x name | _ => false end) ov with
  | Some (_, e) => Some e
  | None => None
  end.
Definition child_overrides (name : string) (ov : overrides) : overrides :=
  flat_map (fun p => match fst p with
                     | x :: y :: r => if String.eqb x name then [(y :: r, snd p)] else []
                     | _ => []
                     end) ov.

(** formula.rs:483-501; [arguments.get_argument(key)] is the entry of the key at hand. *)
Definition base_cost (d : cfield) (args : option (list (string * gvalue))) : N :=
  match args with
  | Some a => fold_left (fun c kv => match get (fst kv) (cf_arg_costs d) with Some w => sat_add c w | None => c end)
                        a (or_zero (cf_cost d))
  | None => or_zero (cf_cost d)
  end.
Definition input_exprs (d : cfield) (args : option (list (string * gvalue))) : list cexpr :=
  match args with
  | Some a => flat_map (fun kv => match get (fst kv) (cf_arg_types d) with
                                  | Some t => if is_input_typed t then [EInput (snd kv) t] else []
                                  | None => []
                                  end) a
  | None => []
  end.
Definition nonzero (n : N) : list cexpr := if N.ltb 0 n then [EConst n] else [].
(** 546, 557: [matches!(e, Const(0))] *)
Definition unless_zero (e : cexpr) : list cexpr := match e with EConst 0 => [] | _ => [e] end.

(** formula.rs:488-562: [(base parts, overrides for the children, size, return type)] *)
Definition field_parts (parent name : string) (args : option (list (string * gvalue))) (own : option cexpr) (ov : overrides)
  : list cexpr * overrides * option cexpr * string :=
  match field_def sc parent name with
  | None => ([], ov, own, parent)
  | Some d =>
      let sized := match cf_list_size d with
                   | Some ls => match ls_sized ls with
                                | Some paths => (map (fun p => (p, size_expr ls name args)) paths, None)
                                | None => ([], if is_list (cf_type d) then Some (size_expr ls name args) else None)
                                end
                   | None => ([], None)
                   end in
      let size := match own with
                  | Some e => Some e
                  | None => match snd sized with
                            | Some e => Some e
                            | None => if is_list (cf_type d) then Some (EConst dsize) else None
                            end
                  end in
      (nonzero (base_cost d args) ++ input_exprs d args, ov ++ fst sized, size, inner_type (cf_type d))
  end.
Definition field_expr (base : list cexpr) (size : option cexpr) (type_cost : N) (children : cexpr) : cexpr :=
  match size with
  | Some s => add_nonzero [add_nonzero base; mul s (add_nonzero (nonzero type_cost ++ unless_zero children))]
  | None => add_nonzero (base ++ nonzero type_cost ++ unless_zero children)
  end.
(** formula.rs:578-623 *)
Definition entity_type_cost (sels : list sel) : N :=
  fold_left N.max (flat_map (fun s => match s with SFrag t _ _ _ => [definition_cost sc t] | _ => [] end) sels) 0.
Definition entities_expr (sels : list sel) (children : cexpr) : cexpr :=
  mul (EConst (N.max dsize 1)) (add_nonzero (nonzero (entity_type_cost sels) ++ unless_zero children)).

(** formula.rs:360-572.  [spread] is what a fragment spread contributes: nothing, or one expression. *)
Section Sels.
Context (spread : overrides -> string -> list cexpr).
Fixpoint sel_expr (parent : string) (ov : overrides) (s : sel) {struct s} : list cexpr :=
  match s with
  | SField name _ args inc skip _ sub =>
      if String.eqb name "__typename" then [apply_conditions inc skip (EConst 0)]
      else if String.eqb name "_entities"
      then [apply_conditions inc skip (entities_expr sub (add_nonzero (flat_map (sel_expr parent []) sub)))]
      else
        let '(base, ov', size, rt) := field_parts parent name args (own_override name ov) (child_overrides name ov) in
        [apply_conditions inc skip
           (field_expr base size (definition_cost sc rt) (add_nonzero (flat_map (sel_expr rt ov') sub)))]
  | SFrag t _ _ sub => [add_nonzero (flat_map (sel_expr t ov) sub)]
  | SSpread n => spread ov n
  end.
Definition set_expr (parent : string) (ov : overrides) (sels : list sel) : cexpr :=
  add_nonzero (flat_map (sel_expr parent ov) sels).
End Sels.

(** [FragmentDefinition]: name, type condition, selections; a later definition of a name replaces an
    earlier one (formula.rs:421-425). *)
Record frag := mkfrag { fr_name : string; fr_type : string; fr_sels : list sel }.
Definition frag_named (n : string) (frags : list frag) : option frag :=
  find (fun f => String.eqb (fr_name f) n) (rev frags).
(** formula.rs:417-443; the fuel bounds the nesting of fragments. *)
Fixpoint spread_expr (fuel : nat) (frags : list frag) (visited : list string) (ov : overrides) (n : string) : list cexpr :=
  match fuel with
  | O => [EFuel]
  | S fuel' =>
      if existsb (String.eqb n) visited then []
      else match frag_named n frags with
           | None => []
           | Some f => [set_expr (spread_expr fuel' frags (n :: visited)) (fr_type f) ov (fr_sels f)]
           end
  end.
(** formula.rs:325-358 *)
Definition operation_expr (kind : option opkind) (frags : list frag) (root : string) (sels : list sel) : cexpr :=
  let fields := set_expr (spread_expr (S (length frags)) frags []) root [] sels in
  match kind with
  | Some KMutation => add_nonzero [EConst 10; fields]
  | _ => fields
  end.
End Compile.

(** ** Evaluation *)
Inductive cost_error := BadSlicing (field : string) (found : nat) | OutOfFuel.
Inductive cres A := COk (a : A) | CErr (e : cost_error).
Arguments COk {A}. Arguments CErr {A}.
Definition cbind {A B} (r : cres A) (k : A -> cres B) : cres B := match r with COk a => k a | CErr e => CErr e end.

Section Eval.
Context (sc : cschema) (vars : option (list (string * value))).
Definition variable (n : string) : option value := match vars with Some vs => get n vs | None => None end.

(** formula.rs:830-862; sonic_rs [as_u64]/[as_i64] *)
Fixpoint json_integer (path : list string) (v : value) : option N :=
  match path with
  | k :: path' => match v with
                  | VObj o => match get k o with Some v' => json_integer path' v' | None => None end
                  | _ => None
                  end
  | [] => match v with
          | VU64 n => Some n
          | VI64 z => Some (Z.to_N (Z.max z 0))
          | VArr l => Some (N.of_nat (length l))
          | _ => None
          end
  end.
(** formula.rs:779-828 *)
Fixpoint resolve_integer (v : gvalue) (path : list string) {struct v} : option N :=
  match v with
  | GInt z => match path with [] => Some (Z.to_N (Z.max z 0)) | _ => None end
  | GList l => match path with [] => Some (N.of_nat (length l)) | _ => None end
  | GVar n => match variable n with Some j => json_integer path j | None => None end
  | GObj o =>
      match path with
      | [] => None
      | k :: path' =>
          (fix look (o : list (string * gvalue)) : option N :=
             match o with
             | [] => None
             | (k', v') :: o' => if String.eqb k k' then resolve_integer v' path' else look o'
             end) o
      end
  | _ => None
  end.

(** formula.rs:731-765 *)
Definition input_fields (t : tnode) : option (list (string * (option N * tnode))) :=
  match unwrap_non_null t with
  | TNamed n => match get n sc with Some (DInput fs) => Some fs | _ => None end
  | _ => None
  end.
(** formula.rs:700-729 *)
Fixpoint json_input_cost (v : value) (t : tnode) {struct v} : N :=
  match v with
  | VArr l =>
      match unwrap_non_null t with
      | TList t' => wrap_sum (map (fun x => json_input_cost x t') l)
      | _ => 0
      end
  | VObj o =>
      match input_fields t with
      | None => 0
      | Some fs =>
          sat_add (wrap_sum ((fix each (o : list (string * value)) : list N :=
                                match o with
                                | [] => []
                                | (k, x) :: o' =>
                                    match get k fs with
                                    | Some (w, t') => sat_add (or_zero w) (json_input_cost x t') :: each o'
                                    | None => each o'
                                    end
                                end) o)) 1
      end
  | _ => 0
  end.
(** formula.rs:684-698 *)
Fixpoint input_cost (v : gvalue) (t : tnode) {struct v} : N :=
  match v with
  | GVar n => match variable n with Some j => json_input_cost j t | None => 0 end
  | GList l =>
      match unwrap_non_null t with
      | TList t' => wrap_sum (map (fun x => input_cost x t') l)
      | _ => 0
      end
  | GObj o =>
      match input_fields t with
      | None => 0
      | Some fs =>
          sat_add (wrap_sum ((fix each (o : list (string * gvalue)) : list N :=
                                match o with
                                | [] => []
                                | (k, x) :: o' =>
                                    match get k fs with
                                    | Some (w, t') => sat_add (or_zero w) (input_cost x t') :: each o'
                                    | None => each o'
                                    end
                                end) o)) 1
      end
  | _ => 0
  end.

(** formula.rs:282-311 *)
Definition resolved (args : list (gvalue * list string)) : list N :=
  flat_map (fun a => match resolve_integer (fst a) (snd a) with Some n => [n] | None => [] end) args.
Definition list_size_value (field : string) (args : list (gvalue * list string)) (require_one : bool) (default : N) : cres N :=
  if require_one then
    match resolved args with
    | [n] => COk n
    | l => CErr (BadSlicing field (length l))
    end
  else match resolved args with
       | [] => COk default
       | n :: l => COk (fold_left N.max l n)
       end.
(** formula.rs:247-323 *)
Fixpoint eval (e : cexpr) : cres N :=
  match e with
  | EConst n => COk n
  | EAdd l =>
      (fix sum (l : list cexpr) (total : N) : cres N :=
         match l with
         | [] => COk total
         | x :: l' => cbind (eval x) (fun c => sum l' (sat_add total c))
         end) l 0
  | EMul a b => cbind (eval a) (fun x => cbind (eval b) (fun y => COk (sat_mul x y)))
  | ECond v t f => if variable_equals_true vars v then eval t else eval f
  | EListSize f args one d => list_size_value f args one d
  | EInput v t => COk (input_cost v t)
  | EFuel => CErr OutOfFuel
  end.
End Eval.

(** ** The formula of a plan *)
(** [PlanNode], plan_nodes.rs:34-44, with the subscription and defer nodes [ExecModel.node] leaves out. *)
Inductive cnode :=
| PFetch (f : fetch)
| PBatch (b : batch)
| PFlatten (path : list fseg) (n : cnode)
| PSequence (l : list cnode)
| PParallel (l : list cnode)
| PCondition (var : string) (i e : option cnode)
| PSubscription (f : fetch)
| PDefer (primary : option cnode) (deferred : list (option cnode)).
(** What the executor's [execute_plan_node] makes of it. *)
Fixpoint exec_node (n : cnode) : node :=
  match n with
  | PFetch f => NFetch f
  | PBatch b => NBatch b
  | PFlatten p n' => NFlatten p (exec_node n')
  | PSequence l => NSequence (map exec_node l)
  | PParallel l => NParallel (map exec_node l)
  | PCondition v i e =>
      NCondition v (match i with Some n' => Some (exec_node n') | None => None end)
                   (match e with Some n' => Some (exec_node n') | None => None end)
  | PSubscription _ | PDefer _ _ => NOther
  end.

(** formula.rs:152-166 *)
Inductive fnode :=
| FFetch (service : string) (e : cexpr)
| FAggregate (l : list fnode)
| FCondition (var : string) (i e : option fnode).

(** [DemandControlConfig], config/demand_control.rs *)
Inductive mode := Enforce | Measure.
Record dc_config := mkdc {
  dc_max : N;
  dc_mode : mode;
  dc_size_all : option N;
  dc_size_subgraphs : option (list (string * N));
  dc_budget_mode : mode;
  dc_budget_all : option N;
  dc_budget_subgraphs : option (list (string * N)) }.

Section Runtime.
Context (sc : cschema) (cfg : dc_config).
(** the operation a fetch sends ([SubgraphFetchOperation.document]): its kind, fragments and selections *)
Context (document : nat -> option opkind * list frag * list sel).
(** [expect_root_type_name], supergraph_state.rs:742-747 *)
Context (root_type : option opkind -> string).

(** runtime.rs:199-209 *)
Definition default_size (service : string) : N :=
  match match dc_size_subgraphs cfg with Some l => get service l | None => None end with
  | Some n => n
  | None => or_zero (dc_size_all cfg)
  end.
(** runtime.rs:285-320 *)
Definition fetch_expr (service : string) (id : nat) : cexpr :=
  let '(kind, frags, sels) := document id in
  operation_expr sc (default_size service) kind frags (root_type kind) sels.
(** runtime.rs:322-431 *)
Fixpoint formula (n : cnode) : fnode :=
  match n with
  | PFetch f => FFetch (f_service f) (fetch_expr (f_service f) (f_id f))
  | PBatch b => FFetch (b_service b) (fetch_expr (b_service b) (b_id b))
  | PFlatten _ n' => formula n'
  | PSequence l | PParallel l => FAggregate (map formula l)
  | PCondition v i e =>
      FCondition v (match i with Some n' => Some (formula n') | None => None end)
                   (match e with Some n' => Some (formula n') | None => None end)
  | PSubscription f => FFetch (f_service f) (fetch_expr (f_service f) (f_id f))
  | PDefer p ds =>
      FAggregate ((match p with Some n' => [formula n'] | None => [] end)
                  ++ flat_map (fun d => match d with Some n' => [formula n'] | None => [] end) ds)
  end.

(** formula.rs:190-245: the total and the map of subgraphs *)
Record evaluation := mkev { ev_total : N; ev_subgraphs : list (string * N) }.
Fixpoint charge (service : string) (c : N) (l : list (string * N)) : list (string * N) :=
  match l with
  | [] => [(service, c)]
  | (s, x) :: l' => if String.eqb service s then (s, sat_add x c) :: l' else (s, x) :: charge service c l'
  end.
Section Vars.
Context (vars : option (list (string * value))).
Fixpoint evaluate_node (n : fnode) (ev : evaluation) : cres evaluation :=
  match n with
  | FFetch s e =>
      cbind (eval sc vars e) (fun c => COk (mkev (sat_add (ev_total ev) c) (charge s c (ev_subgraphs ev))))
  | FAggregate l =>
      (fix all (l : list fnode) (ev : evaluation) : cres evaluation :=
         match l with [] => COk ev | x :: l' => cbind (evaluate_node x ev) (all l') end) l ev
  | FCondition v i e =>
      match (if variable_equals_true vars v then i else e) with
      | Some x => evaluate_node x ev
      | None => COk ev
      end
  end.
Definition evaluate (n : fnode) : cres evaluation := evaluate_node n (mkev 0 []).
End Vars.

(** runtime.rs:211-250 *)
Definition budget (service : string) : option N :=
  match match dc_budget_subgraphs cfg with Some l => get service l | None => None end with
  | Some n => Some n
  | None => dc_budget_all cfg
  end.
Definition blocked (ev : evaluation) : list (string * N) :=
  flat_map (fun sc => match budget (fst sc) with
                      | Some m => if N.ltb m (snd sc) then [(fst sc, m)] else []
                      | None => []
                      end) (ev_subgraphs ev).

(** runtime.rs:93-195.  [cached] is the formula kept for the hash of the normalized operation. *)
Inductive decision := Rejected | Invalid (e : cost_error) | Go (ev : evaluation).
Definition decide (cached : option fnode) (plan : option cnode) (vars : option (list (string * value))) : decision :=
  let f := match cached with
           | Some f => f
           | None => match plan with Some n => formula n | None => FAggregate [] end
           end in
  match evaluate vars f with
  | CErr e => Invalid e
  | COk ev =>
      if N.ltb (dc_max cfg) (ev_total ev)
      then match dc_mode cfg with Enforce => Rejected | Measure => Go ev end
      else Go ev
  end.

(** map.rs:290-331: the outcome of a request, and whether the subgraph was contacted. *)
Section Call.
Context (ryu : N -> string) (pt : ptypes) (xxh : list N -> N) (show : list fseg -> string).
Context (too_expensive : string -> gerror) (upstream : job_kind -> outcome).
Definition job_service (k : job_kind) : string :=
  match k with KFetch f _ | KFlatten f _ _ => f_service f | KBatch b _ _ => b_service b end.
Definition execute (ev : evaluation) (k : job_kind) : bool * outcome :=
  match get (job_service k) (blocked ev) with
  | Some _ => match dc_budget_mode cfg with
              | Enforce => (false, OErr [] (too_expensive (job_service k)))
              | Measure => (true, upstream k)
              end
  | None => (true, upstream k)
  end.
(** map.rs:562-593: nothing is looked up before the subgraph is asked to stream. *)
Definition subscribe (ev : evaluation) (f : fetch) : bool := true.

(** pipeline/mod.rs:875-925: the plan runs only when [evaluate] lets it; [calls] are the requests
    that reached a subgraph. *)
Definition calls (ev : evaluation) (tr : list event) : list job_kind :=
  flat_map (fun e => match e with Sent k => if fst (execute ev k) then [k] else [] | Done _ => [] end) tr.
Inductive served (cached : option fnode) (plan : option cnode) (vars : option (list (string * value))) (c : ectx)
  : list job_kind -> option ectx -> Prop :=
| served_rejected : decide cached plan vars = Rejected -> served cached plan vars c [] None
| served_invalid e : decide cached plan vars = Invalid e -> served cached plan vars c [] None
| served_nothing ev : decide cached plan vars = Go ev -> plan = None -> served cached plan vars c [] (Some c)
| served_run ev n tr c' : decide cached plan vars = Go ev -> plan = Some n ->
    run ryu pt xxh show vars (fun k => snd (execute ev k)) (exec_node n) c tr c' ->
    served cached plan vars c (calls ev tr) (Some c').
End Call.
End Runtime.
