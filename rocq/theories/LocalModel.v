(** Validation rules that look at one place of the document at a time.
    Models the files of lib/graphql-tools/src/validation/rules named below; messages are kept as what they name. *)
From Coq Require Import String List Bool Arith.
From Verif Require Import StrUtil Ast ConsumerModel IntroModel CondModel NormModel WalkModel.
Import ListNotations.
Local Open Scope string_scope.
Local Open Scope list_scope.

Inductive lerr :=
| TwoOperations (name : string) | NotAlone | TwoFragments (name : string)
| UnknownType (name : string) | NotComposite (fragment : option string) (type : string) | NotInput (variable : string) (type : tnode)
| LeafSelection (field : string) (type : tnode) | NoSelection (field : string) (type : tnode)
| RootTypename | NoField (field type : string)
| UnknownFragment (name : string) | Impossible (fragment : option string) (parent type : string)
| UnknownFieldArgument (argument type field : string) | UnknownDirectiveArgument (argument directive : string)
| TwoArguments (name : string) | TwoVariables (name : string)
| MissingFieldArgument (field argument : string) (type : tnode) | MissingDirectiveArgument (directive argument : string) (type : tnode)
| UnknownDirective (name : string) | Misplaced (directive location : string)
| TwoInputFields (name : string) | TwoDirectives (name : string).

(** ext.rs:414-465 *)
Definition is_abstract (t : typedef) : bool := match t with Interface _ _ _ _ _ | Union _ _ _ _ => true | _ => false end.
Definition is_leaf (t : typedef) : bool := match t with Scalar _ _ _ | Enum _ _ _ _ => true | _ => false end.
Definition is_input (t : typedef) : bool := match t with Scalar _ _ _ | Enum _ _ _ _ | InputObject _ _ _ _ => true | _ => false end.
Definition is_composite (t : typedef) : bool := match t with Object _ _ _ _ _ | Interface _ _ _ _ _ | Union _ _ _ _ => true | _ => false end.
(** ext.rs:300-306 *)
Definition interfaces (t : typedef) : list string := match t with Object _ _ im _ _ | Interface _ _ im _ _ => im | _ => [] end.
Definition smem (n : string) (l : list string) : bool := existsb (String.eqb n) l.
(** ext.rs:288-296 *)
Definition is_required (f : input_value) : bool :=
  match iv_type f, iv_default f with TNonNull _, None => true | _, _ => false end.

(** [findings_counter]: a map from names to counts *)
Fixpoint count_up (n : string) (m : list (string * nat)) : list (string * nat) :=
  match m with
  | [] => [(n, 1)]
  | (k, c) :: m' => if String.eqb n k then (k, S c) :: m' else (k, c) :: count_up n m'
  end.
Definition twice (m : list (string * nat)) : list string := map fst (filter (fun kc => Nat.ltb 1 (snd kc)) m).
(** unique_operation_names.rs:17-65 *)
Definition unique_operation_names : visitor lerr :=
  mkvisitor (list (string * nat)) [] (fun m x =>
    match snd x with
    | EnterOp _ name _ _ _ => (match name with Some n => count_up n m | None => m end, [])
    | LeaveDocument => (m, map TwoOperations (twice m))
    | _ => (m, [])
    end).
(** unique_fragment_names.rs:17-65 *)
Definition unique_fragment_names : visitor lerr :=
  mkvisitor (list (string * nat)) [] (fun m x =>
    match snd x with
    | EnterFrag n _ _ _ => (count_up n m, [])
    | LeaveDocument => (m, map TwoFragments (twice m))
    | _ => (m, [])
    end).

Section Rules.
  Variable sch : list definition.
  Variable doc : list qdef.

  (** lone_anonymous_operation.rs:26-93 *)
  Definition is_operation (d : qdef) : bool := match d with QOp _ _ _ _ _ => true | QFrag _ _ _ _ => false end.
  Definition lone_anonymous_operation : visitor lerr := stateless (fun x =>
    match snd x with
    | EnterDocument =>
        let count := List.length (filter is_operation doc) in
        flat_map (fun d => match d with
                           | QOp _ name _ _ _ => match name with None => if Nat.ltb 1 count then [NotAlone] else [] | Some _ => [] end
                           | QFrag _ _ _ _ => []
                           end) doc
    | _ => []
    end).

  (** known_type_names.rs:26-88 *)
  Definition unknown_type (n : string) : list lerr :=
    match type_by_name sch n with
    | None => if starts_with "__" n then [] else [UnknownType n]
    | Some _ => []
    end.
  Definition known_type_names : visitor lerr := stateless (fun x =>
    match snd x with
    | EnterFrag _ tc _ _ => unknown_type tc
    | EnterInline (Some tc) _ _ => unknown_type tc
    | EnterVariable v => unknown_type (inner_type (vd_type v))
    | _ => []
    end).

  (** fragments_on_composite_types.rs:27-71 *)
  Definition not_composite (fragment : option string) (tc : string) : list lerr :=
    match type_by_name sch tc with
    | Some t => if is_composite t then [] else [NotComposite fragment tc]
    | None => []
    end.
  Definition fragments_on_composite_types : visitor lerr := stateless (fun x =>
    match snd x with
    | EnterInline (Some tc) _ _ => not_composite None tc
    | EnterFrag n tc _ _ => not_composite (Some n) tc
    | _ => []
    end).

  (** variables_are_input_types.rs:21-44 *)
  Definition variables_are_input_types : visitor lerr := stateless (fun x =>
    match snd x with
    | EnterVariable v =>
        match type_by_name sch (inner_type (vd_type v)) with
        | Some t => if is_input t then [] else [NotInput (vd_name v) (vd_type v)]
        | None => []
        end
    | _ => []
    end).

  (** leaf_field_selections.rs:26-64 *)
  Definition leaf_field_selections : visitor lerr := stateless (fun x =>
    match snd x with
    | EnterField _ n _ _ sub =>
        match typed sch (c_type (fst x)), c_type (fst x) with
        | Some t, Some ty =>
            if is_leaf t then match sub with [] => [] | _ => [LeafSelection n ty] end
            else match sub with [] => [NoSelection n ty] | _ => [] end
        | _, _ => []
        end
    | _ => []
    end).

  (** fields_on_correct_type.rs:27-76 *)
  Definition fields_on_correct_type : visitor lerr := stateless (fun x =>
    match snd x with
    | EnterOp KSubscription _ _ _ set =>
        flat_map (fun s => match s with NField _ n _ _ _ => if String.eqb n "__typename" then [RootTypename] else [] | _ => [] end) set
    | EnterField _ n _ _ _ =>
        match c_parent (fst x) with
        | Some t =>
            if starts_with "__" n then []
            else match field_by_name t n with None => [NoField n (type_name t)] | Some _ => [] end
        | None => []
        end
    | _ => []
    end).

  (** known_fragment_names.rs:26-44 *)
  Definition known_fragment_names : visitor lerr := stateless (fun x =>
    match snd x with
    | EnterSpread n _ => match known_fragment doc n None with None => [UnknownFragment n] | Some _ => [] end
    | _ => []
    end).

  (** ext.rs:308-360, 391-401 *)
  Definition has_sub_type (t other : typedef) : bool :=
    match t with
    | Interface n _ _ _ _ => smem n (interfaces other)
    | Union _ _ _ ms => smem (type_name other) ms
    | _ => false
    end.
  Definition possible_types (t : typedef) : list typedef :=
    match t with
    | Interface n _ _ _ _ => filter (fun o => smem n (interfaces o)) (type_map sch)
    | Union _ _ _ ms => flat_map (fun m => match type_by_name sch m with Some o => [o] | None => [] end) ms
    | _ => []
    end.
  (** possible_fragment_spreads.rs:37-65 *)
  Definition types_overlap (t1 t2 : typedef) : bool :=
    if String.eqb (type_name t1) (type_name t2) then true
    else if is_abstract t1 then
      if is_abstract t2 then existsb (has_sub_type t2) (possible_types t1) else has_sub_type t1 t2
    else if is_abstract t2 then has_sub_type t2 t1
    else false.
  (** possible_fragment_spreads.rs:67-116 *)
  Definition impossible (fragment : option string) (t parent : option typedef) : list lerr :=
    match t, parent with
    | Some t, Some p =>
        if is_composite t && is_composite p && negb (types_overlap t p)
        then [Impossible fragment (type_name p) (type_name t)] else []
    | _, _ => []
    end.
  Definition possible_fragment_spreads : visitor lerr := stateless (fun x =>
    match snd x with
    | EnterInline _ _ _ => impossible None (typed sch (c_type (fst x))) (c_parent (fst x))
    | EnterSpread n _ =>
        match known_fragment doc n None with
        | Some (QFrag f tc _ _) => impossible (Some f) (type_by_name sch tc) (c_parent (fst x))
        | _ => []
        end
    | _ => []
    end).

  (** known_argument_names.rs:13-121 *)
  Inductive parent := OfField (f : string) (t : typedef) | OfDirective (d : string).
  Definition known_argument_names : visitor lerr :=
    mkvisitor (option (parent * list input_value)) None (fun s x =>
      match snd x with
      | EnterDirective d =>
          (match directive_by_name sch (d_name d) with Some dd => Some (OfDirective (dd_name dd), dd_args dd) | None => s end, [])
      | LeaveDirective | LeaveField => (None, [])
      | EnterField _ n _ _ _ =>
          (match c_parent (fst x) with
           | Some t => match field_by_name t n with Some f => Some (OfField (f_name f) t, f_args f) | None => s end
           | None => s
           end, [])
      | EnterArgument n _ =>
          (s, match s with
              | Some (p, args) =>
                  if existsb (fun a => String.eqb (iv_name a) n) args then []
                  else match p with
                       | OfField f t => [UnknownFieldArgument n (type_name t) f]
                       | OfDirective d => [UnknownDirectiveArgument n d]
                       end
              | None => []
              end)
      | _ => (s, [])
      end).

  (** unique_argument_names.rs:30-84 *)
  Definition two_arguments (args : list (string * gvalue)) : list lerr :=
    map TwoArguments (twice (fold_left (fun m a => count_up (fst a) m) args [])).
  Definition unique_argument_names : visitor lerr := stateless (fun x =>
    match snd x with
    | EnterField _ _ args _ _ => two_arguments args
    | EnterDirective d => two_arguments (d_args d)
    | _ => []
    end).

  (** unique_variable_names.rs:29-60 *)
  Definition unique_variable_names : visitor lerr :=
    mkvisitor (list string) [] (fun s x =>
      match snd x with
      | EnterOp _ _ _ _ _ => ([], [])
      | EnterVariable v => if smem (vd_name v) s then (s, [TwoVariables (vd_name v)]) else (vd_name v :: s, [])
      | _ => (s, [])
      end).

  (** provided_required_arguments.rs:27-91 *)
  Definition missing (used : list (string * gvalue)) (defs : list input_value) : list input_value :=
    filter (fun f => is_required f && negb (existsb (fun a => String.eqb (fst a) (iv_name f)) used)) defs.
  Definition provided_required_arguments : visitor lerr := stateless (fun x =>
    match snd x with
    | EnterField _ n args _ _ =>
        match c_parent (fst x) with
        | Some t =>
            match field_by_name t n with
            | Some f => map (fun m => MissingFieldArgument n (iv_name m) (iv_type m)) (missing args (f_args f))
            | None => []
            end
        | None => []
        end
    | EnterDirective d =>
        match known_directive sch (d_name d) None with
        | Some dd => map (fun m => MissingDirectiveArgument (d_name d) (iv_name m) (iv_type m)) (missing (d_args d) (dd_args dd))
        | None => []
        end
    | _ => []
    end).

  (** known_directives.rs:33-161 *)
  Definition known_directives : visitor lerr :=
    mkvisitor (option string) None (fun s x =>
      match snd x with
      | EnterOp k _ _ _ _ =>
          (Some (match k with KMutation => "MUTATION" | KQuery => "QUERY" | KSubscription => "SUBSCRIPTION" end), [])
      | EnterField _ _ _ _ _ => (Some "FIELD", [])
      | EnterFrag _ _ _ _ => (Some "FRAGMENT_DEFINITION", [])
      | EnterSpread _ _ => (Some "FRAGMENT_SPREAD", [])
      | EnterInline _ _ _ => (Some "INLINE_FRAGMENT", [])
      | LeaveOp | LeaveField | LeaveFrag | LeaveSpread | LeaveInline => (None, [])
      | EnterDirective d =>
          (s, match known_directive sch (d_name d) None with
              | Some dd =>
                  match s with
                  | Some l => if smem l (dd_locations dd) then [] else [Misplaced (d_name d) l]
                  | None => []
                  end
              | None => [UnknownDirective (d_name d)]
              end)
      | _ => (s, [])
      end).

  (** unique_input_field_names.rs:28-49 *)
  Fixpoint again (seen : list string) (o : list (string * gvalue)) : list lerr :=
    match o with
    | [] => []
    | (k, _) :: o' => if smem k seen then TwoInputFields k :: again seen o' else again (k :: seen) o'
    end.
  Definition unique_input_field_names : visitor lerr := stateless (fun x =>
    match snd x with EnterObject o => again [] o | _ => [] end).

  (** unique_directives_per_location.rs:31-104 *)
  Fixpoint duplicates (seen : list string) (ds : list directive) : list lerr :=
    match ds with
    | [] => []
    | d :: ds' =>
        match known_directive sch (d_name d) None with
        | Some dd =>
            if dd_repeatable dd then duplicates seen ds'
            else if smem (d_name d) seen then TwoDirectives (d_name d) :: duplicates seen ds'
            else duplicates (d_name d :: seen) ds'
        | None => duplicates seen ds'
        end
    end.
  Definition unique_directives_per_location : visitor lerr := stateless (fun x =>
    match snd x with
    | EnterOp _ _ ds _ _ | EnterField _ _ _ ds _ | EnterFrag _ _ ds _ | EnterSpread _ ds | EnterInline _ ds _ => duplicates [] ds
    | _ => []
    end).
End Rules.
