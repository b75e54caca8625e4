(** Introspection: the fields whose names start with two underscores are split off the operation and answered by the
    router from the consumer schema.
    Models executor/introspection/{resolve,partition,schema}.rs, and [type_by_name], [type_map] of
    lib/graphql-tools/src/ast/ext.rs:73-130. *)
From Coq Require Import String Ascii List Bool.
From Verif Require Import Ast JsonModel CoerceModel ConsumerModel.
Import ListNotations.
Local Open Scope string_scope.

(** * Possible types, schema.rs:130-255 *)
(** [entry(k).or_default().push(x)] *)
Fixpoint push_entry (k x : string) (m : list (string * list string)) : list (string * list string) :=
  match m with
  | [] => [(k, [x])]
  | (k', l) :: m' => if String.eqb k k' then (k', (l ++ [x])%list) :: m' else (k', l) :: push_entry k x m'
  end.
(** [insert(k, l)] *)
Fixpoint put_entry (k : string) (l : list string) (m : list (string * list string)) : list (string * list string) :=
  match m with
  | [] => [(k, l)]
  | (k', l') :: m' => if String.eqb k k' then (k', l) :: m' else (k', l') :: put_entry k l m'
  end.
(** schema.rs:170-225 *)
Definition first_possible (m : list (string * list string)) (d : definition) : list (string * list string) :=
  match d with
  | TypeDef (Object n _ im _ _) | TypeDef (Interface n _ im _ _) => fold_left (fun m i => push_entry i n m) im m
  | TypeDef (Union n _ _ ms) => put_entry n ms m
  | _ => m
  end.
Definition first_possible_types (schema : list definition) : list (string * list string) := fold_left first_possible schema [].
(** schema.rs:231-244: what is possible for [x], and for what is possible for it *)
Definition possible_of (first : list (string * list string)) (x : string) : list string :=
  match kget x first with
  | Some l => flat_map (fun y => y :: match kget y first with Some l' => l' | None => [] end) l
  | None => []
  end.

(** * Types, ext.rs:73-83,120-130 *)
Fixpoint type_by_name (schema : list definition) (n : string) : option typedef :=
  match schema with
  | [] => None
  | TypeDef t :: l => if String.eqb (type_name t) n then Some t else type_by_name l n
  | _ :: l => type_by_name l n
  end.
(** A later definition of the same name replaces the earlier one. *)
Fixpoint put_type (t : typedef) (m : list typedef) : list typedef :=
  match m with
  | [] => [t]
  | t' :: m' => if String.eqb (type_name t) (type_name t') then t :: m' else t' :: put_type t m'
  end.
Definition type_map (schema : list definition) : list typedef :=
  fold_left (fun m d => match d with TypeDef t => put_type t m | _ => m end) schema [].

(** * Answers *)
(** What a resolver function of resolve.rs works on *)
Inductive subject :=
| OnRoot (root : string)
| OnSchema
| OnDef (t : typedef)
| OnWrapper (kind : string) (inner : tnode)
| OnField (f : field)
| OnInput (v : input_value)
| OnEnumValue (v : enum_value)
| OnDirective (name : string) (desc : option string) (args : list input_value) (repeatable : bool) (locations : list string).

(** resolve.rs:51-70, 72-79, 81-93, 95-97 *)
Definition find_dir (n : string) (ds : list directive) : option directive := find (fun d => String.eqb (d_name d) n) ds.
Definition string_arg (n : string) (d : option directive) : option string :=
  match d with
  | Some d => match kget n (d_args d) with Some (GStr s) => Some s | _ => None end
  | None => None
  end.
Definition deprecation_reason (ds : list directive) : option string := string_arg "reason" (find_dir "deprecated" ds).
Definition is_deprecated (ds : list directive) : bool := existsb (fun d => String.eqb (d_name d) "deprecated") ds.
Definition specified_by (ds : list directive) : option string := string_arg "url" (find_dir "specifiedBy" ds).
Definition is_one_of (ds : list directive) : bool := existsb (fun d => String.eqb (d_name d) "oneOf") ds.
(** resolve.rs:99-109 *)
Definition kind_name (t : typedef) : string :=
  match t with
  | Scalar _ _ _ => "SCALAR" | Object _ _ _ _ _ => "OBJECT" | Interface _ _ _ _ _ => "INTERFACE"
  | Union _ _ _ _ => "UNION" | Enum _ _ _ _ => "ENUM" | InputObject _ _ _ _ => "INPUT_OBJECT"
  end.
Definition type_desc (t : typedef) : option string :=
  match t with
  | Scalar _ d _ | Object _ d _ _ _ | Interface _ d _ _ _ | Union _ d _ _ | Enum _ d _ _ | InputObject _ d _ _ => d
  end.
Definition or_null (o : option string) : value := match o with Some s => VStr s | None => VNull end.
Definition reserved (n : string) : bool := String.prefix "__" n.

(** All, or a panic *)
Fixpoint all_some {A} (l : list (option A)) : option (list A) :=
  match l with
  | [] => Some []
  | o :: l' => match o, all_some l' with Some a, Some r => Some (a :: r) | _, _ => None end
  end.
(** The stable sort by key *)
Fixpoint insert_entry (e : string * value) (l : list (string * value)) : list (string * value) :=
  match l with
  | [] => [e]
  | e' :: l' => if String.ltb (fst e) (fst e') then e :: l else e' :: insert_entry e l'
  end.
Definition sort_entries (l : list (string * value)) : list (string * value) := fold_left (fun acc e => insert_entry e acc) l [].

Section Resolve.
  (** the consumer schema *)
  Variable schema : list definition.
  (** the coerced variables *)
  Variable vars : list (string * value).
  (** the orders in which [HashSet] and [HashMap] hand out their elements *)
  Variable shuffle_names : list string -> list string.
  Variable shuffle_types : list typedef -> list typedef.
  (** [Display] of a default value, lib/graphql-tools/src/parser/common.rs *)
  Variable show : gvalue -> string.

  (** resolve.rs:29-49 *)
  Definition bool_var (n : string) : option bool := match kget n vars with Some (VBool b) => Some b | _ => None end.
  Definition str_var (n : string) : option string := match kget n vars with Some (VStr s) => Some s | _ => None end.
  (** resolve.rs:308-319 *)
  Definition include_deprecated (args : option (list (string * gvalue))) : bool :=
    match args with
    | Some a => match kget "includeDeprecated" a with
                | Some (GBool b) => b
                | Some (GVar n) => match bool_var n with Some b => b | None => false end
                | _ => false
                end
    | None => false
    end.
  Definition named_types (l : list string) : list typedef :=
    flat_map (fun n => match type_by_name schema n with Some t => [t] | None => [] end) l.

  Section Values.
    (** resolves the selection set of the field on a subject; [None] is a panic *)
    Variable k : subject -> option value.
    Definition each (l : list subject) : option value := option_map VArr (all_some (map k l)).
    (** resolve.rs:464-482 *)
    Definition type_value (t : tnode) : option value :=
      match t with
      | TNamed n => match type_by_name schema n with Some t => k (OnDef t) | None => None end
      | TList t' => k (OnWrapper "LIST" t')
      | TNonNull t' => k (OnWrapper "NON_NULL" t')
      end.
    (** resolve.rs:122-160 *)
    Definition input_field (v : input_value) (f : string) : option value :=
      if String.eqb f "name" then Some (VStr (iv_name v))
      else if String.eqb f "description" then Some (or_null (iv_desc v))
      else if String.eqb f "type" then type_value (iv_type v)
      else if String.eqb f "defaultValue" then Some (match iv_default v with Some d => VStr (show d) | None => VNull end)
      else if String.eqb f "isDeprecated" then Some (VBool (is_deprecated (iv_dirs v)))
      else if String.eqb f "deprecationReason" then Some (or_null (deprecation_reason (iv_dirs v)))
      else if String.eqb f "__typename" then Some (VStr "__InputValue")
      else Some VNull.
    (** resolve.rs:172-213 *)
    Definition field_field (fd : field) (f : string) : option value :=
      if String.eqb f "name" then Some (VStr (f_name fd))
      else if String.eqb f "description" then Some (or_null (f_desc fd))
      else if String.eqb f "args" then each (map OnInput (f_args fd))
      else if String.eqb f "type" then type_value (f_type fd)
      else if String.eqb f "isDeprecated" then Some (VBool (is_deprecated (f_dirs fd)))
      else if String.eqb f "deprecationReason" then Some (or_null (deprecation_reason (f_dirs fd)))
      else if String.eqb f "__typename" then Some (VStr "__Field")
      else Some VNull.
    (** resolve.rs:224-254 *)
    Definition enum_value_field (v : enum_value) (f : string) : option value :=
      if String.eqb f "name" then Some (VStr (ev_name v))
      else if String.eqb f "description" then Some (or_null (ev_desc v))
      else if String.eqb f "isDeprecated" then Some (VBool (is_deprecated (ev_dirs v)))
      else if String.eqb f "deprecationReason" then Some (or_null (deprecation_reason (ev_dirs v)))
      else if String.eqb f "__typename" then Some (VStr "__EnumValue")
      else Some VNull.
    (** resolve.rs:266-412 *)
    Definition def_field (t : typedef) (f : string) (args : option (list (string * gvalue))) : option value :=
      if String.eqb f "kind" then Some (VStr (kind_name t))
      else if String.eqb f "name" then Some (VStr (type_name t))
      else if String.eqb f "description" then Some (or_null (type_desc t))
      else if String.eqb f "specifiedByURL" then Some (match t with Scalar _ _ ds => or_null (specified_by ds) | _ => VNull end)
      else if String.eqb f "isOneOf" then Some (match t with InputObject _ _ ds _ => VBool (is_one_of ds) | _ => VNull end)
      else if String.eqb f "fields" then
        match t with
        | Object _ _ _ _ fs | Interface _ _ _ _ fs =>
            each (map OnField (filter (fun fd => negb (reserved (f_name fd)) && (include_deprecated args || negb (is_deprecated (f_dirs fd))))%bool fs))
        | _ => Some VNull
        end
      else if String.eqb f "interfaces" then
        match t with
        | Object _ _ im _ _ => each (map OnDef (named_types im))
        | _ => Some VNull
        end
      else if String.eqb f "possibleTypes" then
        match t with
        | Interface _ _ _ _ _ | Union _ _ _ _ =>
            each (map OnDef (named_types (filter (fun n => negb (String.eqb n (type_name t)))
                    (shuffle_names (nodup string_dec (type_name t :: possible_of (first_possible_types schema) (type_name t)))))))
        | _ => Some VNull
        end
      else if String.eqb f "enumValues" then
        match t with
        | Enum _ _ _ vs => each (map OnEnumValue (filter (fun v => include_deprecated args || negb (is_deprecated (ev_dirs v)))%bool vs))
        | _ => Some VNull
        end
      else if String.eqb f "inputFields" then
        match t with InputObject _ _ _ fs => each (map OnInput fs) | _ => Some VNull end
      else if String.eqb f "ofType" then Some VNull
      else if String.eqb f "__typename" then Some (VStr "__Type")
      else Some VNull.
    (** resolve.rs:434-462 *)
    Definition wrapper_field (kind : string) (inner : tnode) (f : string) : option value :=
      if String.eqb f "kind" then Some (VStr kind)
      else if String.eqb f "name" then Some VNull
      else if String.eqb f "ofType" then type_value inner
      else if String.eqb f "__typename" then Some (VStr "__Type")
      else Some VNull.
    (** resolve.rs:495-540 *)
    Definition directive_field (name : string) (desc : option string) (args : list input_value) (repeatable : bool)
        (locations : list string) (f : string) : option value :=
      if String.eqb f "name" then Some (VStr name)
      else if String.eqb f "description" then Some (or_null desc)
      else if String.eqb f "locations" then Some (VArr (map VStr locations))
      else if String.eqb f "args" then each (map OnInput args)
      else if String.eqb f "isRepeatable" then Some (VBool repeatable)
      else if String.eqb f "__typename" then Some (VStr "__Directive")
      else Some VNull.
    Definition root_type (n : option string) : option value :=
      match n with
      | Some n => match type_by_name schema n with Some t => k (OnDef t) | None => Some VNull end
      | None => Some VNull
      end.
    (** resolve.rs:552-616; without a query type the [expect] panics *)
    Definition schema_field (f : string) : option value :=
      if String.eqb f "description" then Some VNull
      else if String.eqb f "types" then each (map OnDef (shuffle_types (type_map schema)))
      else if String.eqb f "queryType" then
        match query_type_name schema with
        | Some n => match type_by_name schema n with Some t => k (OnDef t) | None => None end
        | None => None
        end
      else if String.eqb f "mutationType" then root_type (mutation_type_name schema)
      else if String.eqb f "subscriptionType" then root_type (subscription_type_name schema)
      else if String.eqb f "directives" then
        each (flat_map (fun d => match d with DirectiveDef n de a r l => [OnDirective n de a r l] | _ => [] end) schema)
      else if String.eqb f "__typename" then Some (VStr "__Schema")
      else Some VNull.
    (** resolve.rs:638-668 *)
    Definition root_field (root : string) (f : string) (args : option (list (string * gvalue))) : option value :=
      if String.eqb f "__schema" then k OnSchema
      else if String.eqb f "__type" then
        match args with
        | Some a =>
            match kget "name" a with
            | Some (GStr n) => match type_by_name schema n with Some t => k (OnDef t) | None => Some VNull end
            | Some (GVar x) => match str_var x with
                               | Some n => match type_by_name schema n with Some t => k (OnDef t) | None => Some VNull end
                               | None => Some VNull
                               end
            | _ => Some VNull
            end
        | None => Some VNull
        end
      else if String.eqb f "__typename" then Some (VStr root)
      else Some VNull.
    Definition value_of (s : subject) (f : string) (args : option (list (string * gvalue))) : option value :=
      match s with
      | OnRoot r => root_field r f args
      | OnSchema => schema_field f
      | OnDef t => def_field t f args
      | OnWrapper kind inner => wrapper_field kind inner f
      | OnField fd => field_field fd f
      | OnInput v => input_field v f
      | OnEnumValue v => enum_value_field v f
      | OnDirective n de a r l => directive_field n de a r l f
      end.
  End Values.

  Definition response_key (name : string) (alias : option string) : string := match alias with Some a => a | None => name end.
  (** The [resolve_*_selections] functions, which differ only in the table of fields: one item; the one for [__schema] (resolve.rs:617-625) looks for spreads, whose
      [selections()] is [None], in place of inline fragments. *)
  Fixpoint resolve_item (x : sel) (s : subject) {struct x} : option (list (string * value)) :=
    let items := (fix items (l : list sel) (s : subject) : option (list (string * value)) :=
                    match l with
                    | [] => Some []
                    | y :: l' => match resolve_item y s, items l' s with
                                 | Some a, Some b => Some (a ++ b)%list
                                 | _, _ => None
                                 end
                    end) in
    match x with
    | SField name alias args _ _ _ sub =>
        option_map (fun v => [(response_key name alias, v)])
          (value_of (fun s' => option_map (fun l => VObj (sort_entries l)) (items sub s')) s name args)
    | SFrag _ _ _ sub => match s with OnSchema => Some [] | _ => items sub s end
    | SSpread _ => Some []
    end.
  Definition resolve_items (l : list sel) (s : subject) : option (list (string * value)) :=
    option_map (@List.concat _) (all_some (map (fun x => resolve_item x s) l)).
  Definition resolve_subject (l : list sel) (s : subject) : option value :=
    option_map (fun es => VObj (sort_entries es)) (resolve_items l s).
  (** resolve.rs:627-644, schema.rs:106-128 *)
  Definition resolve_introspection (op : operation) : option value :=
    match (match op_kind op with
           | None | Some KQuery => query_type_name schema
           | Some KMutation => mutation_type_name schema
           | Some KSubscription => subscription_type_name schema
           end) with
    | Some root => resolve_subject (op_sels op) (OnRoot root)
    | None => None
    end.
End Resolve.
