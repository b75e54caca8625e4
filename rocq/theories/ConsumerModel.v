(** The schema shown to clients, made from the supergraph.
    Models query_planner/consumer_schema/{mod,prune_inacessible,strip_schema_internals}.rs, the
    [SchemaTransformer] trait of query_planner/utils/schema_transformer.rs, and [Document::query_type_name]
    (lib/graphql-tools/src/parser/schema/ast.rs:18-54). *)
From Coq Require Import String List Bool.
From Verif Require Import Ast.
Import ListNotations.
Local Open Scope string_scope.

(** * Schema documents, lib/graphql-tools/src/parser/schema/ast.rs; positions are dropped. *)
Record directive := mkdirective { d_name : string; d_args : list (string * gvalue) }.
Record input_value := mkinput {
  iv_name : string; iv_desc : option string; iv_type : tnode; iv_default : option gvalue; iv_dirs : list directive }.
Record field := mkfield {
  f_name : string; f_desc : option string; f_args : list input_value; f_type : tnode; f_dirs : list directive }.
Record enum_value := mkenumvalue { ev_name : string; ev_desc : option string; ev_dirs : list directive }.
Inductive typedef :=
| Scalar (name : string) (desc : option string) (dirs : list directive)
| Object (name : string) (desc : option string) (impls : list string) (dirs : list directive) (fields : list field)
| Interface (name : string) (desc : option string) (impls : list string) (dirs : list directive) (fields : list field)
| Union (name : string) (desc : option string) (dirs : list directive) (members : list string)
| Enum (name : string) (desc : option string) (dirs : list directive) (values : list enum_value)
| InputObject (name : string) (desc : option string) (dirs : list directive) (fields : list input_value).
Inductive definition :=
| SchemaDef (dirs : list directive) (query mutation subscription : option string)
| TypeDef (t : typedef)
| TypeExtension (name : string)
| DirectiveDef (name : string) (desc : option string) (args : list input_value) (repeatable : bool) (locations : list string).

Definition type_name (t : typedef) : string :=
  match t with
  | Scalar n _ _ | Object n _ _ _ _ | Interface n _ _ _ _ | Union n _ _ _ | Enum n _ _ _ | InputObject n _ _ _ => n
  end.
Definition type_dirs (t : typedef) : list directive :=
  match t with
  | Scalar _ _ d | Object _ _ _ d _ | Interface _ _ _ d _ | Union _ _ d _ | Enum _ _ d _ | InputObject _ _ d _ => d
  end.

(** schema_transformer.rs:10-41 *)
Inductive change (A : Type) := Keep | Replace (a : A).
Arguments Keep {A}.
Arguments Replace {A} _.
Definition or_else {A} (c : change A) (a : A) : A := match c with Keep => a | Replace a' => a' end.
Definition kept {A} (c : change A) : bool := match c with Keep => true | Replace _ => false end.
Definition on_change {A B} (f : A -> B) (c : change A) : change B := match c with Keep => Keep | Replace a => Replace (f a) end.

(** schema_transformer.rs:363-396 *)
Definition transform_list {A} (f : A -> change A) (l : list A) : change (list A) :=
  if forallb (fun a => kept (f a)) l then Keep else Replace (map (fun a => or_else (f a) a) l).

(** * The trait *)
Section Transformer.
  Variable directives_of : list directive -> change (list directive).
  Variable input_values_of : list input_value -> change (list input_value).
  Variable fields_of : list field -> change (list field).
  Variable enum_of : typedef -> change typedef.
  Variable input_object_of : typedef -> change typedef.

  (** schema_transformer.rs:318-335 *)
  Definition transform_field (f : field) : change field :=
    let ds := directives_of (f_dirs f) in
    let args := input_values_of (f_args f) in
    if (kept ds && kept args)%bool then Keep
    else Replace (mkfield (f_name f) (f_desc f) (or_else args (f_args f)) (f_type f) (or_else ds (f_dirs f))).
  (** schema_transformer.rs:172-298 *)
  Definition transform_type (t : typedef) : change typedef :=
    match t with
    | Scalar n d ds => on_change (fun ds' => Scalar n d ds') (directives_of ds)
    | Object n d im ds fs =>
        let ds' := directives_of ds in
        let fs' := fields_of fs in
        if (kept ds' && kept fs')%bool then Keep else Replace (Object n d im (or_else ds' ds) (or_else fs' fs))
    | Interface n d im ds fs =>
        let ds' := directives_of ds in
        let fs' := fields_of fs in
        if (kept ds' && kept fs')%bool then Keep else Replace (Interface n d im (or_else ds' ds) (or_else fs' fs))
    | Union n d ds ms => on_change (fun ds' => Union n d ds' ms) (directives_of ds)
    | Enum _ _ _ _ => enum_of t
    | InputObject _ _ _ _ => input_object_of t
    end.
  (** schema_transformer.rs:110-170; a type extension is [todo!()]: a panic, here [None]. *)
  Definition transform_definition (d : definition) : option (change definition) :=
    match d with
    | SchemaDef ds q m s => Some (on_change (fun ds' => SchemaDef ds' q m s) (directives_of ds))
    | TypeDef t => Some (on_change TypeDef (transform_type t))
    | TypeExtension _ => None
    | DirectiveDef n de args r ls => Some (on_change (fun args' => DirectiveDef n de args' r ls) (input_values_of args))
    end.
  Fixpoint transform_all (l : list definition) : option (list (definition * change definition)) :=
    match l with
    | [] => Some []
    | d :: l' => match transform_definition d, transform_all l' with
                 | Some c, Some r => Some ((d, c) :: r)
                 | _, _ => None
                 end
    end.
  (** schema_transformer.rs:78-108 *)
  Definition default_document (l : list definition) : option (change (list definition)) :=
    option_map (fun r => if forallb (fun p => kept (snd p)) r then Keep else Replace (map (fun p => or_else (snd p) (fst p)) r))
      (transform_all l).
End Transformer.

(** * Removing what is inaccessible, prune_inacessible.rs *)
Definition inaccessible (ds : list directive) : bool := existsb (fun d => String.eqb (d_name d) "inaccessible") ds.
(** the default [transform_directives] keeps everything, schema_transformer.rs:402-414 *)
Definition keep_directives (ds : list directive) : change (list directive) := Keep.
(** prune_inacessible.rs:72-82 *)
Definition prune_inputs (l : list input_value) : change (list input_value) :=
  Replace (filter (fun v => negb (inaccessible (iv_dirs v))) l).
(** prune_inacessible.rs:117-131 *)
Definition prune_fields (l : list field) : change (list field) :=
  transform_list (transform_field keep_directives prune_inputs) (filter (fun f => negb (inaccessible (f_dirs f))) l).
(** prune_inacessible.rs:100-115 *)
Definition prune_enum (t : typedef) : change typedef :=
  match t with
  | Enum n d ds vs => Replace (Enum n d ds (filter (fun v => negb (inaccessible (ev_dirs v))) vs))
  | _ => Keep
  end.
(** prune_inacessible.rs:83-98 *)
Definition prune_input_object (t : typedef) : change typedef :=
  match t with
  | InputObject n d ds fs => Replace (InputObject n d ds (filter (fun v => negb (inaccessible (iv_dirs v))) fs))
  | _ => Keep
  end.
(** prune_inacessible.rs:35-70 *)
Definition accessible_definition (d : definition) : bool :=
  match d with TypeDef t => negb (inaccessible (type_dirs t)) | _ => true end.
(** prune_inacessible.rs:16-23: when nothing was replaced the schema itself is returned. *)
Definition prune (schema : list definition) : option (list definition) :=
  option_map (fun c => or_else c schema)
    (default_document keep_directives prune_inputs prune_fields prune_enum prune_input_object
       (filter accessible_definition schema)).

(** * Removing what is internal, strip_schema_internals.rs *)
Definition mem (s : string) (l : list string) : bool := existsb (String.eqb s) l.
Definition directives_to_strip : list string :=
  ["join__type"; "join__enumValue"; "join__field"; "join__implements"; "join__unionMember"; "join__graph"; "join__owner";
   "join__directive"; "link"; "tag"; "inaccessible"; "core"; "authenticated"; "requiresScopes"; "cost"; "listSize"].
Definition definitions_to_strip : list string :=
  ["link__Purpose"; "link__Import"; "join__Graph"; "join__FieldSet"; "join__DirectiveArguments"; "core__Purpose"; "requiresScopes__Scope"].
(** strip_schema_internals.rs:62-71,75-82 *)
Definition strip_directives (ds : list directive) : change (list directive) :=
  Replace (filter (fun d => negb (mem (d_name d) directives_to_strip)) ds).
(** schema_transformer.rs:337-361; default values are kept. *)
Definition strip_input (v : input_value) : change input_value :=
  on_change (fun ds => mkinput (iv_name v) (iv_desc v) (iv_type v) (iv_default v) ds) (strip_directives (iv_dirs v)).
Definition strip_inputs (l : list input_value) : change (list input_value) := transform_list strip_input l.
Definition strip_fields (l : list field) : change (list field) :=
  transform_list (transform_field strip_directives strip_inputs) l.
(** schema_transformer.rs:188-224 *)
Definition strip_enum_value (v : enum_value) : change enum_value :=
  on_change (fun ds => mkenumvalue (ev_name v) (ev_desc v) ds) (strip_directives (ev_dirs v)).
Definition strip_enum (t : typedef) : change typedef :=
  match t with
  | Enum n d ds vs =>
      let ds' := strip_directives ds in
      let vs' := transform_list strip_enum_value vs in
      if (kept ds' && kept vs')%bool then Keep else Replace (Enum n d (or_else ds' ds) (or_else vs' vs))
  | _ => Keep
  end.
(** schema_transformer.rs:226-244 *)
Definition strip_input_object (t : typedef) : change typedef :=
  match t with
  | InputObject n d ds fs =>
      let ds' := strip_directives ds in
      let fs' := strip_inputs fs in
      if (kept ds' && kept fs')%bool then Keep else Replace (InputObject n d (or_else ds' ds) (or_else fs' fs))
  | _ => Keep
  end.
(** strip_schema_internals.rs:84-121; a type extension is [todo!()]. *)
Definition public_definition (d : definition) : option bool :=
  match d with
  | DirectiveDef n _ _ _ _ => Some (negb (mem n directives_to_strip))
  | TypeDef t => Some (negb (mem (type_name t) definitions_to_strip))
  | TypeExtension _ => None
  | SchemaDef _ _ _ _ => Some true
  end.
Fixpoint public_definitions (l : list definition) : option (list definition) :=
  match l with
  | [] => Some []
  | d :: l' => match public_definition d, public_definitions l' with
               | Some b, Some r => Some (if b then d :: r else r)
               | _, _ => None
               end
  end.
Definition strip (schema : list definition) : option (list definition) :=
  match public_definitions schema with
  | Some l => option_map (fun c => or_else c schema)
                (default_document strip_directives strip_inputs strip_fields strip_enum strip_input_object l)
  | None => None
  end.

(** * Root types, schema/ast.rs:18-54 *)
Fixpoint root_name (default : string) (pick : option string -> option string -> option string -> option string)
    (fallback : option string) (l : list definition) : option string :=
  match l with
  | [] => fallback
  | SchemaDef _ q m s :: l' => match pick q m s with Some n => Some n | None => root_name default pick fallback l' end
  | TypeDef (Object n _ _ _ _) :: l' =>
      match fallback with
      | None => root_name default pick (if String.eqb n default then Some n else None) l'
      | Some _ => root_name default pick fallback l'
      end
  | _ :: l' => root_name default pick fallback l'
  end.
Definition query_type_name (l : list definition) : option string := root_name "Query" (fun q _ _ => q) None l.
Definition mutation_type_name (l : list definition) : option string := root_name "Mutation" (fun _ m _ => m) None l.
Definition subscription_type_name (l : list definition) : option string := root_name "Subscription" (fun _ _ s => s) None l.

(** * The whole, mod.rs:36-91 *)
(** The first object type of that name gets the fields of the introspection schema's [Query]. *)
Fixpoint extend_query (name : string) (fs : list field) (l : list definition) : option (list definition) :=
  match l with
  | [] => None
  | TypeDef (Object n d im ds fs') :: l' =>
      if String.eqb n name then Some (TypeDef (Object n d im ds (fs' ++ fs)) :: l')
      else option_map (cons (TypeDef (Object n d im ds fs'))) (extend_query name fs l')
  | d :: l' => option_map (cons d) (extend_query name fs l')
  end.
Definition add_definition (query : string) (result : list definition) (d : definition) : list definition :=
  match d with
  | TypeDef (Object n _ _ _ fs) =>
      if String.eqb n "Query"
      then match extend_query query fs result with Some r => r | None => (result ++ [d])%list end
      else (result ++ [d])%list
  | _ => (result ++ [d])%list
  end.
Section Whole.
  (** introspection_schema.graphql, parsed *)
  Variable introspection : list definition.
  (** [None] is a panic: a type extension, or no query type. *)
  Definition consumer_schema (supergraph : list definition) : option (list definition) :=
    match prune supergraph with
    | Some pruned =>
        match strip pruned with
        | Some result =>
            match query_type_name result with
            | Some q => Some (fold_left (add_definition q) introspection result)
            | None => None
            end
        | None => None
        end
    | None => None
    end.
End Whole.
