(** Introspection by the GraphQL specification (October 2021, section 4, with [isOneOf] and [includeDeprecated] on
    arguments and input fields as the router's own introspection schema declares them). *)
From Coq Require Import String List Bool Permutation.
From Verif Require Import Ast JsonModel ConsumerModel ConsumerSpec.
Import ListNotations.
Local Open Scope string_scope.

(** * What can be asked about *)
Inductive thing :=
| TheRoot (name : string)
| TheSchema
| TheType (t : tnode)
| TheField (f : field)
| TheInput (v : input_value)
| TheValue (v : enum_value)
| TheDirective (name : string) (desc : option string) (args : list input_value) (repeatable : bool) (locations : list string).
Definition metatype (x : thing) : string :=
  match x with
  | TheRoot n => n | TheSchema => "__Schema" | TheType _ => "__Type" | TheField _ => "__Field"
  | TheInput _ => "__InputValue" | TheValue _ => "__EnumValue" | TheDirective _ _ _ _ _ => "__Directive"
  end.
Inductive answer :=
| Nothing
| Leaf (v : value)
| One (x : thing)
| Many (l : list thing)
| AnyOrder (l : list thing).

(** The members of a list that satisfy a predicate, in their order *)
Inductive those {A} (P : A -> Prop) : list A -> list A -> Prop :=
| those_nil : those P [] []
| those_skip a l l' : ~ P a -> those P l l' -> those P (a :: l) l'
| those_keep a l l' : P a -> those P l l' -> those P (a :: l) (a :: l').

(** * Directives that matter *)
Definition deprecated (ds : list directive) : Prop := exists d, In d ds /\ d_name d = "deprecated".
Inductive deprecation : list directive -> answer -> Prop :=
| deprecation_none ds : ~ deprecated ds -> deprecation ds Nothing
| deprecation_given ds d s : In d ds -> d_name d = "deprecated" -> In ("reason", GStr s) (d_args d) -> deprecation ds (Leaf (VStr s))
| deprecation_default ds d : In d ds -> d_name d = "deprecated" -> (forall v, ~ In ("reason", v) (d_args d)) ->
    deprecation ds (Leaf (VStr "No longer supported")).
Inductive specified : list directive -> answer -> Prop :=
| specified_none ds : (forall d, In d ds -> d_name d <> "specifiedBy") -> specified ds Nothing
| specified_given ds d s : In d ds -> d_name d = "specifiedBy" -> In ("url", GStr s) (d_args d) -> specified ds (Leaf (VStr s)).
Inductive truth (P : Prop) : answer -> Prop :=
| truth_true : P -> truth P (Leaf (VBool true))
| truth_false : ~ P -> truth P (Leaf (VBool false)).
Inductive text : option string -> answer -> Prop :=
| text_some s : text (Some s) (Leaf (VStr s))
| text_none : text None Nothing.

Section Meta.
  Variable schema : list definition.
  Variable vars : list (string * value).
  (** the text of a default value *)
  Variable show : gvalue -> string.

  Inductive default_text : option gvalue -> answer -> Prop :=
  | default_some v : default_text (Some v) (Leaf (VStr (show v)))
  | default_none : default_text None Nothing.

  (** The argument [includeDeprecated: Boolean = false] *)
  Inductive with_deprecated (args : list (string * gvalue)) : bool -> Prop :=
  | with_absent : (forall v, ~ In ("includeDeprecated", v) args) -> with_deprecated args false
  | with_literal b : In ("includeDeprecated", GBool b) args -> with_deprecated args b
  | with_null : In ("includeDeprecated", GNull) args -> with_deprecated args false
  | with_variable n b : In ("includeDeprecated", GVar n) args -> In (n, VBool b) vars -> with_deprecated args b
  | with_null_variable n : In ("includeDeprecated", GVar n) args -> In (n, VNull) vars -> with_deprecated args false
  | with_no_variable n : In ("includeDeprecated", GVar n) args -> (forall v, ~ In (n, v) vars) -> with_deprecated args false.
  Definition listed {A} (dirs : A -> list directive) (args : list (string * gvalue)) (l l' : list A) : Prop :=
    exists b, with_deprecated args b /\ those (fun a => b = true \/ ~ deprecated (dirs a)) l l'.
  (** The argument [name: String!] *)
  Inductive asked_name (args : list (string * gvalue)) : string -> Prop :=
  | asked_literal n : In ("name", GStr n) args -> asked_name args n
  | asked_variable x n : In ("name", GVar x) args -> In (x, VStr n) vars -> asked_name args n.

  Definition defined (t : typedef) : Prop := In (TypeDef t) schema.
  Definition known (n : string) : Prop := exists t, defined t /\ ConsumerModel.type_name t = n.
  (** Root operation types: those of the schema definition, or the default names if there is none *)
  Definition root_name (k : opkind) (q m s : option string) : option string :=
    match k with KQuery => q | KMutation => m | KSubscription => s end.
  Definition default_root (k : opkind) : string :=
    match k with KQuery => "Query" | KMutation => "Mutation" | KSubscription => "Subscription" end.
  Inductive root_is (k : opkind) : option string -> Prop :=
  | root_given ds q m s : In (SchemaDef ds q m s) schema -> root_is k (root_name k q m s)
  | root_default d im ds fs : (forall ds q m s, ~ In (SchemaDef ds q m s) schema) ->
      defined (Object (default_root k) d im ds fs) -> root_is k (Some (default_root k))
  | root_none : (forall ds q m s, ~ In (SchemaDef ds q m s) schema) ->
      (forall d im ds fs, ~ defined (Object (default_root k) d im ds fs)) -> root_is k None.
  Definition root_answer (r : option string) : answer := match r with Some n => One (TheType (TNamed n)) | None => Nothing end.
  Definition implementing (i n : string) : Prop := exists d im ds fs, defined (Object n d im ds fs) /\ In i im.

  Definition the (t : typedef) : thing := TheType (TNamed (ConsumerModel.type_name t)).
  Definition field_listed (args : list (string * gvalue)) (l l' : list field) : Prop :=
    exists b, with_deprecated args b /\ those (fun f => String.prefix "__" (f_name f) = false /\ (b = true \/ ~ deprecated (f_dirs f))) l l'.

  (** [meta x f args ans]: the specification's answer to the field [f] of [x]. *)
  Inductive meta : thing -> string -> list (string * gvalue) -> answer -> Prop :=
  | meta_typename x a : meta x "__typename" a (Leaf (VStr (metatype x)))
  (* root *)
  | meta_schema r a : meta (TheRoot r) "__schema" a (One TheSchema)
  | meta_type_known r a n : asked_name a n -> known n -> meta (TheRoot r) "__type" a (One (TheType (TNamed n)))
  | meta_type_unknown r a n : asked_name a n -> ~ known n -> meta (TheRoot r) "__type" a Nothing
  (* __Schema *)
  | meta_schema_description a : meta TheSchema "description" a Nothing
  | meta_types a l : NoDup l -> (forall t, In t l <-> defined t) -> meta TheSchema "types" a (AnyOrder (map the l))
  | meta_query a r : root_is KQuery r -> meta TheSchema "queryType" a (root_answer r)
  | meta_mutation a r : root_is KMutation r -> meta TheSchema "mutationType" a (root_answer r)
  | meta_subscription a r : root_is KSubscription r -> meta TheSchema "subscriptionType" a (root_answer r)
  | meta_directives a l : those (fun d => exists n de i r ls, d = DirectiveDef n de i r ls) schema (map (fun x => let '(n, de, i, r, ls) := x in DirectiveDef n de i r ls) l) ->
      meta TheSchema "directives" a (Many (map (fun x => let '(n, de, i, r, ls) := x in TheDirective n de i r ls) l))
  (* __Type *)
  | meta_kind_list t a : meta (TheType (TList t)) "kind" a (Leaf (VStr "LIST"))
  | meta_kind_non_null t a : meta (TheType (TNonNull t)) "kind" a (Leaf (VStr "NON_NULL"))
  | meta_kind_scalar n d ds a : defined (Scalar n d ds) -> meta (TheType (TNamed n)) "kind" a (Leaf (VStr "SCALAR"))
  | meta_kind_object n d im ds fs a : defined (Object n d im ds fs) -> meta (TheType (TNamed n)) "kind" a (Leaf (VStr "OBJECT"))
  | meta_kind_interface n d im ds fs a : defined (Interface n d im ds fs) -> meta (TheType (TNamed n)) "kind" a (Leaf (VStr "INTERFACE"))
  | meta_kind_union n d ds ms a : defined (Union n d ds ms) -> meta (TheType (TNamed n)) "kind" a (Leaf (VStr "UNION"))
  | meta_kind_enum n d ds vs a : defined (Enum n d ds vs) -> meta (TheType (TNamed n)) "kind" a (Leaf (VStr "ENUM"))
  | meta_kind_input n d ds fs a : defined (InputObject n d ds fs) -> meta (TheType (TNamed n)) "kind" a (Leaf (VStr "INPUT_OBJECT"))
  | meta_name_named n a : known n -> meta (TheType (TNamed n)) "name" a (Leaf (VStr n))
  | meta_description k n d ds a ans : says schema (EType k n d) ds -> text d ans -> meta (TheType (TNamed n)) "description" a ans
  | meta_specified n d ds a ans : defined (Scalar n d ds) -> specified ds ans -> meta (TheType (TNamed n)) "specifiedByURL" a ans
  | meta_one_of n d ds fs a ans : defined (InputObject n d ds fs) -> truth (exists x, In x ds /\ d_name x = "oneOf") ans ->
      meta (TheType (TNamed n)) "isOneOf" a ans
  | meta_object_fields n d im ds fs a l : defined (Object n d im ds fs) -> field_listed a fs l ->
      meta (TheType (TNamed n)) "fields" a (Many (map TheField l))
  | meta_interface_fields n d im ds fs a l : defined (Interface n d im ds fs) -> field_listed a fs l ->
      meta (TheType (TNamed n)) "fields" a (Many (map TheField l))
  | meta_object_interfaces n d im ds fs a : defined (Object n d im ds fs) ->
      meta (TheType (TNamed n)) "interfaces" a (Many (map (fun i => TheType (TNamed i)) im))
  | meta_interface_interfaces n d im ds fs a : defined (Interface n d im ds fs) ->
      meta (TheType (TNamed n)) "interfaces" a (Many (map (fun i => TheType (TNamed i)) im))
  | meta_interface_possible n d im ds fs a l : defined (Interface n d im ds fs) -> NoDup l -> (forall o, In o l <-> implementing n o) ->
      meta (TheType (TNamed n)) "possibleTypes" a (AnyOrder (map (fun i => TheType (TNamed i)) l))
  | meta_union_possible n d ds ms a l : defined (Union n d ds ms) -> NoDup l -> (forall o, In o l <-> In o ms) ->
      meta (TheType (TNamed n)) "possibleTypes" a (AnyOrder (map (fun i => TheType (TNamed i)) l))
  | meta_enum_values n d ds vs a l : defined (Enum n d ds vs) -> listed ev_dirs a vs l ->
      meta (TheType (TNamed n)) "enumValues" a (Many (map TheValue l))
  | meta_input_fields n d ds fs a l : defined (InputObject n d ds fs) -> listed iv_dirs a fs l ->
      meta (TheType (TNamed n)) "inputFields" a (Many (map TheInput l))
  | meta_of_list t a : meta (TheType (TList t)) "ofType" a (One (TheType t))
  | meta_of_non_null t a : meta (TheType (TNonNull t)) "ofType" a (One (TheType t))
  (* ... and null where a field does not apply *)
  | meta_wrapped t f a : (exists t', t = TList t' \/ t = TNonNull t') ->
      In f ["name"; "description"; "specifiedByURL"; "isOneOf"; "fields"; "interfaces"; "possibleTypes"; "enumValues"; "inputFields"] ->
      meta (TheType t) f a Nothing
  | meta_not_wrapped n a : known n -> meta (TheType (TNamed n)) "ofType" a Nothing
  | meta_not_scalar t a : defined t -> (forall n d ds, t <> Scalar n d ds) -> meta (the t) "specifiedByURL" a Nothing
  | meta_not_input t f a : defined t -> (forall n d ds fs, t <> InputObject n d ds fs) -> In f ["isOneOf"; "inputFields"] -> meta (the t) f a Nothing
  | meta_no_fields t f a : defined t -> (forall n d im ds fs, t <> Object n d im ds fs /\ t <> Interface n d im ds fs) ->
      In f ["fields"; "interfaces"] -> meta (the t) f a Nothing
  | meta_not_abstract t a : defined t -> (forall n d im ds fs ms, t <> Interface n d im ds fs /\ t <> Union n d ds ms) -> meta (the t) "possibleTypes" a Nothing
  | meta_not_enum t a : defined t -> (forall n d ds vs, t <> Enum n d ds vs) -> meta (the t) "enumValues" a Nothing
  (* __Field *)
  | meta_field_name f a : meta (TheField f) "name" a (Leaf (VStr (f_name f)))
  | meta_field_description f a ans : text (f_desc f) ans -> meta (TheField f) "description" a ans
  | meta_field_args f a l : listed iv_dirs a (f_args f) l -> meta (TheField f) "args" a (Many (map TheInput l))
  | meta_field_type f a : meta (TheField f) "type" a (One (TheType (f_type f)))
  | meta_field_deprecated f a ans : truth (deprecated (f_dirs f)) ans -> meta (TheField f) "isDeprecated" a ans
  | meta_field_reason f a ans : deprecation (f_dirs f) ans -> meta (TheField f) "deprecationReason" a ans
  (* __InputValue *)
  | meta_input_name v a : meta (TheInput v) "name" a (Leaf (VStr (iv_name v)))
  | meta_input_description v a ans : text (iv_desc v) ans -> meta (TheInput v) "description" a ans
  | meta_input_type v a : meta (TheInput v) "type" a (One (TheType (iv_type v)))
  | meta_input_default v a ans : default_text (iv_default v) ans -> meta (TheInput v) "defaultValue" a ans
  | meta_input_deprecated v a ans : truth (deprecated (iv_dirs v)) ans -> meta (TheInput v) "isDeprecated" a ans
  | meta_input_reason v a ans : deprecation (iv_dirs v) ans -> meta (TheInput v) "deprecationReason" a ans
  (* __EnumValue *)
  | meta_value_name v a : meta (TheValue v) "name" a (Leaf (VStr (ev_name v)))
  | meta_value_description v a ans : text (ev_desc v) ans -> meta (TheValue v) "description" a ans
  | meta_value_deprecated v a ans : truth (deprecated (ev_dirs v)) ans -> meta (TheValue v) "isDeprecated" a ans
  | meta_value_reason v a ans : deprecation (ev_dirs v) ans -> meta (TheValue v) "deprecationReason" a ans
  (* __Directive *)
  | meta_directive_name n de i r ls a : meta (TheDirective n de i r ls) "name" a (Leaf (VStr n))
  | meta_directive_description n de i r ls a ans : text de ans -> meta (TheDirective n de i r ls) "description" a ans
  | meta_directive_locations n de i r ls a : meta (TheDirective n de i r ls) "locations" a (Leaf (VArr (map VStr ls)))
  | meta_directive_args n de i r ls a l : listed iv_dirs a i l -> meta (TheDirective n de i r ls) "args" a (Many (map TheInput l))
  | meta_directive_repeatable n de i r ls a : meta (TheDirective n de i r ls) "isRepeatable" a (Leaf (VBool r)).

  (** * Selections: the fields of a selection set on an object of type [ty], those in fragments on it included *)
  Definition args_of (a : option (list (string * gvalue))) : list (string * gvalue) := match a with Some l => l | None => [] end.
  Definition key_of (n : string) (alias : option string) : string := match alias with Some a => a | None => n end.
  Inductive picks (ty : string) : list sel -> string -> string -> list (string * gvalue) -> list sel -> Prop :=
  | picks_field l n alias a i s o sub : In (SField n alias a i s o sub) l -> picks ty l (key_of n alias) n (args_of a) sub
  | picks_fragment l i s sub k n a sub' : In (SFrag ty i s sub) l -> picks ty sub k n a sub' -> picks ty l k n a sub'.
  (** The selections of all fields with that response key, together *)
  Fixpoint subs_of (ty k : string) (x : sel) : list sel :=
    match x with
    | SField n alias _ _ _ _ sub => if String.eqb (key_of n alias) k then sub else []
    | SFrag t _ _ sub => if String.eqb t ty then flat_map (subs_of ty k) sub else []
    | SSpread _ => []
    end.
  (** [gives x l v]: the value of the selection set [l] on [x]; conditions are left to the projection of the response. *)
  Inductive gives : thing -> list sel -> value -> Prop :=
  | gives_object x l o :
      NoDup (map fst o) ->
      (forall k, In k (map fst o) <-> exists n a s, picks (metatype x) l k n a s) ->
      (forall k v, In (k, v) o -> exists n a ans, (exists s, picks (metatype x) l k n a s) /\ meta x n a ans
                                                   /\ fits ans (flat_map (subs_of (metatype x) k) l) v) ->
      gives x l (VObj o)
  with fits : answer -> list sel -> value -> Prop :=
  | fits_nothing l : fits Nothing l VNull
  | fits_leaf l v : fits (Leaf v) l v
  | fits_one l x v : gives x l v -> fits (One x) l v
  | fits_many l xs vs : fits_all xs l vs -> fits (Many xs) l (VArr vs)
  | fits_any l xs ys vs : Permutation xs ys -> fits_all ys l vs -> fits (AnyOrder xs) l (VArr vs)
  with fits_all : list thing -> list sel -> list value -> Prop :=
  | fits_end l : fits_all [] l []
  | fits_next x xs l v vs : gives x l v -> fits_all xs l vs -> fits_all (x :: xs) l (v :: vs).
End Meta.

(** * Queries *)
(** The introspection schema: type, field, type of the field's selections *)
Definition meta_fields : list (string * string * option string) :=
  [("__Schema", "description", None); ("__Schema", "types", Some "__Type"); ("__Schema", "queryType", Some "__Type");
   ("__Schema", "mutationType", Some "__Type"); ("__Schema", "subscriptionType", Some "__Type"); ("__Schema", "directives", Some "__Directive");
   ("__Type", "kind", None); ("__Type", "name", None); ("__Type", "description", None); ("__Type", "specifiedByURL", None);
   ("__Type", "fields", Some "__Field"); ("__Type", "interfaces", Some "__Type"); ("__Type", "possibleTypes", Some "__Type");
   ("__Type", "enumValues", Some "__EnumValue"); ("__Type", "inputFields", Some "__InputValue"); ("__Type", "ofType", Some "__Type");
   ("__Type", "isOneOf", None);
   ("__Field", "name", None); ("__Field", "description", None); ("__Field", "args", Some "__InputValue"); ("__Field", "type", Some "__Type");
   ("__Field", "isDeprecated", None); ("__Field", "deprecationReason", None);
   ("__InputValue", "name", None); ("__InputValue", "description", None); ("__InputValue", "type", Some "__Type");
   ("__InputValue", "defaultValue", None); ("__InputValue", "isDeprecated", None); ("__InputValue", "deprecationReason", None);
   ("__EnumValue", "name", None); ("__EnumValue", "description", None); ("__EnumValue", "isDeprecated", None); ("__EnumValue", "deprecationReason", None);
   ("__Directive", "name", None); ("__Directive", "description", None); ("__Directive", "locations", None); ("__Directive", "args", Some "__InputValue");
   ("__Directive", "isRepeatable", None)].
Inductive declares (root : string) : string -> string -> option string -> Prop :=
| declares_meta t f c : In (t, f, c) meta_fields -> declares root t f c
| declares_typename t : declares root t "__typename" None
| declares_schema : declares root root "__schema" (Some "__Schema")
| declares_type : declares root root "__type" (Some "__Type").

Section Queries.
  Variable vars : list (string * value).
  (** Arguments have the declared types. *)
  Definition good_args (f : string) (a : list (string * gvalue)) : Prop :=
    NoDup (map fst a)
    /\ (forall v, In ("includeDeprecated", v) a -> (exists b, v = GBool b) \/ v = GNull
          \/ exists n, v = GVar n /\ (forall w, In (n, w) vars -> w = VNull \/ exists b, w = VBool b))
    /\ (f = "__type" -> exists n, asked_name vars a n).
  Definition key (x : sel) : option string := match x with SField n alias _ _ _ _ _ => Some (key_of n alias) | _ => None end.
  (** The response keys of a selection set, those in fragments included *)
  Fixpoint keys (x : sel) : list string :=
    match x with
    | SField n alias _ _ _ _ _ => [key_of n alias]
    | SFrag _ _ _ sub => flat_map keys sub
    | SSpread _ => []
    end.
  (** A valid query (fragments spread), in which moreover no response key is used twice and no fragment stands directly in
      [__schema] *)
  Inductive simple (root : string) : string -> sel -> Prop :=
  | simple_leaf t n alias a i s o : declares root t n None -> good_args n (args_of a) -> simple root t (SField n alias a i s o [])
  | simple_field t n alias a i s o sub c : declares root t n (Some c) -> good_args n (args_of a) -> NoDup (flat_map keys sub) ->
      Forall (simple root c) sub -> simple root t (SField n alias a i s o sub)
  | simple_fragment t i s sub : t <> "__Schema" -> Forall (simple root t) sub -> simple root t (SFrag t i s sub).
  (** A valid query, fragments spread *)
  Inductive valid (root : string) : string -> sel -> Prop :=
  | valid_leaf t n alias a i s o : declares root t n None -> good_args n (args_of a) -> valid root t (SField n alias a i s o [])
  | valid_field t n alias a i s o sub c : declares root t n (Some c) -> good_args n (args_of a) -> sub <> [] ->
      Forall (valid root c) sub -> valid root t (SField n alias a i s o sub)
  | valid_fragment t i s sub : sub <> [] -> Forall (valid root t) sub -> valid root t (SFrag t i s sub).
End Queries.
(** The field is asked for somewhere. *)
Inductive asks (f : string) : sel -> Prop :=
| asks_field alias a i s o sub : asks f (SField f alias a i s o sub)
| asks_below n alias a i s o sub x : In x sub -> asks f x -> asks f (SField n alias a i s o sub)
| asks_fragment t i s sub x : In x sub -> asks f x -> asks f (SFrag t i s sub).

(** * Schemas *)
(** All directives that stand on something in the schema *)
Definition stands (schema : list definition) (ds : list directive) : Prop := exists e, says schema e ds.
Record sound (schema : list definition) : Prop := {
  sound_once : NoDup schema;
  sound_names : forall t t', defined schema t -> defined schema t' -> ConsumerModel.type_name t = ConsumerModel.type_name t' -> t = t';
  sound_closed : closed schema;
  (** objects and interfaces implement interfaces, unions have objects as members *)
  sound_implements : forall t i, (exists ds, says schema (EImplements t i) ds) -> exists d im ds fs, defined schema (Interface i d im ds fs);
  sound_members : forall u t, (exists ds, says schema (EMember u t) ds) -> exists d im ds fs, defined schema (Object t d im ds fs);
  sound_schema : forall ds q m s ds' q' m' s', In (SchemaDef ds q m s) schema -> In (SchemaDef ds' q' m' s') schema ->
                   (ds, q, m, s) = (ds', q', m', s');
  sound_roots : forall k n, root_is schema k (Some n) -> known schema n;
  sound_query : exists n, root_is schema KQuery (Some n);
  (** [@deprecated] and [@specifiedBy] are not repeated, and their arguments are strings *)
  sound_dirs : forall ds d d', stands schema ds -> In d ds -> In d' ds -> d_name d = d_name d' -> In (d_name d) ["deprecated"; "specifiedBy"] -> d = d';
  sound_dir_args : forall ds d, stands schema ds -> In d ds -> In (d_name d) ["deprecated"; "specifiedBy"] -> NoDup (map fst (d_args d));
  sound_url : forall ds d, stands schema ds -> In d ds -> d_name d = "specifiedBy" -> exists s, In ("url", GStr s) (d_args d) }.

(** * What the router does not do *)
(** Every [@deprecated] says why. *)
Definition reasons_given (schema : list definition) : Prop :=
  forall ds d, stands schema ds -> In d ds -> d_name d = "deprecated" -> exists s, In ("reason", GStr s) (d_args d).
Definition interfaceless (schema : list definition) : Prop := forall n d im ds fs, ~ defined schema (Interface n d im ds fs).
Definition interfaces_flat (schema : list definition) : Prop := forall n d im ds fs, defined schema (Interface n d im ds fs) -> im = [].
Definition inputs_current (schema : list definition) : Prop :=
  forall ds, (exists t f a ty df de, says schema (EArg t f a ty df de) ds) \/ (exists t f ty df de, says schema (EInput t f ty df de) ds)
             \/ (exists n a ty df de, says schema (EDirectiveArg n a ty df de) ds) -> ~ deprecated ds.
(** A schema definition that names no mutation (or subscription) type goes with no type of the default name. *)
Definition no_stray_root (schema : list definition) : Prop :=
  forall k d im ds fs ds' q m s, In (SchemaDef ds' q m s) schema -> root_name k q m s = None -> ~ defined schema (Object (default_root k) d im ds fs).
(** Names the root type of the operation *)
Definition root_of (op : operation) : opkind := match op_kind op with Some k => k | None => KQuery end.
