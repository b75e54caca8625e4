(* What the rules of the GraphQL specification ask of each place of a document. *)
From Coq Require Import String List Bool.
From Verif Require Import Ast ConsumerModel CondModel NormModel WalkModel LocalModel.
Import ListNotations.
Local Open Scope string_scope.
Local Open Scope list_scope.

(* Schemas *)
Definition fields_of (t : typedef) : list field :=
  match t with Object _ _ _ _ fs | Interface _ _ _ _ fs => fs | _ => [] end.
Definition inputs_of (t : typedef) : list input_value := match t with InputObject _ _ _ fs => fs | _ => [] end.
Definition named (sch : list definition) (n : string) (t : typedef) : Prop := In (TypeDef t) sch /\ type_name t = n.
Definition type_names (sch : list definition) : list string :=
  flat_map (fun d => match d with TypeDef t => [type_name t] | _ => [] end) sch.
Definition directive_names (sch : list definition) : list string :=
  flat_map (fun d => match d with DirectiveDef n _ _ _ _ => [n] | _ => [] end) sch.
(* A directive is defined with arguments, repeatable or not, at locations. *)
Definition defines (sch : list definition) (n : string) (args : list input_value) (rep : bool) (ls : list string) : Prop :=
  exists desc, In (DirectiveDef n desc args rep ls) sch.

Record well_formed (sch : list definition) : Prop := mkwf {
  wf_types : NoDup (type_names sch);
  wf_directives : NoDup (directive_names sch);
  wf_fields : forall t, In (TypeDef t) sch -> NoDup (map f_name (fields_of t));
  wf_one_schema : forall d1 q1 m1 s1 d2 q2 m2 s2,
    In (SchemaDef d1 q1 m1 s1) sch -> In (SchemaDef d2 q2 m2 s2) sch -> (q1, m1, s1) = (q2, m2, s2) }.

(* The object type on which an operation starts: the one of the schema definition, else the one of the usual name *)
Definition chosen (k : opkind) (q m s : option string) : option string :=
  match k with KQuery => q | KMutation => m | KSubscription => s end.
Definition usual (k : opkind) : string :=
  match k with KQuery => "Query" | KMutation => "Mutation" | KSubscription => "Subscription" end.
Definition declares (sch : list definition) (k : opkind) (n : string) : Prop :=
  exists ds q m s, In (SchemaDef ds q m s) sch /\ chosen k q m s = Some n.
Definition is_object (t : typedef) : Prop := match t with Object _ _ _ _ _ => True | _ => False end.
Definition root (sch : list definition) (k : opkind) (n : string) : Prop :=
  (exists t, named sch n t /\ is_object t) /\ (declares sch k n \/ (n = usual k /\ forall m, ~ declares sch k m)).

(* Types of places *)
Fixpoint base (t : tnode) : string := match t with TNamed n => n | TList t' => base t' | TNonNull t' => base t' end.
Definition stands (sch : list definition) (ty : option tnode) (t : typedef) : Prop :=
  exists u, ty = Some u /\ named sch (base u) t.
Definition selects (sch : list definition) (ty : option tnode) (n : string) (f : field) : Prop :=
  exists t, stands sch ty t /\ In f (fields_of t) /\ f_name f = n.
Definition result (sch : list definition) (ty : option tnode) (n : string) (r : option tnode) : Prop :=
  match r with
  | Some u => exists f, selects sch ty n f /\ f_type f = u
  | None => forall f, ~ selects sch ty n f
  end.

(* Selection sets of a document and the type that they are on, when known *)
Inductive occurs (sch : list definition) (doc : list qdef) : option tnode -> list nsel -> Prop :=
| on_fragment n tc ds set : In (QFrag n tc ds set) doc -> occurs sch doc (Some (TNamed tc)) set
| on_operation k n ds vs set r : In (QOp k n ds vs set) doc -> root sch k r -> occurs sch doc (Some (TNamed r)) set
| on_nothing k n ds vs set : In (QOp k n ds vs set) doc -> (forall r, ~ root sch k r) -> occurs sch doc None set
| on_field ty set al n args ds sub r :
    occurs sch doc ty set -> In (NField al n args ds sub) set -> result sch ty n r -> occurs sch doc r sub
| on_condition ty set tc ds sub :
    occurs sch doc ty set -> In (NInline (Some tc) ds sub) set -> occurs sch doc (Some (TNamed tc)) sub
| on_same ty set ds sub : occurs sch doc ty set -> In (NInline None ds sub) set -> occurs sch doc ty sub.

(* Selections at any depth, and the lists of directives of a document with their locations *)
Inductive within : list nsel -> nsel -> Prop :=
| within_here set x : In x set -> within set x
| within_field set al n args ds sub x : In (NField al n args ds sub) set -> within sub x -> within set x
| within_inline set tc ds sub x : In (NInline tc ds sub) set -> within sub x -> within set x.
Definition set_of (d : qdef) : list nsel := match d with QFrag _ _ _ set => set | QOp _ _ _ _ set => set end.
Definition item (doc : list qdef) (x : nsel) : Prop := exists d, In d doc /\ within (set_of d) x.
Definition location (k : opkind) : string :=
  match k with KQuery => "QUERY" | KMutation => "MUTATION" | KSubscription => "SUBSCRIPTION" end.
Inductive directed (doc : list qdef) : string -> list directive -> Prop :=
| directed_operation k n ds vs set : In (QOp k n ds vs set) doc -> directed doc (location k) ds
| directed_fragment n tc ds set : In (QFrag n tc ds set) doc -> directed doc "FRAGMENT_DEFINITION" ds
| directed_field al n args ds sub : item doc (NField al n args ds sub) -> directed doc "FIELD" ds
| directed_spread n ds : item doc (NSpread n ds) -> directed doc "FRAGMENT_SPREAD" ds
| directed_inline tc ds sub : item doc (NInline tc ds sub) -> directed doc "INLINE_FRAGMENT" ds.
Definition directive_used (doc : list qdef) (d : directive) : Prop := exists loc ds, directed doc loc ds /\ In d ds.
Definition variable_of (doc : list qdef) (v : vardef) : Prop := exists k n ds vs set, In (QOp k n ds vs set) doc /\ In v vs.

(* Fields with the type that they are selected on *)
Definition field_at (sch : list definition) (doc : list qdef) (ty : option tnode) (n : string)
  (args : list (string * gvalue)) (sub : list nsel) : Prop :=
  exists set al ds, occurs sch doc ty set /\ In (NField al n args ds sub) set.

(* Values at any depth *)
Inductive part : gvalue -> gvalue -> Prop :=
| part_self v : part v v
| part_list l x v : In x l -> part x v -> part (GList l) v
| part_object o k x v : In (k, x) o -> part x v -> part (GObj o) v.
Inductive value_of (doc : list qdef) : gvalue -> Prop :=
| value_argument al n args ds sub k v w : item doc (NField al n args ds sub) -> In (k, v) args -> part v w -> value_of doc w
| value_directive d k v w : directive_used doc d -> In (k, v) (d_args d) -> part v w -> value_of doc w
| value_default x v w : variable_of doc x -> vd_default x = Some v -> part v w -> value_of doc w.

(* Something is at two places of a list. *)
Definition twice_in {A} (l : list A) (x : A) : Prop := exists a b c, l = a ++ x :: b ++ x :: c.
Definition operation_names (doc : list qdef) : list string :=
  flat_map (fun d => match d with QOp _ (Some n) _ _ _ => [n] | _ => [] end) doc.
Definition fragment_names (doc : list qdef) : list string :=
  flat_map (fun d => match d with QFrag n _ _ _ => [n] | _ => [] end) doc.

(* Kinds of types *)
Definition composite (t : typedef) : Prop :=
  match t with Object _ _ _ _ _ | Interface _ _ _ _ _ | Union _ _ _ _ => True | _ => False end.
Definition leaf (t : typedef) : Prop := match t with Scalar _ _ _ | Enum _ _ _ _ => True | _ => False end.
Definition takes_input (t : typedef) : Prop := leaf t \/ match t with InputObject _ _ _ _ => True | _ => False end.
Definition mentions_type (doc : list qdef) (n : string) : Prop :=
  (exists f ds set, In (QFrag f n ds set) doc) \/ (exists ds sub, item doc (NInline (Some n) ds sub)) \/
  (exists v, variable_of doc v /\ base (vd_type v) = n).
Definition reserved (n : string) : Prop := exists m, n = ("__" ++ m)%string.
Definition required (v : input_value) : Prop := (exists t, iv_type v = TNonNull t) /\ iv_default v = None.

(* The object types that a value of a type can have *)
Definition can_be (sch : list definition) (t o : typedef) : Prop :=
  is_object o /\ In (TypeDef o) sch /\
  match t with
  | Object n _ _ _ _ => type_name o = n
  | Interface n _ _ _ _ => match o with Object _ _ im _ _ => In n im | _ => False end
  | Union _ _ _ ms => In (type_name o) ms
  | _ => False
  end.

(* Two operations, at different places *)
Definition operation (d : qdef) : Prop := match d with QOp _ _ _ _ _ => True | QFrag _ _ _ _ => False end.
Definition several (doc : list qdef) : Prop :=
  exists a o b p c, doc = a ++ o :: b ++ p :: c /\ operation o /\ operation p.
(* Selections of two types can apply to the same object: the types are the same or share an object type. *)
Definition overlap (sch : list definition) (t u : typedef) : Prop :=
  type_name t = type_name u \/ exists o, can_be sch t o /\ can_be sch u o.
(* Every interface that implements others has an object type that implements it and them. *)
Definition inhabited (sch : list definition) : Prop :=
  forall n desc im ds fs, In (TypeDef (Interface n desc im ds fs)) sch -> im <> [] ->
  exists m desc' im' ds' fs', In (TypeDef (Object m desc' im' ds' fs')) sch /\ In n im' /\ forall i, In i im -> In i im'.
(* The members of unions are object types. *)
Definition members_ok (sch : list definition) : Prop :=
  forall n desc ds ms m t, In (TypeDef (Union n desc ds ms)) sch -> In m ms -> named sch m t -> is_object t.

(* An argument that the field or directive does not have *)
Definition bad_argument (sch : list definition) (doc : list qdef) (e : lerr) : Prop :=
  (exists ty n args sub t f a, e = UnknownFieldArgument a (type_name t) n /\ field_at sch doc ty n args sub /\ stands sch ty t /\
     In f (fields_of t) /\ f_name f = n /\ In a (map fst args) /\ ~ In a (map iv_name (f_args f))) \/
  (exists d defs rep ls a, e = UnknownDirectiveArgument a (d_name d) /\ directive_used doc d /\ defines sch (d_name d) defs rep ls /\
     In a (map fst (d_args d)) /\ ~ In a (map iv_name defs)).
(* Arguments are given to known fields and directives only. *)
Definition arguments_known (sch : list definition) (doc : list qdef) : Prop :=
  (forall ty n args sub, field_at sch doc ty n args sub -> args <> [] -> exists f, selects sch ty n f) /\
  (forall d, directive_used doc d -> d_args d <> [] -> In (d_name d) (directive_names sch)).
(* A fragment of a type put in a place of a type *)
Definition put (sch : list definition) (doc : list qdef) (f : option string) (t p : typedef) : Prop :=
  exists ty set, occurs sch doc ty set /\ stands sch ty p /\
    match f with
    | None => exists tc ds sub, In (NInline (Some tc) ds sub) set /\ named sch tc t
    | Some n => exists ds tc ds' set', In (NSpread n ds) set /\ In (QFrag n tc ds' set') doc /\ named sch tc t
    end.
