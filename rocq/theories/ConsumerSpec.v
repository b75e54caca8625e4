(** What clients may see of a supergraph: everything that is not marked [@inaccessible], itself or above it, and that is
    not part of the federation machinery. *)
From Coq Require Import String List Bool.
From Verif Require Import Ast ConsumerModel.
Import ListNotations.
Local Open Scope string_scope.

Inductive kind := KindScalar | KindObject | KindInterface | KindUnion | KindEnum | KindInput.
(** The things a schema says *)
Inductive element :=
| ESchema (query mutation subscription : option string)
| EType (k : kind) (name : string) (desc : option string)
| EField (t f : string) (ty : tnode) (desc : option string)
| EArg (t f a : string) (ty : tnode) (default : option gvalue) (desc : option string)
| EImplements (t i : string)
| EMember (u t : string)
| EValue (t v : string) (desc : option string)
| EInput (t f : string) (ty : tnode) (default : option gvalue) (desc : option string)
| EDirective (n : string) (desc : option string) (repeatable : bool) (locations : list string)
| EDirectiveArg (n a : string) (ty : tnode) (default : option gvalue) (desc : option string).

(** [part d e ds path]: the definition says [e], on which the directives [ds] stand; [path] are all directives on it and
    above it. *)
Inductive part : definition -> element -> list directive -> list (list directive) -> Prop :=
| part_schema ds q m s : part (SchemaDef ds q m s) (ESchema q m s) ds []
| part_scalar n d ds : part (TypeDef (Scalar n d ds)) (EType KindScalar n d) ds [ds]
| part_object n d im ds fs : part (TypeDef (Object n d im ds fs)) (EType KindObject n d) ds [ds]
| part_object_field n d im ds fs f : In f fs ->
    part (TypeDef (Object n d im ds fs)) (EField n (f_name f) (f_type f) (f_desc f)) (f_dirs f) [ds; f_dirs f]
| part_object_arg n d im ds fs f a : In f fs -> In a (f_args f) ->
    part (TypeDef (Object n d im ds fs)) (EArg n (f_name f) (iv_name a) (iv_type a) (iv_default a) (iv_desc a)) (iv_dirs a)
         [ds; f_dirs f; iv_dirs a]
| part_object_implements n d im ds fs i : In i im -> part (TypeDef (Object n d im ds fs)) (EImplements n i) [] [ds]
| part_interface n d im ds fs : part (TypeDef (Interface n d im ds fs)) (EType KindInterface n d) ds [ds]
| part_interface_field n d im ds fs f : In f fs ->
    part (TypeDef (Interface n d im ds fs)) (EField n (f_name f) (f_type f) (f_desc f)) (f_dirs f) [ds; f_dirs f]
| part_interface_arg n d im ds fs f a : In f fs -> In a (f_args f) ->
    part (TypeDef (Interface n d im ds fs)) (EArg n (f_name f) (iv_name a) (iv_type a) (iv_default a) (iv_desc a)) (iv_dirs a)
         [ds; f_dirs f; iv_dirs a]
| part_interface_implements n d im ds fs i : In i im -> part (TypeDef (Interface n d im ds fs)) (EImplements n i) [] [ds]
| part_union n d ds ms : part (TypeDef (Union n d ds ms)) (EType KindUnion n d) ds [ds]
| part_member n d ds ms m : In m ms -> part (TypeDef (Union n d ds ms)) (EMember n m) [] [ds]
| part_enum n d ds vs : part (TypeDef (Enum n d ds vs)) (EType KindEnum n d) ds [ds]
| part_value n d ds vs v : In v vs -> part (TypeDef (Enum n d ds vs)) (EValue n (ev_name v) (ev_desc v)) (ev_dirs v) [ds; ev_dirs v]
| part_input n d ds fs : part (TypeDef (InputObject n d ds fs)) (EType KindInput n d) ds [ds]
| part_input_field n d ds fs f : In f fs ->
    part (TypeDef (InputObject n d ds fs)) (EInput n (iv_name f) (iv_type f) (iv_default f) (iv_desc f)) (iv_dirs f) [ds; iv_dirs f]
| part_directive n d args r ls : part (DirectiveDef n d args r ls) (EDirective n d r ls) [] []
| part_directive_arg n d args r ls a : In a args ->
    part (DirectiveDef n d args r ls) (EDirectiveArg n (iv_name a) (iv_type a) (iv_default a) (iv_desc a)) (iv_dirs a) [iv_dirs a].

Definition marked (ds : list directive) : Prop := exists d, In d ds /\ d_name d = "inaccessible".
Definition says (l : list definition) (e : element) (ds : list directive) : Prop := exists d p, In d l /\ part d e ds p.
(** Nothing on the way to it is marked. *)
Definition shown (l : list definition) (e : element) (ds : list directive) : Prop :=
  exists d p, In d l /\ part d e ds p /\ Forall (fun ds => ~ marked ds) p.
Definition type_shown (l : list definition) (t : string) : Prop := exists k d ds, shown l (EType k t d) ds.
(** A membership or an implementation is visible only if the other type is. *)
Definition visible (l : list definition) (e : element) (ds : list directive) : Prop :=
  shown l e ds /\ match e with EImplements _ t | EMember _ t => type_shown l t | _ => True end.

(** The federation machinery: directives, and the types only they use *)
Definition internal_directive (n : string) : Prop :=
  In n ["join__type"; "join__enumValue"; "join__field"; "join__implements"; "join__unionMember"; "join__graph"; "join__owner";
        "join__directive"; "link"; "core"; "tag"; "inaccessible"; "authenticated"; "requiresScopes"; "cost"; "listSize"].
Definition internal_type (n : string) : Prop :=
  In n ["join__Graph"; "join__FieldSet"; "join__DirectiveArguments"; "link__Purpose"; "link__Import"; "core__Purpose"; "requiresScopes__Scope"].
Definition public (e : element) : Prop :=
  match e with
  | ESchema _ _ _ => True
  | EType _ t _ | EField t _ _ _ | EArg t _ _ _ _ _ | EImplements t _ | EMember t _ | EValue t _ _ | EInput t _ _ _ _ => ~ internal_type t
  | EDirective n _ _ _ | EDirectiveArg n _ _ _ _ => ~ internal_directive n
  end.
(** Directives left after removing the internal ones: the others, in their order *)
Inductive without_internal : list directive -> list directive -> Prop :=
| without_nil : without_internal [] []
| without_drop d l l' : internal_directive (d_name d) -> without_internal l l' -> without_internal (d :: l) l'
| without_keep d l l' : ~ internal_directive (d_name d) -> without_internal l l' -> without_internal (d :: l) (d :: l').

(** What composition promises: a type that is not inaccessible has fields that are not, if any. *)
Definition composed (l : list definition) : Prop :=
  forall d, In d l -> forall n de im ds fs, (d = TypeDef (Object n de im ds fs) \/ d = TypeDef (Interface n de im ds fs)) ->
    ~ marked ds -> fs = [] \/ exists f, In f fs /\ ~ marked (f_dirs f).
Definition answers (l : list definition) : Prop := exists t f ty d ds, shown l (EField t f ty d) ds.
Definition extensionless (l : list definition) : Prop := forall n, ~ In (TypeExtension n) l.

(** What introspection adds: its own definitions, except that its [Query] is not a type of its own, its fields go to the
    query type [q]. *)
Inductive added (intro : list definition) (q : string) : element -> list directive -> Prop :=
| added_own d e ds p : In d intro -> (forall n de im dd fs, d = TypeDef (Object n de im dd fs) -> n <> "Query") -> part d e ds p -> added intro q e ds
| added_field de im dd fs f : In (TypeDef (Object "Query" de im dd fs)) intro -> In f fs ->
    added intro q (EField q (f_name f) (f_type f) (f_desc f)) (f_dirs f)
| added_arg de im dd fs f a : In (TypeDef (Object "Query" de im dd fs)) intro -> In f fs -> In a (f_args f) ->
    added intro q (EArg q (f_name f) (iv_name a) (iv_type a) (iv_default a) (iv_desc a)) (iv_dirs a).

(** The name of the query type *)
Definition query_root (l : list definition) (q : string) : Prop :=
  ((exists ds m s, In (SchemaDef ds (Some q) m s) l) /\ (forall ds q' m s, In (SchemaDef ds (Some q') m s) l -> q' = q))
  \/ ((forall ds q' m s, ~ In (SchemaDef ds (Some q') m s) l) /\ q = "Query").
(** The supergraph has a query type, which clients may see. *)
Definition queried (l : list definition) (q : string) : Prop :=
  query_root l q /\ ~ internal_type q /\ exists d ds, shown l (EType KindObject q d) ds.

(** The type an element speaks of *)
Fixpoint base_type (t : tnode) : string :=
  match t with TNamed n => n | TList t' => base_type t' | TNonNull t' => base_type t' end.
Definition refers (e : element) : option string :=
  match e with
  | EField _ _ ty _ | EArg _ _ _ ty _ _ | EInput _ _ ty _ _ | EDirectiveArg _ _ ty _ _ => Some (base_type ty)
  | EImplements _ t | EMember _ t => Some t
  | _ => None
  end.
Definition has_type (l : list definition) (n : string) : Prop := exists k d ds, says l (EType k n d) ds.
Definition closed (l : list definition) : Prop := forall e ds n, says l e ds -> refers e = Some n -> has_type l n.
(** What is shown speaks only of what is shown, or of what introspection brings. *)
Definition self_contained (introspection l : list definition) (q : string) : Prop :=
  forall e ds n, (shown l e ds /\ public e \/ added introspection q e ds) -> refers e = Some n ->
    (type_shown l n /\ ~ internal_type n) \/ exists k d ds', added introspection q (EType k n d) ds'.
