(* What literal values the GraphQL specification takes for a type, and which faults are told apart. *)
From Coq Require Import String List Bool ZArith.
From Verif Require Import Ast ConsumerModel CondModel NormModel WalkModel LocalSpec ReachSpec ValsModel.
Import ListNotations.
Local Open Scope string_scope.
Local Open Scope list_scope.

(* The values that a document gives, with the types that they are to have *)
Inductive place (sch : list definition) (doc : list qdef) : tnode -> gvalue -> Prop :=
| place_argument ty n args sub f a v :
    field_at sch doc ty n args sub -> selects sch ty n f -> In a (f_args f) -> In (iv_name a, v) args -> place sch doc (iv_type a) v
| place_directive dir defs rep ls a v :
    directive_used doc dir -> defines sch (d_name dir) defs rep ls -> In a defs -> In (iv_name a, v) (d_args dir) ->
    place sch doc (iv_type a) v
| place_default y v : variable_of doc y -> vd_default y = Some v -> place sch doc (vd_type y) v.

(* Scalars: ranges are those of section 3.5 *)
Definition builtin (n : string) : Prop := In n ["Int"; "Float"; "String"; "Boolean"; "ID"].
Definition scalar_takes (n : string) (v : gvalue) : Prop :=
  ~ builtin n \/
  (n = "Int" /\ exists z, v = GInt z /\ (- 2 ^ 31 <= z < 2 ^ 31)%Z) \/
  (n = "Float" /\ ((exists z, v = GInt z) \/ exists b, v = GFloat b)) \/
  (n = "String" /\ exists s, v = GStr s) \/
  (n = "Boolean" /\ exists b, v = GBool b) \/
  (n = "ID" /\ ((exists z, v = GInt z) \/ exists s, v = GStr s)).
(* Input coercion of literals. Variables are the matter of another rule. *)
Inductive fits (sch : list definition) : tnode -> gvalue -> Prop :=
| fits_variable t x : fits sch t (GVar x)
| fits_nonnull t v : v <> GNull -> fits sch t v -> fits sch (TNonNull t) v
| fits_null_name n : fits sch (TNamed n) GNull
| fits_null_list t : fits sch (TList t) GNull
| fits_items t l : (forall v, In v l -> fits sch t v) -> fits sch (TList t) (GList l)
| fits_single t v : (forall l, v <> GList l) -> v <> GNull -> fits sch t v -> fits sch (TList t) v
| fits_scalar n desc ds v : v <> GNull -> named sch n (Scalar n desc ds) -> scalar_takes n v -> fits sch (TNamed n) v
| fits_enum n desc ds vs s : named sch n (Enum n desc ds vs) -> In s (map ev_name vs) -> fits sch (TNamed n) (GEnum s)
| fits_object n desc ds fs o :
    named sch n (InputObject n desc ds fs) ->
    (forall k, In k (map fst o) -> In k (map iv_name fs)) ->
    (forall f, In f fs -> required f -> In (iv_name f) (map fst o)) ->
    (forall f v, In f fs -> In (iv_name f, v) o -> fits sch (iv_type f) v) ->
    fits sch (TNamed n) (GObj o).

(* Values inside values, with the types that they are to have. When strict, items of lists are only followed where
   the type of the place is a nullable list. *)
Inductive meets (sch : list definition) (strict : bool) : tnode -> gvalue -> tnode -> gvalue -> Prop :=
| meets_here t v : meets sch strict t v t v
| meets_item t l u v t' v' :
    In v l -> t = TList u \/ (strict = false /\ t = TNonNull (TList u)) -> meets sch strict u v t' v' -> meets sch strict t (GList l) t' v'
| meets_entry t o v ty f t' v' :
    In (iv_name f, v) o -> named sch (base t) ty -> In f (inputs_of ty) -> meets sch strict (iv_type f) v t' v' ->
    meets sch strict t (GObj o) t' v'.
Definition simple (v : gvalue) : Prop :=
  match v with GInt _ | GFloat _ | GStr _ | GBool _ | GEnum _ => True | _ => False end.
(* As [scalar_takes], for integers of any size *)
Definition scalar_kind (n : string) (v : gvalue) : Prop := scalar_takes n v \/ (n = "Int" /\ exists z, v = GInt z).
Inductive fault (sch : list definition) (t : tnode) : gvalue -> verr -> Prop :=
| fault_null u : t = TNonNull u -> fault sch t GNull (NullFor t)
| fault_kind v ty : simple v -> named sch (base t) ty -> ~ leaf ty -> fault sch t v (Expected (base t) v)
| fault_scalar v desc ds : simple v -> named sch (base t) (Scalar (base t) desc ds) -> ~ scalar_kind (base t) v -> fault sch t v (Expected (base t) v)
| fault_value s desc ds vs : named sch (base t) (Enum (base t) desc ds vs) -> ~ In s (map ev_name vs) -> fault sch t (GEnum s) (NoSuchValue s (base t))
| fault_enum v desc ds vs : simple v -> named sch (base t) (Enum (base t) desc ds vs) -> (forall s, v <> GEnum s) -> fault sch t v (NotEnum (base t) v)
| fault_missing o desc ds fs f :
    named sch (base t) (InputObject (base t) desc ds fs) -> In f fs -> required f -> ~ In (iv_name f) (map fst o) ->
    fault sch t (GObj o) (MissingField (base t) (iv_name f) (iv_type f))
| fault_field o desc ds fs k :
    named sch (base t) (InputObject (base t) desc ds fs) -> In k (map fst o) -> ~ In k (map iv_name fs) ->
    fault sch t (GObj o) (UndefinedField k (base t)).

(* Values that the rule judges in full: lists only where the type is a nullable list or a scalar of the schema, objects only
   for input objects and such scalars, and integers for Int in range. *)
Definition open_scalar (sch : list definition) (t : tnode) : Prop :=
  exists desc ds, named sch (base t) (Scalar (base t) desc ds) /\ ~ builtin (base t).
Inductive tame (sch : list definition) : tnode -> gvalue -> Prop :=
| tame_variable t x : tame sch t (GVar x)
| tame_null t : tame sch t GNull
| tame_simple t v ty : simple v -> named sch (base t) ty -> (forall z, v = GInt z -> base t = "Int" -> (- 2 ^ 31 <= z < 2 ^ 31)%Z) -> tame sch t v
| tame_list t l : (forall v, In v l -> tame sch t v) -> tame sch (TList t) (GList l)
| tame_object t o desc ds fs :
    named sch (base t) (InputObject (base t) desc ds fs) ->
    (forall f v, In f fs -> In (iv_name f, v) o -> tame sch (iv_type f) v) -> tame sch t (GObj o)
| tame_list_open n l : open_scalar sch (TNamed n) -> tame sch (TNamed n) (GList l)
| tame_object_open t o : open_scalar sch t -> tame sch t (GObj o).
