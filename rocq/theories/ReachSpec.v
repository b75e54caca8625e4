(* What the rules of the GraphQL specification ask of fragments and variables, over the spreads of a document. *)
From Coq Require Import String List Bool.
From Verif Require Import Ast ConsumerModel CondModel NormModel WalkModel LocalSpec.
Import ListNotations.
Local Open Scope string_scope.
Local Open Scope list_scope.

(* A definition spreads a fragment somewhere in it. *)
Definition spreads (d : qdef) (n : string) : Prop := exists ds, within (set_of d) (NSpread n ds).
Inductive reaches (doc : list qdef) (d : qdef) : qdef -> Prop :=
| reaches_itself : reaches doc d d
| reaches_spread e n tc ds set :
    reaches doc d e -> spreads e n -> In (QFrag n tc ds set) doc -> reaches doc d (QFrag n tc ds set).
Definition operation_ids (doc : list qdef) : list (option string) :=
  flat_map (fun d => match d with QOp _ n _ _ _ => [n] | _ => [] end) doc.

(* Some operation reaches a fragment of the name. *)
Definition fragment_used (doc : list qdef) (n : string) : Prop :=
  exists k name ds vs set d, In (QOp k name ds vs set) doc /\ reaches doc (QOp k name ds vs set) d /\ spreads d n.

(* Walks along a relation: from a over the names of the list to b *)
Inductive chain (R : string -> string -> Prop) : string -> list string -> string -> Prop :=
| chain_last a b : R a b -> chain R a [] b
| chain_more a b via c : R a b -> chain R b via c -> chain R a (b :: via) c.
Definition edge (doc : list qdef) (a b : string) : Prop := exists tc ds set, In (QFrag a tc ds set) doc /\ spreads (QFrag a tc ds set) b.
(* Spreads in a selection set or directly in the selection set of one of its selections *)
Definition near (set : list nsel) (n : string) : Prop :=
  (exists ds, In (NSpread n ds) set) \/
  (exists sub ds, In (NSpread n ds) sub /\
     ((exists al f args ds', In (NField al f args ds' sub) set) \/ exists tc ds', In (NInline tc ds' sub) set)).
Definition near_edge (doc : list qdef) (a b : string) : Prop :=
  exists tc ds set, In (QFrag a tc ds set) doc /\ near set b /\ In b (fragment_names doc).
Definition shallow (doc : list qdef) : Prop := forall n tc ds set m, In (QFrag n tc ds set) doc -> spreads (QFrag n tc ds set) m -> near set m.

(* A definition has a variable in an argument. *)
Definition uses (d : qdef) (v : string) : Prop :=
  (exists al n args ds sub k x, item [d] (NField al n args ds sub) /\ In (k, x) args /\ part x (GVar v)) \/
  (exists dir k x, directive_used [d] dir /\ In (k, x) (d_args dir) /\ part x (GVar v)).

(* The types that variables in a value are to have: [position strict t df v t' df' x] says that in a value v for the
   type t, at a place with a default or not, the variable x is at a place of type t', with a default or not.
   When strict, items of lists are only followed where the type of the place is a nullable list. *)
Definition defaulted (a : input_value) : bool := match iv_default a with Some _ => true | None => false end.
Inductive position (sch : list definition) (strict : bool) : tnode -> bool -> gvalue -> tnode -> bool -> string -> Prop :=
| position_here t df x : position sch strict t df (GVar x) t df x
| position_item t df l u v t' df' x :
    In v l -> t = TList u \/ (strict = false /\ t = TNonNull (TList u)) -> position sch strict u false v t' df' x ->
    position sch strict t df (GList l) t' df' x
| position_entry t df o k v ty f t' df' x :
    In (k, v) o -> named sch (base t) ty -> In f (inputs_of ty) -> iv_name f = k ->
    position sch strict (iv_type f) (defaulted f) v t' df' x -> position sch strict t df (GObj o) t' df' x.
Inductive typed_use (sch : list definition) (strict : bool) (d : qdef) : tnode -> bool -> string -> Prop :=
| use_argument ty n args sub f a v t df x :
    field_at sch [d] ty n args sub -> selects sch ty n f -> In a (f_args f) -> In (iv_name a, v) args ->
    position sch strict (iv_type a) (defaulted a) v t df x -> typed_use sch strict d t df x
| use_directive dir defs rep ls a v t df x :
    directive_used [d] dir -> defines sch (d_name dir) defs rep ls -> In a defs -> In (iv_name a, v) (d_args dir) ->
    position sch strict (iv_type a) (defaulted a) v t df x -> typed_use sch strict d t df x.

(* AreTypesCompatible and IsVariableUsageAllowed *)
Inductive compatible : tnode -> tnode -> Prop :=
| compatible_name n : compatible (TNamed n) (TNamed n)
| compatible_list a b : compatible a b -> compatible (TList a) (TList b)
| compatible_nonnull a b : compatible a b -> compatible (TNonNull a) (TNonNull b)
| compatible_drop a b : compatible a b -> (forall c, b <> TNonNull c) -> compatible (TNonNull a) b.
Definition good_default (v : vardef) : Prop := exists x, vd_default v = Some x /\ x <> GNull.
(* A nullable variable with a default counts as one that is not nullable. *)
Definition counts_as (v : vardef) (u : tnode) : Prop :=
  (((exists c, vd_type v = TNonNull c) \/ ~ good_default v) /\ u = vd_type v) \/
  ((forall c, vd_type v <> TNonNull c) /\ good_default v /\ u = TNonNull (vd_type v)).
Definition allowed (v : vardef) (t : tnode) (df : bool) : Prop :=
  match t, vd_type v with
  | TNonNull _, TNonNull _ => compatible (vd_type v) t
  | TNonNull t', u => (good_default v \/ df = true) /\ compatible u t'
  | _, u => compatible u t
  end.

(* The inputs that a schema has *)
Inductive input_in (sch : list definition) : list input_value -> Prop :=
| input_field t f : In (TypeDef t) sch -> In f (fields_of t) -> input_in sch (f_args f)
| input_object t : In (TypeDef t) sch -> input_in sch (inputs_of t)
| input_directive n args rep ls : defines sch n args rep ls -> input_in sch args.
Fixpoint plain_type (t : tnode) : Prop :=
  match t with TNamed _ => True | TList t => plain_type t | TNonNull (TNonNull _) => False | TNonNull t => plain_type t end.
Record inputs_ok (sch : list definition) : Prop := mkinputs_ok {
  io_names : forall l, input_in sch l -> NoDup (map iv_name l);
  io_types : forall l a t, input_in sch l -> In a l -> named sch (base (iv_type a)) t -> takes_input t;
  io_plain : forall l a, input_in sch l -> In a l -> plain_type (iv_type a) }.
(* Defaults of variables have no variables in them. *)
Definition constant_defaults (doc : list qdef) : Prop :=
  forall y x v, variable_of doc y -> vd_default y = Some x -> ~ part x (GVar v).

(* The selections at the top of a selection set on an object type, through the fragments that apply to the type *)
Definition applies (sch : list definition) (o : typedef) (tc : option string) : Prop :=
  match tc with None => True | Some n => exists t, named sch n t /\ can_be sch t o end.
Inductive top (sch : list definition) (doc : list qdef) (o : typedef) : list nsel -> nsel -> Prop :=
| top_here set x : In x set -> top sch doc o set x
| top_inline set tc ds sub x : In (NInline tc ds sub) set -> applies sch o tc -> top sch doc o sub x -> top sch doc o set x
| top_spread set n ds tc ds' set' x :
    In (NSpread n ds) set -> In (QFrag n tc ds' set') doc -> applies sch o (Some tc) -> top sch doc o set' x -> top sch doc o set x.
Definition root_field (sch : list definition) (doc : list qdef) (o : typedef) (set : list nsel) (n : string) : Prop :=
  exists al args ds sub, top sch doc o set (NField al n args ds sub).
(* What a field is called in the response *)
Definition response_field (sch : list definition) (doc : list qdef) (o : typedef) (set : list nsel) (r : string) : Prop :=
  exists al n args ds sub, top sch doc o set (NField al n args ds sub) /\ r = match al with Some a => a | None => n end.
