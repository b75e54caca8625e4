(** Which fields may share a response name: the section "Field Selection Merging" of the GraphQL
    specification, said by relations, without the algorithm of the rule. *)
From Coq Require Import String List NArith ZArith Bool.
From Verif Require Import Ast NormModel OverlapModel.
Import ListNotations.
Local Open Scope string_scope.
Local Open Scope list_scope.

Section Merging.
  Variable sch : list tdef.
  Variable doc : list definition.

  Definition unique_types : Prop := NoDup (map t_name sch).
  Definition frag_names : list string := flat_map (fun d => match d with Frag n _ _ => [n] | Oper _ _ => [] end) doc.
  Definition unique_fragments : Prop := NoDup frag_names.

  (** [o] is the type of that name, if the schema has one *)
  Definition the_type (n : string) (o : option tdef) : Prop :=
    match o with
    | Some t => In t sch /\ t_name t = n
    | None => forall t, In t sch -> t_name t <> n
    end.
  (** the type that a field declares; objects and interfaces have fields *)
  Definition declares (p : option tdef) (n : string) (ty : tnode) : Prop :=
    exists t before after, p = Some t /\ (t_kind t = KObject \/ t_kind t = KInterface)
      /\ t_fields t = before ++ (n, ty) :: after /\ ~ In n (map fst before).
  Inductive base : tnode -> string -> Prop :=
  | base_named : forall n, base (TNamed n) n
  | base_list : forall t n, base t n -> base (TList t) n
  | base_non_null : forall t n, base t n -> base (TNonNull t) n.
  (** the type under which the selection set of a field stands *)
  Definition inside (p : option tdef) (n : string) (q : option tdef) : Prop :=
    (exists ty k, declares p n ty /\ base ty k /\ the_type k q)
    \/ ((forall ty, ~ declares p n ty) /\ q = None).
  Definition under (tc : option string) (p q : option tdef) : Prop :=
    match tc with Some c => the_type c q | None => q = p end.

  (** The fields of a selection set, with those of its fragments *)
  Inductive collected (p : option tdef) (set : list nsel) : option tdef -> field -> Prop :=
  | collected_field : forall al n args ds sub,
      In (NField al n args ds sub) set -> collected p set p (mkfield al n args sub)
  | collected_inline : forall tc ds sub q r f,
      In (NInline tc ds sub) set -> under tc p q -> collected q sub r f -> collected p set r f
  | collected_spread : forall k ds tc sub q r f,
      In (NSpread k ds) set -> In (Frag k tc sub) doc -> the_type tc q -> collected q sub r f -> collected p set r f.

  (** Equal values and equal arguments *)
  Inductive same : gvalue -> gvalue -> Prop :=
  | same_var : forall n, same (GVar n) (GVar n)
  | same_int : forall z, same (GInt z) (GInt z)
  | same_float : forall a b, a = b \/ (In a [0; 9223372036854775808]%N /\ In b [0; 9223372036854775808]%N) -> same (GFloat a) (GFloat b)
  | same_str : forall s, same (GStr s) (GStr s)
  | same_bool : forall b, same (GBool b) (GBool b)
  | same_null : same GNull GNull
  | same_enum : forall s, same (GEnum s) (GEnum s)
  | same_list : forall x y, Forall2 same x y -> same (GList x) (GList y)
  | same_obj : forall x y,
      (forall k v, In (k, v) x -> exists w, In (k, w) y /\ same v w) ->
      (forall k w, In (k, w) y -> exists v, In (k, v) x /\ same v w) -> same (GObj x) (GObj y).
  Definition same_args (x y : list (string * gvalue)) : Prop := same (GObj x) (GObj y).

  (** Types of the same shape *)
  Definition leaf (n : string) : Prop := exists t, the_type n (Some t) /\ t_kind t = KLeaf.
  Inductive same_shape : tnode -> tnode -> Prop :=
  | shape_list : forall a b, same_shape a b -> same_shape (TList a) (TList b)
  | shape_non_null : forall a b, same_shape a b -> same_shape (TNonNull a) (TNonNull b)
  | shape_equal : forall n, same_shape (TNamed n) (TNamed n)
  | shape_composite : forall a b, ~ leaf a -> ~ leaf b -> same_shape (TNamed a) (TNamed b).

  (** No object is of both types *)
  Definition apart (p q : option tdef) : Prop :=
    exists t u, p = Some t /\ q = Some u /\ t_kind t = KObject /\ t_kind u = KObject /\ t_name t <> t_name u.

  Definition key (f : field) (k : string) : Prop :=
    f_alias f = Some k \/ (f_alias f = None /\ f_name f = k).

  (** Two fields with the same response name cannot be merged.  [Excl] says that what encloses them
      already keeps them apart, so that only the shape of the answers matters. *)
  Inductive clash : Prop -> option tdef -> field -> option tdef -> field -> Prop :=
  | clash_name : forall Excl p f q g, ~ Excl -> ~ apart p q -> f_name f <> f_name g -> clash Excl p f q g
  | clash_args : forall Excl p f q g, ~ Excl -> ~ apart p q -> ~ same_args (f_args f) (f_args g) -> clash Excl p f q g
  | clash_type : forall Excl p f q g t u, declares p (f_name f) t -> declares q (f_name g) u -> ~ same_shape t u -> clash Excl p f q g
  | clash_below : forall Excl p f q g p' q' k r a s b,
      inside p (f_name f) p' -> inside q (f_name g) q' ->
      collected p' (f_sub f) r a -> collected q' (f_sub g) s b -> key a k -> key b k ->
      clash (Excl \/ apart p q) r a s b -> clash Excl p f q g.

  (** The selection sets of the document, each with its type *)
  Inductive stands : option tdef -> list nsel -> Prop :=
  | stands_fragment : forall n tc set p, In (Frag n tc set) doc -> the_type tc p -> stands p set
  | stands_operation : forall r set p, In (Oper (Some r) set) doc -> the_type r p -> stands p set
  | stands_rootless : forall set, In (Oper None set) doc -> stands None set
  | stands_field : forall p set al n args ds sub q,
      stands p set -> In (NField al n args ds sub) set -> inside p n q -> stands q sub
  | stands_inline : forall p set tc ds sub q,
      stands p set -> In (NInline tc ds sub) set -> under tc p q -> stands q sub.

  Definition document_clash : Prop :=
    exists p set r f s g k, stands p set /\ collected p set r f /\ collected p set s g
      /\ key f k /\ key g k /\ clash False r f s g.

  (** What other rules ask of the document *)
  Definition known_conditions : Prop :=
    forall p set c ds sub, stands p set -> In (NInline (Some c) ds sub) set -> exists t, the_type c (Some t).
  Inductive tidy : gvalue -> Prop :=
  | tidy_list : forall l, Forall tidy l -> tidy (GList l)
  | tidy_obj : forall l, NoDup (map fst l) -> Forall (fun kv => tidy (snd kv)) l -> tidy (GObj l)
  | tidy_other : forall v, (forall l, v <> GList l) -> (forall l, v <> GObj l) -> tidy v.
  Definition tidy_arguments : Prop :=
    forall p set al n args ds sub, stands p set -> In (NField al n args ds sub) set -> tidy (GObj args).
  (** no list among the values of the arguments *)
  Inductive listless : gvalue -> Prop :=
  | listless_obj : forall l, Forall (fun kv => listless (snd kv)) l -> listless (GObj l)
  | listless_other : forall v, (forall l, v <> GList l) -> (forall l, v <> GObj l) -> listless v.
  Definition listless_arguments : Prop :=
    forall p set al n args ds sub, stands p set -> In (NField al n args ds sub) set -> listless (GObj args).
  (** fragments spread no fragments outside the selection sets of their fields *)
  Inductive spreads (k : string) (set : list nsel) : Prop :=
  | spreads_here : forall ds, In (NSpread k ds) set -> spreads k set
  | spreads_inline : forall tc ds sub, In (NInline tc ds sub) set -> spreads k sub -> spreads k set.
  Definition flat : Prop := forall n tc set k, In (Frag n tc set) doc -> ~ spreads k set.
  (** fragments can be ranked so that each mentions lower ones only *)
  Inductive mentions (k : string) (set : list nsel) : Prop :=
  | mentions_here : forall ds, In (NSpread k ds) set -> mentions k set
  | mentions_field : forall al n args ds sub, In (NField al n args ds sub) set -> mentions k sub -> mentions k set
  | mentions_inline : forall tc ds sub, In (NInline tc ds sub) set -> mentions k sub -> mentions k set.
  Definition acyclic : Prop :=
    exists rank : string -> nat, forall n tc set k, In (Frag n tc set) doc -> mentions k set -> rank k < rank n.
End Merging.
