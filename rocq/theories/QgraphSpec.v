(** Which moves a supergraph allows: the edges that its graph should have. *)
From Coq Require Import Ascii String List NArith Bool Arith.
From Verif Require Import Ast OverrideModel PathModel QgraphModel.
Import ListNotations.
Local Open Scope string_scope.
Local Open Scope list_scope.

(** Where one can stand: the root of an operation; a type in a subgraph; a type as one [@provides] of a
    subgraph shows it; a union as one field of a type returns it, taken to be one of its members. *)
Inductive place := PRoot (name : string) | PType (type graph : string) | PView (type graph : string) (view : N) | PMember (type graph owner field member : string).
Definition place_of (n : gnode) : place :=
  match n with
  | RootNode _ name => PRoot name
  | TypeNode name g _ None | TypeNode name g _ (Some SpRoot) => PType name g
  | TypeNode name g _ (Some (SpProvides v)) => PView name g v
  | TypeNode name g _ (Some (SpUnion t f o _)) => PMember name g t f o
  end.

Section Spec.
  Variable parse : string -> string -> string -> option (list sel).
  Variable s : sstate.

  Definition defined (name : string) (d : sdefn) : Prop := In (name, d) (s_defs s).
  Definition known_as (id g : string) : Prop := In (id, g) (s_names s).
  Definition lives (d : sdefn) (id : string) : Prop := exists j, In j (d_types d) /\ jt_graph j = id.
  Definition has_field (d : sdefn) (f : string) (sf : sfield) : Prop := (d_kind d = DObject \/ d_kind d = DInterface) /\ In (f, sf) (d_own d).
  Definition union_type (t : string) (u : sdefn) : Prop := defined t u /\ d_kind u = DUnion.
  Definition scalar (t : string) : Prop := In t ["String"; "Int"; "Float"; "Boolean"; "ID"] \/ In t (s_scalars s).
  (** The operation that a type is the root of; a name that is given twice counts first for queries, then for mutations *)
  Definition root_op (name : string) (k : opkind) : Prop :=
    match k with
    | OpQuery => s_query s = name
    | OpMutation => s_mutation s = Some name /\ s_query s <> name
    | OpSubscription => s_subscription s = Some name /\ s_mutation s <> Some name /\ s_query s <> name
    end.
  (** The first of some [@join__field]s that names a subgraph *)
  Definition first_for (id : string) (l : list jfield) (j : jfield) : Prop :=
    exists a b, l = a ++ j :: b /\ jf_graph j = Some id /\ forall x, In x a -> jf_graph x <> Some id.
  (** A subgraph has a field: no subgraph is named for it, or this one is. *)
  Definition offered (id : string) (sf : sfield) (mj : option jfield) : Prop :=
    match mj with None => sf_joins sf = [] | Some j => first_for id (sf_joins sf) j end.
  Definition hidden (mj : option jfield) : Prop := exists j, mj = Some j /\ jf_external j = true /\ jf_requires j = None.
  (** The subgraph that overrides a field of another *)
  Definition replaced (g : string) (l : list jfield) (over : option (string * option label)) : Prop :=
    match over with
    | None => forall x, In x l -> jf_override x <> Some g
    | Some (by_, lab) => exists a j b id, l = a ++ j :: b /\ jf_override j = Some g /\ jf_graph j = Some id /\ known_as id by_ /\ jf_label j = lab /\
                                          forall x, In x a -> jf_override x <> Some g
    end.
  Definition wants (name : string) (mj : option jfield) (req : option tas) : Prop :=
    match mj with
    | Some j => match jf_requires j with
                | Some r => exists id l, jf_graph j = Some id /\ parse id name r = Some l /\ req = Some (mktas name l)
                | None => req = None
                end
    | None => req = None
    end.
  Definition key_in (j : jtype) (key : string) : Prop := jt_resolvable j = true /\ jt_key j = Some key.
  (** The members of a union for a field of a subgraph *)
  Definition member_in (id : string) (sf : sfield) (u : sdefn) (m : string) : Prop :=
    (exists j t, first_for id (sf_joins sf) j /\ jf_type j = Some t /\ t <> sf_type sf /\ m = t) \/
    ((forall j t, first_for id (sf_joins sf) j -> jf_type j = Some t -> t = sf_type sf) /\ In (id, m) (d_members u)).
  Definition without_provides (j : jfield) : jfield :=
    mkjf (jf_graph j) (jf_requires j) None (jf_type j) (jf_external j) (jf_override j) (jf_label j) (jf_overridden j).
  (** A field that a subgraph resolves *)
  Definition resolves (name : string) (d : sdefn) (id g f : string) (sf : sfield) (mj : option jfield) (req : option tas) (over : option (string * option label)) : Prop :=
    defined name d /\ lives d id /\ known_as id g /\ has_field d f sf /\ offered id sf mj /\ ~ hidden mj /\ wants name mj req /\ replaced g (sf_joins sf) over.
  Definition enters (name g : string) (k : opkind) : Prop :=
    exists d id, defined name d /\ d_kind d = DObject /\ root_op name k /\ lives d id /\ known_as id g /\ exists f sf mj, has_field d f sf /\ offered id sf mj.

  (** What a selection of [@provides] adds at a place that shows a type *)
  Inductive viewed (id g : string) (v : N) : string -> place -> list sel -> place -> gkind -> place -> Prop :=
  | v_move type d at_ l j key sel g' : defined type d -> In j (d_types d) -> key_in j key -> jt_graph j <> id -> known_as (jt_graph j) g' ->
      parse (jt_graph j) type key = Some sel ->
      forall b, (b = true <-> d_kind d = DInterface) -> viewed id g v type at_ l at_ (GEntity key (mktas type sel) b) (PType type g')
  | v_field type d at_ l f a ar i k om sub sf leaf : defined type d -> In (SField f a ar i k om sub) l -> has_field d f sf -> (leaf = true <-> scalar type) ->
      viewed id g v type at_ l at_ (GField f type leaf (sf_list sf) None None None) (PView (sf_type sf) g v)
  | v_field_self type d at_ l f a ar i k om sub sf : defined type d -> In (SField f a ar i k om sub) l -> has_field d f sf ->
      viewed id g v type at_ l (PView (sf_type sf) g v) (GSelfie (sf_type sf)) (PView (sf_type sf) g v)
  | v_field_below type d at_ l f a ar i k om sub sf d' h m t : defined type d -> In (SField f a ar i k om sub) l -> has_field d f sf -> sub <> [] -> defined (sf_type sf) d' ->
      viewed id g v (sf_type sf) (PView (sf_type sf) g v) sub h m t -> viewed id g v type at_ l h m t
  | v_frag type at_ l c d i k sub : defined c d -> In (SFrag c i k sub) l -> viewed id g v type at_ l at_ (GAbstract c) (PView c g v)
  | v_frag_self type at_ l c d i k sub : defined c d -> In (SFrag c i k sub) l -> viewed id g v type at_ l (PView c g v) (GSelfie c) (PView c g v)
  | v_frag_below type at_ l c d i k sub h m t : defined c d -> In (SFrag c i k sub) l -> viewed id g v c (PView c g v) sub h m t -> viewed id g v type at_ l h m t.
  (** The number of a view: one more than the views of the same type in the same subgraph before it *)
  Definition provides_in (id : string) (j : jfield) : bool :=
    match jf_graph j, jf_provides j with Some x, Some _ => String.eqb x id | _, _ => false end.
  Definition views_in (id : string) (l : list jfield) : N := N.of_nat (length (filter (provides_in id) l)).
  Definition view_of (d : sdefn) (id f : string) (sf : sfield) (j : jfield) (text : string) (v : N) : Prop :=
    (d_kind d = DObject \/ d_kind d = DInterface) /\ jf_graph j = Some id /\ jf_provides j = Some text /\
    exists a b ja jb, d_own d = a ++ (f, sf) :: b /\ sf_joins sf = ja ++ j :: jb /\
      v = (1 + views_in id (flat_map (fun x => sf_joins (snd x)) a) + views_in id ja)%N.

  Inductive edge : place -> gkind -> place -> Prop :=
  | e_entry name g k : enters name g k -> edge (PRoot name) (GEntry g k) (PType name g)
  | e_typename name d id g : defined name d -> lives d id -> known_as id g -> d_kind d <> DOther ->
      (forall j, In j (d_types d) -> jt_graph j = id -> jt_iobj j = false) ->
      edge (PType name g) (GField "__typename" name true false None None None) (PType "String" g)
  | e_self name d id g : defined name d -> lives d id -> known_as id g -> edge (PType name g) (GSelfie name) (PType name g)
  | e_field name d id g f sf mj req over leaf : resolves name d id g f sf mj req over -> (leaf = true <-> scalar (sf_type sf)) -> (forall u, ~ union_type (sf_type sf) u) ->
      edge (PType name g) (GField f name leaf (sf_list sf) (option_map without_provides mj) req over) (PType (sf_type sf) g)
  | e_reentry name d id g f sf mj req over g' k : resolves name d id g f sf mj req over -> (forall u, ~ union_type (sf_type sf) u) ->
      enters (sf_type sf) g' k -> g' <> g -> edge (PType name g) (GReentry f name (sf_list sf)) (PType (sf_type sf) g')
  | e_union name d id g f sf mj req over leaf u m : resolves name d id g f sf mj req over -> (leaf = true <-> scalar (sf_type sf)) -> union_type (sf_type sf) u -> member_in id sf u m ->
      edge (PType name g) (GField f name leaf (sf_list sf) None req over) (PMember (sf_type sf) g name f m)
  | e_union_typename name d id g f sf mj req over u m : resolves name d id g f sf mj req over -> union_type (sf_type sf) u -> member_in id sf u m ->
      edge (PMember (sf_type sf) g name f m) (GField "__typename" (sf_type sf) true false None None None) (PType "String" g)
  | e_union_member name d id g f sf mj req over u m : resolves name d id g f sf mj req over -> union_type (sf_type sf) u -> member_in id sf u m ->
      edge (PMember (sf_type sf) g name f m) (GAbstract m) (PType m g)
  | e_implements name d id g iface : defined name d -> d_kind d = DObject -> In (id, iface) (d_impl d) -> known_as id g -> edge (PType iface g) (GAbstract name) (PType name g)
  | e_entity name d j1 j2 key sel g1 g2 b : defined name d -> In j1 (d_types d) -> In j2 (d_types d) -> known_as (jt_graph j1) g1 -> known_as (jt_graph j2) g2 -> key_in j2 key ->
      parse (jt_graph j2) name key = Some sel -> (b = true <-> d_kind d = DInterface) -> edge (PType name g1) (GEntity key (mktas name sel) b) (PType name g2)
  | e_object name d j key g o od sel id : defined name d -> In j (d_types d) -> jt_iobj j = true -> key_in j key -> known_as (jt_graph j) g ->
      defined o od -> d_kind od = DObject -> In (id, name) (d_impl od) -> parse (jt_graph j) name "__typename" = Some sel ->
      edge (PType name g) (GIobj o (mktas name sel)) (PType name g)
  | e_object_entity name d j key g o od sel id j2 g2 b : defined name d -> In j (d_types d) -> jt_iobj j = true -> key_in j key -> known_as (jt_graph j) g ->
      defined o od -> d_kind od = DObject -> In (id, name) (d_impl od) -> In j2 (d_types od) -> jt_graph j2 <> jt_graph j -> known_as (jt_graph j2) g2 ->
      parse (jt_graph j) name key = Some sel -> (b = true <-> d_kind d = DInterface) -> edge (PType o g2) (GEntity key (mktas name sel) b) (PType name g)
  | e_view name d id g f sf j text v req leaf : defined name d -> lives d id -> known_as id g -> view_of d id f sf j text v -> wants name (Some j) req -> (leaf = true <-> scalar (sf_type sf)) ->
      edge (PType name g) (GField f name leaf (sf_list sf) (Some j) req None) (PView (sf_type sf) g v)
  | e_view_self name d id g f sf j text v : defined name d -> lives d id -> known_as id g -> view_of d id f sf j text v ->
      edge (PView (sf_type sf) g v) (GSelfie (sf_type sf)) (PView (sf_type sf) g v)
  | e_view_below name d id g f sf j text v d' l h k t : defined name d -> lives d id -> known_as id g -> view_of d id f sf j text v -> defined (sf_type sf) d' ->
      parse id (sf_type sf) text = Some l -> viewed id g v (sf_type sf) (PView (sf_type sf) g v) l h k t -> edge h k t.

  (** ** Supergraphs *)
  Definition without (c : ascii) (x : string) : Prop := ~ In c (list_ascii_of_string x).
  Definition clean_type (x : string) : Prop := without "/"%char x /\ without "."%char x.
  Definition clean_graph (x : string) : Prop := without "/"%char x /\ without " "%char x.
  (** Names are what GraphQL allows, subgraphs have neither slashes nor spaces in theirs, and names name one thing. *)
  Definition fine : Prop :=
    NoDup (map fst (s_defs s)) /\ NoDup (map fst (s_names s)) /\ NoDup (map snd (s_names s)) /\
    (forall name d, defined name d -> NoDup (map fst (d_own d))) /\
    clean_type (s_query s) /\ (forall m, s_mutation s = Some m -> clean_type m) /\ (forall m, s_subscription s = Some m -> clean_type m) /\
    (forall id g, known_as id g -> clean_graph g) /\
    (forall name d, defined name d -> clean_type name) /\
    (forall name d f sf, defined name d -> In (f, sf) (d_own d) -> without ":"%char f /\ clean_type (sf_type sf) /\ forall j t, In j (sf_joins sf) -> jf_type j = Some t -> clean_type t) /\
    (forall name d id t, defined name d -> In (id, t) (d_impl d) \/ In (id, t) (d_members d) -> clean_type t).
End Spec.

(** ** Graphs *)
Definition drawn (b : builder) (h : place) (k : gkind) (t : place) : Prop :=
  exists i j hn tn, In (i, j, k) (b_edges b) /\ nth_error (b_nodes b) i = Some hn /\ nth_error (b_nodes b) j = Some tn /\ place_of hn = h /\ place_of tn = t.
Definition root_name (s : sstate) (n : string) : Prop := s_query s = n \/ s_mutation s = Some n \/ s_subscription s = Some n.

(** ** Supergraphs that name only what they define *)
Section Closed.
  Variable parse : string -> string -> string -> option (list sel).
  Variable s : sstate.
  (** A selection of fields that the types have, all the way down *)
  Inductive shown : string -> list sel -> Prop :=
  | shown_all type d l : defined s type d ->
      (forall f a ar i k om sub, In (SField f a ar i k om sub) l -> exists sf, has_field d f sf /\ (sub = [] \/ shown (sf_type sf) sub)) ->
      (forall c i k sub, In (SFrag c i k sub) l -> shown c sub) -> (forall n, ~ In (SSpread n) l) -> shown type l.
  Definition closed : Prop :=
    (forall name d j, defined s name d -> In j (d_types d) ->
       (exists g, known_as s (jt_graph j) g) /\ (forall key, key_in j key -> exists l, parse (jt_graph j) name key = Some l) /\
       (jt_iobj j = true -> exists l, parse (jt_graph j) name "__typename" = Some l)) /\
    (forall name d id t, defined s name d -> In (id, t) (d_impl d) -> exists g, known_as s id g) /\
    (forall name d f sf j, defined s name d -> has_field d f sf -> In j (sf_joins sf) ->
       (forall from, jf_override j = Some from -> exists id g, jf_graph j = Some id /\ known_as s id g) /\
       forall id, jf_graph j = Some id -> lives d id ->
         (forall r, jf_requires j = Some r -> exists l, parse id name r = Some l) /\
         (forall p, jf_provides j = Some p -> exists l, parse id (sf_type sf) p = Some l /\ shown (sf_type sf) l)).
End Closed.
