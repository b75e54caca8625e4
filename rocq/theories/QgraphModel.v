(** The graph of subgraph types that the planner searches, built from the supergraph.
    Models bin/router/src/query_planner/graph/mod.rs, node.rs and edge.rs, with the accessors of
    state/supergraph_state.rs and [check_field_subgraph_availability] of federation_spec/mod.rs.
    The maps of definitions and of fields are lists, in the order in which they are iterated. *)
From Coq Require Import String List NArith Bool Arith.
From Verif Require Import StrOrd StrUtil Ast QplanModel BestModel OverrideModel NormModel PathModel OpwalkModel.
Import ListNotations.
Local Open Scope string_scope.
Local Open Scope list_scope.

(** ** The supergraph *)
Inductive opkind := OpQuery | OpMutation | OpSubscription.
(** [JoinFieldDirective], federation_spec/join_field.rs:10-20; of [type_in_graph] the inner type *)
Record jfield := mkjf { jf_graph : option string; jf_requires : option string; jf_provides : option string; jf_type : option string;
                        jf_external : bool; jf_override : option string; jf_label : option label; jf_overridden : bool }.
(** [JoinTypeDirective] *)
Record jtype := mkjt { jt_graph : string; jt_key : option string; jt_resolvable : bool; jt_iobj : bool }.
Inductive dkind := DObject | DInterface | DUnion | DOther.
(** [SupergraphField]: the inner type, whether it is a list, its [@join__field]s *)
Record sfield := mksf { sf_type : string; sf_list : bool; sf_joins : list jfield }.
(** [SupergraphDefinition]: implemented interfaces are pairs of a subgraph and an interface, members of a
    union pairs of a subgraph and a type *)
Record sdefn := mkdef { d_kind : dkind; d_types : list jtype; d_own : list (string * sfield); d_impl : list (string * string); d_members : list (string * string) }.
Record sstate := mkstate { s_defs : list (string * sdefn); s_names : list (string * string); s_scalars : list string;
                           s_query : string; s_mutation : option string; s_subscription : option string }.

(** supergraph_state.rs:996-1021 *)
Definition d_fields (d : sdefn) : list (string * sfield) := match d_kind d with DObject | DInterface => d_own d | _ => [] end.
(** lines 1023-1031 *)
Definition subgraphs (d : sdefn) : list string := NormModel.sort_by (fun x => x) (map jt_graph (d_types d)).
(** lines 228-238; for object types also lines 647-662 *)
Definition root_kind (s : sstate) (name : string) : option opkind :=
  if String.eqb (s_query s) name then Some OpQuery
  else if match s_mutation s with Some m => String.eqb m name | None => false end then Some OpMutation
  else if match s_subscription s with Some m => String.eqb m name | None => false end then Some OpSubscription
  else None.
Definition root_type (s : sstate) (name : string) (d : sdefn) : option opkind := match d_kind d with DObject => root_kind s name | _ => None end.
(** lines 260-266,272-276,288-318 *)
Definition is_scalar (s : sstate) (t : string) : bool := has t ["String"; "Int"; "Float"; "Boolean"; "ID"] || has t (s_scalars s).
Definition is_iobj (s : sstate) (type id : string) : bool :=
  match lookup type (s_defs s) with
  | Some d => match d_kind d with DInterface => existsb (fun j => jt_iobj j && String.eqb (jt_graph j) id) (d_types d) | _ => false end
  | None => false
  end.
(** federation_spec/mod.rs:166-200 *)
Definition in_graph (id : string) (j : jfield) : bool := match jf_graph j with Some g => String.eqb g id | None => false end.
Definition availability (f : sfield) (id : string) (d : sdefn) : bool * option jfield :=
  match sf_joins f with
  | [] => (has id (subgraphs d), None)
  | _ => match find (in_graph id) (sf_joins f) with Some j => (true, Some j) | None => (false, None) end
  end.

(** ** Nodes and edges *)
(** [SubgraphTypeSpecialization] and [Node], node.rs:18-57 *)
Inductive spec := SpRoot | SpProvides (view : N) | SpUnion (type field object : string) (members : list string).
Inductive gnode := RootNode (k : opkind) (name : string) | TypeNode (name graph : string) (iobj : bool) (sp : option spec).
(** node.rs:60-87 *)
Definition display (n : gnode) : string :=
  (match n with
   | RootNode _ name => "root(" ++ name ++ ")"
   | TypeNode name graph _ sp =>
       match sp with
       | None | Some SpRoot => name ++ "/" ++ graph
       | Some (SpProvides v) => name ++ "/" ++ graph ++ "/" ++ N_to_dec v
       | Some (SpUnion t f o _) => name ++ "/" ++ graph ++ " for " ++ t ++ "." ++ f ++ ":" ++ o
       end
   end)%string.
(** [Edge], edge.rs:14-52,161-187 *)
Inductive gkind :=
| GEntry (graph : string) (k : opkind)
| GField (name type : string) (leaf is_list : bool) (jf : option jfield) (req : option tas) (over : option (string * option label))
| GReentry (name type : string) (is_list : bool)
| GEntity (key : string) (req : tas) (iface : bool)
| GAbstract (type : string)
| GSelfie (type : string)
| GIobj (type : string) (req : tas).

Definition opt_eqb {A} (eqb : A -> A -> bool) (a b : option A) : bool :=
  match a, b with Some x, Some y => eqb x y | None, None => true | _, _ => false end.
Definition label_eqb (a b : label) : bool :=
  match a, b with Custom x, Custom y => String.eqb x y | Percentage x, Percentage y => N.eqb x y | _, _ => false end.
Definition jf_eqb (a b : jfield) : bool :=
  opt_eqb String.eqb (jf_graph a) (jf_graph b) && opt_eqb String.eqb (jf_requires a) (jf_requires b) && opt_eqb String.eqb (jf_provides a) (jf_provides b) &&
  opt_eqb String.eqb (jf_type a) (jf_type b) && Bool.eqb (jf_external a) (jf_external b) && opt_eqb String.eqb (jf_override a) (jf_override b) &&
  opt_eqb label_eqb (jf_label a) (jf_label b) && Bool.eqb (jf_overridden a) (jf_overridden b).
Definition over_eqb (a b : string * option label) : bool := String.eqb (fst a) (fst b) && opt_eqb label_eqb (snd a) (snd b).

Inductive gerr := SubgraphNotFound (id : string) | NoRootType (k : opkind) | DefinitionNotFound (t : string) | FieldDefinitionNotFound (f t : string).
Inductive bres (A : Type) := BOk (a : A) | BErr (e : gerr) | BPanic.
Arguments BOk {A}. Arguments BErr {A}. Arguments BPanic {A}.
Definition bbind {A B} (r : bres A) (f : A -> bres B) : bres B := match r with BOk a => f a | BErr e => BErr e | BPanic => BPanic end.
Notation "x <<- r ; k" := (bbind r (fun x => k)) (at level 60, r at next level, right associativity).
Definition beach {A B} (f : A -> bres (list B)) : list A -> bres (list B) :=
  fix beach (l : list A) : bres (list B) := match l with [] => BOk [] | x :: l' => a <<- f x; b <<- beach l'; BOk (a ++ b) end.
Definition or_panic {A} (o : option A) : bres A := match o with Some a => BOk a | None => BPanic end.

(** What the phases do: put in a node, or an edge after its two nodes *)
Inductive cmd := CNode (n : gnode) | CEdge (h : gnode) (k : gkind) (t : gnode).

Section Build.
  (** [normalize_fields_argument_value_mut] of federation_spec/mod.rs:31-66, by subgraph, type and text; [None] for its panics *)
  Variable parse : string -> string -> string -> option (list sel).
  (** [PartialEq] of [TypeAwareSelection] *)
  Variable tas_eqb : tas -> tas -> bool.
  Variable s : sstate.

  (** edge.rs:348-377 *)
  Definition kind_eqb (a b : gkind) : bool :=
    match a, b with
    | GEntry x _, GEntry y _ => String.eqb x y
    | GField n t l i j r o, GField n' t' l' i' j' r' o' =>
        String.eqb n n' && String.eqb t t' && Bool.eqb l l' && Bool.eqb i i' && opt_eqb jf_eqb j j' && opt_eqb tas_eqb r r' && opt_eqb over_eqb o o'
    | GReentry n t i, GReentry n' t' i' => String.eqb n n' && String.eqb t t' && Bool.eqb i i'
    | GEntity k _ _, GEntity k' _ _ => String.eqb k k'
    | GAbstract x, GAbstract y => String.eqb x y
    | GIobj x _, GIobj y _ => String.eqb x y
    | _, _ => false
    end.

  (** supergraph_state.rs:240-245 *)
  Definition graph_name (id : string) : bres string := match lookup id (s_names s) with Some n => BOk n | None => BErr (SubgraphNotFound id) end.
  Definition type_in (name id : string) (iobj : bool) (sp : option spec) : bres gnode := g <<- graph_name id; BOk (TypeNode name g iobj sp).
  (** federation_spec/mod.rs:100-112 *)
  Definition selection (id type text : string) : bres tas := l <<- or_panic (parse id type text); BOk (mktas type l).

  (** mod.rs:205-219 *)
  Definition root_node (k : opkind) : option gnode :=
    match k with
    | OpQuery => Some (RootNode OpQuery (s_query s))
    | OpMutation => match s_mutation s with Some m => Some (RootNode OpMutation m) | None => None end
    | OpSubscription => match s_subscription s with Some m => Some (RootNode OpSubscription m) | None => None end
    end.
  (** mod.rs:509-563 *)
  Definition link_cmds : bres (list cmd) :=
    beach (fun x : string * sdefn => let (name, d) := x in
      match root_type s name d with
      | None => BOk []
      | Some k =>
          beach (fun id =>
            if existsb (fun f => fst (availability (snd f) id d)) (d_fields d)
            then match root_node k with
                 | None => BErr (NoRootType k)
                 | Some r => g <<- graph_name id; BOk [CEdge r (GEntry g k) (TypeNode name g false (Some SpRoot))]
                 end
            else BOk []) (subgraphs d)
      end) (s_defs s).

  (** mod.rs:44-76,79-118: the members of a union in a subgraph, sorted *)
  Definition union_members (f : sfield) (id : string) (u : sdefn) : list string :=
    let all := nodup string_dec (map snd (filter (fun m => String.eqb (fst m) id) (d_members u))) in
    NormModel.sort_by (fun x => x)
      match find (in_graph id) (sf_joins f) with
      | Some j => match jf_type j with Some t => if String.eqb t (sf_type f) then all else [t] | None => all end
      | None => all
      end.
  (** mod.rs:657-675 *)
  Fixpoint overridden_by (graph : string) (l : list jfield) : bres (option (string * option label)) :=
    match l with
    | [] => BOk None
    | j :: l' =>
        if match jf_override j with Some from => String.eqb from graph | None => false end
        then match jf_graph j with
             | Some id => match lookup id (s_names s) with Some n => BOk (Some (n, jf_label j)) | None => BPanic end
             | None => BPanic
             end
        else overridden_by graph l'
    end.
  (** mod.rs:690-706 *)
  Definition required (name : string) (mj : option jfield) : bres (option tas) :=
    match mj with
    | Some j => match jf_requires j with
                | Some r => id <<- or_panic (jf_graph j); t <<- selection id name r; BOk (Some t)
                | None => BOk None
                end
    | None => BOk None
    end.
  Definition no_provides (j : jfield) : jfield :=
    mkjf (jf_graph j) (jf_requires j) None (jf_type j) (jf_external j) (jf_override j) (jf_label j) (jf_overridden j).
  (** edge.rs:211-235 *)
  Definition typename_move (type : string) : gkind := GField "__typename" type true false None None None.
  Section Fields.
    (** The nodes that the edges of a root lead to, utils.rs:10-26 *)
    Variable entries : opkind -> list gnode.
    (** mod.rs:633-884 *)
    Definition field_edges (name : string) (d : sdefn) (id : string) (x : string * sfield) : bres (list cmd) :=
      let (fname, f) := x in
      let (available, mj) := availability f id d in
      if available
      then
        g <<- graph_name id;
        over <<- overridden_by g (sf_joins f);
        if match mj with Some j => jf_external j && match jf_requires j with None => true | Some _ => false end | None => false end then BOk []
        else
          req <<- required name mj;
          let head := TypeNode name g (is_iobj s name id) None in
          match lookup (sf_type f) (s_defs s) with
          | Some (mkdef DUnion _ _ _ _ as u) =>
              let members := union_members f id u in
              BOk (flat_map (fun m =>
                let tail := TypeNode (sf_type f) g (is_iobj s (sf_type f) id) (Some (SpUnion name fname m members)) in
                [CEdge tail (typename_move (sf_type f)) (TypeNode "String" g false None);
                 CEdge head (GField fname name (is_scalar s (sf_type f)) (sf_list f) None req over) tail;
                 CEdge tail (GAbstract m) (TypeNode m g (is_iobj s m id) None)]) members)
          | _ =>
              BOk (CEdge head (GField fname name (is_scalar s (sf_type f)) (sf_list f) (option_map no_provides mj) req over)
                         (TypeNode (sf_type f) g (is_iobj s (sf_type f) id) None)
                   :: match root_kind s (sf_type f) with
                      | None => []
                      | Some k => flat_map (fun n => match n with
                                                     | TypeNode _ g' _ _ => if String.eqb g' g then [] else [CEdge head (GReentry fname name (sf_list f)) n]
                                                     | RootNode _ _ => []
                                                     end) (entries k)
                      end)
          end
      else BOk [].
    (** mod.rs:565-632 *)
    Definition field_cmds : bres (list cmd) :=
      beach (fun x : string * sdefn => let (name, d) := x in
        beach (fun id =>
          g <<- graph_name id;
          let here := existsb (fun j => String.eqb (jt_graph j) id && jt_iobj j) (d_types d) in
          let typename := match d_kind d with DOther => [] | _ => if here then [] else [CEdge (TypeNode name g false None) (typename_move name) (TypeNode "String" g false None)] end in
          let head := TypeNode name g (is_iobj s name id) None in
          rest <<- beach (field_edges name d id) (d_fields d);
          BOk (typename ++ CEdge head (GSelfie name) head :: rest)) (subgraphs d)) (s_defs s).
  End Fields.

  (** mod.rs:436-482 *)
  Definition impl_cmds : bres (list cmd) :=
    beach (fun x : string * sdefn => let (name, d) := x in
      match d_kind d with
      | DObject => beach (fun y => g <<- graph_name (fst y); BOk [CEdge (TypeNode (snd y) g false None) (GAbstract name) (TypeNode name g false None)]) (d_impl d)
      | _ => BOk []
      end) (s_defs s).

  Definition is_interface (d : sdefn) : bool := match d_kind d with DInterface => true | _ => false end.
  (** A key that entities can be found by *)
  Definition key_of (j : jtype) : option string := if jt_resolvable j then jt_key j else None.
  (** mod.rs:256-434 *)
  Definition entity_cmds : bres (list cmd) :=
    beach (fun x : string * sdefn => let (name, d) := x in
      beach (fun j1 =>
        moves <<- beach (fun j2 =>
          g1 <<- graph_name (jt_graph j1);
          let head := TypeNode name g1 (jt_iobj j1) None in
          if String.eqb (jt_graph j1) (jt_graph j2)
          then match key_of j1 with
               | Some key => sel <<- selection (jt_graph j1) name key; BOk [CEdge head (GEntity key sel (is_interface d)) head]
               | None => BOk [CNode head]
               end
          else match key_of j2 with
               | Some key => g2 <<- graph_name (jt_graph j2); sel <<- selection (jt_graph j2) name key;
                             BOk [CEdge head (GEntity key sel (is_interface d)) (TypeNode name g2 (jt_iobj j2) None)]
               | None => BOk [CNode head]
               end) (d_types d);
        objects <<- match jt_iobj j1, key_of j1 with
          | true, Some key =>
              g1 <<- graph_name (jt_graph j1);
              let tail := TypeNode name g1 (jt_iobj j1) None in
              tn <<- selection (jt_graph j1) name "__typename";
              beach (fun y : string * sdefn => let (oname, o) := y in
                match d_kind o with
                | DObject =>
                    if existsb (fun i => String.eqb (snd i) name) (d_impl o)
                    then sel <<- selection (jt_graph j1) name key;
                         rest <<- beach (fun j2 => if String.eqb (jt_graph j1) (jt_graph j2) then BOk []
                                                   else g2 <<- graph_name (jt_graph j2); BOk [CEdge (TypeNode oname g2 (jt_iobj j2) None) (GEntity key sel (is_interface d)) tail]) (d_types o);
                         BOk (CEdge tail (GIobj oname tn) tail :: rest)
                    else BOk []
                | _ => BOk []
                end) (s_defs s)
          | _, _ => BOk []
          end;
        BOk (moves ++ objects)) (d_types d)) (s_defs s).

  (** mod.rs:899-938,1128-1166: moves from a node of a subgraph to the same type elsewhere *)
  Definition moves_from (head : gnode) (id type : string) (d : sdefn) : bres (list cmd) :=
    beach (fun j => match key_of j with
                    | Some key => if String.eqb (jt_graph j) id then BOk []
                                  else g <<- graph_name (jt_graph j); sel <<- selection (jt_graph j) type key;
                                       BOk [CEdge head (GEntity key sel (is_interface d)) (TypeNode type g (jt_iobj j) None)]
                    | None => BOk []
                    end) (d_types d).
  (** mod.rs:889-1046 *)
  Fixpoint view_item (id : string) (view : N) (type : string) (d : sdefn) (head : gnode) (x : sel) {struct x} : bres (list cmd) :=
    let view_set type d head l := m <<- moves_from head id type d; r <<- beach (view_item id view type d head) l; BOk (m ++ r) in
    match x with
    | SSpread _ => BPanic
    | SField name _ _ _ _ _ sub =>
        match lookup name (d_fields d) with
        | None => BErr (FieldDefinitionNotFound name type)
        | Some f =>
            let t := sf_type f in
            g <<- graph_name id;
            let tail := TypeNode t g (is_iobj s t id) (Some (SpProvides view)) in
            let here := [CEdge tail (GSelfie t) tail; CEdge head (GField name type (is_scalar s type) (sf_list f) None None None) tail] in
            match sub with
            | [] => BOk here
            | _ => match lookup t (s_defs s) with
                   | None => BErr (DefinitionNotFound t)
                   | Some d' => rest <<- view_set t d' tail sub; BOk (here ++ rest)
                   end
            end
        end
    | SFrag t _ _ sub =>
        match lookup t (s_defs s) with
        | None => BErr (DefinitionNotFound t)
        | Some d' =>
            g <<- graph_name id;
            let tail := TypeNode t g (is_iobj s t id) (Some (SpProvides view)) in
            rest <<- view_set t d' tail sub;
            BOk (CEdge tail (GSelfie t) tail :: CEdge head (GAbstract t) tail :: rest)
        end
    end.
  Definition view_set (id : string) (view : N) (type : string) (d : sdefn) (head : gnode) (l : list sel) : bres (list cmd) :=
    m <<- moves_from head id type d; r <<- beach (view_item id view type d head) l; BOk (m ++ r).

  (** The fields of a type that provide something in a subgraph, with their [@join__field]s *)
  Definition providing (id : string) (d : sdefn) : list (string * sfield * jfield * string) :=
    flat_map (fun x => flat_map (fun j => if in_graph id j then match jf_provides j with Some p => [(fst x, snd x, j, p)] | None => [] end else []) (sf_joins (snd x))) (d_fields d).
  (** mod.rs:1066-1125 *)
  Fixpoint views (name : string) (d : sdefn) (id : string) (view : N) (l : list (string * sfield * jfield * string)) : bres (list cmd) :=
    match l with
    | [] => BOk []
    | (fname, f, j, p) :: l' =>
        sels <<- or_panic (parse id (sf_type f) p);
        g <<- graph_name id;
        let head := TypeNode name g (is_iobj s name id) None in
        let tail := TypeNode (sf_type f) g (is_iobj s (sf_type f) id) (Some (SpProvides view)) in
        req <<- required name (Some j);
        match lookup (sf_type f) (s_defs s) with
        | None => BErr (DefinitionNotFound (sf_type f))
        | Some d' =>
            inner <<- view_set id view (sf_type f) d' tail sels;
            rest <<- views name d id (view + 1)%N l';
            BOk (CEdge tail (GSelfie (sf_type f)) tail ::
                 CEdge head (GField fname name (is_scalar s (sf_type f)) (sf_list f) (Some j) req None) tail :: inner ++ rest)
        end
    end.
  (** mod.rs:1048-1172; all the heads of one subgraph are one node *)
  Definition view_cmds : bres (list cmd) :=
    beach (fun x : string * sdefn => let (name, d) := x in
      beach (fun jt =>
        let l := providing (jt_graph jt) d in
        vs <<- views name d (jt_graph jt) 1%N l;
        ms <<- match l with
               | [] => BOk []
               | _ => g <<- graph_name (jt_graph jt); moves_from (TypeNode name g (is_iobj s name (jt_graph jt)) None) (jt_graph jt) name d
               end;
        BOk (vs ++ ms)) (d_types d)) (s_defs s).

  (** ** The graph, mod.rs:221-252 *)
  Record builder := mkb { b_nodes : list gnode; b_edges : list (nat * nat * gkind) }.
  Fixpoint index_of (name : string) (l : list gnode) : option nat :=
    match l with [] => None | n :: l' => if String.eqb (display n) name then Some 0 else option_map S (index_of name l') end.
  Definition upsert_node (b : builder) (n : gnode) : builder * nat :=
    match index_of (display n) (b_nodes b) with
    | Some i => (b, i)
    | None => (mkb (b_nodes b ++ [n]) (b_edges b), length (b_nodes b))
    end.
  Definition upsert_edge (b : builder) (h t : nat) (k : gkind) : builder :=
    if existsb (fun e => match e with (h', t', k') => Nat.eqb h' h && Nat.eqb t' t && kind_eqb k' k end) (b_edges b) then b
    else mkb (b_nodes b) (b_edges b ++ [(h, t, k)]).
  Definition run (b : builder) (c : cmd) : builder :=
    match c with
    | CNode n => fst (upsert_node b n)
    | CEdge h k t => let (b1, i) := upsert_node b h in let (b2, j) := upsert_node b1 t in upsert_edge b2 i j k
    end.
  Definition run_all (b : builder) (l : list cmd) : builder := fold_left run l b.
  Definition roots : list cmd := flat_map (fun k => match root_node k with Some n => [CNode n] | None => [] end) [OpQuery; OpMutation; OpSubscription].
  (** The edges of the roots are there after the first phase, and later ones add none to them. *)
  Definition entries_of (b : builder) (k : opkind) : list gnode :=
    match root_node k with
    | None => []
    | Some r => match index_of (display r) (b_nodes b) with
                | None => []
                | Some i => flat_map (fun e => match e with (h, t, _) => if Nat.eqb h i then match nth_error (b_nodes b) t with Some n => [n] | None => [] end else [] end) (b_edges b)
                end
    end.
  (** mod.rs:167-183 *)
  Definition build : bres builder :=
    let b0 := run_all (mkb [] []) roots in
    lc <<- link_cmds;
    let b1 := run_all b0 lc in
    fc <<- field_cmds (entries_of b1);
    ic <<- impl_cmds;
    ec <<- entity_cmds;
    vc <<- view_cmds;
    BOk (run_all b1 (fc ++ ic ++ ec ++ vc)).
End Build.

(** What the search looks at *)
Definition node_of (n : gnode) : node :=
  match n with
  | RootNode _ name => mknode name None None
  | TypeNode name g _ sp => mknode name (Some g) match sp with Some (SpUnion t f o ms) => Some (mkum t f o ms) | _ => None end
  end.
Definition kind_of (k : gkind) : kind :=
  match k with
  | GEntry g _ => Entrypoint g
  | GField n _ _ _ jf r over => FieldMove n r {| m_label := match jf with Some j => jf_label j | None => None end; m_overridden_by := over |}
  | GReentry n _ _ => ReentryMove n
  | GEntity _ r _ => EntityMove r
  | GAbstract t => AbstractMove t
  | GSelfie t => Selfie t
  | GIobj t r => InterfaceObjectMove t r
  end.
Definition pgraph_of (b : builder) : pgraph :=
  mkpgraph (map node_of (b_nodes b)) (map (fun e => match e with (h, t, k) => mkgedge h t (kind_of k) end) (b_edges b)).
