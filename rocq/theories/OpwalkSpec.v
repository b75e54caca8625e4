(** What a path for a selection of an operation is. *)
From Coq Require Import String List NArith Bool Arith.
From Verif Require Import Ast QplanModel BestModel OverrideModel PathModel PathSpec.
Import ListNotations.
Local Open Scope list_scope.

Section Traces.
  Variable g : pgraph.
  Variable ctx : context.
  Variable objects_of : string -> option (list string).
  Notation takes := (takes g ctx objects_of).
  Notation moves_by := (moves_by g ctx objects_of).

  Definition named (s : standing) (t : string) : Prop := exists n, nth_error (nodes g) (st_node s) = Some n /\ n_name n = t.
  (** The same place, with no more members of a union than before *)
  Definition narrower (s' s : standing) : Prop :=
    st_node s' = st_node s /\
    match st_scope s', st_scope s with
    | Some a, Some b => incl a b
    | None, None => True
    | _, _ => False
    end.
  Definition asked (inc skip : option string) : option cond :=
    match inc, skip with
    | Some i, Some k => Some (CSkipAndInclude k i)
    | Some i, None => Some (CInclude i)
    | None, Some k => Some (CSkip k)
    | None, None => None
    end.
  (** The segments for one selection. A field: moves between subgraphs, then an edge of the field, all
      carrying its alias, arguments and conditions. A fragment on the type at hand: nothing, or an edge
      to the same type that carries the conditions. Any other fragment: moves, then an edge to its type. *)
  Inductive step : standing -> sel -> list pseg -> standing -> Prop :=
  | step_field s name alias args inc skip om sub l s1 i e s2 segs s' :
      moves_by s l s1 -> edge_at g i e -> field_edge name (g_kind e) -> takes s1 i s2 -> map sg_edge segs = l ++ [i] ->
      Forall (carries (TField (mkfsel name alias args inc skip sub) None)) segs -> narrower s' s2 ->
      step s (SField name alias args inc skip om sub) segs s'
  | step_stay s t sub : named s t -> step s (SFrag t None None sub) [] s
  | step_self s t inc skip c sub i e seg s' :
      named s t -> asked inc skip = Some c -> edge_at g i e -> g_kind e = Selfie t -> takes s i s' ->
      sg_edge seg = i -> carries (TType t (Some c)) seg -> step s (SFrag t inc skip sub) [seg] s'
  | step_type s t inc skip sub l s1 i e segs s' :
      in_scope s t -> in_scope s1 t -> moves_by s l s1 -> edge_at g i e -> type_edge t (g_kind e) -> takes s1 i s' ->
      map sg_edge segs = l ++ [i] -> Forall (carries (TType t (asked inc skip))) segs -> step s (SFrag t inc skip sub) segs s'.
  Inductive traces : standing -> list sel -> list pseg -> standing -> Prop :=
  | traces_none s : traces s [] [] s
  | traces_more s c segs s1 x block s2 : traces s c segs s1 -> step s1 x block s2 -> traces s (c ++ [x]) (segs ++ block) s2.

  Variable root : nat.
  (** A path that enters a subgraph and follows the selections [c] *)
  Definition reached (c : list sel) (p : opath) : Prop :=
    path_of g p /\ o_root p = root /\
    exists i e first segs, edge_at g i e /\ g_head e = root /\ o_segs p = first :: segs /\ sg_edge first = i /\
      sg_tree first = None /\ sg_attrs first = None /\ sg_cond first = None /\
      traces (at_node (g_tail e) None) c segs (stand p).
  (** The paths that follow the same selections end on the same type. *)
  Definition uniform : Prop := forall c p q t, reached c p -> reached c q -> named (stand p) t -> named (stand q) t.

  Definition same_cost (l : list opath) : Prop := forall p q, In p l -> In q l -> o_cost p = o_cost q.
  (** Alternatives for a leaf of the operation, at the end of the selections [d] *)
  Definition answers (leaf : list opath) (d : list sel) : Prop :=
    to_leaf d /\ leaf <> [] /\ same_cost leaf /\ Forall (reached d) leaf.
  Definition typename_sel : sel := SField "__typename" None None None None false [].
  (** No edge without requirements leads from a path to a type *)
  Definition no_way (t : string) (p : opath) : Prop :=
    forall i e, edge_at g i e -> g_head e = tail_of p -> type_edge t (g_kind e) -> needs (g_kind e) = None -> ~ in_scope (stand p) t.
  (** Instead of what is below a fragment on a type that no path leads to, the [__typename] at hand *)
  Definition stops (leaf : list opath) (d : list sel) (t : string) : Prop :=
    leaf <> [] /\ same_cost leaf /\ Forall (reached (d ++ [typename_sel])) leaf /\
    exists from, from <> [] /\ Forall (fun p => reached d p /\ no_way t p /\ ~ named (stand p) t) from.
  (** The leaves of one root selection *)
  Definition complete (x : sel) (group : list (list opath)) : Prop :=
    (forall leaf, In leaf group ->
       exists d, (below [x] d /\ answers leaf d) \/
                 exists t inc skip sub, below [x] (d ++ [SFrag t inc skip sub]) /\ stops leaf d t) /\
    (forall d, below [x] d -> to_leaf d ->
       exists leaf, In leaf group /\
         (answers leaf d \/ exists d1 t inc skip sub d2, d = d1 ++ SFrag t inc skip sub :: d2 /\ stops leaf d1 t)).
End Traces.

(** ** Unions whose subgraphs have different members *)
(** What a path says of the union that it stands on *)
Definition in_union (type field : string) (p : opath) : Prop := exists u, o_union p = Some u /\ u_type u = type /\ u_field u = field.
Definition has_members (p : opath) (id : string) (members : list string) : Prop :=
  exists u, o_union p = Some u /\ u_graph u = id /\ u_members u = members.
(** Paths of one subgraph know the same members. *)
Definition one_list_per_graph (l : list opath) : Prop :=
  forall p q id a b, In p l -> In q l -> has_members p id a -> has_members q id b -> a = b.
(** A graph in which a field of a union type has one list of members per subgraph *)
Definition consistent_unions (g : pgraph) : Prop :=
  forall x y d d', In x (nodes g) -> In y (nodes g) -> n_union x = Some d -> n_union y = Some d' -> n_graph x = n_graph y ->
    um_type d = um_type d' -> um_field d = um_field d' -> um_members d = um_members d'.
Definition common_member (l : list opath) (m : string) : Prop := forall p id a, In p l -> has_members p id a -> In m a.

(** ** Graphs whose types agree *)
(** Names of types that moves between subgraphs lead to *)
Inductive comes (g : pgraph) : string -> string -> Prop :=
| comes_same t : comes g t t
| comes_move t i e h n : comes g t (n_name h) -> edge_at g i e -> moving (g_kind e) ->
    nth_error (nodes g) (g_head e) = Some h -> nth_error (nodes g) (g_tail e) = Some n -> comes g t (n_name n).
(** The subgraphs give one type to the root and to each field of a type, wherever one has moved from
    that type, and an edge to a type leads to that type. *)
Definition well_typed (g : pgraph) (root : nat) : Prop :=
  (forall i j e e' n n', edge_at g i e -> edge_at g j e' -> g_head e = root -> g_head e' = root ->
     nth_error (nodes g) (g_tail e) = Some n -> nth_error (nodes g) (g_tail e') = Some n' -> n_name n = n_name n') /\
  (forall f t i j e e' h h' n n', edge_at g i e -> edge_at g j e' -> field_edge f (g_kind e) -> field_edge f (g_kind e') ->
     nth_error (nodes g) (g_head e) = Some h -> nth_error (nodes g) (g_head e') = Some h' -> comes g t (n_name h) -> comes g t (n_name h') ->
     nth_error (nodes g) (g_tail e) = Some n -> nth_error (nodes g) (g_tail e') = Some n' -> n_name n = n_name n') /\
  (forall t i e n, edge_at g i e -> type_edge t (g_kind e) \/ g_kind e = Selfie t -> nth_error (nodes g) (g_tail e) = Some n -> n_name n = t).
