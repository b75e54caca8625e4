(** What a path through the graph of subgraph types is, and when an edge may be taken. *)
From Coq Require Import String List NArith Bool Arith.
From Verif Require Import Ast QplanModel BestModel OverrideModel OverrideSpec PathModel.
Import ListNotations.
Local Open Scope list_scope.

Definition edge_at (g : pgraph) (i : nat) (e : gedge) : Prop := nth_error (edges g) i = Some e.
(** The indexes and the nodes of a graph are in order: edges join nodes, and only the roots of the
    operation, which no edge leads to, have no subgraph. *)
Definition sound_graph (g : pgraph) : Prop :=
  forall e, In e (edges g) -> (exists n, nth_error (nodes g) (g_head e) = Some n) /\
    exists n id, nth_error (nodes g) (g_tail e) = Some n /\ n_graph n = Some id.

(** What an edge costs: 1 for a field and 1000 for any other move, and, with requirements, 1 more and
    1 for each selection in them. *)
Fixpoint selections (x : sel) : nat :=
  match x with
  | SField _ _ _ _ _ _ sub | SFrag _ _ _ sub => S (list_sum (map selections sub))
  | SSpread _ => 1
  end.
Definition needs (k : kind) : option tas :=
  match k with
  | Entrypoint _ | ReentryMove _ | AbstractMove _ | Selfie _ => None
  | FieldMove _ r _ => r
  | EntityMove r | InterfaceObjectMove _ r => Some r
  end.
Definition is_field (k : kind) : Prop := exists n r m, k = FieldMove n r m.
Definition costs (k : kind) (c : N) : Prop :=
  exists base extra, (is_field k /\ base = 1%N \/ ~ is_field k /\ base = 1000%N) /\
    match needs k with Some r => extra = S (list_sum (map selections (ts_sels r))) | None => extra = 0 end /\
    c = (base + N.of_nat extra)%N.

(** Segments that follow one another from a node, each with the cost of all so far *)
Inductive chain (g : pgraph) : nat -> N -> list pseg -> nat -> N -> Prop :=
| chain_nil n c : chain g n c [] n c
| chain_cons n c s e d l m c' :
    edge_at g (sg_edge s) e -> g_head e = n -> sg_tail s = g_tail e -> costs (g_kind e) d -> sg_cost s = (c + d)%N ->
    chain g (g_tail e) (sg_cost s) l m c' -> chain g n c (s :: l) m c'.
(** A path of the graph: its segments follow one another from the root, and its cost is theirs. *)
Definition path_of (g : pgraph) (p : opath) : Prop := exists m, chain g (o_root p) 0 (o_segs p) m (o_cost p).
(** A path followed by further segments *)
Definition extends (g : pgraph) (p q : opath) (l : list nat) : Prop :=
  exists new, o_root q = o_root p /\ o_segs q = o_segs p ++ new /\ map sg_edge new = l /\
    chain g (tail_of p) (o_cost p) new (tail_of q) (o_cost q).

(** ** When an edge may be taken *)
Section Sat.
  Variable g : pgraph.
  Variable ctx : context.
  Variable objects_of : string -> option (list string).

  (** Where a path stands: its last node and, within a field of a union type, the members that the
      subgraph has for it *)
  Record standing := at_node { st_node : nat; st_scope : option (list string) }.
  Definition in_scope (s : standing) (member : string) : Prop :=
    forall l, st_scope s = Some l -> In member l.
  (** A field sets the members when it leads to a union, a move to a member leaves that one, a move to
      another subgraph ends the restriction. *)
  Definition members_at (n : nat) (l : list string) : Prop :=
    exists x d id, nth_error (nodes g) n = Some x /\ n_union x = Some d /\ n_graph x = Some id /\ l = um_members d.
  Inductive scope_after (scope : option (list string)) (n : nat) : kind -> option (list string) -> Prop :=
  | scope_union name r m l : members_at n l -> scope_after scope n (FieldMove name r m) (Some l)
  | scope_field name r m : (forall l, ~ members_at n l) -> scope_after scope n (FieldMove name r m) None
  | scope_member t l : scope = Some l -> scope_after scope n (AbstractMove t) (Some [t])
  | scope_abstract t : scope = None -> scope_after scope n (AbstractMove t) None
  | scope_entity r : scope_after scope n (EntityMove r) None
  | scope_object t r : scope_after scope n (InterfaceObjectMove t r) None
  | scope_reentry name : scope_after scope n (ReentryMove name) None
  | scope_entry s : scope_after scope n (Entrypoint s) scope
  | scope_selfie t : scope_after scope n (Selfie t) scope.

  (** A field that another subgraph overrides, or that overrides another's, is there only as the
      override says. *)
  Definition allowed (k : kind) : Prop :=
    forall n r m, k = FieldMove n r m ->
      match m_overridden_by m with
      | Some (_, Some l) => ~ in_effect (Some l) ctx
      | Some (_, None) => False
      | None => in_effect (m_label m) ctx
      end.
  (** A type that is the one asked for, or an object type that has it as an interface *)
  Definition is_a (type asked : string) : Prop :=
    type = asked \/ exists l, objects_of asked = Some l /\ In type l.
  Definition stands_for (s : standing) (asked : string) : Prop :=
    exists x, nth_error (nodes g) (st_node s) = Some x /\ is_a (n_name x) asked.
  Definition field_edge (name : string) (k : kind) : Prop := (exists r m, k = FieldMove name r m) \/ k = ReentryMove name.
  Definition type_edge (name : string) (k : kind) : Prop := k = AbstractMove name \/ exists r, k = InterfaceObjectMove name r.
  Definition moving (k : kind) : Prop := (exists r, k = EntityMove r) \/ exists t r, k = InterfaceObjectMove t r.
  Definition sub_of (x : sel) : list sel :=
    match x with SField _ _ _ _ _ _ sub | SFrag _ _ _ sub => sub | SSpread _ => [] end.
  (** The ways down through selections *)
  Inductive below : list sel -> list sel -> Prop :=
  | below_one l x : In x l -> (forall n, x <> SSpread n) -> below l [x]
  | below_more l x c : In x l -> (forall n, x <> SSpread n) -> below (sub_of x) c -> below l (x :: c).

  (** [takes s i s']: edge [i] may be taken in [s] and leads to [s']: no override forbids it, and every
      way down through its requirements can be followed from [s]. [moves s l s']: moves between
      subgraphs. [follows s c l s']: the edges [l] follow the selections [c], each reached after any
      moves between subgraphs. *)
  Inductive takes : standing -> nat -> standing -> Prop :=
  | takes_edge s i e s' :
      edge_at g i e -> g_head e = st_node s -> allowed (g_kind e) ->
      st_node s' = g_tail e -> scope_after (st_scope s) (g_tail e) (g_kind e) (st_scope s') ->
      (forall r c, needs (g_kind e) = Some r -> below (ts_sels r) c -> exists l s'', follows s c l s'') ->
      takes s i s'
  with moves_by : standing -> list nat -> standing -> Prop :=
  | moves_none s : moves_by s [] s
  | moves_more s l s1 i e s' : moves_by s l s1 -> edge_at g i e -> moving (g_kind e) -> takes s1 i s' -> moves_by s (l ++ [i]) s'
  with follows : standing -> list sel -> list nat -> standing -> Prop :=
  | follows_none s : follows s [] [] s
  | follows_field s l s1 i e s2 name alias args inc skip om sub c l' s' :
      moves_by s l s1 -> edge_at g i e -> field_edge name (g_kind e) -> takes s1 i s2 -> follows s2 c l' s' ->
      follows s (SField name alias args inc skip om sub :: c) (l ++ i :: l') s'
  | follows_stay s t inc skip sub c l' s' : stands_for s t -> follows s c l' s' -> follows s (SFrag t inc skip sub :: c) l' s'
  | follows_type s l s1 i e s2 t inc skip sub c l' s' :
      in_scope s t -> in_scope s1 t -> moves_by s l s1 -> edge_at g i e -> type_edge t (g_kind e) -> takes s1 i s2 -> follows s2 c l' s' ->
      follows s (SFrag t inc skip sub :: c) (l ++ i :: l') s'.

  (** Ways down that end in a field without selections *)
  Definition to_leaf (c : list sel) : Prop :=
    exists c' name alias args inc skip om, c = c' ++ [SField name alias args inc skip om []].
  (** Where a path stands *)
  Definition stand (p : opath) : standing :=
    at_node (tail_of p) (match o_union p with Some u => Some (u_members u) | None => None end).
  (** What a search for a field or a type is after *)
  Definition reaches (t : target) (k : kind) : Prop :=
    match t with TField f _ => field_edge (fl_name f) k | TType n _ => type_edge n k end.
  Definition wanted_in (t : target) (s : standing) : Prop :=
    match t with TField _ _ => True | TType n _ => in_scope s n end.
  (** What the segments added in a search carry: the attributes of the target, and a tree exactly where
      the edge has fields to fetch first *)
  Definition carries (t : target) (s : pseg) : Prop :=
    sg_attrs s = match t with TField f _ => Some (fl_alias f, fl_args f) | TType _ _ => None end /\
    sg_cond s = match t with
                | TType _ c => c
                | TField f _ => match fl_include f, fl_skip f with
                                | Some i, Some k => Some (CSkipAndInclude k i)
                                | Some i, None => Some (CInclude i)
                                | None, Some k => Some (CSkip k)
                                | None, None => None
                                end
                end.
  Definition graph_of (n : nat) (id : string) : Prop := exists x, nth_error (nodes g) n = Some x /\ n_graph x = Some id.
  (** A move between subgraphs in a search: not to a subgraph that is excluded or, for a field, that
      cannot resolve it, and back to the first subgraph only towards an object of an interface *)
  Definition proper (t : target) (source : string) (excluded : list string) (e : gedge) (id : string) : Prop :=
    graph_of (g_tail e) id /\ ~ In id excluded /\
    (forall f ids, t = TField f (Some ids) -> In id ids) /\
    (id = source -> exists o r, g_kind e = InterfaceObjectMove o r).
  (** A path found one edge further *)
  Definition found_directly (p : opath) (t : target) (q : opath) (i : nat) : Prop :=
    exists e, edge_at g i e /\ reaches t (g_kind e) /\ wanted_in t (stand p) /\
      takes (stand p) i (stand q) /\ extends g p q [i] /\
      forall s, In s (o_segs q) -> In s (o_segs p) \/ carries t s.
  (** A path found after moves between subgraphs, no subgraph being entered twice *)
  Definition found_indirectly (p : opath) (t : target) (source : string) (excluded : list string) (q : opath) : Prop :=
    exists moves graphs s i e,
      moves <> [] /\ wanted_in t (stand p) /\ moves_by (stand p) moves s /\ edge_at g i e /\ reaches t (g_kind e) /\ wanted_in t s /\
      takes s i (stand q) /\ extends g p q (moves ++ [i]) /\
      Forall2 (fun j id => exists e', edge_at g j e' /\ proper t source excluded e' id) moves graphs /\ NoDup graphs /\
      forall x, In x (o_segs q) -> In x (o_segs p) \/ carries t x.
  (** A path, from where another ends, that follows selections *)
  Definition witness (p : opath) (c : list sel) (w : opath) : Prop :=
    o_root w = tail_of p /\ path_of g w /\ follows (stand p) c (map sg_edge (o_segs w)) (stand w).
  (** Paths that fetch what an edge needs: each leads to one of the leaves of the requirements, and
      each leaf has one *)
  Definition witnesses (p : opath) (k : kind) (paths : list opath) : Prop :=
    (forall w, In w paths -> exists r c, needs k = Some r /\ below (ts_sels r) c /\ to_leaf c /\ witness p c w) /\
    (forall r c, needs k = Some r -> below (ts_sels r) c -> to_leaf c -> exists w, In w paths /\ witness p c w).
End Sat.

(** ** Requirements that ask for what is being searched for *)
Section Overlap.
  Variable objects_of : string -> option (list string).
  Variable ahash : option (list (string * gvalue)) -> N.
  Variable current : string.
  (** Two selections, taken on the type that is searched, that have something in common *)
  Inductive overlap : sel -> sel -> Prop :=
  | overlap_leaf n a args inc skip om sub a' args' inc' skip' om' sub' :
      ahash args = ahash args' -> sub = [] \/ sub' = [] ->
      overlap (SField n a args inc skip om sub) (SField n a' args' inc' skip' om' sub')
  | overlap_fields n a args inc skip om sub a' args' inc' skip' om' sub' x y :
      ahash args = ahash args' -> In x sub -> In y sub' -> overlap x y ->
      overlap (SField n a args inc skip om sub) (SField n a' args' inc' skip' om' sub')
  | overlap_left t inc skip sub x n a args inc' skip' om' sub' :
      is_a objects_of current t -> In x sub -> overlap x (SField n a args inc' skip' om' sub') ->
      overlap (SFrag t inc skip sub) (SField n a args inc' skip' om' sub')
  | overlap_right t inc skip sub y n a args inc' skip' om' sub' :
      is_a objects_of current t -> In y sub -> overlap (SField n a args inc' skip' om' sub') y ->
      overlap (SField n a args inc' skip' om' sub') (SFrag t inc skip sub)
  | overlap_empty t inc skip sub t' inc' skip' sub' :
      is_a objects_of current t -> is_a objects_of current t' -> sub = [] \/ sub' = [] ->
      overlap (SFrag t inc skip sub) (SFrag t' inc' skip' sub')
  | overlap_frags t inc skip sub t' inc' skip' sub' x y :
      is_a objects_of current t -> is_a objects_of current t' -> In x sub -> In y sub' -> overlap x y ->
      overlap (SFrag t inc skip sub) (SFrag t' inc' skip' sub').
  (** A requirement that asks for the field, or for part of what is asked of it *)
  Inductive asks_for (f : fsel) : sel -> Prop :=
  | asks_leaf a args inc skip om sub :
      ahash args = ahash (fl_args f) -> sub = [] \/ fl_sub f = [] -> asks_for f (SField (fl_name f) a args inc skip om sub)
  | asks_part a args inc skip om sub x y :
      ahash args = ahash (fl_args f) -> In x sub -> In y (fl_sub f) -> overlap x y ->
      asks_for f (SField (fl_name f) a args inc skip om sub)
  | asks_inside t inc skip sub x : is_a objects_of current t -> In x sub -> asks_for f x -> asks_for f (SFrag t inc skip sub).
  Definition circular (r : tas) (f : fsel) : Prop :=
    is_a objects_of current (ts_type r) /\ exists x, In x (ts_sels r) /\ asks_for f x.
End Overlap.
(** Selections of fields only *)
Inductive plain_fields : sel -> Prop :=
| plain_field n a args inc skip om sub : (forall x, In x sub -> plain_fields x) -> plain_fields (SField n a args inc skip om sub).
