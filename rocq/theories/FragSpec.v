(** What sharing selection sets through fragments must preserve: a document with fragments means the operation
    obtained by replacing every spread by the selections of its fragment, on the type the fragment is for. *)
From Coq Require Import String Ascii List NArith Bool.
From Verif Require Import Ast PrintModel FragModel.
Import ListNotations.
Local Open Scope string_scope.

(** Names reserved by introspection *)
Definition meta (n : string) : Prop := exists r, n = String "_" (String "_" r).

Inductive base : tnode -> string -> Prop :=
| base_named n : base (TNamed n) n
| base_list t n : base t n -> base (TList t) n
| base_non_null t n : base t n -> base (TNonNull t) n.

Section Schema.
  Variable types : list (string * list (string * tnode)).
  (** Type [t] is declared, with these fields. *)
  Definition known (t : string) (fs : list (string * tnode)) : Prop := find (fun p => String.eqb (fst p) t) types = Some (t, fs).
  Definition declared (t n t' : string) : Prop :=
    exists fs ty, known t fs /\ find (fun p => String.eqb (fst p) n) fs = Some (n, ty) /\ base ty t'.
  Definition selectable (t : string) (l : list sel) : Prop := l = [] \/ exists fs, known t fs.

  (** A selection that may be sent to a subgraph: fields of the type, inline fragments, no spreads.  Only fragments on
      entity types stand under [_entities], which no type declares. *)
  Inductive fits : string -> sel -> Prop :=
  | fits_meta t n a args i s o sub : meta n -> fits t (SField n a args i s o sub)
  | fits_field t n a args i s o sub t' :
      ~ meta n -> n <> "_entities" -> declared t n t' -> selectable t' sub -> Forall (fits t') sub ->
      fits t (SField n a args i s o sub)
  | fits_entities t a args i s o sub :
      Forall (fits_entity t) sub -> fits t (SField "_entities" a args i s o sub)
  | fits_frag t t' i s sub : selectable t' sub -> Forall (fits t') sub -> fits t (SFrag t' i s sub)
  with fits_entity : string -> sel -> Prop :=
  | entity_meta t n a args i s o sub : meta n -> fits_entity t (SField n a args i s o sub)
  | entity_frag t t' i s sub : selectable t' sub -> Forall (fits t') sub -> fits_entity t (SFrag t' i s sub).

  (** [opens t x t' l]: item [x] of a set on [t] has the selection set [l] on [t']. *)
  Inductive opens (t : string) : sel -> string -> list sel -> Prop :=
  | opens_field n a args i s o sub t' :
      ~ meta n -> n <> "_entities" -> declared t n t' -> opens t (SField n a args i s o sub) t' sub
  | opens_frag t' i s sub : opens t (SFrag t' i s sub) t' sub
  | opens_entity a args i s o sub t' i' s' sub' :
      In (SFrag t' i' s' sub') sub -> opens t (SField "_entities" a args i s o sub) t' sub'.
  (** The selection sets of a selection set on [t], itself included *)
  Inductive occurs : string -> list sel -> string -> list sel -> Prop :=
  | occurs_here t l : occurs t l t l
  | occurs_inside t l x t' l' t'' l'' : In x l -> opens t x t' l' -> occurs t' l' t'' l'' -> occurs t l t'' l''.

  (** Replacing spreads.  [def n t body]: the fragment [n] on type [t] has the selections [body].  A spread may be
      replaced by the selections of its fragment where the type is the fragment's. *)
  Inductive expands (def : string -> string -> list sel -> Prop) : string -> list sel -> list sel -> Prop :=
  | expands_nil t : expands def t [] []
  | expands_meta t n a args i s o sub l l' :
      meta n -> expands def t l l' -> expands def t (SField n a args i s o sub :: l) (SField n a args i s o sub :: l')
  | expands_field t n a args i s o sub sub' t' l l' :
      ~ meta n -> n <> "_entities" -> declared t n t' -> expands def t' sub sub' -> expands def t l l' ->
      expands def t (SField n a args i s o sub :: l) (SField n a args i s o sub' :: l')
  | expands_entities t a args i s o sub sub' l l' :
      expands def "_Entity" sub sub' -> expands def t l l' ->
      expands def t (SField "_entities" a args i s o sub :: l) (SField "_entities" a args i s o sub' :: l')
  | expands_frag t t' i s sub sub' l l' :
      expands def t' sub sub' -> expands def t l l' -> expands def t (SFrag t' i s sub :: l) (SFrag t' i s sub' :: l')
  | expands_spread t n body body' l l' :
      def n t body -> expands def t body body' -> expands def t l l' ->
      expands def t (SSpread n :: l) (body' ++ l')%list.
End Schema.

(** The same selections, in another order at any depth *)
Inductive shuffled : list sel -> list sel -> Prop :=
| shuffled_nil : shuffled [] []
| shuffled_field n a args i s o sub sub' l l' :
    shuffled sub sub' -> shuffled l l' -> shuffled (SField n a args i s o sub :: l) (SField n a args i s o sub' :: l')
| shuffled_frag t i s sub sub' l l' :
    shuffled sub sub' -> shuffled l l' -> shuffled (SFrag t i s sub :: l) (SFrag t i s sub' :: l')
| shuffled_spread n l l' : shuffled l l' -> shuffled (SSpread n :: l) (SSpread n :: l')
| shuffled_swap x y l : shuffled (x :: y :: l) (y :: x :: l)
| shuffled_trans l1 l2 l3 : shuffled l1 l2 -> shuffled l2 l3 -> shuffled l1 l3.

(** The root type of an operation *)
Inductive rooted (sg : supergraph) : option opkind -> string -> Prop :=
| rooted_default : rooted sg None (query_root sg)
| rooted_query : rooted sg (Some KQuery) (query_root sg)
| rooted_mutation t : mutation_root sg = Some t -> rooted sg (Some KMutation) t
| rooted_subscription t : subscription_root sg = Some t -> rooted sg (Some KSubscription) t.
(** An operation that may be sent: its root type exists and its selections fit it. *)
Definition sendable (sg : supergraph) (op : operation) (root : string) : Prop :=
  rooted sg (op_kind op) root /\ selectable (definitions sg) root (op_sels op) /\
  Forall (fits (definitions sg) root) (op_sels op).
(** Identifiers that tell the selection sets of one operation apart, up to [R] *)
Definition tells (sg : supergraph) (gid : string -> list sel -> N) (R : list sel -> list sel -> Prop)
    (root : string) (top : list sel) : Prop :=
  forall t l t' l', occurs (definitions sg) root top t l -> occurs (definitions sg) root top t' l' ->
    gid t l = gid t' l' -> t = t' /\ R l l'.
(** Nothing but the selections and the fragments may differ. *)
Definition same_otherwise (op : operation) (d : document) : Prop :=
  op_name (doc_op d) = op_name op /\ op_kind (doc_op d) = op_kind op /\ op_vars (doc_op d) = op_vars op.

(** The fragments of a document *)
Definition defines (d : document) (n t : string) (body : list sel) : Prop := In (mkfragment n t body) (doc_frags d).

(** Letters, of which the names given to fragments consist *)
Definition a_letter (c : ascii) : Prop :=
  ((97 <= N_of_ascii c <= 122) \/ (65 <= N_of_ascii c <= 90))%N.
Fixpoint lettered (s : string) : Prop :=
  match s with EmptyString => True | String c s' => a_letter c /\ lettered s' end.
