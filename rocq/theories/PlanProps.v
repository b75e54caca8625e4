(** C48: the response plan selects what the operation selects. *)
From Coq Require Import String List Bool.
From Verif Require Import StrOrd JsonModel Ast ProjModel ProjSpec TrieModel PlanModel PlanSpec PlanOperation PlanShown PlanRefute.
Import ListNotations.
Local Open Scope string_scope.
Local Open Scope list_scope.

(** The plan exists, shows on every object exactly the fields CollectFields selects, and answers
    no response key twice.  [simple]: fragments on abstract types contain fields only. *)
Theorem C48_plan_shows_the_selection_partial :
  forall M order, (forall s x, In x (order s) <-> In x s) -> schema_ok M ->
  forall root sels,
  all (fun s => simple M s root (objs M root)) sels ->
  coherent (fun path => typed M (objs M root) path /\ mentions M path sels) ->
  exists ps, from_operation M order root sels = BOk ps /\
    (forall vt path, typed M (objs M root) path -> (shows vt path ps <-> selects M vt path sels)) /\
    unambiguous (objs M root) ps /\ Forall (fun p => tidy M (fun _ _ _ => True) p (objs M root)) ps.
Proof. exact (fun M order O S => plan_correct M order O S (fun _ _ _ => True) (fun _ => I) (fun _ _ _ _ _ _ _ => I)). Qed.
Print Assumptions C48_plan_shows_the_selection_partial.

(** Nullability is the object's own when implementers declare fields as their interfaces do. *)
Theorem C48_plan_keeps_nullability_partial :
  forall M order, (forall s x, In x (order s) <-> In x s) -> schema_ok M ->
  (forall P T f o nl fs, In T (m_possible M P) -> m_fields M P = Some fs -> fs f = Some (o, nl) ->
     exists gs, m_fields M T = Some gs /\ gs f = Some (o, nl)) ->
  forall root sels,
  all (fun s => simple M s root (objs M root)) sels ->
  coherent (fun path => typed M (objs M root) path /\ mentions M path sels) ->
  exists ps, from_operation M order root sels = BOk ps /\
    Forall (fun p => tidy M (fun T f nl => f = "__typename" /\ nl = NLeaf true \/
                                           exists fs o, m_fields M T = Some fs /\ fs f = Some (o, nl)) p (objs M root)) ps.
Proof. exact plan_nullability. Qed.
Print Assumptions C48_plan_keeps_nullability_partial.

(** Every object of the response has the keys CollectFields selects, each once. *)
Theorem C48_response_keys_partial :
  forall M order, (forall s x, In x (order s) <-> In x s) -> schema_ok M ->
  forall root sels ps vt path l Y T o kvs,
  all (fun s => simple M s root (objs M root)) sels ->
  coherent (fun path => typed M (objs M root) path /\ mentions M path sels) ->
  from_operation M order root sels = BOk ps -> below vt path ps l -> arrives M (objs M root) path Y -> Y T ->
  (forall p, In p l -> opens (p_guard p) T -> as_expected M p T o) -> fields M vt l (inl T) o kvs ->
  NoDup (map fst kvs) /\ forall k, In k (map fst kvs) <-> exists f, selects M vt (path ++ [(T, k, f)]) sels.
Proof. exact response_keys. Qed.
Print Assumptions C48_response_keys_partial.

(** Finding: a fragment inside a fragment on an abstract type loses its type condition. *)
Theorem C48_nested_fragments_refuted :
  exists M order root sels ps vt path, schema_ok M /\ (forall s x, In x (order s) <-> In x s) /\ m_object M root = true /\
    coherent (fun path => typed M (objs M root) path /\ mentions M path sels) /\
    from_operation M order root sels = BOk ps /\ typed M (objs M root) path /\
    shows vt path ps /\ ~ selects M vt path sels.
Proof. exact nested_refuted. Qed.
Print Assumptions C48_nested_fragments_refuted.

(** Finding: with implementers that narrow a field's type, an iteration order of the guard's set
    drops a selected field. *)
Theorem C48_covariant_fields_refuted :
  exists M order root sels ps vt path, (forall s x, In x (order s) <-> In x s) /\ m_object M root = true /\
    all (fun s => simple M s root (objs M root)) sels /\
    coherent (fun path => typed M (objs M root) path /\ mentions M path sels) /\
    from_operation M order root sels = BOk ps /\ typed M (objs M root) path /\
    selects M vt path sels /\ ~ shows vt path ps.
Proof. exact covariant_refuted. Qed.
Print Assumptions C48_covariant_fields_refuted.

(** Finding: a missing value of a non-null field is shown as null when the interface's field is nullable. *)
Theorem C48_object_nullability_refuted :
  exists M order root sels ps vt k1 f1 T k2 f2 fs out o, schema_ok M /\ (forall s x, In x (order s) <-> In x s) /\ m_object M root = true /\
    all (fun s => simple M s root (objs M root)) sels /\
    coherent (fun path => typed M (objs M root) path /\ mentions M path sels) /\
    from_operation M order root sels = BOk ps /\
    selects M vt [(root, k1, f1); (T, k2, f2)] sels /\
    m_fields M T = Some fs /\ fs f2 = Some (out, NLeaf true) /\ get "__typename" o = Some (VStr T) /\
    comp_root M vt root ps (VObj [(k1, VObj o)]) (OObj [(k1, OObj [(k2, ONull)])]).
Proof. exact nullability_refuted. Qed.
Print Assumptions C48_object_nullability_refuted.

(** Finding: the keys of an object are not always in the order of CollectFields. *)
Theorem C48_key_order_refuted :
  exists M order root sels ps vt k1 f1 sub T o kvs, schema_ok M /\ (forall s x, In x (order s) <-> In x s) /\ m_object M root = true /\
    all (fun s => simple M s root (objs M root)) sels /\
    coherent (fun path => typed M (objs M root) path /\ mentions M path sels) /\
    from_operation M order root sels = BOk ps /\
    (forall sub', collected M (included vt) root sels k1 f1 sub' <-> sub' = sub) /\ get "__typename" o = Some (VStr T) /\
    comp_root M vt root ps (VObj [(k1, VObj o)]) (OObj [(k1, OObj kvs)]) /\
    map fst kvs <> collected_order M vt T sub.
Proof. exact order_refuted. Qed.
Print Assumptions C48_key_order_refuted.

(** ** Examples *)
Example C48_example :
  from_operation ex same_order "Query" [fld "node" [fld "name" []; SFrag "User" None None [fld "email" []]]] =
  BOk [Plan "node" "node" false (NLeaf false) None (Some (CField (TOneOf ["Admin"; "Node"; "User"])))
        (SData (Some [Plan "name" "name" false (NLeaf false) None None (SData None);
                      Plan "email" "email" false (NLeaf false) (Some (TExact "User")) None (SData None)]))].
Proof. reflexivity. Qed.
(** The order of keys when nothing moves them. *)
Example C48_example_order :
  collected_order ex (fun v => String.eqb v "on") "User"
    [fld "name" []; SFrag "User" None None [fld "email" []; fld "name" []]; SFrag "Admin" None None [fld "level" []];
     SField "a" None None (Some "off") None false []; SField "a" (Some "z") None None (Some "on") false []; fld "a" []]
  = ["name"; "email"; "a"].
Proof. reflexivity. Qed.
(** A response key selected under two conditions. *)
Example C48_example_directives :
  from_operation ex same_order "Query" [SField "me" None None (Some "x") None false [fld "name" []]; SField "me" None None (Some "y") None false [fld "email" []]] =
  BOk [Plan "me" "me" false (NLeaf false) None (Some (COr (CInclude "x") (CInclude "y")))
        (SData (Some [Plan "name" "name" false (NLeaf true) None (Some (CInclude "x")) (SData None);
                      Plan "email" "email" false (NLeaf false) None (Some (CInclude "y")) (SData None)]))].
Proof. reflexivity. Qed.
Example C48_example_spread : from_operation ex same_order "Query" [SSpread "F"] = BErr BSpread.
Proof. reflexivity. Qed.
