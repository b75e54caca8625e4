(** C66: finding the paths of an operation. *)
From Coq Require Import String List NArith Bool Arith.
From Verif Require Import Ast QplanModel BestModel OverrideModel SafeModel PathModel PathSpec PathMain OpwalkModel OpwalkSpec OpwalkSteps OpwalkSound OpwalkTotal OpwalkMain OpwalkCases OpwalkFieldSpec OpwalkFieldProofs.
Import ListNotations.
Local Open Scope string_scope.
Local Open Scope list_scope.

(** When the walk succeeds, it has for every leaf of the operation alternatives of one cost, each a path
    that enters a subgraph and follows the selections down to the leaf, and nothing else; only what is
    below a fragment on a type that no edge leads to is left out, for the [__typename] at hand. *)
Theorem C66_walk_partial : forall g ctx objects_of ahash known defs subgraph_of root sels groups,
  sound_graph g -> well_typed g root -> consistent_unions g -> (exists e, In e (edges g) /\ g_head e = root) ->
  walk g ctx objects_of ahash known defs subgraph_of (Some root) sels = Ok groups -> Forall2 (complete g ctx objects_of root) sels groups.
Proof. exact walk_sound. Qed.
Print Assumptions C66_walk_partial.

(** Paths that follow the same selections end on the same type. *)
Theorem C66_uniform : forall g ctx objects_of root, sound_graph g -> well_typed g root -> uniform g ctx objects_of root.
Proof. exact uniform_ok. Qed.
Print Assumptions C66_uniform.

(** The walk ends, with paths or with an error that says what is missing. *)
Theorem C66_ends : forall g ctx objects_of ahash known defs subgraph_of root sels,
  sound_graph g -> (exists e, In e (edges g) /\ g_head e = root) ->
  let r := walk g ctx objects_of ahash known defs subgraph_of (Some root) sels in
  (exists groups, r = Ok groups) \/ (exists x, r = Err (NoPathsFound x)) \/ (exists t, r = Err (TypeNotFound t)) \/ exists f t, r = Err (FieldNotFound f t).
Proof.
  intros g ctx objects_of ahash known defs subgraph_of root sels SG R r. destruct (walk_ends g ctx objects_of ahash known defs subgraph_of root sels SG R) as [K|[e [K [[x ->]|[[t ->]|[f [t ->]]]]]]]; fold r in K; eauto 6.
Qed.
Print Assumptions C66_ends.

(** The paths to a field: of all that are found from the paths at hand, the cheapest for each subgraph,
    less those that the members of a union rule out. Moves are searched for unless the field is to be
    resolved from one path, or is a leaf that is at hand. *)
Theorem C66_candidates : forall g ctx objects_of ahash known defs subgraph_of f local paths l,
  candidates g ctx objects_of ahash known defs subgraph_of f local paths = Ok l ->
  exists ids best, l = narrow best /\ (local = true -> ids = None) /\
    (forall p, In p paths -> local = false -> target_ids g (resolvable defs subgraph_of) (fl_name f) paths = Ok ids) /\
    forall q, In q best <-> best_offer g ctx objects_of ahash known defs subgraph_of f local ids paths q.
Proof. exact candidates_ok. Qed.
Print Assumptions C66_candidates.

(** Paths to a field of a union type in several subgraphs: those to members that all of them have are
    kept, and know these members only. *)
Theorem C66_shared_members : forall l ty fd p q a b ma mb, Forall (in_union ty fd) l -> one_list_per_graph l ->
  In p l -> In q l -> has_members p a ma -> has_members q b mb -> a <> b ->
  exists shared, (forall m, In m shared <-> common_member l m) /\
    forall r, In r (narrow l) <-> exists p u, In p l /\ o_union p = Some u /\ In (u_member u) shared /\
      r = mkopath (o_root p) (o_segs p) (o_cost p) (Some (mkuctx (u_type u) (u_field u) (u_graph u) (u_member u) shared)).
Proof. exact narrow_shared. Qed.
Print Assumptions C66_shared_members.
Theorem C66_no_union : forall l, (length l <= 1 \/ exists p, In p l /\ o_union p = None) -> narrow l = l.
Proof. exact narrow_alone. Qed.
Print Assumptions C66_no_union.

(** Below a field whose selections are to be resolved from one path, each path that is kept leads
    directly to each field of the interface. *)
Theorem C66_one_path : forall g ctx objects_of ahash known defs subgraph_of name alias args inc skip om sub paths locals items leaves next shared,
  process g ctx objects_of ahash known defs subgraph_of (SField name alias args inc skip om sub) paths locals = Ok (items, leaves) ->
  candidates g ctx objects_of ahash known defs subgraph_of (mkfsel name alias args inc skip sub) (has name locals) paths = Ok next ->
  local_fields g defs name sub next = Ok shared ->
  forall y kept p f a ar i k o s, In (y, kept) items -> In p kept -> In (SField f a ar i k o s) sub -> In f shared ->
    In p next /\ exists ds, direct g ctx objects_of ahash known defs subgraph_of p (TField (mkfsel f a ar i k s) None) = Ok ds /\ ds <> [].
Proof. exact local_direct. Qed.
Print Assumptions C66_one_path.

(** The fields to resolve from one path are those of an interface that several subgraphs resolve and that
    several fragments select from. *)
Theorem C66_shared_fields : forall g defs name sub next shared, local_fields g defs name sub next = Ok shared ->
  forall f, In f shared <-> exists output, shared_interface g defs name sub next output /\ In f (map fst (sd_fields output)).
Proof. exact shared_ok. Qed.
Print Assumptions C66_shared_fields.

(** The subgraphs that the search may move to for a field are those that resolve it. *)
Theorem C66_resolvable : forall defs subgraph_of type field x,
  In x (resolvable defs subgraph_of type field) <-> exists d joins id, lookup type defs = Some d /\ lookup field (sd_fields d) = Some joins /\ resolves_field joins d id /\ subgraph_of id = Some x.
Proof. exact resolvable_ok. Qed.
Print Assumptions C66_resolvable.

(** A leaf that a path reaches may not be found: of the moves towards the type of a fragment only the
    first is kept, and it may lead to a subgraph without the leaf. *)
Theorem C66_found_refuted :
  sound_graph media_graph /\ well_typed media_graph 0 /\ consistent_unions media_graph /\
  walk media_graph plain_ctx none_of hash0 same_type media_defs Some (Some 0) [media_query] = Err (NoPathsFound "title") /\
  reached media_graph plain_ctx none_of 0 [media_query; on_book; fld "title" []] m5.
Proof. split; [apply media_good|]. split; [apply media_good|]. split; [apply media_good|exact media_missed]. Qed.
Print Assumptions C66_found_refuted.

(** Only the first path's type is compared with that of a fragment. When the subgraphs do not agree on
    the type of a field, a leaf below [... on Book] gets a path that is never at a [Book]. *)
Theorem C66_fragment_refuted :
  sound_graph item_graph /\ consistent_unions item_graph /\
  exists p q, walk item_graph plain_ctx none_of hash0 same_type item_defs Some (Some 0) [fld "item" [SFrag "Book" None None [fld "title" []]]] = Ok [[[p; q]]] /\
    forall s n, In s (o_segs q) -> nth_error (nodes item_graph) (sg_tail s) = Some n -> n_name n <> "Book".
Proof.
  split; [apply item_good|]. split; [apply item_good|]. do 2 eexists. split; [vm_compute; reflexivity|].
  intros s n I N. cbn in I. repeat (destruct I as [<-|I]; [injection N as <-; discriminate|]). destruct I.
Qed.
Print Assumptions C66_fragment_refuted.

(** A root that no subgraph has: a fragment there is a panic. *)
Theorem C66_no_entry_refuted : exists g, sound_graph g /\
  walk g plain_ctx none_of hash0 same_type [] Some (Some 0) [SFrag "Book" None None [fld "title" []]] = Panic.
Proof. exists (mkpgraph [mknode "Query" None None] []). split; [intros e []|exact no_entry]. Qed.
Print Assumptions C66_no_entry_refuted.

(** ** Examples *)
Example C66_example_graph : sound_graph two_graphs /\ well_typed two_graphs 0 /\ consistent_unions two_graphs.
Proof. exact two_good. Qed.
(** [{ user { name id } }]: the name after a move, the id at hand *)
Example C66_example_walk : edges_of (walk two_graphs plain_ctx none_of hash0 same_type user_defs Some (Some 0) [fld "user" [fld "name" []; fld "id" []]]) = Some [[[[0; 1; 3; 5]]; [[0; 1; 2]]]].
Proof. exact two_walk. Qed.
(** With two fragments the interface is resolved from the second subgraph only, with one from either. *)
Example C66_example_one_path :
  edges_of (walk shared_graph plain_ctx none_of hash0 same_type shared_defs Some (Some 0) [fld "node" [on_type "X"; on_type "Y"; fld "name" []]])
    = Some [[[[3; 4; 11; 13]]; [[3; 4; 12; 14]]; [[3; 4; 6]]]] /\
  edges_of (walk shared_graph plain_ctx none_of hash0 same_type shared_defs Some (Some 0) [fld "node" [on_type "X"; fld "name" []]])
    = Some [[[[0; 1; 7; 9]; [3; 4; 11; 13]]; [[3; 4; 6]]]].
Proof. exact shared_walk. Qed.
Example C66_example_union : narrow [in_pet "A" "Cat" ["Cat"; "Dog"]; in_pet "B" "Cat" ["Cat"; "Fish"]; in_pet "B" "Fish" ["Cat"; "Fish"]]
  = [in_pet "A" "Cat" ["Cat"]; in_pet "B" "Cat" ["Cat"]].
Proof. exact pets. Qed.
(** A join that is external, overridden, or labelled does not count; without joins, the type's subgraphs do. *)
Example C66_example_resolvable :
  resolvable_in_graphs [mkjoin (Some "A") false false None; mkjoin (Some "B") true false None; mkjoin (Some "C") false true None; mkjoin (Some "D") false false (Some "l"); mkjoin None false false None] (plain_def []) = ["A"] /\
  resolvable_in_graphs [] (plain_def []) = ["A"; "B"].
Proof. split; vm_compute; reflexivity. Qed.
(** A fragment that nothing leads to gives the [__typename] at hand; conditions go on a self edge. *)
Example C66_example_errors :
  walk two_graphs plain_ctx none_of hash0 same_type user_defs Some (Some 0) [fld "user" [fld "age" []]] = Err (NoPathsFound "age") /\
  walk two_graphs plain_ctx none_of hash0 same_type [] Some (Some 0) [fld "user" [fld "name" []]] = Err (TypeNotFound "Query") /\
  walk two_graphs plain_ctx none_of hash0 same_type [("Query", plain_def [])] Some (Some 0) [fld "user" [fld "name" []]] = Err (FieldNotFound "user" "Query") /\
  walk two_graphs plain_ctx none_of hash0 same_type [] Some None [] = Err MissingRootType.
Proof. repeat split; vm_compute; reflexivity. Qed.
