(** C67: the graph that paths are searched in. *)
From Coq Require Import Ascii String List NArith Bool Arith Sorted.
From Verif Require Import StrOrd StrUtil Ast QplanModel BestModel OverrideModel NormModel SafeModel PathModel PathSpec PathMain OpwalkModel OpwalkSpec OpwalkMain OpwalkTotal QgraphModel QgraphSpec QgraphPhases QgraphGraph QgraphTotal QgraphCases.
Import ListNotations.
Local Open Scope string_scope.
Local Open Scope list_scope.

(** The edges of the graph are the moves that the supergraph allows: all of them and no others. *)
Theorem C67_edges : forall parse s tas_eqb b, fine s -> build parse tas_eqb s = BOk b -> forall h k t, drawn b h k t <-> edge parse s h k t.
Proof. intros parse s tas_eqb b F B. exact (edges_iff parse s F tas_eqb b B). Qed.
Print Assumptions C67_edges.

(** Its nodes are the roots and the ends of the edges, each once. *)
Theorem C67_nodes : forall parse s tas_eqb b, fine s -> build parse tas_eqb s = BOk b ->
  NoDup (map place_of (b_nodes b)) /\
  forall p, In p (map place_of (b_nodes b)) <-> (exists n, root_name s n /\ p = PRoot n) \/ exists h k t, edge parse s h k t /\ (p = h \/ p = t).
Proof. intros parse s tas_eqb b F B. exact (nodes_iff parse s F tas_eqb b B). Qed.
Print Assumptions C67_nodes.

(** No edge but those from a type to itself is there twice. *)
Theorem C67_once : forall parse s tas_eqb b, fine s -> build parse tas_eqb s = BOk b -> (forall x, tas_eqb x x = true) ->
  forall p q e, p <> q -> nth_error (b_edges b) p = Some e -> nth_error (b_edges b) q = Some e -> exists c, snd e = GSelfie c.
Proof. intros parse s tas_eqb b F B. exact (edges_once parse s F tas_eqb b B). Qed.
Print Assumptions C67_once.

(** A node of a union lists the members that its subgraph has for the field. *)
Theorem C67_members : forall parse s tas_eqb b, fine s -> build parse tas_eqb s = BOk b ->
  forall t g iobj o f m ms, In (TypeNode t g iobj (Some (SpUnion o f m ms))) (b_nodes b) ->
  exists d id sf mj req over u, resolves parse s o d id g f sf mj req over /\ union_type s (sf_type sf) u /\ t = sf_type sf /\ forall x, In x ms <-> member_in id sf u x.
Proof.
  intros parse s tas_eqb b F B t g iobj o f m ms I. destruct (members_iff parse s F tas_eqb b B _ _ _ _ _ _ _ I) as (d & id & sf & mj & req & over & u & R & U & T & ->).
  exists d, id, sf, mj, req, over, u. split; [exact R|]. split; [exact U|]. split; [exact T|]. intros x. apply members_ok.
Qed.
Print Assumptions C67_members.

(** A supergraph that names only what it defines has a graph. *)
Theorem C67_builds : forall parse s tas_eqb, fine s -> closed parse s -> exists b, build parse tas_eqb s = BOk b.
Proof. intros parse s tas_eqb F C. exact (build_total parse s F C tas_eqb). Qed.
Print Assumptions C67_builds.

(** What the search takes for granted of the graph holds; that types agree, unless there are interface objects. *)
Theorem C67_sound : forall parse s tas_eqb b, fine s -> build parse tas_eqb s = BOk b -> sound_graph (pgraph_of b) /\ consistent_unions (pgraph_of b).
Proof. intros parse s tas_eqb b F B. split; [exact (graph_sound parse s F tas_eqb b B)|exact (graph_unions parse s F tas_eqb b B)]. Qed.
Print Assumptions C67_sound.
Theorem C67_typed_partial : forall parse s tas_eqb b, fine s -> build parse tas_eqb s = BOk b ->
  (forall name d j, defined s name d -> In j (d_types d) -> jt_iobj j = false) -> (forall name d f sf, defined s name d -> has_field d f sf -> f <> "__typename") ->
  forall root r n, nth_error (b_nodes b) root = Some r -> place_of r = PRoot n -> well_typed (pgraph_of b) root.
Proof. intros parse s tas_eqb b F B NI NT root r n R P. exact (graph_typed parse s F tas_eqb b B NI NT root r R (ex_intro _ n P)). Qed.
Print Assumptions C67_typed_partial.

(** Walking an operation over the graph of a supergraph: the walk ends, and what it finds is right. *)
Theorem C67_walk_partial : forall parse s tas_eqb b, fine s -> build parse tas_eqb s = BOk b ->
  (forall name d j, defined s name d -> In j (d_types d) -> jt_iobj j = false) -> (forall name d f sf, defined s name d -> has_field d f sf -> f <> "__typename") ->
  forall root r n, nth_error (b_nodes b) root = Some r -> place_of r = PRoot n -> (exists g k, enters s n g k) ->
  forall ctx objects_of ahash known defs subgraph_of sels,
  fair (walk (pgraph_of b) ctx objects_of ahash known defs subgraph_of (Some root) sels) /\
  forall groups, walk (pgraph_of b) ctx objects_of ahash known defs subgraph_of (Some root) sels = Ok groups -> Forall2 (complete (pgraph_of b) ctx objects_of root) sels groups.
Proof.
  intros parse s tas_eqb b F B NI NT root r n R P E ctx objects_of ahash known defs subgraph_of sels. pose proof (root_entry parse s tas_eqb b root r n F B R P E) as RE. split.
  - exact (walk_ends _ _ _ _ _ _ _ _ _ (graph_sound parse s F tas_eqb b B) RE).
  - intros groups W. exact (walk_sound _ _ _ _ _ _ _ _ _ _ (graph_sound parse s F tas_eqb b B) (graph_typed parse s F tas_eqb b B NI NT root r R (ex_intro _ n P)) (graph_unions parse s F tas_eqb b B) RE W).
Qed.
Print Assumptions C67_walk_partial.

(** Two fields of different types that provide parts of one type share a view of it: here [Query.me] provides the
    name and [Post.author] the email of a [User], and the email of [me] is taken to be at hand in the subgraph of [me]. *)
Theorem C67_views_refuted : fine blog /\ build read eq_tas blog = BOk (built blog) /\
  drawn (built blog) (PType "Query" "a") (me_provides "name") (PView "User" "a" 1) /\ drawn (built blog) (PView "User" "a" 1) (seen "email") (PView "String" "a" 1) /\
  read "A" "User" "name" = Some [fld "name" []] /\ (forall d sf, defined blog "User" d -> has_field d "email" sf -> forall mj, offered "A" sf mj -> hidden mj) /\
  walked blog (my "email") = Some [[[[GEntry "a" OpQuery; me_provides "name"; seen "email"]]]].
Proof.
  split; [exact blog_fine|]. split; [exact blog_built|]. split; [exists 1, 9; do 2 eexists; vm_compute; tauto|]. split; [exists 9, 10; do 2 eexists; vm_compute; tauto|]. split; [reflexivity|]. split; [|exact blog_walk].
  intros d sf D HF mj O. exact (blog_hidden d sf D HF mj O).
Qed.
Print Assumptions C67_views_refuted.

(** And the types within one view: here [Query.me] provides the names of friends, and the name of [me] is taken to be at hand. *)
Theorem C67_view_depth_refuted : fine friends /\ build read eq_tas friends = BOk (built friends) /\
  read "A" "User" "friend { name }" = Some [fld "friend" [fld "name" []]] /\
  walked friends (my "name") = Some [[[[GEntry "a" OpQuery; me_provides "friend { name }"; seen "name"]]]].
Proof. split; [exact friends_fine|]. split; [exact friends_built|]. split; [reflexivity|exact friends_walk]. Qed.
Print Assumptions C67_view_depth_refuted.

(** With slashes in the names of subgraphs a view may be taken for a type: the graph of [slashed] has none of the
    places of the view, and its edges are put between types of another subgraph. *)
Theorem C67_slash_refuted : build read eq_tas slashed = BOk (built slashed) /\
  edge read slashed (PType "Query" "a") (me_provides "name") (PView "User" "a" 1) /\ ~ In (PView "User" "a" 1) (places (built slashed)) /\
  drawn (built slashed) (PType "Query" "a") (me_provides "name") (PType "User" "a/1").
Proof. split; [exact slashed_built|]. exact slashed_wrong. Qed.
Print Assumptions C67_slash_refuted.

(** The move to an object type of an interface object leads back to the interface. *)
Theorem C67_object_refuted : fine objects /\ build read eq_tas objects = BOk (built objects) /\
  drawn (built objects) (PType "Node" "a") (GIobj "Thing" (mktas "Node" [fld "__typename" []])) (PType "Node" "a") /\ ~ well_typed (pgraph_of (built objects)) 0.
Proof. split; [exact objects_fine|]. split; [exact objects_built|]. exact objects_wrong. Qed.
Print Assumptions C67_object_refuted.

Example C67_example_users : fine users /\ build read eq_tas users = BOk (built users) /\
  places (built users) = [PRoot "Query"; PType "Query" "a"; PType "String" "a"; PType "User" "a"; PType "ID" "a"; PType "User" "b"; PType "String" "b"; PType "ID" "b"].
Proof. split; [exact users_fine|]. split; [exact users_built|exact users_places]. Qed.
Example C67_example_closed : closed read users.
Proof. exact users_closed. Qed.
Example C67_example_email : drawn (built users) (PType "User" "b") (GField "email" "User" true false (Some (in_ "B")) None None) (PType "String" "b").
Proof. exists 5, 6. do 2 eexists. vm_compute. tauto. Qed.
(** Which nodes stand for interface objects *)
Example C67_example_interface_object : map (fun n => match n with RootNode _ _ => None | TypeNode t g iobj _ => Some (t, g, iobj) end) (b_nodes (built objects)) =
  [None; Some ("Query", "a", false); Some ("String", "a", false); Some ("Node", "a", true); Some ("ID", "a", false); Some ("Node", "b", false); Some ("String", "b", false); Some ("ID", "b", false); Some ("Thing", "b", false)].
Proof. vm_compute. reflexivity. Qed.
