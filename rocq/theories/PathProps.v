(** C65: the search for paths finds only what can be fetched, and always ends. *)
From Coq Require Import String List NArith Bool Arith.
From Verif Require Import Ast QplanModel BestModel OverrideModel SafeModel PathModel PathSpec PathCycle PathBase PathBest PathSound PathTotal PathMain.
Import ListNotations.

(** The searches end without an error on every graph whose indexes are in order, whatever its
    requirements need, including themselves. *)
Theorem C65_ends : forall g ctx objects_of resolvable ahash known p,
  sound_graph g -> path_of g p -> (exists id, graph_of g (tail_of p) id) ->
  (forall t, exists l, direct_paths g ctx objects_of resolvable ahash known p t = Ok l) /\
  (forall t ex, exists l, indirect_paths g ctx objects_of resolvable ahash known p t ex = Ok l) /\
  (forall i e ex od, edge_at g i e -> g_head e = tail_of p ->
     exists r, satisfied g ctx objects_of resolvable ahash known i e p ex od = Ok r).
Proof.
  intros g ctx objects_of resolvable ahash known p SG P T.
  pose proof (sat_ok g ctx objects_of resolvable ahash known) as SND.
  pose proof (satisfied_total g ctx objects_of resolvable ahash known SG) as TOT.
  split; [|split].
  - intros t. exact (direct_total g ctx objects_of _ SND TOT p t P T).
  - intros t ex. exact (indirect_total g ctx objects_of resolvable ahash known SG _ SND TOT p t ex P T).
  - intros i e ex od E H. exact (TOT i e p ex od E H P T).
Qed.
Print Assumptions C65_ends.

(** An edge that the search finds satisfied can be taken: no override forbids it, each way down
    through its requirements can be followed with edges that can be taken themselves, and the paths
    given lead to the leaves of its requirements, to each of them. *)
Theorem C65_satisfied : forall g ctx objects_of resolvable ahash known i e p ex od paths,
  edge_at g i e -> g_head e = tail_of p -> path_of g p ->
  satisfied g ctx objects_of resolvable ahash known i e p ex od = Ok (Some paths) ->
  witnesses g ctx objects_of p (g_kind e) paths /\
  forall s, st_node s = g_tail e -> scope_after g (st_scope (stand p)) (g_tail e) (g_kind e) (st_scope s) ->
    takes g ctx objects_of (stand p) i s.
Proof. exact satisfied_ok. Qed.
Print Assumptions C65_satisfied.

(** An edge that an override forbids is never satisfied. *)
Theorem C65_forbidden : forall g ctx objects_of resolvable ahash known i e p ex od,
  ~ allowed ctx (g_kind e) -> satisfied g ctx objects_of resolvable ahash known i e p ex od = Ok None.
Proof. exact forbidden_ok. Qed.
Print Assumptions C65_forbidden.

(** Direct paths: one edge further, to what was asked for; and every edge that needs nothing is used. *)
Theorem C65_direct : forall g ctx objects_of resolvable ahash known p t l,
  path_of g p -> direct_paths g ctx objects_of resolvable ahash known p t = Ok l ->
  (forall q, In q l -> exists i, found_directly g ctx objects_of p t q i) /\
  (forall i e, edge_at g i e -> g_head e = tail_of p -> reaches t (g_kind e) -> wanted_in t (stand p) ->
     allowed ctx (g_kind e) -> needs (g_kind e) = None -> exists q, In q l /\ extends g p q [i]).
Proof. exact direct_ok. Qed.
Print Assumptions C65_direct.

(** Indirect paths: moves between subgraphs, none entered twice, none of them excluded, then one edge
    to what was asked for. *)
Theorem C65_indirect : forall g ctx objects_of resolvable ahash known p t ex l,
  path_of g p -> indirect_paths g ctx objects_of resolvable ahash known p t ex = Ok l ->
  forall q, In q l -> exists source, graph_of g (tail_of p) source /\ found_indirectly g ctx objects_of p t source (ex_graphs ex) q.
Proof. exact indirect_ok. Qed.
Print Assumptions C65_indirect.

(** The indirect paths to one subgraph all cost the same. *)
Theorem C65_same_cost : forall g ctx objects_of resolvable ahash known p t ex l,
  path_of g p -> indirect_paths g ctx objects_of resolvable ahash known p t ex = Ok l ->
  forall q q' id, In q l -> In q' l -> graph_of g (tail_of q) id -> graph_of g (tail_of q') id -> o_cost q = o_cost q'.
Proof. exact same_cost_ok. Qed.
Print Assumptions C65_same_cost.

(** What can be found with one move is found, or something in the same subgraph that costs no more. *)
Theorem C65_one_move_partial : forall g ctx objects_of resolvable ahash known p t ex l i e x source id paths tr ds d id',
  path_of g p -> indirect_paths g ctx objects_of resolvable ahash known p t ex = Ok l -> wanted_in t (stand p) ->
  nth_error (nodes g) (tail_of p) = Some x -> n_graph x = Some source ->
  edge_at g i e -> g_head e = tail_of p -> moving (g_kind e) -> proper g t source (ex_graphs ex) e id ->
  (forall r, needs (g_kind e) = Some r -> known (ex_reqs ex) r = false /\ forall f ids, t = TField f ids -> ~ circular objects_of ahash (n_name x) r f) ->
  satisfied g ctx objects_of resolvable ahash known i e p (mkex (id :: ex_graphs ex) (ex_reqs ex)) false = Ok (Some paths) ->
  tree_of g paths = Ok tr -> direct_paths g ctx objects_of resolvable ahash known (advance g p i e tr t) t = Ok ds -> In d ds ->
  graph_of g (tail_of d) id' ->
  exists q, In q l /\ graph_of g (tail_of q) id' /\ (o_cost q <= o_cost d)%N.
Proof.
  intros g ctx objects_of resolvable ahash known p t ex l i e x source id paths tr ds d id' P K W NX GX E H M [G [NV [IDS SRC]]] R S T D I GD.
  eapply found_one; [exact P|exact K|exact W|exact E|exact H|exact M|exact NX|exact GX| |exact GD].
  exists id, paths, tr, ds. split; [exact G|]. split; [exact (worth_true objects_of ahash known t source (n_name x) _ _ e id IDS NV SRC R)|]. auto.
Qed.
Print Assumptions C65_one_move_partial.

(** On arbitrary graphs the search misses paths: a second move with the requirements of the first is
    not tried. *)
Theorem C65_complete_refuted : exists q,
  indirect_paths three_graphs plain_ctx none_of nowhere hash0 same_type at_user (want "name") no_excluded = Ok [] /\
  found_indirectly three_graphs plain_ctx none_of at_user (want "name") "A" [] q.
Proof. exact three_ok. Qed.
Print Assumptions C65_complete_refuted.

(** The best paths are those that cost the least. *)
Theorem C65_best : forall l, Forall (fun q => (0 < o_cost q)%N) l ->
  (forall q, In q (find_best_paths l) <-> In q l /\ forall q', In q' l -> (o_cost q <= o_cost q')%N) /\
  (l <> [] -> find_best_paths l <> []).
Proof. exact best_ok. Qed.
Print Assumptions C65_best.

(** The continuation of a path is what was added to it, from where it ended, with the cost of that. *)
Theorem C65_continuation : forall g p q l, path_of g p -> extends g p q l ->
  o_root (continuation p q) = tail_of p /\ path_of g (continuation p q) /\ map sg_edge (o_segs (continuation p q)) = l /\
  tail_of (continuation p q) = tail_of q /\ o_union (continuation p q) = o_union q /\
  o_cost (continuation p q) = (o_cost q - o_cost p)%N /\
  exists new, o_segs q = o_segs p ++ new /\ o_segs (continuation p q) = map (lower (o_cost p)) new.
Proof. exact continuation_ok. Qed.
Print Assumptions C65_continuation.

(** A path to the same type again, to carry a condition *)
Theorem C65_self : forall g ctx objects_of resolvable ahash known p name c q, path_of g p ->
  self_path g ctx objects_of resolvable ahash known p name c = Ok (Some q) ->
  exists i e, edge_at g i e /\ g_kind e = Selfie name /\ takes g ctx objects_of (stand p) i (stand q) /\ extends g p q [i] /\
    exists s, o_segs q = o_segs p ++ [s] /\ sg_cond s = Some c /\ sg_attrs s = None.
Proof. exact self_ok. Qed.
Print Assumptions C65_self.

(** Requirements are rejected exactly when, taken on the type that is searched, they have something in
    common with the field that is searched for. *)
Theorem C65_circular : forall objects_of ahash current r f,
  exists b, depends objects_of ahash current r f = Some b /\ (b = true <-> circular objects_of ahash current r f).
Proof. exact depends_ok. Qed.
Print Assumptions C65_circular.

(** A requirement for exactly the field that is searched for is rejected, if it selects only fields. *)
Theorem C65_detected_partial : forall objects_of ahash current r f a inc skip om,
  is_a objects_of current (ts_type r) -> In (SField (fl_name f) a (fl_args f) inc skip om (fl_sub f)) (ts_sels r) ->
  Forall plain_fields (fl_sub f) -> depends objects_of ahash current r f = Some true.
Proof. exact detected_ok. Qed.
Print Assumptions C65_detected_partial.
(** Not so below a type condition: it is compared with the type of the outer selection. *)
Theorem C65_detected_refuted :
  depends none_of hash0 "Item" (mktas "Item" [fld "foo" nested]) (mkfsel "foo" None None None None nested) = Some false.
Proof. exact nested_ok. Qed.
Print Assumptions C65_detected_refuted.

(** ** Examples *)
Example C65_example_sound : sound_graph two_graphs /\ path_of two_graphs at_user.
Proof. split; [exact two_sound|exact (proj1 user_path)]. Qed.
Definition edges_and_cost (r : res (list opath)) : res (list (list nat * N)) :=
  bind r (fun l => Ok (map (fun p => (map sg_edge (o_segs p), o_cost p)) l)).
Example C65_example_direct :
  edges_and_cost (direct_paths two_graphs plain_ctx none_of nowhere hash0 same_type at_user (want "id")) = Ok [([0; 1; 2], 1002%N)] /\
  edges_and_cost (direct_paths two_graphs plain_ctx none_of nowhere hash0 same_type at_user (want "name")) = Ok [].
Proof. vm_compute. split; reflexivity. Qed.
Example C65_example_indirect :
  edges_and_cost (indirect_paths two_graphs plain_ctx none_of nowhere hash0 same_type at_user (want "name") no_excluded) = Ok [([0; 1; 3; 5], 2004%N)] /\
  edges_and_cost (indirect_paths two_graphs plain_ctx none_of nowhere hash0 same_type at_user (want "name") (mkex ["B"%string] [])) = Ok [] /\
  edges_and_cost (indirect_paths two_graphs plain_ctx none_of nowhere hash0 same_type at_user (want "name") (mkex [] [by_id])) = Ok [] /\
  edges_and_cost (indirect_paths two_graphs plain_ctx none_of nowhere hash0 same_type at_user (want "id") no_excluded) = Ok [].
Proof. vm_compute. repeat split; reflexivity. Qed.
