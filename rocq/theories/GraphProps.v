(** C44 and C45: the order of fetch steps. *)
From Coq Require Import List Arith Relations.
From Verif Require Import GraphModel GraphSpec GraphProofs GraphMerge GraphWaves GraphMutations GraphPasses.
Import ListNotations.

(** Reachability questions are answered correctly. *)
Theorem C44_descendants_are_found g d a :
  exists b, is_descendant_of g d a = Some b /\ (b = true <-> a = d \/ after g a d).
Proof. exact (is_descendant_ok g d a). Qed.

(** Pruning keeps the order and leaves no redundant edge. *)
Theorem C44_pruning_keeps_the_order g : well_formed g -> acyclic g ->
  exists g', prune_edges g = Some g' /\ steps g' = steps g /\ root g' = root g /\ well_formed g' /\
    (forall a b, after g' a b <-> after g a b) /\ reduced g' /\ (forall a b, edge g' a b -> edge g a b).
Proof. exact (prune_edges_ok g). Qed.
Theorem C44_dropped_steps_have_nothing_after_them eo g : well_formed g -> (exists c, edge g (root g) c) ->
  well_formed (drop_useless eo g) /\ root (drop_useless eo g) = root g /\
  (forall s, In s (steps (drop_useless eo g)) <-> In s (steps g) /\ useless eo g s = false) /\
  (forall a b, In b (steps (drop_useless eo g)) -> (after (drop_useless eo g) a b <-> after g a b)).
Proof. exact (drop_useless_ok eo g). Qed.

(** Merging redirects exactly the edges of the merged step. *)
Theorem C44_merging_redirects_edges g t s : t <> s ->
  root (merge_steps g t s) = root g /\
  (NoDup (edges g) -> NoDup (edges (merge_steps g t s))) /\
  (NoDup (steps g) -> NoDup (steps (merge_steps g t s))) /\
  (forall n, In n (steps (merge_steps g t s)) <-> In n (steps g) /\ n <> s) /\
  forall x y, edge (merge_steps g t s) x y <->
    x <> s /\ y <> s /\ (edge g x y \/ (x = t /\ edge g s y) \/ (y = t /\ x <> t /\ edge g x s)).
Proof. exact (merge_steps_ok g t s). Qed.
Theorem C44_merging_makes_no_cycle g t s : acyclic g -> t <> s ->
  (forall m, after g t m -> ~ after g m s) -> ~ after g s t -> acyclic (merge_steps g t s).
Proof. exact (merge_acyclic g t s). Qed.

(** Whatever passes the optimiser runs, the work of a step that waited for another still does. *)
Theorem C44_optimising_keeps_the_order eo co g g' : passes eo co g g' ->
  well_formed g /\ connected g /\ acyclic g ->
  (well_formed g' /\ connected g' /\ acyclic g') /\ exists f, keeps_order g g' f.
Proof. exact (passes_ok eo co g g'). Qed.

(** The waves are right whenever there are any, and a plan is refused for no other reason. *)
Theorem C44_waves_follow_the_order g ws : well_formed g -> plan_waves g = Ok ws -> in_order g ws.
Proof.
  exact (plan_waves_in_order g ws).
Qed.
Theorem C44_planning_succeeds_or_reports g : well_formed g ->
  (plan_waves g = Err /\ ~ (acyclic g /\ connected g /\ sole_parent g /\ others g <> [])) \/
  (exists ws, plan_waves g = Ok ws /\ in_order g ws /\ acyclic g /\ connected g /\ sole_parent g /\ others g <> []).
Proof. exact (plan_waves_ok g). Qed.
Theorem C44_pruned_graphs_have_plans g : well_formed g -> acyclic g -> connected g ->
  (exists n, In n (steps g) /\ n <> root g) ->
  exists g' ws, prune_edges g = Some g' /\ plan_waves g' = Ok ws /\ in_order g' ws /\ in_order g ws.
Proof. exact (pruned_plan g). Qed.

Example C44_a_plan :
  plan_waves (mkgraph [0;1;2;3;4] [(0,1);(0,2);(1,3);(2,3);(3,4)] 0) = Ok [[1;2];[3];[4]].
Proof. reflexivity. Qed.
Example C44_an_unpruned_graph :
  let g := mkgraph [0;1;2;3] [(0,1);(0,2);(1,2);(2,3);(1,3)] 0 in
  plan_waves g = Err /\
  match prune_edges g with Some g' => plan_waves g' = Ok [[1];[2];[3]] | None => False end.
Proof. split; reflexivity. Qed.
Example C44_a_cycle_is_reported : plan_waves (mkgraph [0;1;2;3] [(0,1);(1,2);(2,3);(3,2)] 0) = Err.
Proof. reflexivity. Qed.
Example C44_siblings_merge :
  match merge_siblings_of (fun _ _ => true) (mkgraph [0;1;2;3;4] [(0,1);(0,2);(1,3);(2,4)] 0) [1;2] with
  | Some g => plan_waves g = Ok [[1];[4;3]] \/ plan_waves g = Ok [[1];[3;4]]
  | None => False
  end.
Proof. cbv. auto. Qed.

Example C44_leafs_merge :
  let g := mkgraph [0;1;2;3] [(0,1);(0,2);(2,3)] 0 in
  can_merge_leafs g 1 3 = true /\ can_merge_leafs g 2 3 = false /\ can_merge_leafs g 3 1 = true /\ can_merge_leafs g 1 2 = false.
Proof. cbv. auto. Qed.

(** Before the first pruning the condition for merging a child into its parent is not enough: the
    steps 1 and 3 end up waiting for each other. *)
Theorem C44_merging_children_unpruned_refuted :
  exists g t s, well_formed g /\ acyclic g /\ connected g /\ edge g t s /\ can_merge g t s = true /\
    ~ acyclic (merge_steps g t s).
Proof.
  exact (ex_intro _ (mkgraph [0;1;2;3] [(0,1);(0,2);(1,2);(1,3);(3,2)] 0) (ex_intro _ 1 (ex_intro _ 2 unpruned_witness))).
Qed.

(** Four siblings that are alike except for what they wait for: the third is merged into the
    first, that into the second, and then the third is looked up again. *)
Theorem C44_merging_siblings_succeeds_refuted :
  exists g p, well_formed g /\ acyclic g /\ connected g /\ reduced g /\
    merge_siblings_of (fun _ _ => true) g (children g p) = None.
Proof. exact (ex_intro _ sibling_graph (ex_intro _ 1 sibling_witness)). Qed.

(** Mutations: in the order of their fields, one at a time. *)
Theorem C45_mutations_are_planned_in_order position g g' :
  well_formed g -> acyclic g -> connected g -> sole_parent g -> mutations_in_sequence position g = Some g' ->
  well_formed g' /\ acyclic g' /\ connected g' /\ sole_parent g' /\
  (forall n, In n (steps g') <-> In n (steps g)) /\ root g' = root g /\
  (forall a b, edge g a b -> a <> root g -> edge g' a b) /\
  (forall a b i j, edge g (root g) a -> edge g (root g) b -> position a = Some i -> position b = Some j -> i < j -> after g' a b) /\
  (forall a b, edge g (root g) a -> edge g (root g) b -> a <> b -> after g' a b \/ after g' b a).
Proof. exact (sequence_ok position g g'). Qed.
Theorem C45_mutation_plans_exist position g g' :
  well_formed g -> acyclic g -> connected g -> sole_parent g -> mutations_in_sequence position g = Some g' ->
  (exists n, In n (steps g) /\ n <> root g) -> exists ws, plan_waves g' = Ok ws /\ in_order g' ws.
Proof. exact (sequence_plan position g g'). Qed.
Theorem C45_later_steps_are_in_later_waves g ws : well_formed g -> in_order g ws ->
  forall a b, after g a b -> a <> root g -> forall j, wave_of ws b j -> exists i, wave_of ws a i /\ i < j.
Proof. exact (in_order_after g ws). Qed.

(** But a mutation does not wait for the fetches that complete the previous one. *)
Theorem C45_mutations_wait_for_completion_refuted :
  exists position g g' ws a b c,
    well_formed g /\ acyclic g /\ connected g /\ sole_parent g /\
    mutations_in_sequence position g = Some g' /\ plan_waves g' = Ok ws /\
    edge g (root g) a /\ edge g (root g) b /\ position a = Some 0 /\ position b = Some 1 /\
    edge g a c /\ wave_of ws b 1 /\ wave_of ws c 1.
Proof. exact mutation_witness. Qed.

Example C45_a_sequence :
  match mutations_in_sequence (fun n => Some (10 - n)) (mkgraph [0;1;2;3] [(0,1);(0,2);(0,3)] 0) with
  | Some g => plan_waves g = Ok [[3];[2];[1]]
  | None => False
  end.
Proof. reflexivity. Qed.

Print Assumptions C44_optimising_keeps_the_order.
Print Assumptions C44_planning_succeeds_or_reports.
Print Assumptions C44_pruned_graphs_have_plans.
Print Assumptions C44_merging_siblings_succeeds_refuted.
Print Assumptions C45_mutations_are_planned_in_order.
Print Assumptions C45_mutations_wait_for_completion_refuted.
