(** C56: the plan takes one path per leaf, and is meant to be the cheapest such plan *)
From Coq Require Import String List NArith Arith.
From Verif Require Import Ast QplanModel BestModel BestSpec BestProofs BestMain.
Import ListNotations.
Local Open Scope list_scope.

Theorem C56_one_path_per_leaf : forall g token m groups,
  sound g groups -> leaves m groups <> [] -> affordable g (leaves m groups) -> token 0 = None ->
  exists t cs, find_best g token m groups = Done t
    /\ picks (leaves m groups) cs
    /\ tidy t
    /\ (forall q, reaches t q <-> exists c, In c cs /\ on_path g (snd c) (p_segments (fst c)) q)
    /\ (forall r, Forall (fun c => p_root (fst c) = r) cs ->
          exists rs kids, t = Tree (mklabel r None None None None) rs kids)
    /\ (forall n ns, costs g cs n -> apart g (leaves m groups) ns ->
          (n + N.of_nat (length (leaves m groups)) <= total ns + 1)%N).
Proof. exact plan_good. Qed.
Print Assumptions C56_one_path_per_leaf.

Theorem C56_cheapest_partial : forall g token m groups t cs n,
  sound g groups -> affordable g (leaves m groups) ->
  (exists a alts b, leaves m groups = a ++ alts :: b /\ Forall (fun x => length x = 1) (a ++ b)) ->
  find_best g token m groups = Done t ->
  (forall q, reaches t q <-> exists c, In c cs /\ on_path g (snd c) (p_segments (fst c)) q) ->
  costs g cs n -> forall cs' n', picks (leaves m groups) cs' -> costs g cs' n' -> (n <= n')%N.
Proof. exact cheapest_one. Qed.
Print Assumptions C56_cheapest_partial.

Theorem C56_cheapest_refuted : exists g m groups t cs n,
  sound g groups /\ affordable g (leaves m groups)
  /\ find_best g (fun _ => None) m groups = Done t
  /\ picks (leaves m groups) cs
  /\ (forall q, reaches t q <-> exists c, In c cs /\ on_path g (snd c) (p_segments (fst c)) q)
  /\ costs g cs n
  /\ exists cs' n', picks (leaves m groups) cs' /\ costs g cs' n' /\ (n' + 1001 = n)%N.
Proof. exact two_not_cheapest. Qed.
Print Assumptions C56_cheapest_refuted.

Theorem C56_search_never_starts : forall g m groups,
  sound g groups -> leaves m groups <> [] -> affordable g (leaves m groups) ->
  exists t n, initial_plan g (sort_candidates g (prepare_alternatives m groups)) None 0%N = Done (Some (n, t))
    /\ forall token, find_best g token m groups = match token 0 with Some e => Failed e | None => Done t end.
Proof. exact asked_once. Qed.
Print Assumptions C56_search_never_starts.

Theorem C56_mutations_apart : forall g token groups t,
  sound g groups -> leaves true groups <> [] -> affordable g (leaves true groups) ->
  find_best g token true groups = Done t ->
  forall st p, reaches t (st :: p) ->
  exists i leaf paths path, l_position (snd st) = Some i /\ nth_error groups i = Some leaf
    /\ In paths leaf /\ In path paths /\ on_path g (Some i) (p_segments path) (st :: p).
Proof. exact mutation_apart. Qed.
Print Assumptions C56_mutations_apart.

Theorem C56_no_plan : forall g token m groups,
  groups = [] \/ (exists leaf, In leaf groups /\ In [] leaf) \/ leaves m groups = [] ->
  find_best g token m groups = Failed EmptyPlan.
Proof. exact no_plan. Qed.
Print Assumptions C56_no_plan.

Theorem C56_requirement_tree : forall g paths pos,
  paths <> [] -> Forall (sound_path g) paths ->
  exists t, from_paths g paths pos = Done (Some t) /\ tidy t /\ drawn g t
    /\ forall q, reaches t q <-> exists p, In p paths /\ on_path g pos (p_segments p) q.
Proof. exact from_paths_good. Qed.
Print Assumptions C56_requirement_tree.

(** [a] in A or B and [b] only in B: both are taken from B, in one tree *)
Example C56_example :
  find_best three (fun _ => None) false
    [[[mkpath 0 [along 0; field 3]; mkpath 0 [along 1; field 4]]]; [[mkpath 0 [along 1; field 5]]]]
  = Done (Tree (mklabel 0 None None None None) []
            [Tree (mklabel 2 (Some 1) None None None) []
               [Tree (mklabel 6 (Some 5) (Some (None, None)) None None) [] [];
                Tree (mklabel 5 (Some 4) (Some (None, None)) None None) [] []]]).
Proof. vm_compute. reflexivity. Qed.
