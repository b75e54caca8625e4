(** Choosing one path per leaf: the planner's query tree and the search for the cheapest combination.
    Models bin/router/src/query_planner/planner/tree/{query_tree_node,query_tree}.rs and planner/best.rs.
    Costs are unbounded here; a tree of fewer than 2^53 nodes cannot reach 2^64. *)
From Coq Require Import String List NArith Bool Arith.
From Verif Require Import Ast QplanModel.
Import ListNotations.
Local Open Scope list_scope.

(** The fields compared by [PartialEq for QueryTreeNode], query_tree_node.rs:36-44;
    [SelectionAttributes], walker/path.rs:19-29 *)
Record label := mklabel {
  l_node : nat;
  l_edge : option nat;
  l_attrs : option (option string * option (list (string * gvalue)));
  l_position : option nat;
  l_condition : option cond }.

(** [QueryTreeNode], query_tree_node.rs:17-31 *)
Inductive tree := Tree (l : label) (requirements children : list tree).
Definition label_of (t : tree) : label := let 'Tree l _ _ := t in l.

Definition option_eqb {A} (eqb : A -> A -> bool) (a b : option A) : bool :=
  match a, b with
  | Some x, Some y => eqb x y
  | None, None => true
  | _, _ => false
  end.
Fixpoint args_eqb (a b : list (string * gvalue)) : bool :=
  match a, b with
  | [], [] => true
  | (k, u) :: a, (k', v) :: b => String.eqb k k' && gvalue_eqb u v && args_eqb a b
  | _, _ => false
  end.
Definition attrs_eqb (a b : option string * option (list (string * gvalue))) : bool :=
  option_eqb String.eqb (fst a) (fst b) && option_eqb args_eqb (snd a) (snd b).
(** [Condition], ast/merge_path.rs:51-56 *)
Definition cond_eqb (a b : cond) : bool :=
  match a, b with
  | CInclude v, CInclude w => String.eqb v w
  | CSkip v, CSkip w => String.eqb v w
  | CSkipAndInclude s i, CSkipAndInclude s' i' => String.eqb s s' && String.eqb i i'
  | _, _ => false
  end.
Definition label_eqb (a b : label) : bool :=
  Nat.eqb (l_node a) (l_node b)
  && option_eqb Nat.eqb (l_edge a) (l_edge b)
  && option_eqb attrs_eqb (l_attrs a) (l_attrs b)
  && option_eqb Nat.eqb (l_position a) (l_position b)
  && option_eqb cond_eqb (l_condition a) (l_condition b).

(** The body of the loop of [merge_query_tree_node_list], query_tree_node.rs:54-69: the first node of
    the target equal to the source node takes it in, or else the source node is added *)
Fixpoint place (f : tree -> tree) (s : tree) (target : list tree) : list tree :=
  match target with
  | [] => [s]
  | t :: ts => if label_eqb (label_of t) (label_of s) then f t :: ts else t :: place f s ts
  end.
(** [QueryTreeNode::merge_nodes], query_tree_node.rs:102-105, and [merge_query_tree_node_list],
    query_tree_node.rs:46-71 *)
Fixpoint merge_nodes (source target : tree) {struct source} : tree :=
  let go := fix go (sources targets : list tree) : list tree :=
              match sources with
              | [] => targets
              | s :: ss => go ss (place (merge_nodes s) s targets)
              end in
  let 'Tree _ rs cs := source in
  let 'Tree l rs' cs' := target in
  Tree l (go rs rs') (go cs cs').

(** An edge of the graph: its tail, and whether it is [Edge::SubgraphEntrypoint] *)
Record edge := mkedge { e_tail : nat; e_entry : bool }.
Definition graph := list edge.

Inductive failure := EdgeNotFound (e : nat) | EmptyPlan | Cancelled | TimedOut.
Inductive outcome (A : Type) := Done (a : A) | Failed (e : failure) | Panicked.
Arguments Done {A}. Arguments Failed {A}. Arguments Panicked {A}.

(** [PathSegment] and [OperationPath], walker/path.rs:31-41,82-90; the chain of segments is listed from
    the first to the last, as [get_segments], path.rs:212-222, lists it *)
Record segment := mkseg {
  s_edge : nat;
  s_requirement : option tree;
  s_attrs : option (option string * option (list (string * gvalue)));
  s_condition : option cond }.
Record path := mkpath { p_root : nat; p_segments : list segment }.

(** [QueryTreeNode::from_path_segment_sequences], query_tree_node.rs:135-188 *)
Fixpoint from_segments (g : graph) (segs : list segment) (position : option nat) : outcome (option tree) :=
  match segs with
  | [] => Done None
  | s :: rest =>
      match nth_error g (s_edge s) with
      | None => Failed (EdgeNotFound (s_edge s))
      | Some e =>
          match from_segments g rest None with
          | Done sub =>
              Done (Some (Tree (mklabel (e_tail e) (Some (s_edge s)) (s_attrs s) position (s_condition s))
                               (match s_requirement s with Some r => [r] | None => [] end)
                               (match sub with Some c => [c] | None => [] end)))
          | Failed x => Failed x
          | Panicked => Panicked
          end
      end
  end.
(** [QueryTree::from_path], query_tree.rs:29-44, and [create_root_for_path_sequences],
    query_tree_node.rs:194-226 *)
Definition from_path (g : graph) (p : path) (position : option nat) : outcome tree :=
  match from_segments g (p_segments p) position with
  | Done sub => Done (Tree (mklabel (p_root p) None None None None) []
                           (match sub with Some c => [c] | None => [] end))
  | Failed x => Failed x
  | Panicked => Panicked
  end.

(** [QueryTreeNode::from_paths], query_tree_node.rs:107-130, with [QueryTree::merge_trees],
    query_tree.rs:46-63; [expect] panics when a tree cannot be built *)
Fixpoint from_rest (g : graph) (paths : list path) (position : option nat) (acc : tree) : outcome tree :=
  match paths with
  | [] => Done acc
  | p :: paths' =>
      match from_path g p position with
      | Done t => from_rest g paths' position (merge_nodes t acc)
      | _ => Panicked
      end
  end.
Definition from_paths (g : graph) (paths : list path) (position : option nat) : outcome (option tree) :=
  match paths with
  | [] => Done None
  | p :: paths' =>
      match from_path g p position with
      | Done t => match from_rest g paths' position t with
                  | Done t' => Done (Some t')
                  | Failed x => Failed x
                  | Panicked => Panicked
                  end
      | _ => Panicked
      end
  end.

(** [calculate_cost_of_tree], best.rs:355-377; [None] where [expect] panics on an unknown edge *)
Definition crosses (g : graph) (l : label) : option N :=
  match l_edge l with
  | None => Some 0%N
  | Some e => match nth_error g e with
              | None => None
              | Some d => Some (if e_entry d then 1000%N else 0%N)
              end
  end.
Definition plus (a b : option N) : option N :=
  match a, b with Some x, Some y => Some (x + y)%N | _, _ => None end.
Fixpoint cost_of (g : graph) (t : tree) : option N :=
  let 'Tree _ rs cs := t in
  let children := (fix go (l : list tree) : option N :=
                     match l with
                     | [] => Some 0%N
                     | c :: l' => plus (plus (crosses g (label_of c)) (cost_of g c)) (go l')
                     end) cs in
  let requirements := (fix go (l : list tree) : option N :=
                         match l with
                         | [] => Some 0%N
                         | r :: l' => plus (plus (Some 1000%N) (cost_of g r)) (go l')
                         end) rs in
  plus (plus (Some 1%N) children) requirements.

(** [Candidate], best.rs:76-114: a path with its position; the tree and the cost are computed on demand *)
Definition candidate : Type := path * option nat.
Definition get_tree (g : graph) (c : candidate) : outcome tree := from_path g (fst c) (snd c).
Definition get_cost (g : graph) (c : candidate) : outcome N :=
  match get_tree g c with
  | Done t => match cost_of g t with Some n => Done n | None => Panicked end
  | Failed x => Failed x
  | Panicked => Panicked
  end.

(** [sort_by_key], stable *)
Fixpoint insert_by {A} (key : A -> N) (x : A) (l : list A) : list A :=
  match l with
  | [] => [x]
  | y :: l' => if (key x <=? key y)%N then x :: l else y :: insert_by key x l'
  end.
Fixpoint sort_by {A} (key : A -> N) (l : list A) : list A :=
  match l with [] => [] | x :: l' => insert_by key x (sort_by key l') end.

(** [prepare_alternatives], best.rs:117-143 *)
Fixpoint with_positions (is_mutation : bool) (index : nat) (groups : list (list (list path))) : list (list candidate) :=
  match groups with
  | [] => []
  | leaves :: groups' =>
      let position := if is_mutation then Some index else None in
      map (map (fun p => (p, position))) leaves ++ with_positions is_mutation (S index) groups'
  end.
Definition prepare_alternatives (is_mutation : bool) (groups : list (list (list path))) : list (list candidate) :=
  sort_by (fun alts => N.of_nat (length alts)) (with_positions is_mutation 0 groups).

Definition u64_max : N := 18446744073709551615%N.

(** The [try_fold] of [calculate_min_remaining_costs], best.rs:151-162 *)
Fixpoint best_case (g : graph) (alts : list candidate) (acc : N) : outcome N :=
  match alts with
  | [] => Done acc
  | c :: alts' =>
      match get_cost g c with
      | Done n => best_case g alts' (N.min acc n)
      | Failed x => Failed x
      | Panicked => Panicked
      end
  end.
Fixpoint best_cases (g : graph) (groups : list (list candidate)) : outcome (list N) :=
  match groups with
  | [] => Done []
  | alts :: groups' =>
      match best_case g alts u64_max with
      | Done n => match best_cases g groups' with
                  | Done l => Done (n :: l)
                  | Failed x => Failed x
                  | Panicked => Panicked
                  end
      | Failed x => Failed x
      | Panicked => Panicked
      end
  end.
(** best.rs:170-173 *)
Fixpoint suffix_sums (l : list N) : list N :=
  match l with
  | [] => [0%N]
  | n :: l' => let r := suffix_sums l' in (hd 0 r + n)%N :: r
  end.
(** [calculate_min_remaining_costs], best.rs:145-175 *)
Definition min_remaining_costs (g : graph) (groups : list (list candidate)) : outcome (list N) :=
  match best_cases g groups with
  | Done l => Done (suffix_sums l)
  | Failed x => Failed x
  | Panicked => Panicked
  end.

(** [sort_candidates_by_cost], best.rs:177-184 *)
Definition cost_key (g : graph) (c : candidate) : N :=
  match get_cost g c with Done n => n | _ => u64_max end.
Definition sort_candidates (g : graph) (groups : list (list candidate)) : list (list candidate) :=
  map (sort_by (cost_key g)) groups.

(** The tree with a candidate added, best.rs:265-272 and 325-332 *)
Definition join (current : option tree) (t : tree) : tree :=
  match current with Some c => merge_nodes t c | None => t end.

(** The inner loop of [find_initial_plan], best.rs:256-279 *)
Fixpoint best_next (g : graph) (current : option tree) (current_cost : N) (alts : list candidate)
    (best_delta : N) (best : option (N * tree)) : outcome (option (N * tree)) :=
  match alts with
  | [] => Done best
  | c :: alts' =>
      match get_tree g c with
      | Failed _ => best_next g current current_cost alts' best_delta best
      | Panicked => Panicked
      | Done t =>
          let next := join current t in
          match cost_of g next with
          | None => Panicked
          | Some next_cost =>
              let delta := (next_cost - current_cost)%N in
              if (delta <? best_delta)%N
              then best_next g current current_cost alts' delta (Some (next_cost, next))
              else best_next g current current_cost alts' best_delta best
          end
      end
  end.
(** [find_initial_plan], best.rs:245-291 *)
Fixpoint initial_plan (g : graph) (groups : list (list candidate)) (current : option tree) (current_cost : N)
    : outcome (option (N * tree)) :=
  match groups with
  | [] => Done (option_map (fun t => (current_cost, t)) current)
  | alts :: groups' =>
      match best_next g current current_cost alts u64_max None with
      | Done (Some (n, t)) => initial_plan g groups' (Some t) n
      | Done None => Done None
      | Failed x => Failed x
      | Panicked => Panicked
      end
  end.

(** [ExplorationState], best.rs:293-296, with the number of times the token was asked *)
Record state := mkstate { best_cost : N; best_tree : option tree; polls : nat }.

Section Search.
  Variable g : graph.
  (** [CancellationToken::bail_if_cancelled], utils/cancellation.rs:24-33: what the token answers to the
      n-th question *)
  Variable token : nat -> option failure.

  (** [explore_plan_combinations], best.rs:298-353 *)
  Fixpoint explore (groups : list (list candidate)) (so_far : option tree) (cost_so_far : N) (mins : list N)
      (st : state) {struct groups} : outcome state :=
    match token (polls st) with
    | Some e => Failed e
    | None =>
        let st := mkstate (best_cost st) (best_tree st) (S (polls st)) in
        match mins with
        | [] => Panicked
        | m :: mins' =>
            if (best_cost st <=? cost_so_far + m)%N then Done st
            else
              match groups with
              | [] => Done (if (cost_so_far <? best_cost st)%N then mkstate cost_so_far so_far (polls st) else st)
              | alts :: groups' =>
                  (fix try (alts : list candidate) (st : state) : outcome state :=
                     match alts with
                     | [] => Done st
                     | c :: alts' =>
                         match get_tree g c with
                         | Failed x => Failed x
                         | Panicked => Panicked
                         | Done t =>
                             let next := join so_far t in
                             match cost_of g next with
                             | None => Panicked
                             | Some next_cost =>
                                 if (best_cost st <=? next_cost)%N then try alts' st
                                 else
                                   match explore groups' (Some next) next_cost mins' st with
                                   | Done st' => try alts' st'
                                   | other => other
                                   end
                             end
                         end
                     end) alts st
              end
        end
    end.

  (** [find_best_combination], best.rs:186-240 *)
  Definition find_best (is_mutation : bool) (groups : list (list (list path))) : outcome tree :=
    if (match groups with [] => true | _ => false end
        || existsb (existsb (fun paths => match paths with [] => true | _ => false end)) groups)%bool
    then Failed EmptyPlan
    else
      let alternatives := prepare_alternatives is_mutation groups in
      match alternatives with
      | [] => Failed EmptyPlan
      | _ =>
          match min_remaining_costs g alternatives with
          | Failed x => Failed x
          | Panicked => Panicked
          | Done mins =>
              let sorted := sort_candidates g alternatives in
              match initial_plan g sorted None 0%N with
              | Failed x => Failed x
              | Panicked => Panicked
              | Done initial =>
                  let st := match initial with
                            | Some (n, t) => if (n <? u64_max)%N then mkstate n (Some t) 0 else mkstate u64_max None 0
                            | None => mkstate u64_max None 0
                            end in
                  match explore sorted None 0%N mins st with
                  | Failed x => Failed x
                  | Panicked => Panicked
                  | Done st' => match best_tree st' with Some t => Done t | None => Failed EmptyPlan end
                  end
              end
          end
      end.
End Search.
