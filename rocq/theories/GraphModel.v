(** The graph of fetch steps: pruning, merging, ordering of mutations, and the waves.
    Models bin/router/src/query_planner/planner/fetch/fetch_graph.rs:88-165,1986-2000,
    fetch/optimize/{deduplicate_and_prune_fetch_steps,merge_leafs,merge_siblings,
    merge_children_with_parents,merge_passthrough_child,turn_mutations_into_sequence,utils}.rs and
    planner/query_plan.rs:24-195. *)
From Coq Require Import List Arith Bool.
Import ListNotations.

(** [StableDiGraph]: the step indices, the edges in the order in which [edges_directed] yields
    them, and [root_index].  What is stored in a step is looked up by index elsewhere. *)
Record graph := mkgraph { steps : list nat; edges : list (nat * nat); root : nat }.

(** [FetchGraph::children_of], [parents_of], fetch_graph.rs:90-96: the other ends of the edges *)
Definition children (g : graph) (n : nat) : list nat :=
  map snd (filter (fun e => Nat.eqb (fst e) n) (edges g)).
Definition parents (g : graph) (n : nat) : list nat :=
  map fst (filter (fun e => Nat.eqb (snd e) n) (edges g)).
Definition mem (n : nat) (l : list nat) : bool := existsb (Nat.eqb n) l.
Definition has_edge (g : graph) (a b : nat) : bool :=
  existsb (fun e => Nat.eqb (fst e) a && Nat.eqb (snd e) b) (edges g).
(** [connect], fetch_graph.rs:123-125: [update_edge] adds the edge unless it exists *)
Definition connect (g : graph) (a b : nat) : graph :=
  if has_edge g a b then g else mkgraph (steps g) ((a, b) :: edges g) (root g).
(** [remove_step], fetch_graph.rs:131-136 *)
Definition remove_step (g : graph) (n : nat) : graph :=
  mkgraph (filter (fun s => negb (Nat.eqb s n)) (steps g))
          (filter (fun e => negb (Nat.eqb (fst e) n) && negb (Nat.eqb (snd e) n)) (edges g))
          (root g).

(** ** Searches *)
(** The loop of a breadth-first search over [next], stopping at [target]
    (utils.rs:183-209; [has_path_connecting] of petgraph).  [None]: out of fuel. *)
Fixpoint search (next : nat -> list nat) (target : nat) (fuel : nat) (queue visited : list nat) : option bool :=
  match fuel with
  | 0 => None
  | S fuel' =>
      match queue with
      | [] => Some false
      | x :: queue' =>
          if Nat.eqb x target then Some true
          else
            let new := fold_left (fun acc p => if mem p visited || mem p acc then acc else acc ++ [p]) (next x) [] in
            search next target fuel' (queue' ++ new) (visited ++ new)
      end
  end.
Definition fuel_for (g : graph) : nat := 2 + length (edges g) + length (edges g).
(** [is_descendant_of], fetch_graph.rs:98-100: a path from [ancestor], possibly empty *)
Definition is_descendant_of (g : graph) (descendant ancestor : nat) : option bool :=
  search (children g) descendant (fuel_for g) [ancestor] [ancestor].
(** [is_reachable_via_alternative_upstream_path], utils.rs:155-209 *)
Definition alternative_path (g : graph) (child ancestor : nat) : option bool :=
  let start := filter (fun p => negb (Nat.eqb p ancestor)) (parents g child) in
  search (parents g) ancestor (fuel_for g) start start.

(** ** Pruning *)
Section P.
  (** [step.output.is_empty()] *)
  Variable empty_output : nat -> bool.
  (** deduplicate_and_prune_fetch_steps.rs:24-46 *)
  Definition useless (g : graph) (s : nat) : bool :=
    (empty_output s || match parents g s with [] => true | _ => false end)
    && match children g s with [] => true | _ => false end.
  (** deduplicate_and_prune_fetch_steps.rs:48-50 *)
  Definition drop_useless (g : graph) : graph :=
    fold_left remove_step (filter (useless g) (steps g)) g.
  (** deduplicate_and_prune_fetch_steps.rs:52-69: all redundant edges are found first *)
  Fixpoint redundant (g : graph) (es : list (nat * nat)) : option (list (nat * nat)) :=
    match es with
    | [] => Some []
    | (p, c) :: es' =>
        match alternative_path g c p, redundant g es' with
        | Some b, Some r => Some (if b then (p, c) :: r else r)
        | _, _ => None
        end
    end.
  Definition in_edges (e : nat * nat) (l : list (nat * nat)) : bool :=
    existsb (fun e' => Nat.eqb (fst e) (fst e') && Nat.eqb (snd e) (snd e')) l.
  Definition prune_edges (g : graph) : option graph :=
    match redundant g (edges g) with
    | None => None
    | Some r => Some (mkgraph (steps g) (filter (fun e => negb (in_edges e r)) (edges g)) (root g))
    end.
  Definition deduplicate_and_prune (g : graph) : option graph := prune_edges (drop_useless g).
End P.

(** ** Merging two steps *)
(** The edges of [perform_fetch_step_merge], utils.rs:134-160, and of
    [perform_passthrough_child_merge], merge_passthrough_child.rs:160-205 *)
Definition merge_steps (g : graph) (target source : nat) : graph :=
  let g1 := fold_left (fun g c => connect g target c) (children g source) g in
  let g2 := fold_left (fun g p => connect g p target)
              (filter (fun p => negb (Nat.eqb p target)) (parents g source)) g1 in
  remove_step g2 source.

(** The conditions on the graph under which steps are merged. *)
(** [can_merge], utils.rs:244-262: [other] has no other parent, or all parents of [self] too *)
Definition only_parent (g : graph) (self other : nat) : bool :=
  match parents g other with [p] => Nat.eqb p self | _ => false end.
Definition shares_parents (g : graph) (self other : nat) : bool :=
  forallb (fun p => mem p (parents g other)) (parents g self).
Definition can_merge (g : graph) (self other : nat) : bool :=
  negb (Nat.eqb self other) && (only_parent g self other || shares_parents g self other).
(** [can_merge_siblings], merge_siblings.rs:103-134: without the position check *)
Definition can_merge_siblings (g : graph) (self other : nat) : bool :=
  can_merge g self other &&
  match is_descendant_of g self other, is_descendant_of g other self with
  | Some false, Some false => true
  | _, _ => false
  end.
(** [can_merge_leafs], merge_leafs.rs:44-56 *)
Definition can_merge_leafs (g : graph) (self other : nat) : bool :=
  negb (Nat.eqb self other)
  && match children g other with [] => true | _ => false end
  && match is_descendant_of g other self with Some false => true | _ => false end.

(** ** One turn of [merge_siblings], merge_siblings.rs:20-99 *)
Section S.
  (** what the stored steps say about merging two of them: service, condition, paths, arguments,
      positions (utils.rs:211-243, merge_siblings.rs:113-125) *)
  Variable compatible : nat -> nat -> bool.
  (** merge_siblings.rs:52-86: at most one partner per step, found before anything is merged *)
  Fixpoint sibling_pairs (g : graph) (sibs : list nat) : list (nat * nat) :=
    match sibs with
    | [] => []
    | x :: sibs' =>
        match find (fun y => compatible x y && can_merge_siblings g x y) sibs' with
        | Some y => (x, y) :: sibling_pairs g sibs'
        | None => sibling_pairs g sibs'
        end
    end.
  (** merge_siblings.rs:88-98 with the existence checks of [get_pair_of_steps_mut],
      fetch_graph.rs:203-234.  [latest] is [node_indexes].  [None]: an error. *)
  Fixpoint perform_pairs (pairs : list (nat * nat)) (latest : nat -> nat) (g : graph) : option graph :=
    match pairs with
    | [] => Some g
    | (x, y) :: pairs' =>
        let t := latest x in
        let s := latest y in
        if Nat.eqb t s then None
        else if negb (mem t (steps g) && mem s (steps g)) then None
        else perform_pairs pairs' (fun n => if Nat.eqb n s then t else latest n) (merge_steps g t s)
    end.
  Definition merge_siblings_of (g : graph) (sibs : list nat) : option graph :=
    perform_pairs (sibling_pairs g sibs) (fun n => n) g.
End S.

(** ** Mutations *)
Section M.
  (** [mutation_field_position] *)
  Variable position : nat -> option nat.
  (** [sort_by_key], stable *)
  Fixpoint insert_pos (x : nat * nat) (l : list (nat * nat)) : list (nat * nat) :=
    match l with
    | [] => [x]
    | y :: l' => if Nat.leb (snd x) (snd y) then x :: y :: l' else y :: insert_pos x l'
    end.
  Definition sort_pos (l : list (nat * nat)) : list (nat * nat) := fold_right insert_pos [] l.
  Fixpoint positioned (l : list nat) : option (list (nat * nat)) :=
    match l with
    | [] => Some []
    | n :: l' =>
        match position n, positioned l' with
        | Some p, Some r => Some ((n, p) :: r)
        | _, _ => None
        end
    end.
  Fixpoint link (g : graph) (n : nat) (l : list nat) : graph :=
    match l with [] => g | m :: l' => link (connect g n m) m l' end.
  (** [turn_mutations_into_sequence], turn_mutations_into_sequence.rs:15-65, for mutations.
      [None]: MutationStepWithNoOrder or EmptyFetchSteps. *)
  Definition mutations_in_sequence (g : graph) : option graph :=
    match positioned (children g (root g)) with
    | None => None
    | Some ps =>
        match map fst (sort_pos ps) with
        | [] => None
        | first :: rest =>
            let g0 := mkgraph (steps g) (filter (fun e => negb (Nat.eqb (fst e) (root g))) (edges g)) (root g) in
            Some (link (connect g0 (root g) first) first rest)
        end
    end.
End M.

(** ** Waves *)
Inductive res (A : Type) := Ok (a : A) | Err | Panic | OutOfFuel.
Arguments Ok {A} a. Arguments Err {A}. Arguments Panic {A}. Arguments OutOfFuel {A}.

(** [InDegree::state]; only steps reachable from the root have a record *)
Definition degrees := nat -> option nat.
(** [InDegree::new], query_plan.rs:30-52 *)
Definition initial (g : graph) : degrees := fun n =>
  match is_descendant_of g n (root g) with
  | Some true => Some (length (filter (fun p => negb (Nat.eqb p (root g))) (parents g n)))
  | _ => None
  end.
Definition set_degree (st : degrees) (n d : nat) : degrees := fun m => if Nat.eqb m n then Some d else st m.
(** [mark_as_processed], query_plan.rs:57-72, over the children; [None]: panic *)
Fixpoint processed (cs : list nat) (st : degrees) : option degrees :=
  match cs with
  | [] => Some st
  | c :: cs' => match st c with
                | Some (S d) => processed cs' (set_degree st c d)
                | _ => None
                end
  end.
(** the loop over the children, query_plan.rs:128-142 *)
Fixpoint fulfilled (r : nat) (st : degrees) (cs : list nat) : res (list nat) :=
  match cs with
  | [] => Ok []
  | c :: cs' =>
      if Nat.eqb c r then Err
      else match st c with
           | None => Panic
           | Some d => match fulfilled r st cs' with
                       | Ok l => Ok (if Nat.eqb d 0 then c :: l else l)
                       | e => e
                       end
           end
  end.
(** one wave, query_plan.rs:114-143: the steps pushed onto the queue *)
Fixpoint wave (g : graph) (q : list nat) (st : degrees) : res (degrees * list nat) :=
  match q with
  | [] => Ok (st, [])
  | x :: q' =>
      match processed (children g x) st with
      | None => Panic
      | Some st1 =>
          match fulfilled (root g) st1 (children g x) with
          | Ok new => match wave g q' st1 with
                      | Ok (st2, l) => Ok (st2, new ++ l)
                      | Err => Err | Panic => Panic | OutOfFuel => OutOfFuel
                      end
          | Err => Err | Panic => Panic | OutOfFuel => OutOfFuel
          end
      end
  end.
Fixpoint waves (g : graph) (fuel : nat) (q : list nat) (st : degrees) : res (list (list nat)) :=
  match q with
  | [] => Ok []
  | _ :: _ =>
      match fuel with
      | 0 => OutOfFuel
      | S fuel' =>
          match wave g q st with
          | Ok (st', q') => match waves g fuel' q' st' with
                            | Ok ws => Ok (q :: ws)
                            | e => e
                            end
          | Err => Err | Panic => Panic | OutOfFuel => OutOfFuel
          end
      end
  end.
(** query_plan.rs:95-107 *)
Fixpoint start (st : degrees) (cs : list nat) : res (list nat) :=
  match cs with
  | [] => Ok []
  | c :: cs' => match st c with
                | None => Panic
                | Some 0 => match start st cs' with Ok l => Ok (c :: l) | e => e end
                | Some (S _) => Err
                end
  end.
(** [build_query_plan_from_fetch_graph], query_plan.rs:84-171, up to the plan nodes: the steps of
    each wave *)
Definition plan_waves (g : graph) : res (list (list nat)) :=
  let st := initial g in
  match start st (children g (root g)) with
  | Ok q =>
      match waves g (S (length (steps g))) q st with
      | Ok ws =>
          let total := length (filter (fun s => negb (Nat.eqb s (root g))) (steps g)) in
          if negb (Nat.eqb (length (concat ws)) total) then Err      (* Cycle detected *)
          else match ws with [] => Err (* EmptyPlan *) | _ => Ok ws end
      | e => e
      end
  | Err => Err | Panic => Panic | OutOfFuel => OutOfFuel
  end.
