(** What the fetch graph operations should preserve. *)
From Coq Require Import List Arith Relations.
From Verif Require Import GraphModel.
Import ListNotations.

Definition edge (g : graph) (a b : nat) : Prop := In (a, b) (edges g).
(** [b] comes after [a] *)
Definition after (g : graph) : nat -> nat -> Prop := clos_trans nat (edge g).
Definition acyclic (g : graph) : Prop := forall n, ~ after g n n.
(** A simple graph over its steps, with nothing in front of the root. *)
Definition well_formed (g : graph) : Prop :=
  NoDup (steps g) /\ NoDup (edges g) /\ In (root g) (steps g) /\
  (forall a b, edge g a b -> In a (steps g) /\ In b (steps g) /\ b <> root g).
Definition connected (g : graph) : Prop :=
  forall n, In n (steps g) -> n = root g \/ after g (root g) n.
(** No edge could be left out. *)
Definition reduced (g : graph) : Prop :=
  forall a b, edge g a b -> forall m, after g a m -> ~ after g m b.

(** [ws] runs every step once, after everything it depends on, and as early as possible. *)
Definition wave_of (ws : list (list nat)) (n k : nat) : Prop := exists w, nth_error ws k = Some w /\ In n w.
Definition in_order (g : graph) (ws : list (list nat)) : Prop :=
  NoDup (concat ws) /\
  (forall n, In n (concat ws) <-> In n (steps g) /\ n <> root g) /\
  (forall a b j, edge g a b -> a <> root g -> wave_of ws b j -> exists i, wave_of ws a i /\ i < j) /\
  (forall b j, wave_of ws b (S j) -> exists a, edge g a b /\ wave_of ws a j) /\
  Forall (fun w => w <> []) ws.

(** What the optimiser may do to the graph, in any order and any number of times (the passes of
    fetch/optimize/mod.rs with the conditions they check). *)
Inductive pass (empty_output : nat -> bool) (compatible : nat -> nat -> bool) : graph -> graph -> Prop :=
  | p_only_child g t s : only_parent g t s = true -> pass empty_output compatible g (merge_steps g t s)
  | p_child g t s : reduced g -> edge g t s -> can_merge g t s = true ->
      pass empty_output compatible g (merge_steps g t s)
  | p_siblings g p sibs g' : reduced g -> incl sibs (children g p) ->
      merge_siblings_of compatible g sibs = Some g' -> pass empty_output compatible g g'
  | p_leafs g t s : In t (steps g) -> In s (steps g) -> can_merge_leafs g t s = true ->
      pass empty_output compatible g (merge_steps g t s)
  | p_prune g g' : (exists c, edge g (root g) c) ->
      deduplicate_and_prune empty_output g = Some g' -> pass empty_output compatible g g'.
Inductive passes (empty_output : nat -> bool) (compatible : nat -> nat -> bool) : graph -> graph -> Prop :=
  | ps_none g : passes empty_output compatible g g
  | ps_more g g1 g2 : pass empty_output compatible g g1 -> passes empty_output compatible g1 g2 ->
      passes empty_output compatible g g2.
(** [f] says where the work of each step went; order between steps is kept. *)
Definition keeps_order (g g' : graph) (f : nat -> option nat) : Prop :=
  (forall n, In n (steps g') -> In n (steps g) /\ f n = Some n) /\
  (forall n m, In n (steps g) -> f n = Some m -> In m (steps g')) /\
  (forall x y a b, In x (steps g) -> In y (steps g) -> after g x y -> f x = Some a -> f y = Some b -> a = b \/ after g' a b).
