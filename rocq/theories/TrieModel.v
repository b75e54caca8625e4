(** The index-based trie of marked field paths.
    Source: bin/router/src/pipeline/trie.rs and [PathSegment] of
    bin/router/src/executor/operation_filter.rs:82-85. *)
From Coq Require Import String List Bool Arith.
Import ListNotations.

(** operation_filter.rs:82-85 *)
Inductive seg := SegField (k : string) | SegFrag (t : string).

Definition seg_eqb (a b : seg) : bool :=
  match a, b with
  | SegField x, SegField y => String.eqb x y
  | SegFrag x, SegFrag y => String.eqb x y
  | _, _ => false
  end.

Definition path := list seg.

(** [PathNode], trie.rs:27-36; the hash map of children is an association list. *)
Record node := mknode { children : list (seg * nat); marked : bool }.
Definition trie := list node.

Definition empty_node : node := mknode [] false.

Fixpoint assoc_seg (s : seg) (l : list (seg * nat)) : option nat :=
  match l with
  | [] => None
  | (k, v) :: l' => if seg_eqb s k then Some v else assoc_seg s l'
  end.

(** [self.nodes[i]]: an index out of bounds panics in the code; here it reads an empty node
    and writes nothing ([TrieProofs] shows that indices are always in bounds). *)
Definition node_at (t : trie) (i : nat) : node := nth i t empty_node.

Fixpoint update_nth (i : nat) (f : node -> node) (t : trie) : trie :=
  match t, i with
  | [], _ => []
  | n :: t', O => f n :: t'
  | n :: t', S i' => n :: update_nth i' f t'
  end.

Definition add_child (s : seg) (j : nat) (n : node) : node := mknode ((s, j) :: children n) (marked n).
Definition set_mark (n : node) : node := mknode (children n) true.

(** [add_path], trie.rs:91-118. *)
Fixpoint add_path (t : trie) (current : nat) (segments : path) : trie :=
  match segments with
  | [] => t
  | s :: rest =>
      let '(t1, next) :=
        match assoc_seg s (children (node_at t current)) with
        | Some j => (t, j)
        | None => (update_nth current (add_child s (length t)) (t ++ [empty_node]), length t)
        end in
      let t2 := match rest with [] => update_nth next set_mark t1 | _ => t1 end in
      add_path t2 next rest
  end.

(** [from_paths], trie.rs:81-89. *)
Definition from_paths (ps : list path) : trie :=
  fold_left (fun t p => add_path t 0 p) ps [empty_node].

(** [find_segment_at_position], trie.rs:123-133. *)
Definition find_segment (t : trie) (i : nat) (s : seg) : option (nat * bool) :=
  match assoc_seg s (children (node_at t i)) with
  | Some j => Some (j, marked (node_at t j))
  | None => None
  end.

(** [has_children], trie.rs:135-138. *)
Definition has_children (t : trie) (i : nat) : bool :=
  match children (node_at t i) with [] => false | _ => true end.
