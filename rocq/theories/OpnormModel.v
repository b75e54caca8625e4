(** How an operation is normalised before it is reported: lib/hive-console-sdk/src/agent/utils.rs:522-787, on the traversal of
    lib/graphql-tools/src/ast/operation_transformer.rs:43-540. Positions are left out. The cache [seen] of [SortSelectionsTransform] is keyed
    by the addresses of live nodes, each of which is visited once, so it is never hit. *)
From Coq Require Import String List ZArith Bool.
Import ListNotations.
Local Open Scope string_scope.
Local Open Scope list_scope.

Inductive value :=
| VVariable (n : string) | VInt (z : Z) | VFloat (text : string) | VString (s : string) | VBoolean (b : bool) | VNull | VEnum (n : string)
| VList (l : list value) | VObject (l : list (string * value)).
Record directive := mkdirective { d_name : string; d_args : list (string * value) }.
Inductive selection :=
| Field (alias : option string) (name : string) (args : list (string * value)) (dirs : list directive) (sels : list selection)
| Spread (name : string) (dirs : list directive)
| Inline (on : option string) (dirs : list directive) (sels : list selection).
Record vardef := mkvardef { v_name : string; v_type : string; v_default : option value }.
Inductive kind := Query | Mutation | Subscription.
Inductive definition :=
| Short (sels : list selection)   (** a selection set alone *)
| Operation (k : kind) (name : option string) (vars : list vardef) (dirs : list directive) (sels : list selection)
| Fragment (name on : string) (dirs : list directive) (sels : list selection).
Definition document := list definition.

(** operation_transformer.rs:490-540, [transform_list]: copies only from the first change on *)
Inductive transformed (A : Type) := Keep | Replace (a : A).
Arguments Keep {A}. Arguments Replace {A}.
Definition replaced {A} (t : transformed A) (a : A) : A := match t with Keep => a | Replace b => b end.
Fixpoint transform_from {A} (f : A -> transformed A) (before rest : list A) (changed : bool) (result : list A) : transformed (list A) :=
  match rest with
  | [] => if changed then Replace result else Keep
  | x :: rest' =>
      match f x with
      | Keep => transform_from f (before ++ [x]) rest' changed (if changed then result ++ [x] else result)
      | Replace y => transform_from f (before ++ [x]) rest' true ((if changed then result else before) ++ [y])
      end
  end.
Definition transform_list {A} (f : A -> transformed A) (l : list A) : transformed (list A) := transform_from f [] l false [].

(** utils.rs:525-559 *)
Fixpoint strip_value (v : value) : value :=
  match v with
  | VFloat _ => VFloat "0.0"
  | VInt _ => VInt 0
  | VString _ => VString ""
  | VVariable _ | VBoolean _ | VNull | VEnum _ => v
  | VList l => VList (map strip_value l)
  | VObject l => VObject (map (fun x => (fst x, strip_value (snd x))) l)
  end.
Definition strip_args (l : list (string * value)) : list (string * value) := map (fun x => (fst x, strip_value (snd x))) l.
Definition strip_directive (d : directive) : directive := mkdirective (d_name d) (strip_args (d_args d)).
(** utils.rs:561-582 and operation_transformer.rs:325-369 *)
Fixpoint strip_sel (s : selection) : selection :=
  match s with
  | Field _ n args dirs sels => Field None n (strip_args args) (map strip_directive dirs) (map strip_sel sels)
  | Spread n dirs => Spread n (map strip_directive dirs)
  | Inline on dirs sels => Inline on (map strip_directive dirs) (map strip_sel sels)
  end.
Definition strip_var (v : vardef) : vardef := mkvardef (v_name v) (v_type v) (option_map strip_value (v_default v)).
Definition strip_def (d : definition) : definition :=
  match d with
  | Short sels => Short (map strip_sel sels)
  | Operation k n vars dirs sels => Operation k n (map strip_var vars) (map strip_directive dirs) (map strip_sel sels)
  | Fragment n on dirs sels => Fragment n on (map strip_directive dirs) (map strip_sel sels)
  end.
Definition strip (d : document) : document := map strip_def d.

(** utils.rs:720-786 *)
Definition selection_kind (s : selection) : nat := match s with Spread _ _ => 1 | Inline _ _ _ => 2 | Field _ _ _ _ _ => 3 end.
Definition compare_selections (a b : selection) : comparison :=
  match a, b with
  | Field _ n _ _ _, Field _ m _ _ _ => String.compare n m
  | Spread n _, Spread m _ => String.compare n m
  | _, _ => Nat.compare (selection_kind a) (selection_kind b)
  end.
Definition compare_directives (a b : directive) : comparison := String.compare (d_name a) (d_name b).
Definition compare_args (a b : string * value) : comparison := String.compare (fst a) (fst b).
Definition compare_vars (a b : vardef) : comparison := String.compare (v_name a) (v_name b).
Definition definition_kind (d : definition) : nat := match d with Fragment _ _ _ _ => 2 | _ => 1 end.
Definition compare_definitions (a b : definition) : comparison :=
  match a, b with
  | Fragment n _ _ _, Fragment m _ _ _ => String.compare n m
  | _, _ => Nat.compare (definition_kind a) (definition_kind b)
  end.

Section Sort.
  (** [sort_unstable_by] *)
  Variable usort : forall A : Type, (A -> A -> comparison) -> list A -> list A.
  Definition sort_args (l : list (string * value)) : list (string * value) := usort _ compare_args l.
  Definition sort_directive (d : directive) : directive := mkdirective (d_name d) (sort_args (d_args d)).
  Definition sort_directives (l : list directive) : list directive := usort _ compare_directives (map sort_directive l).
  (** utils.rs:626-634, 693-716: a spread is kept *)
  Fixpoint sort_sel (s : selection) : selection :=
    match s with
    | Field a n args dirs sels => Field a n (sort_args args) (sort_directives dirs) (usort _ compare_selections (map sort_sel sels))
    | Spread n dirs => s
    | Inline on dirs sels => Inline on (sort_directives dirs) (usort _ compare_selections (map sort_sel sels))
    end.
  Definition sort_sels (l : list selection) : list selection := usort _ compare_selections (map sort_sel l).
  Definition sort_vars (l : list vardef) : list vardef := usort _ compare_vars l.
  (** utils.rs:670-691: the directives of a fragment are sorted, their arguments are not *)
  Definition sort_def (d : definition) : definition :=
    match d with
    | Short sels => Short (sort_sels sels)
    | Operation k n vars dirs sels => Operation k n (sort_vars vars) (sort_directives dirs) (sort_sels sels)
    | Fragment n on dirs sels => Fragment n on (usort _ compare_directives dirs) (sort_sels sels)
    end.
  Definition sort_doc (d : document) : document := usort _ compare_definitions (map sort_def d).
  Definition normalize (d : document) : document := sort_doc (strip d).
End Sort.
