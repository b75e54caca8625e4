(** Limits read off the operation with all fragments expanded. *)
From Coq Require Import String List Bool Arith.
From Verif Require Import LimitsModel.
Import ListNotations.
Local Open Scope string_scope.

(** Expansion: a spread becomes an inline fragment (the spread) around an inline fragment
    (the definition), each keeping its directives; a spread of an unknown fragment is empty.
    Nothing expands through a cycle. *)
Inductive expands (frags : known) : qsel -> qsel -> Prop :=
| Ex_field n a d sub sub' :
    Forall2 (expands frags) sub sub' -> expands frags (QField n a d sub) (QField n a d sub')
| Ex_inline d sub sub' :
    Forall2 (expands frags) sub sub' -> expands frags (QInline d sub) (QInline d sub')
| Ex_spread f d def body :
    kfind f frags = Some def -> Forall2 (expands frags) (q_sels def) body ->
    expands frags (QSpread f d) (QInline d [QInline (q_dirs def) body])
| Ex_unknown f d : kfind f frags = None -> expands frags (QSpread f d) (QInline d []).

Definition expands_def (frags : known) (o o' : qdef) : Prop :=
  q_dirs o' = q_dirs o /\ Forall2 (expands frags) (q_sels o) (q_sels o').

(** Aliases and directives of a tree. *)
Fixpoint aliases (s : qsel) : nat :=
  match s with
  | QField _ a _ sub => (match a with Some _ => 1 | None => 0 end) + list_sum (map aliases sub)
  | QInline _ sub => list_sum (map aliases sub)
  | QSpread _ _ => 0
  end.
Fixpoint directives (s : qsel) : nat :=
  match s with
  | QField _ _ d sub => d + list_sum (map directives sub)
  | QInline d sub => d + list_sum (map directives sub)
  | QSpread _ d => d
  end.
Definition total_aliases (o : qdef) : nat := list_sum (map aliases (q_sels o)).
Definition total_directives (o : qdef) : nat := q_dirs o + list_sum (map directives (q_sels o)).

(** Levels of a tree: fields count one; fragments count one unless flattened; introspection
    fields and everything below do not count when ignored. *)
Definition introspection (name : string) : bool := existsb (String.eqb name) ["__schema"; "__type"].
Fixpoint height (c : depth_cfg) (s : qsel) : nat :=
  let fragment := if dc_flatten c then 0 else 1 in
  match s with
  | QField name _ _ sub =>
      if dc_ignore_introspection c && introspection name then 0 else S (list_max (map (height c) sub))
  | QInline _ sub => fragment + list_max (map (height c) sub)
  | QSpread _ _ => fragment
  end.
Definition total_depth (c : depth_cfg) (o : qdef) : nat := list_max (map (height c) (q_sels o)).

(** Fragments named anywhere in a selection. *)
Fixpoint spreads (s : qsel) : list string :=
  match s with
  | QField _ _ _ sub => flat_map spreads sub
  | QInline _ sub => flat_map spreads sub
  | QSpread f _ => [f]
  end.
Definition acyclic (frags : known) : Prop :=
  exists rank : string -> nat,
    forall f d g, kfind f frags = Some d -> In g (flat_map spreads (q_sels d)) ->
      kfind g frags <> None -> rank g < rank f.

(** A document is accepted if no operation is reported. *)
Definition accepts (rs : list outcome) : Prop := Forall (fun r => exists n, r = Ok n) rs.

(** The decision a limit on [total] should make, with the counts it should report. *)
Definition decides (limit : nat) (total : qdef -> nat) (expanded : list qdef) (rs : list outcome) : Prop :=
  (Forall (fun o => total o <= limit) expanded -> rs = map (fun o => Ok (total o)) expanded) /\
  (~ Forall (fun o => total o <= limit) expanded -> In Exceeded rs).
