(** What a rewrite path denotes and what a rename should do. *)
From Coq Require Import String List Bool.
From Verif Require Import StrOrd JsonModel MergeSpec TraverseModel TraverseSpec RewriteModel.
Import ListNotations.
Local Open Scope string_scope.

(** Positions reached by a rewrite path; lists are looked through wherever a segment is
    still to be consumed. *)
Inductive reaches (pt : ptypes) : list rseg -> value -> list seg -> Prop :=
| rc_here v : reaches pt [] v []
| rc_list s p l i x q : nth_error l i = Some x -> reaches pt (s :: p) x q ->
    reaches pt (s :: p) (VArr l) (Idx i :: q)
| rc_key k p o w q : get k o = Some w -> reaches pt p w q -> reaches pt (RKey k :: p) (VObj o) (Key k :: q)
| rc_types ts p o q : may_be pt o ts -> reaches pt p (VObj o) q -> reaches pt (RTypes ts :: p) (VObj o) q.

(** Objects reached by a rewrite path (through lists at the end as well). *)
Inductive reaches_obj (pt : ptypes) : list rseg -> value -> list seg -> list (string * value) -> Prop :=
| ro_here o : reaches_obj pt [] (VObj o) [] o
| ro_list p l i x q o : nth_error l i = Some x -> reaches_obj pt p x q o ->
    reaches_obj pt p (VArr l) (Idx i :: q) o
| ro_key k p o w q o' : get k o = Some w -> reaches_obj pt p w q o' ->
    reaches_obj pt (RKey k :: p) (VObj o) (Key k :: q) o'
| ro_types ts p o q o' : may_be pt o ts -> reaches_obj pt p (VObj o) q o' ->
    reaches_obj pt (RTypes ts :: p) (VObj o) q o'.

(** [o'] is [o] with its entry for [k], if any, filed under [to]. *)
Inductive renamed (k to : string) (o o' : list (string * value)) : Prop :=
| rn_absent : ~ In k (map fst o) -> o' = o -> renamed k to o o'
| rn_entry l1 x l2 : ~ In k (map fst l1) -> o = (l1 ++ (k, x) :: l2)%list ->
    o' = (l1 ++ (to, x) :: l2)%list -> renamed k to o o'.

(** The two positions do not overlap. *)
Definition apart (q q' : list seg) : Prop :=
  (forall c, q' <> (q ++ c)%list) /\ (forall c, q <> (q' ++ c)%list).
