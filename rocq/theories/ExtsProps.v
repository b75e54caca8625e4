(** Extensions of subgraph responses. *)
From Coq Require Import String List Bool Permutation.
From Verif Require Import JsonModel MaskModel ExtsModel ExtsSpec ExtsProofs.
Import ListNotations.
Local Open Scope string_scope.

(** C35: merging never fails; keys the router set are kept; every other key holds exactly what the
    strategy makes of the values allowed subgraph keys had, in order of arrival, whatever the order of
    the hash map. *)
Theorem C35_aggregation_exact : forall J (conv : value -> J) arr plan rs a t, Permutation (collect plan rs) a ->
  exists t', merge_into conv arr a t = Some t' /\ (NoDup (map fst t) -> NoDup (map fst t')) /\
    forall k, aget k t' = match aget k t with Some x => Some x | None => propagated conv arr plan k rs end.
Proof. exact aggregation_exact. Qed.
Print Assumptions C35_aggregation_exact.

(** C35: [queryPlan] is never taken from a subgraph, and is written at most once. *)
Theorem C35_query_plan_reserved : forall J (conv : value -> J) arr plan rs a t t' q, Permutation (collect plan rs) a ->
  merge_into conv arr a t = Some t' -> aget "queryPlan" t = None ->
  aget "queryPlan" (written q t') = q /\ aget "queryPlan" t' = None.
Proof. exact query_plan_reserved. Qed.
Print Assumptions C35_query_plan_reserved.

Example strategies :
  let rs := [Some (VObj [("a", VNull); ("queryPlan", VNull)]); None; Some (VObj [("a", VBool true); ("b", VNull)]); Some VNull] in
  merge_into (fun v => v) VArr (collect (Some (mkprop First None)) rs) [] = Some [("a", VNull); ("b", VNull)] /\
  merge_into (fun v => v) VArr (collect (Some (mkprop Last (Some ["a"]))) rs) [] = Some [("a", VBool true)] /\
  merge_into (fun v => v) VArr (collect (Some (mkprop Append None)) rs) [("b", VStr "mine")] = Some [("b", VStr "mine"); ("a", VArr [VNull; VBool true])] /\
  collect None rs = [].
Proof. repeat split. Qed.
