(* C70: the pool of WebSocket connections to subgraphs. *)
From Coq Require Import String List Bool Arith.
From Verif Require Import PoolModel PoolSpec PoolProofs PoolMain.
Import ListNotations.
Open Scope string_scope.
Open Scope list_scope.

(* A caller gets a connection of the identity that it asked for. *)
Theorem C70_identity tr p w x id : steps empty tr = Some p -> answered p w (Got x) -> asks tr w id -> belongs p x id.
Proof. intros R. exact (identity tr p R w x id). Qed.
Print Assumptions C70_identity.

(* So is what the pool holds for later callers. *)
Theorem C70_offered tr p id x : steps empty tr = Some p -> offers p id x -> belongs p x id.
Proof. intros R. exact (offered tr p R id x). Qed.
Print Assumptions C70_offered.

(* There is one attempt at a time for an identity, and the pool has an entry
   for it as long as it runs and no longer. *)
Theorem C70_one_attempt tr p g h id : steps empty tr = Some p -> connecting p g id -> connecting p h id -> g = h.
Proof. intros R. exact (one_attempt tr p R g h id). Qed.
Print Assumptions C70_one_attempt.

Theorem C70_entries tr p g id : steps empty tr = Some p -> (connecting p g id <-> exists ws, get id (entries p) = Some (Connecting g ws)).
Proof. intros R. exact (entry_attempt tr p R g id). Qed.
Print Assumptions C70_entries.

(* A caller is answered, gave up, or waits for an attempt that is running. *)
Theorem C70_nobody_lost tr p w id : steps empty tr = Some p -> asks tr w id ->
  (exists a, answered p w a) \/ In w (gone p) \/ exists g, waits p w g id /\ connecting p g id.
Proof. intros R. exact (nobody_lost tr p R w id). Qed.
Print Assumptions C70_nobody_lost.

(* One of these only, and an answer once and for good *)
Theorem C70_apart tr p w a : steps empty tr = Some p -> answered p w a -> (exists id, asks tr w id) /\ ~ In w (gone p) /\ forall g id, ~ waits p w g id.
Proof. intros R. exact (apart tr p R w a). Qed.
Print Assumptions C70_apart.

Theorem C70_once tr p : steps empty tr = Some p -> NoDup (map fst (answers p)).
Proof. intros R. exact (once_log tr p R). Qed.
Print Assumptions C70_once.

Theorem C70_kept p a p' w r : step p a = Some p' -> answered p w r -> answered p' w r.
Proof. exact (kept p a p' w r). Qed.
Print Assumptions C70_kept.

(* When an attempt ends all who wait for it get what came of it. *)
Theorem C70_outcomes tr p a p' w g id r : steps empty tr = Some p -> step p a = Some p' -> outcome a g = Some r -> waits p w g id -> answered p' w r.
Proof. intros R. exact (outcomes tr p R a p' w g id r). Qed.
Print Assumptions C70_outcomes.

(* An attempt that succeeds is never too late. *)
Theorem C70_never_stale tr p g id p' : steps empty tr = Some p -> connecting p g id -> step p (Succeed g) = Some p' -> offers p' id g /\ takes_commands p' g.
Proof. intros R. exact (never_stale tr p R g id p'). Qed.
Print Assumptions C70_never_stale.

(* A call shares the connection that there is, or else joins the attempt that
   is running, or else begins one. *)
Theorem C70_shared tr p id x p' : steps empty tr = Some p -> offers p id x -> takes_commands p x -> step p (Call id) = Some p' ->
  answered p' (length (asked tr)) (Got x) /\ attempts p' = attempts p /\ entries p' = entries p.
Proof. intros R. exact (shared tr p R id x p'). Qed.
Print Assumptions C70_shared.

Theorem C70_joined tr p id g p' : steps empty tr = Some p -> connecting p g id -> step p (Call id) = Some p' ->
  attempts p' = attempts p /\ waits p' (length (asked tr)) g id.
Proof. intros R. exact (joined tr p R id g p'). Qed.
Print Assumptions C70_joined.

Theorem C70_begun tr p id p' : steps empty tr = Some p -> (forall g, ~ connecting p g id) -> (forall x, offers p id x -> ~ takes_commands p x) ->
  step p (Call id) = Some p' ->
  exists g, (forall j, ~ connecting p g j) /\ (forall j, ~ belongs p g j) /\ attempts p' = (g, id) :: attempts p /\ waits p' (length (asked tr)) g id.
Proof. intros R. exact (begun tr p R id p'). Qed.
Print Assumptions C70_begun.

(* What is handed out takes commands at that time. *)
Theorem C70_open tr p a p' w x : steps empty tr = Some p -> step p a = Some p' -> answered p' w (Got x) -> ~ answered p w (Got x) -> takes_commands p' x.
Proof. intros R. exact (handed_open tr p R a p' w x). Qed.
Print Assumptions C70_open.

Theorem C70_lookup tr p id x : steps empty tr = Some p -> (get_initialized id p = Some x <-> offers p id x /\ takes_commands p x).
Proof. intros R. exact (looked_up tr p R id x). Qed.
Print Assumptions C70_lookup.

(* An executor that evicts itself removes itself and nothing else. *)
Theorem C70_evict tr p x p' : steps empty tr = Some p -> step p (Evict x) = Some p' -> attempts p' = attempts p /\
  forall id e, get id (entries p') = Some e <-> get id (entries p) = Some e /\ e <> Initialized x.
Proof. intros R. exact (evicts tr p R x p'). Qed.
Print Assumptions C70_evict.

(* An open connection may be closed; it then takes no commands, and nothing else is different. *)
Theorem C70_close tr p x : steps empty tr = Some p -> takes_commands p x ->
  exists p', step p (Close x) = Some p' /\ ~ takes_commands p' x /\ (forall y, y <> x -> (takes_commands p' y <-> takes_commands p y)) /\ (forall y id, belongs p' y id <-> belongs p y id) /\
    entries p' = entries p /\ attempts p' = attempts p /\ answers p' = answers p /\ gone p' = gone p.
Proof. intros R. exact (closes tr p R x). Qed.
Print Assumptions C70_close.

(* ** Not vacuous *)
Definition story : list action :=
  [Call "a"; Call "b"; Call "a"; Call "a"; GiveUp 2; Fail 1 "refused"; Succeed 0; Call "a"; Close 0; Call "a"; Evict 0; Call "b"; Cancel 3; Succeed 2; Call "a"; Call "b"].
Example C70_story : exists p, steps empty story = Some p /\
  answers p = [(7, Got 2); (5, Got 2); (6, Stopped); (4, Got 0); (0, Got 0); (3, Got 0); (1, Refused "refused")] /\
  gone p = [2] /\ attempts p = [(4, "b")] /\ get "a" (entries p) = Some (Initialized 2) /\ get "b" (entries p) = Some (Connecting 4 [8]).
Proof. eexists. split; [vm_compute; reflexivity|]. vm_compute. repeat split. Qed.
