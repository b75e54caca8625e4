(** C12: the plan cache respects progressive overrides. *)
From Coq Require Import String List NArith Bool.
From Verif Require Import FingerSpec OverrideModel OverrideSpec OverrideProofs.
Import ListNotations.
Local Open Scope N_scope.

(** Requests on the same side of everything get the same decision for every edge. *)
Theorem C12_same_side_same_decisions : forall resolve ts es c c', graph_edges resolve ts = Some es -> same_side ts c c' ->
  forall e, In e es -> usable e c = usable e c'.
Proof. exact same_decisions. Qed.
Print Assumptions C12_same_side_same_decisions.

(** The stable context says exactly on which side a request is. *)
Theorem C12_stable_context : forall ts c c', stable_of ts c = stable_of ts c' <-> same_side ts c c'.
Proof. exact stable_iff. Qed.
Print Assumptions C12_stable_context.

(** Requests on the same side share the entry. *)
Theorem C12_same_side_same_entry : forall H ts h c c', same_side ts c c' ->
  cache_key H h (stable_of ts c) = cache_key H h (stable_of ts c').
Proof. exact same_key. Qed.
Print Assumptions C12_same_side_same_entry.

(** Requests for which some edge is decided differently do not. *)
Theorem C12_routed_differently_cached_apart : forall H resolve ts es e h h' c c', graph_edges resolve ts = Some es -> In e es ->
  usable e c <> usable e c' -> h < 2 ^ 64 -> h' < 2 ^ 64 ->
  tells H (enc_key h (stable_of ts c)) (enc_key h' (stable_of ts c')) ->
  cache_key H h (stable_of ts c) <> cache_key H h' (stable_of ts c').
Proof. exact different_key. Qed.
Print Assumptions C12_routed_differently_cached_apart.

(** Whatever was planned before, and whatever the cache dropped, every request gets the plan it
    would get from the planner. *)
Theorem C12_cache_is_invisible : forall Op Plan H op_hash op_empty empty_plan resolve ts edges
    (planner : Op -> list bool -> option Plan), graph_edges resolve ts = Some edges ->
  forall es, (forall q q', In q (requests es) -> In q' (requests es) -> keys_tell H op_hash ts q q') ->
  (forall q, In q (requests es) -> asks op_empty q) ->
  serve H op_hash op_empty empty_plan ts edges planner [] es =
  map (fresh_plan op_empty empty_plan edges planner) (requests es).
Proof. exact @serve_empty. Qed.
Print Assumptions C12_cache_is_invisible.

(** For a request that asks for nothing the answer depends on what was cached: the planner's error,
    or the empty plan of an introspection query. *)
Theorem C12_empty_operation_history_refuted : exists (q q' : req nat) (planner : nat -> list bool -> option nat),
  (forall ds, planner O ds = None) /\ q_op q = q_op q' /\ q_ctx q = q_ctx q' /\
  forall H, serve H (fun _ => 0) (Nat.eqb 0) 7%nat [] [] planner [] [Request q] = [None] /\
            serve H (fun _ => 0) (Nat.eqb 0) 7%nat [] [] planner [] [Request q'; Request q] = [Some 7%nat; Some 7%nat].
Proof. exact history_wrong. Qed.
Print Assumptions C12_empty_operation_history_refuted.

(** A field's own edge in a subgraph is usable exactly in the requests in which that subgraph
    serves the field. *)
Theorem C12_routing : forall resolve g f es m c, composed resolve f -> f_union f = None ->
  field_edges resolve g f = Some es -> In (FieldMove m) es -> (satisfies m c = true <-> serves resolve g f c).
Proof. exact routing. Qed.
Print Assumptions C12_routing.

(** Of the overriding and the overridden subgraph exactly one serves the field. *)
Theorem C12_exactly_one_serves : forall resolve f a b ga gb c, composed resolve f ->
  In a (f_joins f) -> In b (f_joins f) -> jf_graph a = Some ga -> jf_graph b = Some gb ->
  jf_override b = Some (resolve ga) -> jf_override a = None ->
  (serves resolve gb f c <-> in_effect (jf_label b) c) /\ (serves resolve ga f c <-> ~ in_effect (jf_label b) c).
Proof. exact exclusive. Qed.
Print Assumptions C12_exactly_one_serves.

(** A field of a union type is routed to the overriding subgraph although the override is not in
    effect. *)
Theorem C12_union_field_routing_refuted : exists f g es e c, composed (fun x => x) f /\
  field_edges (fun x => x) g f = Some es /\ In e es /\ (forall e, In e es -> usable e c = true) /\
  ~ serves (fun x => x) g f c.
Proof. exact union_wrong. Qed.
Print Assumptions C12_union_field_routing_refuted.

(** A field that provides others can still be fetched from the subgraph it was taken from. *)
Theorem C12_provides_field_routing_refuted : exists f g e, composed (fun x => x) f /\ f_union f = None /\
  In e (viewed_edges g f) /\ forall c, usable e c = true /\ ~ serves (fun x => x) g f c.
Proof. exact provides_wrong. Qed.
Print Assumptions C12_provides_field_routing_refuted.

(** With [percent(100)] a request can still go to the overridden subgraph. *)
Theorem C12_hundred_percent_refuted : exists f es m c, composed (fun x => x) f /\ f_union f = None /\
  (exists jf, In jf (f_joins f) /\ jf_label jf = Some (Percentage (100 * scale)) /\ jf_override jf = Some "A"%string) /\
  percentage_value c <= 100 * scale /\
  field_edges (fun x => x) "A" f = Some es /\ In (FieldMove m) es /\ satisfies m c = true.
Proof. exact hundred_wrong. Qed.
Print Assumptions C12_hundred_percent_refuted.

(** Which labels are active does not depend on the order of the expressions. *)
Theorem C12_active_labels : forall outcome cfg resolved a,
  evaluate outcome (statics cfg) (expressions cfg) resolved = Some a ->
  forall l, In l a <-> active outcome cfg resolved l.
Proof. exact evaluate_some. Qed.
Print Assumptions C12_active_labels.

(** Nor does failure. *)
Theorem C12_labels_fail : forall outcome cfg resolved, NoDup (map fst cfg) ->
  (evaluate outcome (statics cfg) (expressions cfg) resolved = None <->
   exists l, In (l, LExpression) cfg /\ ~ (exists r, resolved = Some r /\ In l r) /\ forall b, outcome l <> VrlBoolean b).
Proof. exact evaluate_none. Qed.
Print Assumptions C12_labels_fail.

(** The graph is built when every override names its subgraph. *)
Theorem C12_graph_is_built : forall resolve ts,
  (forall t f jf, In t ts -> In f (t_fields t) -> In jf (f_joins f) -> jf_override jf <> None -> jf_graph jf <> None) ->
  graph_edges resolve ts <> None.
Proof. exact graph_total. Qed.
Print Assumptions C12_graph_is_built.

Definition c12_types : list tdef :=
  [{| t_graphs := ["A"; "B"]%string; t_typename := fun _ => true;
      t_fields := [ab_field (Some (Percentage 5)) None None; ab_field (Some (Custom "new")) None None] |}].
Example C12_example_edges : forall es, graph_edges (fun x => x) c12_types = Some es ->
  map (fun e => usable e {| active_flags := ["new"; "other"]%string; percentage_value := 7 |}) es =
    [true; true; false; true; false; true] /\
  map (fun e => usable e {| active_flags := ["new"]%string; percentage_value := 5 |}) es =
    [true; true; false; true; false; true] /\
  map (fun e => usable e {| active_flags := []; percentage_value := 4 |}) es =
    [true; false; true; true; true; false].
Proof. intros es E. vm_compute in E. injection E as <-. vm_compute. repeat split. Qed.
Example C12_example_stable :
  stable_of c12_types {| active_flags := ["new"; "other"]%string; percentage_value := 7 |} =
  {| s_flags := [("new"%string, true)]; s_outcomes := [(5, false)] |}.
Proof. reflexivity. Qed.
Example C12_example_labels :
  evaluate (fun l => VrlBoolean (String.eqb l "a")) (statics [("a", LExpression); ("b", LExpression); ("c", LBool true)]%string)
    (expressions [("a", LExpression); ("b", LExpression); ("c", LBool true)]%string) (Some ["d"]%string) = Some ["a"; "d"; "c"]%string.
Proof. reflexivity. Qed.
Example C12_example_key :
  enc_key 258 {| s_flags := [("ab"%string, true)]; s_outcomes := [(5, false)] |} =
  [2; 1; 0; 0; 0; 0; 0; 0; 1; 0; 0; 0; 0; 0; 0; 0; 97; 98; 255; 1; 1; 0; 0; 0; 0; 0; 0; 0; 5; 0; 0; 0; 0; 0; 0; 0; 0].
Proof. reflexivity. Qed.
Example C12_example_reentry : usable ReentryMove {| active_flags := []; percentage_value := 0 |} = true.
Proof. reflexivity. Qed.
