(** C26: demand control. *)
From Coq Require Import String List Bool NArith ZArith Lia.
From Verif Require Import StrOrd Ast JsonModel MergeModel TraverseModel RewriteModel RequiresModel EntityModel
  ExecModel ExecSpec CostModel CostSpec CostPlan CostMono CostWitness.
Import ListNotations.
Local Open Scope N_scope.
Local Open Scope string_scope.
Local Open Scope list_scope.

(** The estimate is the cost of the fetches the variables let through, cut off at the largest [u64]:
    in total, and subgraph by subgraph. *)
Theorem C26_estimate_is_cost : forall sc cfg document root_type vars n bill ev,
  Forall2 (costs sc cfg document root_type vars) (billed vars n) bill ->
  evaluate sc vars (formula sc cfg document root_type n) = COk ev ->
  ev_total ev = N.min 18446744073709551615 (total (map snd bill)) /\
  forall s, match get s (ev_subgraphs ev) with
            | Some c => for_service s bill <> [] /\ same_u64 c (total (for_service s bill))
            | None => for_service s bill = []
            end.
Proof. exact estimate_is_cost. Qed.
Print Assumptions C26_estimate_is_cost.

(** It exists unless a list is not sliced as its field requires. *)
Theorem C26_estimate_exists : forall sc cfg document root_type vars n bill,
  Forall2 (costs sc cfg document root_type vars) (billed vars n) bill ->
  (forall s id, In (s, id) (billed vars n) -> sliced sc document root_type vars id) ->
  exists ev, evaluate sc vars (formula sc cfg document root_type n) = COk ev.
Proof. exact estimate_exists. Qed.
Print Assumptions C26_estimate_exists.

(** Longer lists and larger numbers in the variables never make an operation cheaper. *)
Theorem C26_estimate_grows : forall sc cfg document root_type vars vars' n bill bill' ev ev',
  grown vars vars' ->
  Forall2 (costs sc cfg document root_type vars) (billed vars n) bill ->
  Forall2 (costs sc cfg document root_type vars') (billed vars' n) bill' ->
  evaluate sc vars (formula sc cfg document root_type n) = COk ev ->
  evaluate sc vars' (formula sc cfg document root_type n) = COk ev' ->
  ev_total ev <= ev_total ev'.
Proof. exact evaluation_grows. Qed.
Print Assumptions C26_estimate_grows.

(** What costs more than the maximum reaches no subgraph. *)
Theorem C26_maximum_is_enforced : forall sc cfg document root_type ryu pt xxh show too_expensive upstream vars cached n bill c cs res,
  cached = None \/ cached = Some (formula sc cfg document root_type n) ->
  Forall2 (costs sc cfg document root_type vars) (billed vars n) bill ->
  dc_mode cfg = Enforce -> dc_max cfg < 18446744073709551615 -> dc_max cfg < total (map snd bill) ->
  served sc cfg document root_type ryu pt xxh show too_expensive upstream cached (Some n) vars c cs res ->
  cs = [] /\ res = None.
Proof. exact over_none. Qed.
Print Assumptions C26_maximum_is_enforced.

(** What does not, and what is only measured, is run. *)
Theorem C26_affordable_operations_run : forall sc cfg document root_type vars cached n bill,
  cached = None \/ cached = Some (formula sc cfg document root_type n) ->
  Forall2 (costs sc cfg document root_type vars) (billed vars n) bill ->
  (forall s id, In (s, id) (billed vars n) -> sliced sc document root_type vars id) ->
  total (map snd bill) <= dc_max cfg \/ dc_mode cfg = Measure ->
  exists ev, decide sc cfg document root_type cached (Some n) vars = Go ev.
Proof. exact affordable. Qed.
Print Assumptions C26_affordable_operations_run.

(** Every subgraph that is called was billed and is within its budget; the plan runs as if the
    subgraphs over their budget answered with an error, and all others are called. *)
Theorem C26_budgets_are_enforced : forall sc cfg document root_type ryu pt xxh show too_expensive upstream vars cached n bill c cs res,
  cached = None \/ cached = Some (formula sc cfg document root_type n) ->
  Forall2 (costs sc cfg document root_type vars) (billed vars n) bill ->
  (forall s m, limit cfg s = Some m -> m < 18446744073709551615) ->
  served sc cfg document root_type ryu pt xxh show too_expensive upstream cached (Some n) vars c cs res ->
  (forall k, In k cs -> In (service_of k, job_id k) (billed vars n) /\
                        (dc_budget_mode cfg = Enforce ->
                         forall m, limit cfg (service_of k) = Some m -> total (for_service (service_of k) bill) <= m)) /\
  forall c', res = Some c' -> exists tr,
    run ryu pt xxh show vars
      (fun k => match dc_budget_mode cfg, limit cfg (service_of k) with
                | Enforce, Some m => if N.ltb m (total (for_service (service_of k) bill)) then OErr [] (too_expensive (service_of k))
                                     else upstream k
                | _, _ => upstream k
                end) (exec_node n) c tr c' /\
    forall k, In k cs <-> In k (sent tr) /\
      ~ (dc_budget_mode cfg = Enforce /\ exists m, limit cfg (service_of k) = Some m /\ m < total (for_service (service_of k) bill)).
Proof. exact budgets. Qed.
Print Assumptions C26_budgets_are_enforced.

(** The client is told. *)
Theorem C26_over_budget_is_reported : forall sc cfg document root_type ryu pt xxh show too_expensive upstream vars cached n bill c cs c',
  cached = None \/ cached = Some (formula sc cfg document root_type n) ->
  Forall2 (costs sc cfg document root_type vars) (billed vars n) bill ->
  (forall s m, limit cfg s = Some m -> m < 18446744073709551615) ->
  served sc cfg document root_type ryu pt xxh show too_expensive upstream cached (Some n) vars c cs (Some c') ->
  exists asked, (forall k, In k cs -> In k asked) /\
    forall k, In k asked -> In k cs \/ In (too_expensive (service_of k)) (c_errors c').
Proof. exact over_budget_reported. Qed.
Print Assumptions C26_over_budget_is_reported.

(** ** Where the property fails *)
(** The costs of the members of an input list are added without saturation: the sum starts again
    at zero, and an operation whose cost is over the maximum is run. *)
Theorem C26_input_costs_wrap_refuted : exists sc cfg document root_type vars f sels ev,
  document (f_id f) = (Some KQuery, [], sels) /\ inlined [] sels sels /\
  dc_mode cfg = Enforce /\ dc_max cfg < 18446744073709551615 /\
  dc_max cfg < operation_cost sc (assumed_size cfg (f_service f)) vars (Some KQuery) (root_type (Some KQuery)) sels /\
  decide sc cfg document root_type None (Some (PFetch f)) vars = Go ev.
Proof. exact input_costs_wrap. Qed.
Print Assumptions C26_input_costs_wrap_refuted.

(** The subgraph of a subscription is called although it is over its budget. *)
Theorem C26_subscription_budget_refuted : exists sc cfg document root_type vars f bill ev,
  Forall2 (costs sc cfg document root_type vars) (billed vars (PSubscription f)) bill /\
  dc_budget_mode cfg = Enforce /\
  (exists m, limit cfg (f_service f) = Some m /\ m < 18446744073709551615 /\ m < total (for_service (f_service f) bill)) /\
  decide sc cfg document root_type None (Some (PSubscription f)) vars = Go ev /\ subscribe ev f = true.
Proof. exact subscription_budget. Qed.
Print Assumptions C26_subscription_budget_refuted.

(** The formula is kept under the hash of the operation alone, while its plan also depends on the
    progressive overrides: under the formula of another plan, an operation over the maximum is run
    and a subgraph over its budget is called. *)
Theorem C26_cached_formula_refuted : exists sc cfg document root_type ryu pt xxh show too_expensive upstream vars n n' bill c k c',
  Forall2 (costs sc cfg document root_type vars) (billed vars n) bill /\
  dc_mode cfg = Enforce /\ dc_budget_mode cfg = Enforce /\
  dc_max cfg < 18446744073709551615 /\ dc_max cfg < total (map snd bill) /\
  (exists m, limit cfg (service_of k) = Some m /\ m < 18446744073709551615 /\ m < total (for_service (service_of k) bill)) /\
  served sc cfg document root_type ryu pt xxh show too_expensive upstream
    (Some (formula sc cfg document root_type n')) (Some n) vars c [k] (Some c').
Proof. exact cached_formula. Qed.
Print Assumptions C26_cached_formula_refuted.

(** A field that requires one slicing argument and has none is not refused when nothing below it
    costs anything. *)
Theorem C26_unsliced_list_refuted : exists sc cfg document root_type vars f ev,
  ~ sliced sc document root_type vars (f_id f) /\
  decide sc cfg document root_type None (Some (PFetch f)) vars = Go ev.
Proof. exact unsliced_list. Qed.
Print Assumptions C26_unsliced_list_refuted.

(** ** Examples *)
(** [{ users(first: $n) { name friends { name } } }] with [friends] of an assumed size. *)
Example C26_example_cost :
  evaluate ex_schema (Some [("n", VU64 5)]) (formula ex_schema ex_config ex_document ex_root ex_plan)
    = COk (mkev 46 [("users", 30); ("reviews", 16)]).
Proof. vm_compute. reflexivity. Qed.
Example C26_example_bill :
  Forall2 (costs ex_schema ex_config ex_document ex_root (Some [("n", VU64 5)])) (billed (Some [("n", VU64 5)]) ex_plan)
    [("users", 30); ("reviews", 16)].
Proof. exact ex_bill. Qed.
Example C26_example_saturates :
  evaluate ex_schema (Some [("n", VU64 9223372036854775808)]) (formula ex_schema ex_config ex_document ex_root ex_plan)
    = COk (mkev 18446744073709551615 [("users", 18446744073709551615); ("reviews", 16)]).
Proof. vm_compute. reflexivity. Qed.
Example C26_example_decisions :
  decide ex_schema ex_config ex_document ex_root None (Some ex_plan) (Some [("n", VU64 5)]) = Go (mkev 46 [("users", 30); ("reviews", 16)]) /\
  decide ex_schema ex_config ex_document ex_root None (Some ex_plan) (Some [("n", VU64 50)]) = Rejected /\
  decide ex_schema ex_config ex_document ex_root None (Some ex_plan) None = Invalid (BadSlicing "users" 0).
Proof. vm_compute. repeat split. Qed.
(** A fragment that is left out is charged all the same. *)
Example C26_example_hidden_fragment : forall vars,
  operation_cost ex_schema 0 vars None "Query" [SFrag "Query" (Some "never") None [SField "me" None None None None false []]] = 1.
Proof. reflexivity. Qed.
