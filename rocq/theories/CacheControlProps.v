(** C21: the client's Cache-Control is never more permissive than any subgraph's.
    [vs] are the Cache-Control values of the subgraph responses held by the aggregator,
    [total] the number of subgraph responses; [client_header a total r] says that [r] is
    the value the client gets. *)
From Coq Require Import String List Bool NArith Permutation.
From Verif Require Import StrUtil HeadersModel HeadersSpec HeadersProofs.
From Verif Require Import CacheControlModel CacheControlSpec CacheControlProofs.
Import ListNotations.
Local Open Scope string_scope.

(** The result does not depend on the order in which responses arrive (any headers,
    including ones the router cannot parse). *)
Theorem C21_order_independent :
  forall a a' s s' vs vs' force total,
    aget "cache-control" a = Some (s, vs) -> aget "cache-control" a' = Some (s', vs') ->
    Permutation vs vs' ->
    aget "cache-control" (finalize a force total) = aget "cache-control" (finalize a' force total).
Proof. exact finalize_order. Qed.
Print Assumptions C21_order_independent.

(** A mutation or any error makes the response uncacheable. *)
Theorem C21_errors_and_mutations_not_cacheable :
  forall a s vs total, aget "cache-control" a = Some (s, vs) ->
  aget "cache-control" (finalize a true total) = Some (Last, ["no-store, no-cache, must-revalidate"]).
Proof. exact c21_force. Qed.
Print Assumptions C21_errors_and_mutations_not_cacheable.

(** For headers made of the directives the router knows ([understood]; what is missing
    for a full proof is exactly the unknown directives, see the refutations below): *)
Theorem C21_result_exists_partial :
  forall a s vs total, aget "cache-control" a = Some (s, vs) -> vs <> [] -> Forall understood vs ->
  exists r, client_header a total r.
Proof. exact c21_exists. Qed.
Print Assumptions C21_result_exists_partial.

Theorem C21_forbidding_wins_partial :
  forall a s vs total r, aget "cache-control" a = Some (s, vs) -> Forall understood vs ->
  client_header a total r -> forall v, In v vs -> forbids v ->
  directives r = [("no-store", None); ("no-cache", None)].
Proof. exact c21_forbids. Qed.
Print Assumptions C21_forbidding_wins_partial.

Theorem C21_public_is_unanimous_partial :
  forall a s vs total r, aget "cache-control" a = Some (s, vs) -> vs <> [] -> Forall understood vs ->
  client_header a total r -> says "public" r ->
  total <= List.length vs /\ forall v, In v vs -> says "public" v.
Proof. exact c21_public. Qed.
Print Assumptions C21_public_is_unanimous_partial.

Theorem C21_max_age_is_a_lower_bound_partial :
  forall a s vs total r, aget "cache-control" a = Some (s, vs) -> Forall understood vs ->
  Forall one_max_age vs -> client_header a total r ->
  forall v m, In v vs -> says_max_age m v ->
    (forall n, says_max_age n r -> (n <= m)%N) /\
    ((exists n, says_max_age n r) \/ directives r = [("no-store", None); ("no-cache", None)]).
Proof. exact c21_age. Qed.
Print Assumptions C21_max_age_is_a_lower_bound_partial.

Theorem C21_must_revalidate_is_kept_partial :
  forall a s vs total r, aget "cache-control" a = Some (s, vs) -> Forall understood vs ->
  client_header a total r -> forall v, In v vs -> says "must-revalidate" v ->
  says "must-revalidate" r \/ directives r = [("no-store", None); ("no-cache", None)].
Proof. exact c21_mr. Qed.
Print Assumptions C21_must_revalidate_is_kept_partial.

Theorem C21_other_headers_untouched :
  forall a force total n, n <> "cache-control" -> aget n (finalize a force total) = aget n a.
Proof. exact finalize_others. Qed.
Print Assumptions C21_other_headers_untouched.

(** Non-vacuity: two understood headers with mixed case, spaces, an empty part. *)
Example C21_example :
  let vs := [" Public , max-age=60"; "public,,MAX-AGE= 30 , must-revalidate"] in
  Forall understood vs /\ Forall one_max_age vs /\
  client_header [("cache-control", (Append, vs))] 2 "public, max-age=30, must-revalidate" /\
  client_header [("cache-control", (Append, vs))] 3 "max-age=30, must-revalidate".
Proof.
  assert (U : forall h, all_chars visible_ascii h && negb (String.eqb (trim h) "")
                        && forallb known (directives h) = true -> understood h).
  { intros h H. apply andb_true_iff in H as [H H3]. apply andb_true_iff in H as [H1 H2].
    split; [exact H1|]. split.
    - intro E. rewrite E in H2. discriminate.
    - apply Forall_forall. apply forallb_forall. exact H3. }
  cbv zeta. split; [|split; [|split; vm_compute; reflexivity]].
  - constructor; [apply U; vm_compute; reflexivity|].
    constructor; [apply U; vm_compute; reflexivity|constructor].
  - constructor; [vm_compute; auto|]. constructor; [vm_compute; auto|constructor].
Qed.
Example C21_example_private :
  client_header [("cache-control", (Append, ["public, max-age=60"; "private"]))] 2 "no-store, no-cache".
Proof. vm_compute. reflexivity. Qed.

(** ** Findings: the full property fails. *)

(** One unknown (but standard) directive discards a subgraph's whole header, including
    its [private] or [no-store]; the response is then advertised as public. *)
Theorem C21_unknown_directive_drops_restriction_refuted :
  exists v w r,
    forbids v /\
    client_header [("cache-control", (Append, [v; w]))] 2 r /\
    says "public" r /\ says_max_age 3600 r.
Proof.
  exists "private, no-store, stale-if-error=60", "public, max-age=3600", "public, max-age=3600".
  split; [left; exists None; vm_compute; tauto|]. split; [vm_compute; reflexivity|].
  split; [exists None; vm_compute; tauto|].
  exists "3600". vm_compute. tauto.
Qed.
Print Assumptions C21_unknown_directive_drops_restriction_refuted.

(** Propagating Cache-Control by name looks only at the first Cache-Control line of a
    response; a second line saying [no-store] is ignored. *)
Theorem C21_second_line_ignored_refuted :
  exists resps r,
    (exists resp v, In resp resps /\ In v (lines "cache-control" (snd resp)) /\ forbids v) /\
    client_header
      (apply_responses (fun _ => [RsPropagateNamed ["cache-control"] None None Append]) [] resps [])
      (List.length resps) r /\
    says "public" r.
Proof.
  exists [("a", [("cache-control", "public, max-age=60"); ("cache-control", "no-store")])],
    "public, max-age=60".
  split; [|split].
  - eexists. exists "no-store". split; [left; reflexivity|]. split; [vm_compute; tauto|].
    left. exists None. vm_compute. tauto.
  - vm_compute; reflexivity.
  - exists None. vm_compute. tauto.
Qed.
Print Assumptions C21_second_line_ignored_refuted.

(** A header propagated by two rules is counted twice, so a silent subgraph is not
    noticed and [public] survives although one response did not say it. *)
Theorem C21_double_rule_hides_silent_subgraph_refuted :
  exists resps rules r,
    (exists resp, In resp resps /\ lines "cache-control" (snd resp) = []) /\
    client_header (apply_responses (fun _ => rules) [] resps []) (List.length resps) r /\
    says "public" r.
Proof.
  exists [("a", [("cache-control", "public")]); ("b", [])],
    [RsPropagateNamed ["cache-control"] None None Append;
     RsPropagateRegex (Some (String.eqb "cache-control")) None Append], "public".
  split; [|split].
  - exists ("b", []). split; [right; left; reflexivity|reflexivity].
  - vm_compute; reflexivity.
  - exists None. vm_compute. tauto.
Qed.
Print Assumptions C21_double_rule_hides_silent_subgraph_refuted.

(** With several max-age directives in one header the last wins, not the smallest. *)
Theorem C21_repeated_max_age_refuted :
  exists v r, says_max_age 0 v /\
    client_header [("cache-control", (Append, [v]))] 1 r /\
    (forall n, says_max_age n r -> n = 600%N) /\ says_max_age 600 r.
Proof.
  exists "max-age=0, max-age=600", "max-age=600". split; [|split; [vm_compute; reflexivity|split]].
  - exists "0". vm_compute. tauto.
  - intros n [v [Hin Hp]]. vm_compute in Hin. destruct Hin as [E|[]]. inversion E; subst.
    vm_compute in Hp. congruence.
  - exists "600". vm_compute. tauto.
Qed.
Print Assumptions C21_repeated_max_age_refuted.
