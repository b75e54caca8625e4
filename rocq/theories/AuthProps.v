(** Authorization: properties C06, C07, C08 and C10. *)
From Coq Require Import String List Bool.
From Verif Require Import Ast TrieModel TrieProofs AuthModel AuthSpec AuthProofs AuthFilterProofs AuthDecision.
Import ListNotations.
Local Open Scope string_scope.
Local Open Scope list_scope.

(** ** C10 *)
Theorem C10_type_rule_is_evaluated_as_written :
  forall Sc defs m j t, unique_names defs -> build Sc defs = inl m ->
  (is_type_authorized m (user_of m j) t = true <-> type_allowed defs j t).
Proof. exact (fun Sc defs m j t U B => type_authorized_iff Sc defs m U B j t). Qed.
Print Assumptions C10_type_rule_is_evaluated_as_written.

Theorem C10_field_rule_is_evaluated_as_written :
  forall Sc defs m j t f, unique_names defs -> build Sc defs = inl m ->
  (is_field_authorized m (user_of m j) t f = true <-> field_allowed defs j t f).
Proof. exact (fun Sc defs m j t f U B => field_authorized_iff Sc defs m U B j t f). Qed.
Print Assumptions C10_field_rule_is_evaluated_as_written.

(** The subtree shortcut never changes a verdict. *)
Theorem C10_shortcut_is_exact :
  forall Sc defs m j par f out nn, unique_names defs -> build Sc defs = inl m ->
  field_info Sc par f = Some (out, nn) ->
  (keep_field m (user_of m j) par f out = true <-> allowed Sc defs j par f).
Proof. exact (fun Sc defs m j par f out nn U B FI => keep_field_iff Sc defs m U B j par f out nn FI). Qed.
Print Assumptions C10_shortcut_is_exact.

Theorem C10_more_scopes_never_lose_access :
  forall d l l', incl l l' -> satisfies (Some (Some l)) d -> satisfies (Some (Some l')) d.
Proof. exact satisfies_monotone. Qed.
Print Assumptions C10_more_scopes_never_lose_access.

Theorem C10_unauthenticated_is_refused :
  forall d, (d_scopes d <> [] \/ d_authenticated d = true) -> ~ satisfies None d.
Proof. exact unauthenticated_refused. Qed.
Print Assumptions C10_unauthenticated_is_refused.

Theorem C10_metadata_search_terminates : forall Sc defs, build Sc defs <> inr EFuel.
Proof. exact build_never_out_of_fuel. Qed.
Print Assumptions C10_metadata_search_terminates.

(** ** C06 *)
Theorem C06_executed_operation_is_allowed :
  forall Sc defs m vars j root op reject_mode op',
  unique_names defs -> build Sc defs = inl m ->
  executed op (apply_authorization Sc m vars j root op reject_mode) = Some op' ->
  forall o, In o (occs Sc vars (op_sels op') root []) -> allowed Sc defs j (o_parent o) (o_name o).
Proof. exact (fun Sc defs m vars j root op rm op' U B => filtered_only_allowed Sc defs m U B vars j root op rm op'). Qed.
Print Assumptions C06_executed_operation_is_allowed.

Theorem C06_nothing_is_added :
  forall Sc defs m vars j root op reject_mode op',
  unique_names defs -> build Sc defs = inl m ->
  executed op (apply_authorization Sc m vars j root op reject_mode) = Some op' ->
  forall o, In o (occs Sc vars (op_sels op') root []) -> In o (occs Sc vars (op_sels op) root []).
Proof. exact (fun Sc defs m vars j root op rm op' U B => filtered_is_subset Sc m vars j root op rm op'). Qed.
Print Assumptions C06_nothing_is_added.

(** ** C07 *)
Theorem C07_fully_allowed_operation_is_unchanged :
  forall Sc defs m vars j root op reject_mode,
  unique_names defs -> build Sc defs = inl m ->
  (forall o, In o (occs Sc vars (op_sels op) root []) -> field_info Sc (o_parent o) (o_name o) <> None) ->
  (forall o, In o (occs Sc vars (op_sels op) root []) -> allowed Sc defs j (o_parent o) (o_name o)) ->
  (forall g, In g (fragsl Sc vars (op_sels op) root []) -> type_allowed defs j (g_cond g)) ->
  apply_authorization Sc m vars j root op reject_mode = NoChange.
Proof. exact (fun Sc defs m vars j root op rm U B => fully_allowed_unchanged Sc defs m U B vars j root op rm). Qed.
Print Assumptions C07_fully_allowed_operation_is_unchanged.

(** A leaf is removed exactly when a field at or above it is denied, lies in a denied fragment, or is
    lost to null propagation. *)
Theorem C07_leaves_are_kept_unless_nulled :
  forall Sc m vars j root op op' t errs o,
  apply_authorization Sc m vars j root op false = Modified op' t errs -> o_leaf o = true ->
  (In o (occs Sc vars (op_sels op') root []) <->
   In o (occs Sc vars (op_sels op) root []) /\
   forall q, nulled Sc vars (keep_field m (user_of m j)) (keep_fragment m (user_of m j)) root [] (op_sels op) q ->
             ~ covers [] q (o_path o)).
Proof. exact modified_leaves. Qed.
Print Assumptions C07_leaves_are_kept_unless_nulled.

(** Null propagation always has an unauthorized field as its cause. *)
Theorem C07_propagation_has_a_cause :
  forall Sc defs m vars j par xs p, unique_names defs -> build Sc defs = inl m ->
  bubbles Sc vars (keep_field m (user_of m j)) (keep_fragment m (user_of m j)) par xs ->
  exists o, In o (occs Sc vars xs par p) /\ ~ allowed Sc defs j (o_parent o) (o_name o).
Proof. exact (fun Sc defs m vars j par xs p U B H => bubbles_has_cause Sc defs m U B vars j par xs H p). Qed.
Print Assumptions C07_propagation_has_a_cause.

Theorem C07_errors_name_the_denied_selections :
  forall Sc defs m vars j root op op' t errs,
  unique_names defs -> build Sc defs = inl m ->
  apply_authorization Sc m vars j root op false = Modified op' t errs ->
  (forall o, In o (occs Sc vars (op_sels op) root []) -> ~ allowed Sc defs j (o_parent o) (o_name o) ->
     exists e s, In e errs /\ field_keys (o_path o) = e ++ s) /\
  (forall e, In e errs ->
     (exists o, In o (occs Sc vars (op_sels op) root []) /\ ~ allowed Sc defs j (o_parent o) (o_name o) /\
                e = field_keys (o_path o)) \/
     (exists g, In g (fragsl Sc vars (op_sels op) root []) /\ ~ type_allowed defs j (g_cond g) /\
                e = field_keys (g_path g))).
Proof. exact (fun Sc defs m vars j root op op' t errs U B => modified_errors Sc defs m U B vars j root op op' t errs). Qed.
Print Assumptions C07_errors_name_the_denied_selections.

Theorem C07_used_variables_stay_declared :
  forall Sc m vars j root op op' t errs n d ds,
  apply_authorization Sc m vars j root op false = Modified op' t errs ->
  op_vars op = Some ds -> In d ds -> vd_name d = n -> In n (flat_map sel_vars (op_sels op')) ->
  exists ds', op_vars op' = Some ds' /\ In d ds'.
Proof. exact modified_vars. Qed.
Print Assumptions C07_used_variables_stay_declared.

(** ** C08 *)
Theorem C08_unauthorized_selection_rejects :
  forall Sc defs m vars j root op,
  unique_names defs -> build Sc defs = inl m ->
  (forall o, In o (occs Sc vars (op_sels op) root []) -> field_info Sc (o_parent o) (o_name o) <> None) ->
  ((exists o, In o (occs Sc vars (op_sels op) root []) /\ ~ allowed Sc defs j (o_parent o) (o_name o)) \/
   (exists g, In g (fragsl Sc vars (op_sels op) root []) /\ ~ type_allowed defs j (g_cond g) /\
              In (g_cond g) (g_parent g :: type_children Sc (g_parent g)))) ->
  exists errs, apply_authorization Sc m vars j root op true = Reject errs /\ errs <> [].
Proof. exact (fun Sc defs m vars j root op U B => reject_complete Sc defs m U B vars j root op). Qed.
Print Assumptions C08_unauthorized_selection_rejects.

Theorem C08_rejection_has_a_cause :
  forall Sc defs m vars j root op errs,
  unique_names defs -> build Sc defs = inl m ->
  apply_authorization Sc m vars j root op true = Reject errs ->
  (exists o, In o (occs Sc vars (op_sels op) root []) /\ ~ allowed Sc defs j (o_parent o) (o_name o)) \/
  (exists g, In g (fragsl Sc vars (op_sels op) root []) /\ ~ type_allowed defs j (g_cond g)).
Proof. exact (fun Sc defs m vars j root op errs U B => reject_sound Sc defs m U B vars j root op errs). Qed.
Print Assumptions C08_rejection_has_a_cause.

Theorem C08_reject_mode_never_rewrites :
  forall Sc m vars j root op op' t errs, apply_authorization Sc m vars j root op true <> Modified op' t errs.
Proof. exact reject_mode_never_modifies. Qed.
Print Assumptions C08_reject_mode_never_rewrites.

Theorem C08_filter_mode_never_rejects :
  forall Sc m vars j root op errs, apply_authorization Sc m vars j root op false <> Reject errs.
Proof. exact filter_mode_never_rejects. Qed.
Print Assumptions C08_filter_mode_never_rejects.

(** ** Examples *)
Definition ex_schema : schema :=
  mkschema [("Query", [("me", ("User", false)); ("version", ("String", false))]);
            ("User", [("id", ("ID", true)); ("email", ("String", false)); ("ssn", ("String", true))])]
           [].
Definition no_dirs := mkdirs false [].
Definition ex_defs : list tydef :=
  [mktydef true "Query" no_dirs [("me", no_dirs); ("version", no_dirs)];
   mktydef true "User" no_dirs
     [("id", no_dirs); ("email", mkdirs true []);
      ("ssn", mkdirs false [GList [GList [GStr "hr"; GStr "read"]; GList [GStr "admin"]]])]].
Definition fld n sub := SField n None None None None false sub.
Definition ex_op sels := mkop None (Some KQuery) sels None.
Definition ex_meta := match build ex_schema ex_defs with inl m => m | inr _ => mkmeta [] [] [] [] end.
Definition ex_run j sels := apply_authorization ex_schema ex_meta (fun _ => false) j "Query" (ex_op sels) false.

Example ex_unique : unique_names ex_defs.
Proof.
  split; [|intros d [<-|[<-|[]]]]; simpl; repeat constructor; simpl; intuition discriminate.
Qed.
Example ex_builds : build ex_schema ex_defs = inl ex_meta.
Proof. reflexivity. Qed.

Example C06_example :
  executed (ex_op []) (ex_run None [fld "me" [fld "id" []; fld "email" []]; fld "version" []])
  = Some (ex_op [fld "me" [fld "id" []]; fld "version" []]).
Proof. reflexivity. Qed.

(** A denied non-null field takes its parent with it. *)
Example C07_example_bubble :
  executed (ex_op []) (ex_run (Some (Some ["hr"])) [fld "me" [fld "id" []; fld "ssn" []]; fld "version" []])
  = Some (ex_op [fld "version" []]).
Proof. reflexivity. Qed.

Example C10_example_all_of_a_group :
  ex_run (Some (Some ["read"; "other"; "hr"])) [fld "me" [fld "id" []; fld "ssn" []]; fld "version" []] = NoChange.
Proof. reflexivity. Qed.

(** ** C07, finding: an authorized object disappears when everything selected in it was removed. *)
Theorem C07_authorized_parent_kept_refuted :
  exists Sc defs m vars j root op op' t errs o,
    unique_names defs /\ build Sc defs = inl m /\
    apply_authorization Sc m vars j root op false = Modified op' t errs /\
    In o (occs Sc vars (op_sels op) root []) /\ allowed Sc defs j (o_parent o) (o_name o) /\
    (forall q, nulled Sc vars (keep_field m (user_of m j)) (keep_fragment m (user_of m j)) root [] (op_sels op) q ->
               ~ covers [] q (o_path o)) /\
    ~ In o (occs Sc vars (op_sels op') root []).
Proof. exact emptied_parent. Qed.
Print Assumptions C07_authorized_parent_kept_refuted.
