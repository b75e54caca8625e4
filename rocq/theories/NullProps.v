(** C09: unauthorized fields never appear in the response. *)
From Coq Require Import String List Bool.
From Verif Require Import StrOrd JsonModel Ast ProjModel ProjSpec TrieModel PlanModel PlanSpec PlanRefute
  AuthModel AuthSpec NullSpec NullProofs NullRefute.
Import ListNotations.
Local Open Scope string_scope.
Local Open Scope list_scope.

(** Exactly the selections at marked paths become null, for paths in terms of the plan's own guards. *)
Theorem C09_marked_selections_are_nulled :
  forall marks ps, Forall full ps -> rebuild_nulled_plan (from_paths marks) ps = map (conceal marks []) ps.
Proof. exact nulled_plan_exact. Qed.
Print Assumptions C09_marked_selections_are_nulled.

(** In an operation without fragments, a denied field is null wherever it is in the response,
    whatever the data, or it is below something null. *)
Theorem C09_denied_fields_are_null_partial :
  forall Sc defs m vars j root op op' t errs M order vt ps d out o ks u,
  unique_names defs -> build Sc defs = inl m ->
  apply_authorization Sc m vars j root op false = Modified op' t errs ->
  Forall fields_only (op_sels op) ->
  from_operation M order root (op_sels op) = BOk ps ->
  comp_root M vt root (rebuild_nulled_plan t ps) d out ->
  In o (occs Sc vars (op_sels op) root []) -> ~ allowed Sc defs j (o_parent o) (o_name o) ->
  found out (field_keys (o_path o) ++ ks) u -> u = ONull /\ ks = [].
Proof. exact denied_are_null. Qed.
Print Assumptions C09_denied_fields_are_null_partial.

(** Finding: with fragments, a denied field that is in the data can be shown. *)
Theorem C09_denied_fields_are_null_refuted :
  exists Sc defs m vars j root op op' t errs M order vt ps d r o v,
    unique_names defs /\ build Sc defs = inl m /\
    apply_authorization Sc m vars j root op false = Modified op' t errs /\
    from_operation M order root (op_sels op) = BOk ps /\
    comp_root M vt root (rebuild_nulled_plan t ps) d r /\
    In o (occs Sc vars (op_sels op) root []) /\ ~ allowed Sc defs j (o_parent o) (o_name o) /\
    found r (field_keys (o_path o)) v /\ v <> ONull.
Proof. exact fragments_refuted. Qed.
Print Assumptions C09_denied_fields_are_null_refuted.

(** Three ways: two levels below a field of a fragment, in a fragment on an abstract type, and in a
    field that the plan splits by type. *)
Example C09_shown_below_a_fragment : shown_to_stranger ("B", "secret") op_deep data_deep ["node"; "a"; "b"; "secret"] (OLeaf (VStr "s")).
Proof. exact leak_deep. Qed.
Example C09_shown_in_an_abstract_fragment : shown_to_stranger ("Node", "name") op_abstract data_name ["node"; "name"] (OLeaf (VStr "s")).
Proof. exact leak_abstract. Qed.
Example C09_shown_in_a_split_field : shown_to_stranger ("Node", "name") op_split data_name ["node"; "name"] (OLeaf (VStr "s")).
Proof. exact leak_split. Qed.

(** A field nulled inside a fragment, where the path and the guard agree. *)
Example C09_example :
  rebuild_nulled_plan (from_paths [[SegField "node"; SegFrag "User"; SegField "email"]])
    (plans (from_operation ex same_order "Query" [fld "node" [fld "name" []; SFrag "User" None None [fld "email" []]]])) =
  [Plan "node" "node" false (NLeaf false) None (Some (CField (TOneOf ["Admin"; "Node"; "User"])))
    (SData (Some [Plan "name" "name" false (NLeaf false) None None (SData None);
                  Plan "email" "email" false (NLeaf false) (Some (TExact "User")) None SNull]))].
Proof. reflexivity. Qed.
Example C09_example_full : Forall full (plans (from_operation ex same_order "Query" op_deep)).
Proof. vm_compute. repeat constructor; discriminate. Qed.
Example C09_example_denied :
  exists op' t errs ps out,
    apply_authorization auth_schema (auth_meta ("User", "email")) all_true None "Query" (an_op [fld "me" [fld "email" []]]) false = Modified op' t errs /\
    from_operation ex same_order "Query" [fld "me" [fld "email" []]] = BOk ps /\
    comp_root ex all_true "Query" (rebuild_nulled_plan t ps) (VObj [("me", VObj [("email", VStr "s")])]) out /\ found out ["me"; "email"] ONull.
Proof.
  do 4 eexists. exists (OObj [("me", OObj [("email", ONull)])]). split; [vm_compute; reflexivity|]. split; [vm_compute; reflexivity|]. split.
  - match goal with |- comp_root _ _ _ ?l _ _ => let l' := eval vm_compute in l in change l with l' end. constructor.
    eapply (fs_shown _ _ (Plan _ _ _ _ _ _ _)); [eapply f_value; [reflexivity|reflexivity|reflexivity|reflexivity|eapply comp_obj; [reflexivity|]]|discriminate|apply fs_nil].
    eapply (fs_shown _ _ (Plan _ _ _ _ _ _ _)); [apply f_nulled; reflexivity|reflexivity|apply fs_nil].
  - repeat (eapply found_member; [left; reflexivity|]). constructor.
Qed.
