(** C25: [@skip] and [@include] mean the same thing everywhere. *)
From Coq Require Import String List NArith Bool.
From Verif Require Import StrOrd Ast JsonModel MergeModel TraverseModel RewriteModel ProjModel RequiresModel EntityModel
  CoerceModel AuthModel ExecModel QplanModel CondModel CondSpec CondProofs.
Import ListNotations.
Local Open Scope string_scope.

(** The directives of a selection survive normalization as two variables: the selection is
    active exactly when it is not dropped for a literal and its variables say so. *)
Theorem C25_normalization :
  forall ds is_true, valid_directives ds ->
  (active is_true ds <->
   should_keep ds = true /\ active_pair is_true (fst (conditions_pair ds)) (snd (conditions_pair ds))).
Proof. exact keep_and_pair. Qed.
Print Assumptions C25_normalization.

(** The authorization filter skips exactly what is not active. *)
Theorem C25_authorization :
  forall is_true skip_if include_if,
  is_ignored is_true skip_if include_if = false <-> active_pair is_true skip_if include_if.
Proof. exact filter_active. Qed.
Print Assumptions C25_authorization.

(** Projection: the conditions added for the directives pass exactly when the selection is active,
    on top of whatever condition it had. *)
Theorem C25_projection :
  forall vtrue c skip_if include_if parent field v,
  (match apply_directives c include_if skip_if with
   | None => True | Some c => passes (check vtrue c parent field v) end) <->
  (match c with None => True | Some c => passes (check vtrue c parent field v) end) /\
  active_pair vtrue skip_if include_if.
Proof. exact projection_active. Qed.
Print Assumptions C25_projection.

(** Execution: a fetch under an active condition runs as if it had none, and otherwise not at
    all, once the variables have values. *)
Theorem C25_execution :
  forall ryu pt xxh show vars answer path f sub skip_if include_if c tr c',
  defined vars skip_if -> defined vars include_if ->
  let run := ExecModel.run ryu pt xxh show vars answer in
  (active_pair (variable_equals_true vars) skip_if include_if ->
     (run (from_fetch_step path f sub (to_condition skip_if include_if)) c tr c' <->
      run (from_fetch_step path f sub None) c tr c')) /\
  (~ active_pair (variable_equals_true vars) skip_if include_if ->
     (run (from_fetch_step path f sub (to_condition skip_if include_if)) c tr c' <-> tr = [] /\ c' = c)).
Proof. exact plan_active. Qed.
Print Assumptions C25_execution.

(** They do have values: a variable in a [Boolean!] position is declared non-null or with a
    default, and every such variable is among the coerced ones. *)
Theorem C25_condition_variables_are_defined :
  forall fin m op vars r d defs,
  collect_variables fin m op vars = CoerceModel.Ok r -> op_vars op = Some defs -> In d defs ->
  CoerceModel.is_non_null (vd_type d) = true \/ vd_default d <> None ->
  exists rs, r = Some rs /\
    forall vs : list (string * value), map fst vs = map fst rs -> defined (Some vs) (Some (vd_name d)).
Proof. exact coerced_defined. Qed.
Print Assumptions C25_condition_variables_are_defined.

(** Demand control counts a field exactly when it is active, both in the actual cost and in the
    estimate. *)
Theorem C25_actual_cost :
  forall vars skip_if include_if,
  conditionally_included vars include_if skip_if = true <->
  active_pair (variable_equals_true vars) skip_if include_if.
Proof. exact cost_active. Qed.
Print Assumptions C25_actual_cost.

Theorem C25_estimated_cost :
  forall vars skip_if include_if c,
  (active_pair (variable_equals_true vars) skip_if include_if -> conditional_cost vars include_if skip_if c = c) /\
  (~ active_pair (variable_equals_true vars) skip_if include_if -> conditional_cost vars include_if skip_if c = 0%N).
Proof. exact estimate_active. Qed.
Print Assumptions C25_estimated_cost.

(** Without a value the plan and the others disagree: a fetch under [@skip] is not sent although
    the filter and the projection keep its fields.  Validation keeps such operations out. *)
Theorem C25_undefined_variable_refuted :
  exists f s, active_pair (variable_equals_true None) (Some s) None /\
  forall ryu pt xxh show answer c tr c',
    ExecModel.run ryu pt xxh show None answer (from_fetch_step [] f false (to_condition (Some s) None)) c tr c' ->
    tr = [].
Proof. exact undefined_variable. Qed.
Print Assumptions C25_undefined_variable_refuted.

(** [@skip(if: false) @include(if: $x)] *)
Definition ex_ds : list directive :=
  [ {| d_name := "skip"; d_args := [("if", GBool false)] |};
    {| d_name := "include"; d_args := [("if", GVar "x")] |} ].
Example ex_kept : should_keep ex_ds = true /\ conditions_pair ex_ds = (None, Some "x").
Proof. vm_compute. split; reflexivity. Qed.
Example ex_both :
  from_fetch_step [] (mkfetch 1 "A" None [] []) false (to_condition (Some "s") (Some "i")) =
  NCondition "s" None (Some (NCondition "i" (Some (NFetch (mkfetch 1 "A" None [] []))) None)).
Proof. reflexivity. Qed.
Example ex_null_is_false :
  variable_equals_true (Some [("x", VNull)]) "x" = false /\ variable_equals_true (Some [("x", VBool true)]) "x" = true.
Proof. vm_compute. split; reflexivity. Qed.
