(** [@skip]/[@include]: from directives to the places that evaluate them.
    Models query_planner/ast/normalization/pipeline/drop_skipped_fields.rs:80-117,
    query_planner/ast/selection_item.rs:233-281, query_planner/ast/merge_path.rs:51-112,
    executor/execution/plan.rs:110-116, executor/execution/demand_control/mod.rs:748-775 and
    pipeline/demand_control/formula.rs:266-281, 625-642.  The authorization filter, the plan and
    the projection are [AuthModel.is_ignored], [QplanModel.from_fetch_step] with
    [ExecModel.condition_branch], and [ProjModel.apply_directives] with [ProjModel.check]. *)
From Coq Require Import String List Bool NArith.
From Verif Require Import StrOrd Ast JsonModel CoerceModel QplanModel.
Import ListNotations.
Local Open Scope string_scope.

Record directive := { d_name : string; d_args : list (string * gvalue) }.

(** drop_skipped_fields.rs:94-117 *)
Fixpoint if_literal (args : list (string * gvalue)) : option bool :=
  match args with
  | [] => None
  | (n, v) :: args' =>
      match (if String.eqb n "if" then (match v with GBool b => Some b | _ => None end) else None) with
      | Some b => Some b
      | None => if_literal args'
      end
  end.
Fixpoint extract_condition_directive (name : string) (ds : list directive) : option bool :=
  match ds with
  | [] => None
  | d :: ds' =>
      match (if String.eqb (d_name d) name then if_literal (d_args d) else None) with
      | Some b => Some b
      | None => extract_condition_directive name ds'
      end
  end.

(** drop_skipped_fields.rs:80-92 *)
Definition should_keep (ds : list directive) : bool :=
  match extract_condition_directive "skip" ds with
  | Some true => false
  | _ => match extract_condition_directive "include" ds with Some false => false | _ => true end
  end.

(** selection_item.rs:233-281 *)
Definition if_variable (d : directive) : option string :=
  match kget "if" (d_args d) with Some (GVar v) => Some v | _ => None end.
Definition conditions_pair (ds : list directive) : option string * option string :=
  fold_left (fun p d =>
    if String.eqb (d_name d) "skip"
    then match if_variable d with Some v => (Some v, snd p) | None => p end
    else if String.eqb (d_name d) "include"
    then match if_variable d with Some v => (fst p, Some v) | None => p end
    else p) ds (None, None).

(** merge_path.rs:86-112 *)
Definition to_condition (skip_if include_if : option string) : option QplanModel.cond :=
  match skip_if, include_if with
  | Some s, Some i => Some (QplanModel.CSkipAndInclude s i)
  | Some s, None => Some (QplanModel.CSkip s)
  | None, Some i => Some (QplanModel.CInclude i)
  | None, None => None
  end.

Section Vars.
Context (vars : option (list (string * value))).

(** execution/plan.rs:110-116 *)
Definition variable_equals_true (v : string) : bool :=
  match vars with
  | Some vs => match get v vs with Some (VBool b) => b | _ => false end
  | None => false
  end.

(** demand_control/mod.rs:748-764 *)
Definition conditionally_included (include_if skip_if : option string) : bool :=
  match skip_if with
  | Some s =>
      if variable_equals_true s then false
      else match include_if with Some i => variable_equals_true i | None => true end
  | None => match include_if with Some i => variable_equals_true i | None => true end
  end.

(** formula.rs:625-642 evaluated by 271-281 for a field of cost [c]. *)
Definition conditional_cost (include_if skip_if : option string) (c : N) : N :=
  let c := match include_if with Some i => if variable_equals_true i then c else 0%N | None => c end in
  match skip_if with Some s => if variable_equals_true s then 0%N else c | None => c end.
End Vars.
