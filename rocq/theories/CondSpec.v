(** When a selection is active (GraphQL specification, 3.13.1-3.13.2). *)
From Coq Require Import String List Bool.
From Verif Require Import StrOrd Ast JsonModel ProjModel CoerceModel CondModel.
Import ListNotations.
Local Open Scope string_scope.

Section Vars.
(** Variables that are the boolean true. *)
Context (is_true : string -> bool).

Definition argument_true (d : directive) : bool :=
  match kget "if" (d_args d) with
  | Some (GBool b) => b
  | Some (GVar v) => is_true v
  | _ => false
  end.

(** No [@skip] that is true, no [@include] that is not. *)
Definition active (ds : list directive) : Prop :=
  forall d, In d ds ->
    (d_name d = "skip" -> argument_true d = false) /\
    (d_name d = "include" -> argument_true d = true).

(** The same for conditions that are variables. *)
Definition active_pair (skip_if include_if : option string) : Prop :=
  (forall v, skip_if = Some v -> is_true v = false) /\
  (forall v, include_if = Some v -> is_true v = true).
End Vars.

(** Valid directives: each of the two at most once, with exactly a boolean or variable [if]. *)
Definition named (n : string) (ds : list directive) : list directive :=
  filter (fun d => String.eqb (d_name d) n) ds.
Definition valid_directives (ds : list directive) : Prop :=
  length (named "skip" ds) <= 1 /\ length (named "include" ds) <= 1 /\
  forall d, In d ds -> d_name d = "skip" \/ d_name d = "include" ->
    (exists b, d_args d = [("if", GBool b)]) \/ (exists v, d_args d = [("if", GVar v)]).

(** The variables of a condition have values. *)
Definition defined (vars : option (list (string * value))) (c : option string) : Prop :=
  forall v, c = Some v -> exists vs x, vars = Some vs /\ get v vs = Some x.

Definition passes (r : cres) : Prop := r = COk.
