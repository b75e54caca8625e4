(** Properties of splitting operations. *)
From Coq Require Import String List Bool.
From Verif Require Import Ast SplitModel SplitSpec SplitProofs.
Import ListNotations.
Local Open Scope string_scope.

(** What an operation asks for is well defined. *)
Theorem C55_asked_once l : exists w, wants l w /\ forall w', wants l w' -> w' = w.
Proof. destruct (wants_exists l) as [w Hw]. exists w. split; [exact Hw|]. intros w' Hw'. exact (wants_unique _ _ Hw' _ Hw). Qed.
(** Of everything asked for, the router answers the part about the schema and the subgraphs are asked the rest, each at its
    place and in its order; there is an introspection operation only if something is asked of it. *)
Theorem C55_splits op d i w : partition_operation op = (d, i) -> wants (op_sels op) w ->
  (exists wd, chosen (fun p => ~ ours (snd p)) w wd /\ wants (op_sels d) wd)
  /\ match i with
     | Some i => exists wi, chosen (fun p => ours (snd p)) w wi /\ wi <> [] /\ wants (op_sels i) wi
     | None => Forall (fun p => ~ ours (snd p)) w
     end.
Proof. exact (splits op d i w). Qed.
(** No part has a selection that nothing is asked through. *)
Theorem C55_nothing_more op d i : partition_operation op = (d, i) -> Forall lean (op_sels d) /\ forall i', i = Some i' -> Forall lean (op_sels i').
Proof. exact (nothing_more op d i). Qed.
Theorem C55_same_heading op d i : partition_operation op = (d, i) ->
  op_name d = op_name op /\ op_kind d = op_kind op /\ op_vars d = op_vars op /\ forall i', i = Some i' -> op_name i' = op_name op /\ op_kind i' = op_kind op.
Proof. exact (headed op d i). Qed.
(** The introspection operation defines the variables it uses, and only those. *)
Theorem C55_variables op d i : partition_operation op = (d, Some i) ->
  match op_vars op with
  | Some l => exists l', op_vars i = Some l' /\ chosen (fun v => in_selections (vd_name v) (op_sels i)) l l'
  | None => op_vars i = None
  end.
Proof. exact (variables_kept op d i). Qed.
Theorem C55_variables_defined op d i : partition_operation op = (d, i) -> variables_defined op -> variables_defined d /\ forall i', i = Some i' -> variables_defined i'.
Proof. exact (still_defined op d i). Qed.
Example C55_example : partition_operation (mkop None None
    [SField "__typename" None None None None false []; SField "__type" None (Some [("name", GVar "n")]) None None false [SField "name" None None None None false []];
     SFrag "Query" None (Some "s") [SField "__schema" None None None None false [SField "__typename" None None None None false []]; SField "a" None None None None false []]]
    (Some [mkvardef "n" (TNamed "String") None; mkvardef "m" (TNamed "Int") None; mkvardef "s" (TNamed "Boolean") None]))
  = (mkop None None [SField "__typename" None None None None false []; SFrag "Query" None (Some "s") [SField "a" None None None None false []]]
       (Some [mkvardef "n" (TNamed "String") None; mkvardef "m" (TNamed "Int") None; mkvardef "s" (TNamed "Boolean") None]),
     Some (mkop None None [SField "__type" None (Some [("name", GVar "n")]) None None false [SField "name" None None None None false []];
                           SFrag "Query" None (Some "s") [SField "__schema" None None None None false [SField "__typename" None None None None false []]]]
            (Some [mkvardef "n" (TNamed "String") None; mkvardef "s" (TNamed "Boolean") None]))).
Proof. vm_compute. reflexivity. Qed.

Print Assumptions C55_asked_once.
Print Assumptions C55_splits.
Print Assumptions C55_nothing_more.
Print Assumptions C55_same_heading.
Print Assumptions C55_variables.
Print Assumptions C55_variables_defined.
