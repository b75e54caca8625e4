(** C27: operation limits. *)
From Coq Require Import String List Bool Arith.
From Verif Require Import LimitsModel LimitsSpec LimitsProofs.
Import ListNotations.
Local Open Scope string_scope.

(** The alias limit accepts a document exactly if each operation, fragments expanded, has at
    most that many aliases, and then reports those numbers. *)
Theorem C27_aliases limit frags ops ops' :
  Forall2 (expands_def frags) ops ops' -> decides limit total_aliases ops' (alias_rule limit frags ops).
Proof. exact (alias_rule_decides limit frags ops ops'). Qed.
Print Assumptions C27_aliases.

Theorem C27_directives limit frags ops ops' :
  Forall2 (expands_def frags) ops ops' -> decides limit total_directives ops' (directive_rule limit frags ops).
Proof. exact (directive_rule_decides limit frags ops ops'). Qed.
Print Assumptions C27_directives.

Theorem C27_depth cfg frags ops ops' :
  Forall2 (expands_def frags) ops ops' ->
  decides (dc_n cfg) (total_depth cfg) ops' (depth_rule cfg frags ops).
Proof. exact (depth_rule_decides cfg frags ops ops'). Qed.
Print Assumptions C27_depth.

(** Documents without fragment cycles have exactly one expansion. *)
Theorem C27_expansion frags ops :
  acyclic frags ->
  exists ops', Forall2 (expands_def frags) ops ops' /\
    forall ops'', Forall2 (expands_def frags) ops ops'' -> ops'' = ops'.
Proof.
  exact (fun A => match ops_expand frags ops A with
         | ex_intro _ ops' F => ex_intro _ ops' (conj F (fun o2 G => ops_expand_once frags ops o2 ops' G F)) end).
Qed.
Print Assumptions C27_expansion.

(** The decision alone. *)
Theorem C27_accepts limit total ops' rs :
  decides limit total ops' rs -> (accepts rs <-> Forall (fun o => total o <= limit) ops').
Proof. exact (decides_accepts limit total ops' rs). Qed.
Print Assumptions C27_accepts.

(** The rules end on every document, with fragment cycles or not. *)
Theorem C27_aliases_end limit frags ops : ~ In OutOfFuel (alias_rule limit frags ops).
Proof. exact (alias_rule_ends limit frags ops). Qed.
Print Assumptions C27_aliases_end.
Theorem C27_directives_end limit frags ops : ~ In OutOfFuel (directive_rule limit frags ops).
Proof. exact (directive_rule_ends limit frags ops). Qed.
Print Assumptions C27_directives_end.
Theorem C27_depth_end cfg frags ops : ~ In OutOfFuel (depth_rule cfg frags ops).
Proof. exact (depth_rule_ends cfg frags ops). Qed.
Print Assumptions C27_depth_end.

(** Reordering fragment definitions keeps the expansion, hence the decision. *)
Theorem C27_order frags frags' ops ops' :
  (forall f, kfind f frags = kfind f frags') ->
  Forall2 (expands_def frags) ops ops' -> Forall2 (expands_def frags') ops ops'.
Proof. exact (expands_def_ext frags frags' ops ops'). Qed.
Print Assumptions C27_order.

(** A fragment used twice counts twice. *)
Definition ex_frags : known :=
  [("A", {| q_dirs := 1; q_sels := [QField "x" (Some "y") 0 [QSpread "B" 0]] |});
   ("B", {| q_dirs := 0; q_sels := [QField "z" (Some "w") 2 []] |})].
Definition ex_ops : list qdef :=
  [{| q_dirs := 0; q_sels := [QSpread "A" 1; QField "u" None 0 [QSpread "A" 0; QSpread "B" 0; QSpread "Q" 5]] |}].
Definition ex_cfg (n : nat) (flat : bool) := {| dc_n := n; dc_ignore_introspection := true; dc_flatten := flat |}.
Example ex_aliases : alias_rule 5 ex_frags ex_ops = [Ok 5].
Proof. vm_compute. reflexivity. Qed.
Example ex_aliases_over : alias_rule 4 ex_frags ex_ops = [Exceeded].
Proof. vm_compute. reflexivity. Qed.
Example ex_directives : directive_rule 14 ex_frags ex_ops = [Ok 14].
Proof. vm_compute. reflexivity. Qed.
Example ex_depth_flat : depth_rule (ex_cfg 3 true) ex_frags ex_ops = [Ok 3].
Proof. vm_compute. reflexivity. Qed.
Example ex_depth : depth_rule (ex_cfg 7 false) ex_frags ex_ops = [Ok 7].
Proof. vm_compute. reflexivity. Qed.
Example ex_cycle :
  alias_rule 9 [("A", {| q_dirs := 0; q_sels := [QField "x" (Some "y") 0 [QSpread "A" 0]] |})]
    [{| q_dirs := 0; q_sels := [QSpread "A" 0] |}] = [Ok 1].
Proof. vm_compute. reflexivity. Qed.
