(** C11: the plan cache key. *)
From Coq Require Import String List NArith ZArith Bool.
From Verif Require Import Ast AstHashModel AstHashSpec AstHashProofs.
Import ListNotations.
Local Open Scope string_scope.

(** C11 for operations without inline fragments (the planner's input contains no named
    fragments): the input of the hash function determines the whole structure of the
    operation - kind, field names, aliases, nesting, order, @include/@skip, and for every
    field the number its argument list hashes to.  Missing: inline fragments and the
    argument values themselves, where the property is false (below).  [args_ok] excludes
    argument lists that hash to 0 or 1. *)
Theorem C11_fragment_free_structure_is_unambiguous_partial :
  forall (H : list token -> N) o1 o2,
    forallb fragment_free (op_sels o1) = true -> forallb fragment_free (op_sels o2) = true ->
    forallb (args_ok (args_hash H)) (op_sels o1) = true ->
    forallb (args_ok (args_hash H)) (op_sels o2) = true ->
    op_tokens H o1 = op_tokens H o2 ->
    eff_kind (op_kind o1) = eff_kind (op_kind o2) /\
    map (skeleton (args_hash H)) (op_sels o1) = map (skeleton (args_hash H)) (op_sels o2) /\
    option_map (vars_hash H) (op_vars o1) = option_map (vars_hash H) (op_vars o2).
Proof. exact op_inj. Qed.
Print Assumptions C11_fragment_free_structure_is_unambiguous_partial.

Definition fld (n : string) (args : option (list (string * gvalue))) (sub : list sel) : sel :=
  SField n None args None None false sub.
Definition query (vs : option (list vardef)) (l : list sel) : operation := mkop None (Some KQuery) l vs.

Example C11_premises_satisfiable :
  let H := (fun _ => 5%N) in
  let o := query None [fld "a" (Some [("x", GInt 1)]) [fld "b" None []]; SField "c" (Some "d") None (Some "v") None false []] in
  forallb fragment_free (op_sels o) = true /\ forallb (args_ok (args_hash H)) (op_sels o) = true.
Proof. vm_compute. split; reflexivity. Qed.

(** Finding 1: the end of an inline fragment is not marked.  For every hash function the
    operations [{ node { ... on A { x } y } }] and [{ node { ... on A { x y } } }] have the
    same cache key, although for a node that is not an A the first asks for y and the
    second does not. *)
Theorem C11_inline_fragment_end_refuted :
  exists s1 s2,
    (forall H (C : Type) (K : N -> C -> N) ctx,
       plan_cache_key H K (query None [fld "node" None s1]) ctx =
       plan_cache_key H K (query None [fld "node" None s2]) ctx) /\
    (forall vars, requested_all [] vars s1 <> requested_all [] vars s2).
Proof.
  exists [SFrag "A" None None [fld "x" None []]; fld "y" None []],
         [SFrag "A" None None [fld "x" None []; fld "y" None []]].
  split; [reflexivity|]. intros vars. discriminate.
Qed.
Print Assumptions C11_inline_fragment_end_refuted.

(** Finding 2: null, strings, enum values and variables hash alike.  [f(x: null)] and
    [f(x: "null")] share a cached plan, so the second request is answered with the
    literal of the first. *)
Theorem C11_null_and_string_literal_refuted :
  exists s1 s2,
    (forall H (C : Type) (K : N -> C -> N) ctx,
       plan_cache_key H K (query None s1) ctx = plan_cache_key H K (query None s2) ctx) /\
    (forall conds vars, requested_all conds vars s1 <> requested_all conds vars s2).
Proof.
  exists [fld "f" (Some [("x", GNull)]) []], [fld "f" (Some [("x", GStr "null")]) []].
  split; [reflexivity|]. intros conds vars. discriminate.
Qed.
Print Assumptions C11_null_and_string_literal_refuted.

(** Same for a variable and a string equal to its name; both operations below use every
    declared variable. *)
Theorem C11_variable_and_string_literal_refuted :
  exists vs s1 s2,
    (forall H (C : Type) (K : N -> C -> N) ctx,
       plan_cache_key H K (query (Some vs) s1) ctx = plan_cache_key H K (query (Some vs) s2) ctx) /\
    (forall conds vars, vars "id" <> AStr "id" ->
       requested_all conds vars s1 <> requested_all conds vars s2).
Proof.
  exists [mkvardef "id" (TNamed "String") None],
    [SField "user" (Some "a") (Some [("id", GVar "id")]) None None false [];
     SField "user" (Some "b") (Some [("id", GStr "id")]) None None false []],
    [SField "user" (Some "a") (Some [("id", GVar "id")]) None None false [];
     SField "user" (Some "b") (Some [("id", GVar "id")]) None None false []].
  split; [reflexivity|]. intros conds vars Hv E. cbn in E. congruence.
Qed.
Print Assumptions C11_variable_and_string_literal_refuted.

(** Finding 3: lists and input objects are not delimited: [[[1],[2]]] / [[[1,2]]] and
    [{and: {x: 1}, y: 2}] / [{and: {x: 1, y: 2}}]. *)
Theorem C11_nested_values_refuted :
  exists s1 s2 s3 s4,
    (forall H (C : Type) (K : N -> C -> N) ctx,
       plan_cache_key H K (query None s1) ctx = plan_cache_key H K (query None s2) ctx /\
       plan_cache_key H K (query None s3) ctx = plan_cache_key H K (query None s4) ctx) /\
    (forall conds vars, requested_all conds vars s1 <> requested_all conds vars s2 /\
                        requested_all conds vars s3 <> requested_all conds vars s4).
Proof.
  exists [fld "f" (Some [("m", GList [GList [GInt 1]; GList [GInt 2]])]) []],
         [fld "f" (Some [("m", GList [GList [GInt 1; GInt 2]])]) []],
         [fld "f" (Some [("where", GObj [("and", GObj [("x", GInt 1)]); ("y", GInt 2)])]) []],
         [fld "f" (Some [("where", GObj [("and", GObj [("x", GInt 1); ("y", GInt 2)])])]) []].
  split; [intros; split; reflexivity|]. intros conds vars. split; discriminate.
Qed.
Print Assumptions C11_nested_values_refuted.
