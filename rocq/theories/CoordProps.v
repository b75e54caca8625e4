(** C76: the schema coordinates reported for an operation. *)
From Coq Require Import String List ZArith Bool.
From Verif Require Import Ast ConsumerModel IntroModel CondModel NormModel WalkModel CoordModel CoordSpec CoordProofs CoordMain CoordFinal CoordCases.
Import ListNotations.
Local Open Scope string_scope.
Local Open Scope list_scope.

(** The collection ends for every schema, also one with input types that contain themselves. It fails exactly when a field or an argument is met
    outside of a known type, and otherwise gives exactly what the calls say and what is within the types of the variables, whatever the order of the set. *)
Theorem C76_collected : forall sch iter, (forall l x, In x (iter l) <-> In x l) -> forall doc calls, walk sch doc = Some calls ->
  collect sch iter doc = NoParent /\ orphan calls \/
  ~ orphan calls /\ exists l, collect sch iter doc = Coordinates l /\ forall c, In c l <-> reported sch calls c.
Proof. exact collect_spec. Qed.
Print Assumptions C76_collected.
(** The types within an input type are found, each, however they refer to each other *)
Theorem C76_references : forall sch n, exists l, refs sch (enough sch) n [] = Some l /\ forall x, In x l <-> reach sch n x.
Proof. exact refs_all. Qed.
Print Assumptions C76_references.
(** What was visited before does not matter for what is added *)
Theorem C76_nested : forall sch n s, closed sch s ->
  exists s', nested sch (enough sch) n s = Some s' /\ closed sch s' /\ forall c, In c (snd s') <-> In c (snd s) \/ within sch n c.
Proof. exact nested_adds. Qed.
Print Assumptions C76_nested.
(** The values of a default are reported with their fields *)
Theorem C76_default : forall sch v t c, In c (default_coords sch t v) <-> in_default sch t v c.
Proof. exact default_iff. Qed.
Print Assumptions C76_default.

(** The argument of a directive is reported as one of the field: [{ user @include(if: true) { id } }] *)
Theorem C76_directive_refuted : exists l, collect shop (fun l => l) [query [NField None "user" [] [applied "include" [("if", GBool true)]] [NField None "id" [] [] []]]] = Coordinates l /\
  In (CArg "Query" "user" "if") l /\ In (CGiven (CArg "Query" "user" "if")) l.
Proof. exact case_directive. Qed.
Print Assumptions C76_directive_refuted.
(** ... or of a field of another type: [{ user { ... @include(if: true) { id } } }] *)
Theorem C76_inline_refuted : exists l, collect shop (fun l => l) [query [NField None "user" [] [] [NInline None [applied "include" [("if", GBool true)]] [NField None "id" [] [] []]]]] = Coordinates l /\
  In (CArg "User" "user" "if") l.
Proof. exact case_inline. Qed.
Print Assumptions C76_inline_refuted.
(** A directive with an argument on the operation makes the collection fail: [query @cached(ttl: 1) { user { id } }] *)
Theorem C76_operation_refuted :
  collect shop (fun l => l) [QOp KQuery None [applied "cached" [("ttl", GInt 1)]] [] [NField None "user" [] [] [NField None "id" [] [] []]]] = NoParent.
Proof. exact case_operation. Qed.
Print Assumptions C76_operation_refuted.
(** Objects in a list that must not be null are passed over: [{ users(all: [{ name: "x" }]) { id } }] against [{ users(some: [{ name: "x" }]) { id } }] *)
Theorem C76_list_refuted :
  (exists l, collect shop (fun l => l) [query [NField None "users" [("all", GList [GObj [("name", GStr "x")]])] [] [NField None "id" [] [] []]]] = Coordinates l /\ ~ In (CMember "Filter" "name") l) /\
  (exists l, collect shop (fun l => l) [query [NField None "users" [("some", GList [GObj [("name", GStr "x")]])] [] [NField None "id" [] [] []]]] = Coordinates l /\ In (CMember "Filter" "name") l).
Proof. exact case_list. Qed.
Print Assumptions C76_list_refuted.
(** Whether an argument counts as given depends on the order of the definitions *)
Theorem C76_order_refuted :
  let op := QOp KQuery None [] [mkvardef "n" (TNamed "Int") (Some (GInt 5))] [NSpread "F" []] in
  let frag := QFrag "F" "Query" [] [NField None "users" [("limit", GVar "n")] [] [NField None "id" [] [] []]] in
  (exists l, collect shop (fun l => l) [op; frag] = Coordinates l /\ In (CGiven (CArg "Query" "users" "limit")) l) /\
  (exists l, collect shop (fun l => l) [frag; op] = Coordinates l /\ ~ In (CGiven (CArg "Query" "users" "limit")) l).
Proof. exact case_order. Qed.
Print Assumptions C76_order_refuted.

(** The coordinates under which uses are counted are the same only if all their parts are *)
Theorem C76_same_coordinate : forall a b, coord_eqb a b = true <-> a = b.
Proof. exact coord_eqb_eq. Qed.
Print Assumptions C76_same_coordinate.

(** A variable of an input type that contains itself, and an enum *)
Example C76_example_variable : exists l,
  collect shop (fun l => l) [QOp KQuery None [] [mkvardef "f" (TList (TNamed "Filter")) (Some (GList [GObj [("role", GEnum "ADMIN")]]))] [NField None "users" [("some", GVar "f")] [] [NField None "role" [] [] []]]] = Coordinates l /\
  (forall c, In c [CMember "Query" "users"; CGiven (CArg "Query" "users" "some"); CArg "Query" "users" "some"; CMember "Filter" "name"; CMember "Filter" "sub"; CMember "Filter" "role";
     CGiven (CMember "Filter" "role"); CMember "Role" "ADMIN"; CMember "Role" "GUEST"; CType "String"; CMember "User" "role"] <-> In c l).
Proof. exact case_variable. Qed.
(** A null stands for all that could be in its place *)
Example C76_example_null : exists l,
  collect shop (fun l => l) [query [NField None "users" [("some", GList [GObj [("sub", GNull)]]); ("limit", GInt 3)] [] [NField None "id" [] [] []]]] = Coordinates l /\
  (forall c, In c [CMember "Query" "users"; CGiven (CArg "Query" "users" "some"); CArg "Query" "users" "some"; CMember "Filter" "name"; CMember "Filter" "sub"; CMember "Filter" "role";
     CMember "Role" "ADMIN"; CMember "Role" "GUEST"; CType "String"; CGiven (CArg "Query" "users" "limit"); CArg "Query" "users" "limit"; CType "Int"; CMember "User" "id"] <-> In c l).
Proof. exact case_null. Qed.
(** No field of a type that is not known *)
Example C76_example_unknown : collect shop (fun l => l) [query [NField None "nothing" [] [] [NField None "id" [] [] []]]] = NoParent.
Proof. vm_compute. reflexivity. Qed.
