(** Operations on a small schema. *)
From Coq Require Import String List ZArith Bool.
From Verif Require Import Ast ConsumerModel IntroModel CondModel NormModel WalkModel CoordModel.
Import ListNotations.
Local Open Scope string_scope.
Local Open Scope list_scope.

(** [type Query { user: User, users(all: [Filter!]!, some: [Filter], limit: Int): User } type User { id: ID, role: Role } enum Role { ADMIN GUEST }
    input Filter { name: String, sub: Filter, role: Role } directive @include(if: Boolean!) directive @cached(ttl: Int)] *)
Definition shop : list definition :=
  let input n t := mkinput n None t None [] in
  [TypeDef (Object "Query" None [] []
     [mkfield "user" None [] (TNamed "User") [];
      mkfield "users" None [input "all" (TNonNull (TList (TNonNull (TNamed "Filter")))); input "some" (TList (TNamed "Filter")); input "limit" (TNamed "Int")] (TNamed "User") []]);
   TypeDef (Object "User" None [] [] [mkfield "id" None [] (TNamed "ID") []; mkfield "role" None [] (TNamed "Role") []]);
   TypeDef (Enum "Role" None [] [mkenumvalue "ADMIN" None []; mkenumvalue "GUEST" None []]);
   TypeDef (InputObject "Filter" None [] [input "name" (TNamed "String"); input "sub" (TNamed "Filter"); input "role" (TNamed "Role")]);
   DirectiveDef "include" None [input "if" (TNonNull (TNamed "Boolean"))] false ["FIELD"; "INLINE_FRAGMENT"];
   DirectiveDef "cached" None [input "ttl" (TNamed "Int")] false ["QUERY"]].
Definition applied (n : string) (args : list (string * gvalue)) : CondModel.directive := {| CondModel.d_name := n; CondModel.d_args := args |}.
Definition query (set : list nsel) : qdef := QOp KQuery None [] [] set.
Ltac run := eexists; split; [vm_compute; reflexivity|].
Lemma case_directive : exists l, collect shop (fun l => l) [query [NField None "user" [] [applied "include" [("if", GBool true)]] [NField None "id" [] [] []]]] = Coordinates l /\
  In (CArg "Query" "user" "if") l /\ In (CGiven (CArg "Query" "user" "if")) l.
Proof. run. cbn. tauto. Qed.
Lemma case_inline : exists l, collect shop (fun l => l) [query [NField None "user" [] [] [NInline None [applied "include" [("if", GBool true)]] [NField None "id" [] [] []]]]] = Coordinates l /\
  In (CArg "User" "user" "if") l.
Proof. run. cbn. tauto. Qed.
Lemma case_operation :
  collect shop (fun l => l) [QOp KQuery None [applied "cached" [("ttl", GInt 1)]] [] [NField None "user" [] [] [NField None "id" [] [] []]]] = NoParent.
Proof. vm_compute. reflexivity. Qed.
Lemma case_list :
  (exists l, collect shop (fun l => l) [query [NField None "users" [("all", GList [GObj [("name", GStr "x")]])] [] [NField None "id" [] [] []]]] = Coordinates l /\ ~ In (CMember "Filter" "name") l) /\
  (exists l, collect shop (fun l => l) [query [NField None "users" [("some", GList [GObj [("name", GStr "x")]])] [] [NField None "id" [] [] []]]] = Coordinates l /\ In (CMember "Filter" "name") l).
Proof. split; run; cbn; [intuition discriminate | tauto]. Qed.
Lemma case_order :
  let op := QOp KQuery None [] [mkvardef "n" (TNamed "Int") (Some (GInt 5))] [NSpread "F" []] in
  let frag := QFrag "F" "Query" [] [NField None "users" [("limit", GVar "n")] [] [NField None "id" [] [] []]] in
  (exists l, collect shop (fun l => l) [op; frag] = Coordinates l /\ In (CGiven (CArg "Query" "users" "limit")) l) /\
  (exists l, collect shop (fun l => l) [frag; op] = Coordinates l /\ ~ In (CGiven (CArg "Query" "users" "limit")) l).
Proof. split; run; cbn; [tauto | intuition discriminate]. Qed.
Lemma case_variable : exists l,
  collect shop (fun l => l) [QOp KQuery None [] [mkvardef "f" (TList (TNamed "Filter")) (Some (GList [GObj [("role", GEnum "ADMIN")]]))] [NField None "users" [("some", GVar "f")] [] [NField None "role" [] [] []]]] = Coordinates l /\
  (forall c, In c [CMember "Query" "users"; CGiven (CArg "Query" "users" "some"); CArg "Query" "users" "some"; CMember "Filter" "name"; CMember "Filter" "sub"; CMember "Filter" "role";
     CGiven (CMember "Filter" "role"); CMember "Role" "ADMIN"; CMember "Role" "GUEST"; CType "String"; CMember "User" "role"] <-> In c l).
Proof. run. intros c. cbn. tauto. Qed.
Lemma case_null : exists l,
  collect shop (fun l => l) [query [NField None "users" [("some", GList [GObj [("sub", GNull)]]); ("limit", GInt 3)] [] [NField None "id" [] [] []]]] = Coordinates l /\
  (forall c, In c [CMember "Query" "users"; CGiven (CArg "Query" "users" "some"); CArg "Query" "users" "some"; CMember "Filter" "name"; CMember "Filter" "sub"; CMember "Filter" "role";
     CMember "Role" "ADMIN"; CMember "Role" "GUEST"; CType "String"; CGiven (CArg "Query" "users" "limit"); CArg "Query" "users" "limit"; CType "Int"; CMember "User" "id"] <-> In c l).
Proof. run. intros c. cbn. tauto. Qed.
