(** Properties of the consumer schema. *)
From Coq Require Import String List Bool.
From Verif Require Import Ast ConsumerModel ConsumerSpec ConsumerProofs ConsumerParts ConsumerCases.
Import ListNotations.
Local Open Scope string_scope.

(** Everything a client may see is there, with its public directives; and the introspection fields are there. *)
Theorem C53_shows_all introspection l q : extensionless l -> answers l -> queried l q ->
  exists r, consumer_schema introspection l = Some r
    /\ (forall e ds, shown l e ds -> public e -> exists ds', without_internal ds ds' /\ says r e ds')
    /\ (forall e ds, added introspection q e ds -> says r e ds).
Proof.
  intros Hx Ha Hq. destruct (built introspection l q Hx Ha Hq) as [r [E [H1 [H2 _]]]]. now exists r.
Qed.
(** Nothing else is there, provided the types that are not hidden have a field that is not. *)
Theorem C53_shows_only_partial introspection l q : extensionless l -> answers l -> queried l q -> composed l ->
  exists r, consumer_schema introspection l = Some r
    /\ forall e ds', says r e ds' ->
         (exists ds, shown l e ds /\ public e /\ without_internal ds ds') \/ added introspection q e ds'.
Proof.
  intros Hx Ha Hq Hc. destruct (built introspection l q Hx Ha Hq) as [r [E [_ [_ H3]]]]. exists r. split; [exact E|exact (H3 Hc)].
Qed.
(** Then no name in it is undefined, if what is shown speaks only of what is shown. *)
Theorem C53_references_resolve introspection l q r :
  extensionless l -> answers l -> queried l q -> composed l -> self_contained introspection l q ->
  consumer_schema introspection l = Some r -> closed r.
Proof. exact (resolved introspection l q r). Qed.
Theorem C53_all_fields_hidden_refuted : exists introspection l q r e ds,
  extensionless l /\ answers l /\ queried l q /\ consumer_schema introspection l = Some r
  /\ says r e ds /\ (forall ds', ~ shown l e ds') /\ (forall ds', ~ added introspection q e ds').
Proof. exact all_hidden. Qed.
Theorem C53_hidden_member_refuted : exists introspection l q r u t ds,
  extensionless l /\ answers l /\ queried l q /\ composed l /\ consumer_schema introspection l = Some r
  /\ says r (EMember u t) ds /\ ~ type_shown l t /\ ~ has_type r t.
Proof. exact hidden_member. Qed.
Theorem C53_hidden_interface_refuted : exists introspection l q r t i ds,
  extensionless l /\ answers l /\ queried l q /\ composed l /\ consumer_schema introspection l = Some r
  /\ says r (EImplements t i) ds /\ ~ type_shown l i /\ ~ has_type r i.
Proof. exact hidden_interface. Qed.
Theorem C53_context_types_refuted : exists introspection l q r,
  extensionless l /\ answers l /\ queried l q /\ composed l /\ consumer_schema introspection l = Some r
  /\ says r (EType KindScalar "join__FieldValue" None) [] /\ forall ds, ~ added introspection q (EType KindScalar "join__FieldValue" None) ds.
Proof. exact context_shown. Qed.
Theorem C53_nothing_replaced_refuted : exists introspection l q r n,
  extensionless l /\ queried l q /\ consumer_schema introspection l = Some r /\ ~ type_shown l n /\ has_type r n.
Proof. exact nothing_replaced. Qed.
Theorem C53_extensions_panic introspection l1 n l2 : consumer_schema introspection (l1 ++ TypeExtension n :: l2) = None.
Proof. exact (extension_panics introspection l1 n l2). Qed.
Example C53_nonvacuous : consumer_schema [TypeDef (Object "Query" None [] [] [plain "__schema" (TNamed "Int")]); TypeDef (Scalar "Int" None [])] nice = Some
  [TypeDef (Object "Query" None [] [] [plain "a" (TNamed "Int"); plain "__schema" (TNamed "Int")]);
   TypeDef (Object "T" None [] [mkdirective "shout" []] [mkfield "a" None [mkinput "y" None (TNamed "Int") None []] (TNamed "Int") []]);
   TypeDef (Scalar "Int" None [])].
Proof. exact nice_shown. Qed.

Print Assumptions C53_shows_all.
Print Assumptions C53_shows_only_partial.
Print Assumptions C53_references_resolve.
Print Assumptions C53_all_fields_hidden_refuted.
Print Assumptions C53_hidden_member_refuted.
Print Assumptions C53_hidden_interface_refuted.
Print Assumptions C53_context_types_refuted.
Print Assumptions C53_nothing_replaced_refuted.
Print Assumptions C53_extensions_panic.
