(** Properties of introspection. *)
From Coq Require Import String List Bool Permutation.
From Verif Require Import Ast JsonModel ConsumerModel ConsumerSpec IntroModel IntroSpec IntroFields IntroMain IntroCases.
Import ListNotations.
Local Open Scope string_scope.

(** Introspection queries are answered as the specification says, whatever the orders of the hash tables; each of the things
    that go wrong has its condition. *)
Theorem C54_answers_as_specified_partial schema vars shuffle_names shuffle_types show root op :
  (forall l, Permutation l (shuffle_names l)) -> (forall l, Permutation l (shuffle_types l)) ->
  sound schema -> NoDup (map fst vars) ->
  root_is schema (root_of op) (Some root) -> String.prefix "__" root = false ->
  Forall (simple vars root root) (op_sels op) -> NoDup (flat_map keys (op_sels op)) ->
  (forall x, In x (op_sels op) ->
     (asks "deprecationReason" x -> reasons_given schema) /\ (asks "interfaces" x -> interfaceless schema)
     /\ (asks "possibleTypes" x -> interfaces_flat schema) /\ (asks "args" x \/ asks "inputFields" x -> inputs_current schema)
     /\ (asks "mutationType" x \/ asks "subscriptionType" x -> no_stray_root schema)) ->
  exists v, resolve_introspection schema vars shuffle_names shuffle_types show op = Some v
            /\ gives schema vars show (TheRoot root) (op_sels op) v.
Proof.
  intros Hn Ht Hs Hv Hr Hp Hsimple Hk Hl. apply introspection_good; try assumption. intros f x Hi Hf. destruct (Hl x Hi) as [H1 [H2 [H3 [H4 H5]]]].
  repeat split; [intros ->|intros ->|intros ->|intros [->| ->]|intros [->| ->]]; tauto.
Qed.
Theorem C54_default_reason_refuted : exists l, l = type_query "Query" [field_of "fields" all_too [field_of "deprecationReason" [] []]]
  /\ sound small /\ root_is small KQuery (Some "Query") /\ answered_wrongly l.
Proof. eexists. split; [reflexivity|]. split; [exact small_sound|]. split; [exact small_query|exact no_reason]. Qed.
Theorem C54_interfaces_of_interfaces_refuted : exists l, l = type_query "J" [field_of "interfaces" [] [field_of "name" [] []]]
  /\ sound small /\ root_is small KQuery (Some "Query") /\ answered_wrongly l.
Proof. eexists. split; [reflexivity|]. split; [exact small_sound|]. split; [exact small_query|exact no_interfaces]. Qed.
Theorem C54_possible_types_refuted : exists l, l = type_query "I" [field_of "possibleTypes" [] [field_of "name" [] []]]
  /\ sound small /\ root_is small KQuery (Some "Query") /\ answered_wrongly l.
Proof. eexists. split; [reflexivity|]. split; [exact small_sound|]. split; [exact small_query|exact interfaces_possible]. Qed.
Theorem C54_deprecated_arguments_refuted : exists l, l = type_query "Query" [field_of "fields" all_too [field_of "args" [] [field_of "name" [] []]]]
  /\ sound small /\ root_is small KQuery (Some "Query") /\ answered_wrongly l.
Proof. eexists. split; [reflexivity|]. split; [exact small_sound|]. split; [exact small_query|exact deprecated_args]. Qed.
Theorem C54_fragment_in_schema_refuted : exists l, l = [field_of "__schema" [] [SFrag "__Schema" None None [field_of "queryType" [] [field_of "name" [] []]]]]
  /\ sound small /\ root_is small KQuery (Some "Query") /\ answered_wrongly l.
Proof. eexists. split; [reflexivity|]. split; [exact small_sound|]. split; [exact small_query|exact schema_fragment]. Qed.
Theorem C54_repeated_keys_refuted : exists l, l = type_query "I" [SFrag "__Type" None None [field_of "fields" [] [field_of "name" [] []]]; field_of "fields" [] [field_of "description" [] []]]
  /\ sound small /\ root_is small KQuery (Some "Query") /\ answered_wrongly l.
Proof. eexists. split; [reflexivity|]. split; [exact small_sound|]. split; [exact small_query|exact not_merged]. Qed.
Theorem C54_stray_mutation_refuted : exists l, l = [field_of "__schema" [] [field_of "mutationType" [] [field_of "name" [] []]]]
  /\ sound small /\ root_is small KQuery (Some "Query") /\ answered_wrongly l.
Proof. eexists. split; [reflexivity|]. split; [exact small_sound|]. split; [exact small_query|exact stray_mutation]. Qed.
Theorem C54_unknown_type_panics : exists l, Forall (valid [] "Query" "Query") l /\ root_is broken KQuery (Some "Query")
  /\ resolve_introspection broken [] same same nothing_shown (mkop None (Some KQuery) l None) = None.
Proof. exact unknown_type. Qed.
Example C54_example : answer_to [field_of "__schema" [] [field_of "queryType" [] [field_of "name" [] []; field_of "fields" all_too [field_of "name" [] []; field_of "type" [] [field_of "kind" [] []]]]]; field_of "__type" [("name", GStr "X")] [field_of "name" [] []]]
  = Some (VObj [("__schema", VObj [("queryType", VObj [("fields", VArr [VObj [("name", VStr "old"); ("type", VObj [("kind", VStr "SCALAR")])]]); ("name", VStr "Query")])]); ("__type", VNull)]).
Proof. exact answered. Qed.

Print Assumptions C54_answers_as_specified_partial.
Print Assumptions C54_default_reason_refuted.
Print Assumptions C54_interfaces_of_interfaces_refuted.
Print Assumptions C54_possible_types_refuted.
Print Assumptions C54_deprecated_arguments_refuted.
Print Assumptions C54_fragment_in_schema_refuted.
Print Assumptions C54_repeated_keys_refuted.
Print Assumptions C54_stray_mutation_refuted.
Print Assumptions C54_unknown_type_panics.
