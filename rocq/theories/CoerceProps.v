(** C24: variable coercion admits only well-typed values. *)
From Coq Require Import String List Bool ZArith NArith.
From Verif Require Import Ast CoerceModel CoerceSpec CoerceProofs.
Import ListNotations.
Local Open Scope string_scope.

(** The router accepts exactly the variable maps in which every variable that is given or has
    a default passes the check of values, and every other variable is nullable; the result is
    the value sent, else the default, of the declared variables only. *)
Theorem C24_collects_declared (finite : N -> bool) (m : metadata) op defs vars r :
  op_vars op = Some defs -> NoDup (map vd_name defs) ->
  (collect_variables finite m op vars = Ok r <->
   (forall d, In d defs ->
      variable_ok finite (fun t v => validate_runtime_value m v t = None) d vars) /\
   r = no_empty (coerced_all finite defs vars)).
Proof. exact (collect_variables_spec finite m op defs vars r). Qed.

(** A default is sent as the JSON value its literal stands for. *)
Theorem C24_default_values finite g v : value_to_json finite g = v <-> denotes finite g v.
Proof. exact (iff_sym (denotes_iff finite g v)). Qed.

(** With variables of scalar and enum types (lists and non-null included), accepted values
    conform to their declared types, up to the width of [Int]. *)
Theorem C24_accepted_conform_partial finite ds op defs vars r :
  wf_schema ds -> op_vars op = Some defs -> NoDup (map vd_name defs) ->
  (forall d, In d defs -> leaf_type ds (vd_type d)) ->
  collect_variables finite (schema_metadata ds) op vars = Ok r ->
  (forall d, In d defs -> variable_ok finite (conforms ds int64) d vars) /\
  r = no_empty (coerced_all finite defs vars).
Proof. exact (collected_conform finite ds op defs vars r). Qed.

(** And conforming values are accepted, but for integers sent for [ID] and integers beyond
    64 bits sent for [Float]. *)
Theorem C24_conforming_accepted_partial finite ds op defs vars :
  wf_schema ds -> op_vars op = Some defs -> NoDup (map vd_name defs) ->
  (forall d, In d defs -> leaf_type ds (vd_type d)) ->
  (forall d v, In d defs -> coerced finite d vars = Some v -> ids_and_floats (vd_type d) v) ->
  (forall d, In d defs -> variable_ok finite (conforms ds int32) d vars) ->
  collect_variables finite (schema_metadata ds) op vars =
  Ok (no_empty (coerced_all finite defs vars)).
Proof. exact (conform_collected finite ds op defs vars). Qed.

Definition one_var (t : tnode) : operation :=
  mkop None None [] (Some [mkvardef "v" t None]).

(** Input objects are not in the metadata, so any value but null passes for them. *)
Theorem C24_input_object_refuted :
  exists ds op d v, wf_schema ds /\ op_vars op = Some [d] /\
    ~ conforms ds int64 (vd_type d) v /\
    collect_variables (fun _ => true) (schema_metadata ds) op [(vd_name d, v)] =
    Ok (Some [(vd_name d, v)]).
Proof.
  exists [DInput "Filter" [("id", (TNonNull (TNamed "Int"), false))]],
    (one_var (TNonNull (TNamed "Filter"))), (mkvardef "v" (TNonNull (TNamed "Filter")) None), (JInt 5).
  split; [|split; [reflexivity|split; [|vm_compute; reflexivity]]].
  - split; [constructor; [intros []|constructor]|].
    intros d [<-|[]] H. exfalso. cbn in H.
    destruct H as [H|[H|[H|[H|[H|[]]]]]]; discriminate H.
  - cbn [vd_type]. intro C. inversion C as [|t v Hn C'| | | | | | | | | | | |]; subst.
    inversion C' as [| | | |z Hz|b|z|s|b|s|z|n' vs s Hd Hs|n' v' Hd Hb'|n' fs o Hd]; subst.
    destruct Hd as [Hd|[]]. discriminate Hd.
Qed.

(** [Int] variables accept integers beyond 32 bits. *)
Theorem C24_int_width_refuted :
  exists ds op d v, wf_schema ds /\ op_vars op = Some [d] /\
    ~ conforms ds int32 (vd_type d) v /\
    collect_variables (fun _ => true) (schema_metadata ds) op [(vd_name d, v)] =
    Ok (Some [(vd_name d, v)]).
Proof.
  exists [], (one_var (TNamed "Int")), (mkvardef "v" (TNamed "Int") None), (JInt 4294967296).
  split; [|split; [reflexivity|split; [|vm_compute; reflexivity]]].
  - split; [constructor|intros d []].
  - cbn [vd_type]. intro C.
    inversion C as [| | | |z Hz|b|z|s|b|s|z|n' vs s Hd Hs|n' v' Hd Hb'|n' fs o Hd]; subst.
    + destruct Hz as [_ Hz]. apply Hz. reflexivity.
    + destruct Hd.
Qed.

(** An integer sent for an [ID], which GraphQL allows, is rejected. *)
Theorem C24_id_integer_refuted :
  exists ds op d v, wf_schema ds /\ op_vars op = Some [d] /\
    conforms ds int32 (vd_type d) v /\
    collect_variables (fun _ => true) (schema_metadata ds) op [(vd_name d, v)] = Err ExpectedId.
Proof.
  exists [], (one_var (TNamed "ID")), (mkvardef "v" (TNamed "ID") None), (JInt 5).
  split; [|split; [reflexivity|split; [|vm_compute; reflexivity]]].
  - split; [constructor|intros d []].
  - apply Co_id_int.
Qed.

(** Non-vacuity. *)
Example C24_ex :
  let ds := [DEnum "Color" ["RED"]; DObject "Query" [("a", TNamed "Int")]] in
  let op := mkop None None []
    (Some [mkvardef "c" (TNonNull (TList (TNamed "Color"))) None;
           mkvardef "n" (TNamed "Int") (Some (GInt 3));
           mkvardef "s" (TNamed "String") None]) in
  collect_variables (fun _ => true) (schema_metadata ds) op
    [("x", JNull); ("c", JArr [JStr "RED"; JNull])] =
    Ok (Some [("c", JArr [JStr "RED"; JNull]); ("n", JInt 3)]) /\
  collect_variables (fun _ => true) (schema_metadata ds) op [("c", JStr "BLUE")] =
    Err (InvalidEnumValue "BLUE" "Color") /\
  collect_variables (fun _ => true) (schema_metadata ds) op [] = Err (MissingNonNullableVariable "c").
Proof. vm_compute. split; [reflexivity|]. split; reflexivity. Qed.

(** Object types of the consumer schema are checked field by field, without list wrappers. *)
Example C24_ex_objects :
  let m := schema_metadata [DObject "U" [("a", TNonNull (TList (TNamed "Int"))); ("b", TNamed "U")]] in
  validate_runtime_value m (JObj [("a", JStr "x"); ("b", JNull)]) (TNamed "U") = Some ExpectedInteger /\
  validate_runtime_value m (JObj [("a", JInt 1)]) (TNamed "U") = Some (MissingField "b" "U") /\
  validate_runtime_value m (JObj [("b", JNull); ("a", JInt 1)]) (TNamed "U") = None.
Proof. vm_compute. split; [reflexivity|]. split; reflexivity. Qed.

Print Assumptions C24_collects_declared.
Print Assumptions C24_default_values.
Print Assumptions C24_accepted_conform_partial.
Print Assumptions C24_conforming_accepted_partial.
Print Assumptions C24_input_object_refuted.
Print Assumptions C24_int_width_refuted.
Print Assumptions C24_id_integer_refuted.
