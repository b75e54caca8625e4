(** C78: the request context of coprocessors. *)
From Coq Require Import String List Bool.
From Verif Require Import JsonModel CtxModel CtxSpec CtxProofs.
Import ListNotations.
Local Open Scope string_scope.
Local Open Scope list_scope.

(** No patch, taken or refused, changes the operation, the labels to resolve, the authentication or the telemetry *)
Theorem C78_protected : forall p c c' e, apply_patch p c = (c', e) ->
  op_name c' = op_name c /\ op_kind c' = op_kind c /\ unresolved_labels c' = unresolved_labels c /\ jwt_scopes c' = jwt_scopes c /\ jwt_status c' = jwt_status c /\
  client_name c' = client_name c /\ client_version c' = client_version c.
Proof. exact apply_kept. Qed.
(** A patch is taken if and only if every entry of it is legal *)
Theorem C78_accepts : forall p c, (exists c', apply_patch p c = (c', None)) <-> Forall (fun e => legal (fst e) (snd e)) p.
Proof. exact apply_accepts. Qed.
(** A refused patch stops at the first entry that is not legal, which the error names; the entries before it remain applied *)
Theorem C78_error : forall p c c' e, apply_patch p c = (c', Some e) ->
  exists before k v after, p = before ++ (k, v) :: after /\ apply_patch before c = (c', None) /\ ~ legal k v /\
    (e = UnknownReservedKey k \/ e = ForbiddenReservedMutation k \/ e = ReservedKeyTypeMismatch k).
Proof. exact apply_fails. Qed.
(** After a patch that is taken every key has the last value given for it, null removes it, and what is not mentioned is as before *)
Theorem C78_effect : forall p c c', well_formed c -> apply_patch p c = (c', None) ->
  (forall k v, In (k, v) (custom c') <-> (~ reserved k /\ given p k v /\ v <> VNull) \/ (~ In k (map fst p) /\ In (k, v) (custom c))) /\
  (forall w, given p "hive::progressive_override::labels_to_override" (VArr (map VStr w)) -> exists s, labels_to_override c' = Some s /\ NoDup s /\ forall x, In x s <-> In x w) /\
  (given p "hive::progressive_override::labels_to_override" VNull -> labels_to_override c' = None) /\
  (~ In "hive::progressive_override::labels_to_override" (map fst p) -> labels_to_override c' = labels_to_override c) /\
  (forall b, given p "hive::persisted_documents::skip_enforcement" (VBool b) -> skip_enforcement c' = Some b) /\
  (given p "hive::persisted_documents::skip_enforcement" VNull -> skip_enforcement c' = None) /\
  (~ In "hive::persisted_documents::skip_enforcement" (map fst p) -> skip_enforcement c' = skip_enforcement c).
Proof. exact apply_changes. Qed.
(** The custom entries stay apart from those of the router, even by refused patches *)
Theorem C78_kept : forall p c c' e, apply_patch p c = (c', e) -> well_formed c -> well_formed c'.
Proof. exact apply_well. Qed.
(** The whole context is written with every key once *)
Theorem C78_written : forall iter c, well_formed c ->
  NoDup (map fst (write_selected iter true [] c)) /\ forall k v, In (k, v) (write_selected iter true [] c) <-> holds iter c k v.
Proof. intros iter c W. split; [exact (write_all_nodup iter c W) | exact (write_all_in iter c)]. Qed.
(** A selection of keys writes what the context holds under these, and nothing else *)
Theorem C78_selected : forall iter c keys, well_formed c -> NoDup keys ->
  NoDup (map fst (write_selected iter false keys c)) /\ forall k v, In (k, v) (write_selected iter false keys c) <-> In k keys /\ holds iter c k v.
Proof. intros iter c keys W N. split; [exact (selected_nodup iter c keys W N) | intros k v; exact (selected_in iter c keys k v W)]. Qed.
(** A refused patch is not undone: the coprocessor turns off the enforcement of persisted documents and fails *)
Theorem C78_atomic_refuted : ~ forall p c c' e, apply_patch p c = (c', Some e) -> c' = c.
Proof.
  intros H. specialize (H [("hive::persisted_documents::skip_enforcement", VBool true); ("hive::operation::name", VNull)] (mkcontext None None None None None None None None None []) _ _ eq_refl). discriminate.
Qed.
(** The context as it was written is not taken back: a coprocessor that returns what it got fails the request *)
Theorem C78_echo_refuted : ~ forall c, well_formed c -> exists c', apply_patch (write_selected (fun l => l) true [] c) c = (c', None).
Proof.
  intros H. destruct (H (mkcontext (Some "Q") None None None None None None None None [])) as (c' & X); [split; [constructor | intros k []] | discriminate].
Qed.

Example C78_patch : apply_patch [("a", VStr "1"); ("hive::progressive_override::labels_to_override", VArr [VStr "x"; VStr "y"; VStr "x"]); ("b", VNull); ("a", VStr "2")]
  (mkcontext (Some "Q") (Some "query") None None None None None None None [("b", VBool true); ("c", VNull)]) =
  (mkcontext (Some "Q") (Some "query") None (Some ["x"; "y"]) None None None None None [("c", VNull); ("a", VStr "2")], None).
Proof. reflexivity. Qed.
Example C78_unknown : map (fun k => snd (apply_patch [(k, VBool true)] (mkcontext None None None None None None None None None [])))
  ["hive::x"; "hive::operation::x"; "hive::operation::kind"; "hive::authentication::jwt_scopes"; "hive::authentication::x"; "hive::telemetry::client_name"; "hive::telemetry::x"; "hive::persisted_documents::x";
   "hive::progressive_override::x"; "hive::progressive_override::unresolved_labels"; "hive::progressive_override::labels_to_override"; "hive::authentication::jwt_status"; "hive::telemetry::client_version"; "hive::operation::name"; "hive:x"] =
  [Some (UnknownReservedKey "hive::x"); Some (UnknownReservedKey "hive::operation::x"); Some (ForbiddenReservedMutation "hive::operation::kind"); Some (ForbiddenReservedMutation "hive::authentication::jwt_scopes");
   Some (UnknownReservedKey "hive::authentication::x"); Some (ForbiddenReservedMutation "hive::telemetry::client_name"); Some (UnknownReservedKey "hive::telemetry::x"); Some (UnknownReservedKey "hive::persisted_documents::x");
   Some (UnknownReservedKey "hive::progressive_override::x"); Some (ForbiddenReservedMutation "hive::progressive_override::unresolved_labels"); Some (ReservedKeyTypeMismatch "hive::progressive_override::labels_to_override");
   Some (ForbiddenReservedMutation "hive::authentication::jwt_status"); Some (ForbiddenReservedMutation "hive::telemetry::client_version"); Some (ForbiddenReservedMutation "hive::operation::name"); None].
Proof. reflexivity. Qed.
Example C78_write : write_selected (fun l => l) false ["c"; "hive::operation::kind"; "hive::x"; "z"] (mkcontext (Some "Q") (Some "query") None None None None None None None [("c", VNull)]) =
  [("c", VNull); ("hive::operation::kind", VStr "query")].
Proof. reflexivity. Qed.

Print Assumptions C78_protected.
Print Assumptions C78_accepts.
Print Assumptions C78_error.
Print Assumptions C78_effect.
Print Assumptions C78_kept.
Print Assumptions C78_written.
Print Assumptions C78_selected.
Print Assumptions C78_atomic_refuted.
Print Assumptions C78_echo_refuted.
