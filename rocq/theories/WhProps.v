(** C71: the headers of operations over a WebSocket come from where the configuration says. *)
From Coq Require Import Ascii String List NArith ZArith Bool Permutation.
From Verif Require Import StrUtil CoerceModel WhModel WhSpec WhProofs.
Import ListNotations.
Local Open Scope string_scope.
Local Open Scope list_scope.

(** Nothing that a client writes becomes a header that HTTP does not allow, and no header comes twice. *)
Theorem C71_legal : forall float_text c payload ops h, In h (ops_headers float_text c payload ops) -> one_each h /\ forall n v, has h n v -> legal_name n /\ legal_value v.
Proof. intros ft c p ops h I. split; [exact (ops_one ft c ops p h I)|]. intros n v J. exact (ops_legal ft c ops p h n v I J). Qed.
Print Assumptions C71_legal.

(** Each operation has the headers of the configured sources, those of the operation before those of the connection,
    and whatever the order in which the map of fields is gone through. *)
Theorem C71_sources : forall float_text c payload o conn ext, fair o -> unique_fields payload -> unique_fields (o_ext o) ->
  connection_entries payload conn -> operation_entries (o_ext o) ext -> consistent float_text conn -> consistent float_text ext ->
  forall n v, has (fst (op_headers float_text c payload o)) n v <-> meant float_text (w_source c) conn ext n v.
Proof. intros ft c p o conn ext P U U' EC EO C C' n v. exact (op_meant ft c p o conn ext n v P U U' EC EO C C'). Qed.
Print Assumptions C71_sources.

(** Even where one header is asked for twice, it is there, with one of the values. *)
Theorem C71_twice : forall float_text entries n,
  (forall v, has (from_object float_text entries) n v -> asks float_text entries n v) /\ (forall v, asks float_text entries n v -> exists w, has (from_object float_text entries) n w).
Proof.
  intros ft l n. split; intros v H.
  - apply object_sound. apply get_in; [apply object_one|exact H].
  - destruct (object_some ft l n v H) as [w G]. exists w. apply get_in; [apply object_one|exact G].
Qed.
Print Assumptions C71_twice.

(** Without [persist], operations of a connection do not affect one another. *)
Theorem C71_apart : forall float_text c payload ops, w_persist c = false -> ops_headers float_text c payload ops = map (fun o => fst (op_headers float_text c payload o)) ops.
Proof. intros ft c p ops E. exact (ops_forget ft c ops p E). Qed.
Print Assumptions C71_apart.

(** [persist] means nothing when the headers of operations are not accepted ... *)
Theorem C71_connection : forall float_text c fields ops h, w_source c = FromConnection -> Forall fair ops -> flat fields -> consistent float_text fields ->
  In h (ops_headers float_text c (Some fields) ops) -> forall n v, has h n v <-> asks float_text fields n v.
Proof. intros ft c fields ops h S FA FL C I n v. exact (conn_always ft c ops fields h S FA FL C I n v). Qed.
Print Assumptions C71_connection.
(** ... or those of the connection. *)
Theorem C71_operation : forall float_text c payload ops, w_source c = FromOperation \/ w_source c = FromNone ->
  ops_headers float_text c payload ops = map (fun o => if accepts_operation c then fold_left (fun m kv => put (fst kv) (snd kv) m) (from_extensions float_text (o_ext o)) [] else []) ops.
Proof.
  intros ft c payload ops S. revert payload. induction ops as [|o ops IH]; intros payload; [reflexivity|]. cbn [ops_headers map]. unfold op_headers. rewrite IH. f_equal. unfold accepts_connection, accepts_operation. destruct S as [-> | ->]; reflexivity.
Qed.
Print Assumptions C71_operation.

(** With [persist] and both sources, the latest value of a header is the one that counts: when the connection came
    with its headers in the payload itself and in lower case, and operations bring values of plain ASCII. *)
Theorem C71_remembered_partial : forall float_text fields before o after eb e h, lowered fields -> Forall2 (suits float_text) before eb -> suits float_text o e ->
  nth_error (ops_headers float_text (mkwconfig FromBoth true) (Some fields) (before ++ o :: after)) (length before) = Some h ->
  forall n v, has h n v <-> latest float_text fields (e :: rev eb) n v.
Proof. intros ft fields before o after eb e h LO FB SO H n v. exact (both_latest ft before fields o after eb e h n v LO FB SO H). Qed.
Print Assumptions C71_remembered_partial.

(** A connection comes with an old token, its first operation brings a new one, its second none. *)
Definition both : wconfig := mkwconfig FromBoth true.
Definition token_of (l : list hmap) : list (option string) := map (kget "authorization") l.
Definition bring (ord : list (string * json) -> list (string * json)) (v : string) : wop := mkwop ord (Some [("headers", JObj [("authorization", JStr v)])]).
(** The name in the usual case: which token the second has depends on the order of a hash map. *)
Theorem C71_case_refuted : forall float_text,
  token_of (ops_headers float_text both (Some [("Authorization", JStr "old")]) [bring (@rev _) "new"; mkwop (@rev _) None]) = [Some "new"; Some "old"] /\
  token_of (ops_headers float_text both (Some [("Authorization", JStr "old")]) [bring (fun l => l) "new"; mkwop (fun l => l) None]) = [Some "new"; Some "new"] /\
  (forall l : list (string * json), Permutation l (rev l)) /\ flat [("Authorization", JStr "old")] /\ latest float_text [("Authorization", JStr "old")] [[]; [("authorization", JStr "new")]] "authorization" "new".
Proof.
  intros ft. split; [vm_compute; reflexivity|]. split; [vm_compute; reflexivity|]. split; [intros l; apply Permutation_rev|]. split.
  - split; [constructor; [intros []|constructor]|]. intros o [[=]|[]].
  - cbn [latest]. right. split; [intros (w & k & j & [] & _)|]. left. apply asks_iff. exists "authorization", (JStr "new"). split; [now left|split; vm_compute; reflexivity].
Qed.
Print Assumptions C71_case_refuted.
(** The headers in an object of the payload: the new token is forgotten, in any order. *)
Theorem C71_nested_refuted : forall float_text ord, token_of (ops_headers float_text both (Some [("headers", JObj [("authorization", JStr "old")])]) [bring ord "new"; mkwop ord None]) = [Some "new"; Some "old"].
Proof. intros ft ord. vm_compute. reflexivity. Qed.
Print Assumptions C71_nested_refuted.
(** No payload: forgotten too. *)
Theorem C71_absent_refuted : forall float_text ord, token_of (ops_headers float_text both None [bring ord "new"; mkwop ord None]) = [Some "new"; None].
Proof. intros ft ord. vm_compute. reflexivity. Qed.
Print Assumptions C71_absent_refuted.
(** A value with other characters than those of ASCII: forgotten. *)
Theorem C71_accents_refuted : forall float_text,
  map (kget "x-name") (ops_headers float_text both (Some [("x-name", JStr "rene")]) [mkwop (fun l => l) (Some [("headers", JObj [("x-name", JStr "rené")])]); mkwop (fun l => l) None]) = [Some "rené"; Some "rene"].
Proof. intros ft. vm_compute. reflexivity. Qed.
Print Assumptions C71_accents_refuted.

(** What a router tells a subgraph in the payload of a connection is read back as the same headers ... *)
Theorem C71_relay : forall float_text ord h, (forall l, Permutation l (ord l)) -> one_each h -> (forall k x, In (k, x) h -> legal_name k /\ legal_value x) ->
  forall n v, has (from_init float_text ord (Some (to_payload h))) n v <-> In (n, v) h /\ ascii_value v.
Proof. intros ft ord h P D L n v. exact (relay ft ord h n v P D L). Qed.
Print Assumptions C71_relay.
(** ... but of several values of one header only the last is told. *)
Theorem C71_several_refuted : to_payload [("cookie", "a=1"); ("cookie", "b=2")] = [("cookie", JStr "b=2")].
Proof. vm_compute. reflexivity. Qed.
Print Assumptions C71_several_refuted.

Example C71_example_values : forall float_text, from_object float_text [("X-Number", JInt 42); ("x-neg", JInt (-7)); ("x bad", JStr "v"); ("X-Bool", JBool true); ("x-line", JStr (String "010" "")); ("x-null", JNull); ("X-NUMBER", JBool false); ("", JStr "v")] =
  [("x-number", "false"); ("x-neg", "-7"); ("x-bool", "true")].
Proof. intros ft. vm_compute. reflexivity. Qed.
Example C71_example_refresh : forall float_text, token_of (ops_headers float_text both (Some [("authorization", JStr "old")]) [mkwop (@rev _) None; bring (@rev _) "new"; mkwop (@rev _) None]) = [Some "old"; Some "new"; Some "new"].
Proof. intros ft. vm_compute. reflexivity. Qed.
Example C71_example_lowered : lowered [("authorization", JStr "old")].
Proof. split; [split; [constructor; [intros []|constructor]|intros o [[=]|[]]]|]. intros k j [[= <- <-]|[]]. reflexivity. Qed.
