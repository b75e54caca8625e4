(** Properties C39 and C15: the representations sent with entity fetches. *)
From Coq Require Import String Ascii List NArith ZArith Bool.
From Verif Require Import StrOrd StrUtil JsonModel JsonWriterModel JsonText JsonWriterProofs Ast TraverseModel
  ProjModel ProjSpec ProjProofs ProjTextProofs RequiresModel RequiresSpec RequiresProofs RequiresFacts RequiresHash.
Import ListNotations.
Local Open Scope string_scope.

(** ** C39 *)
(** What is appended to the request body for one entity is exactly its representation; nothing
    remains in the buffer when there is none. *)
Theorem C39_buffer_holds_the_representation :
  forall ryu pt sels v, forallb plain_sel sels = true -> tidy pt sels v = true ->
  forall buf first key,
  project_requires ryu pt sels v buf first key =
  match rep pt sels v with
  | None => (false, buf)
  | Some w => (true, write_key first key buf ++ print_value ryu w)
  end.
Proof. exact project_requires_ok. Qed.

(** Selections whose fragments all select more than the type name are always tidy. *)
Theorem C39_tidy_selections :
  forall pt sels, forallb no_bare sels = true -> forall v, tidy pt sels v = true.
Proof. exact no_bare_tidy. Qed.

(** The text is JSON for the representation. *)
Theorem C39_representation_is_json :
  forall ryu raw, (forall b, finite b = true -> json_number (ryu b)) ->
  forall pt sels v text, forallb plain_sel sels = true -> tidy pt sels v = true -> data_ok raw v ->
  project_requires ryu pt sels v "" true None = (true, text) ->
  exists w, rep pt sels v = Some w /\ decode text = Some (value_json ryu raw w).
Proof.
  intros ryu raw R pt sels v text P T D E. rewrite (project_requires_ok ryu pt sels v P T) in E.
  destruct (rep pt sels v) as [w|] eqn:Er; [|discriminate E]. exists w. split; [reflexivity|].
  injection E as <-. apply text_decodes. apply (value_text ryu raw R). exact (rep_ok pt raw sels v w D Er).
Qed.

(** An object's representation has the type name and exactly the required fields found in the
    data (under their name or response key), each with the representation of its value. *)
Theorem C39_members_of_a_representation :
  forall pt sels o ms, sels <> [] -> rep pt sels (VObj o) = Some (VObj ms) ->
  forall k w, In (k, w) ms <->
    (k = "__typename" /\ exists t, typename_of o = Some t /\ w = VStr t) \/
    (exists n sub v, required pt o sels n k sub /\ stored o n k = Some v /\ field_value pt sub v = Some w).
Proof. exact rep_members. Qed.

(** An object is left out exactly when the data has none of the required fields (and its bare
    type name is not asked for). *)
Theorem C39_objects_left_out :
  forall pt sels o t, sels <> [] -> typename_of o = Some t ->
  (rep pt sels (VObj o) = None <->
   ~ bare pt o sels /\ forall n k sub, required pt o sels n k sub -> stored o n k = None).
Proof. exact rep_none. Qed.
Theorem C39_untyped_objects_left_out :
  forall pt sels o, sels <> [] -> typename_of o = None ->
  (rep pt sels (VObj o) = None <->
   forall n k sub v, required pt o sels n k sub -> stored o n k = Some v -> field_value pt sub v = None).
Proof. exact rep_none_untyped. Qed.

(** Required fields without selections are sent unchanged unless a list in them has a null. *)
Theorem C39_leaf_values_are_sent_whole :
  forall pt v, dense v = true -> field_value pt [] v = Some v.
Proof. exact dense_whole. Qed.

Definition fld (n : string) (sub : list sel) := SField n None None None None false sub.
Definition on (c : string) (sub : list sel) := SFrag c None None sub.
Definition no_types : ptypes := fun _ => None.

(** C39 refuted: a required list loses its null items, so the subgraph sees another list. *)
Theorem C39_null_items_are_sent_refuted :
  exists pt sels o, rep pt sels (VObj o)
    = Some (VObj [("__typename", VStr "P"); ("prices", VArr [VU64 1; VU64 3])]) /\
    get "prices" o = Some (VArr [VU64 1; VNull; VU64 3]).
Proof.
  exists no_types, [on "P" [fld "__typename" []; fld "prices" []]],
    [("__typename", VStr "P"); ("prices", VArr [VU64 1; VNull; VU64 3])]. split; reflexivity.
Qed.

(** C39 refuted: a fragment that selects only the type name after another field makes the
    representation malformed. *)
Theorem C39_bare_fragment_is_json_refuted :
  exists ryu pt sels v text, project_requires ryu pt sels v "" true None = (true, text) /\ decode text = None.
Proof.
  exists (fun _ => "0"), no_types, [fld "id" []; on "P" [fld "__typename" []]],
    (VObj [("__typename", VStr "P"); ("id", VU64 1)]).
  eexists. split; reflexivity.
Qed.

(** ** C15 *)
(** Two entities with equal hash streams have equal representations, when the requirement selects
    the type name first for each type and entities of the same type have the same kinds of values
    where the requirement looks. *)
Theorem C15_equal_streams_mean_equal_representations_partial :
  forall pt sels o1 o2 t1 t2 h, forallb by_type sels = true -> sels <> [] ->
  typename_of o1 = Some t1 -> typename_of o2 = Some t2 -> no_ff t1 = true -> no_ff t2 = true ->
  (forall c inc skip sub, In (SFrag c inc skip sub) sels -> decided pt o1 c /\ decided pt o2 c) ->
  (t1 = t2 -> all_similar pt sels o1 o2) ->
  hash_with pt sels (VObj o1) = Some h -> hash_with pt sels (VObj o2) = Some h ->
  rep pt sels (VObj o1) = rep pt sels (VObj o2).
Proof. exact by_type_inj. Qed.

(** The same for arbitrary requirements and two objects of one type. *)
Theorem C15_equal_streams_of_one_type_partial :
  forall pt sels o1 o2 h, sels <> [] -> typename_of o1 = typename_of o2 -> all_similar pt sels o1 o2 ->
  hash_with pt sels (VObj o1) = Some h -> hash_with pt sels (VObj o2) = Some h ->
  rep pt sels (VObj o1) = rep pt sels (VObj o2).
Proof. exact same_type_inj. Qed.

(** Plain values: equal streams mean equal values of the same kind, whatever follows. *)
Theorem C15_value_streams_are_prefix_free :
  forall a b r1 r2, same_kind a b -> (hash_value a ++ r1 = hash_value b ++ r2)%list -> a = b /\ r1 = r2.
Proof. exact hash_value_inj. Qed.

(** C15 refuted: the streams do not say what kind a value is. *)
Theorem C15_kinds_of_values_refuted :
  exists pt sels, forall a b,
  In (a, b) [(VU64 0, VF64 0); (VU64 0, VArr []); (VI64 (-1), VU64 18446744073709551615)] ->
  exists h w1 w2,
    hash_with pt sels (VObj [("__typename", VStr "P"); ("id", a)]) = Some h /\
    hash_with pt sels (VObj [("__typename", VStr "P"); ("id", b)]) = Some h /\
    rep pt sels (VObj [("__typename", VStr "P"); ("id", a)]) = Some w1 /\
    rep pt sels (VObj [("__typename", VStr "P"); ("id", b)]) = Some w2 /\ w1 <> w2.
Proof.
  exists no_types, [on "P" [fld "__typename" []; fld "id" []]].
  intros a b [H|[H|[H|[]]]]; injection H as <- <-; do 3 eexists;
    (split; [vm_compute; reflexivity|split; [vm_compute; reflexivity|split; [reflexivity|split; [reflexivity|discriminate]]]]).
Qed.

(** C15 refuted: under a selection the bounds of nested lists are not hashed. *)
Theorem C15_nested_lists_refuted :
  exists pt sels o1 o2 h w1 w2,
    hash_with pt sels (VObj o1) = Some h /\ hash_with pt sels (VObj o2) = Some h /\
    rep pt sels (VObj o1) = Some w1 /\ rep pt sels (VObj o2) = Some w2 /\ w1 <> w2.
Proof.
  exists no_types, [on "P" [fld "__typename" []; fld "rows" [fld "id" []]]],
    [("__typename", VStr "P"); ("rows", VArr [VArr [VObj [("id", VU64 1)]; VObj [("id", VU64 2)]]])],
    [("__typename", VStr "P"); ("rows", VArr [VArr [VObj [("id", VU64 1)]]; VArr [VObj [("id", VU64 2)]]])].
  do 3 eexists. split; [reflexivity|]. split; [reflexivity|]. split; [reflexivity|]. split; [reflexivity|discriminate].
Qed.

(** C15 refuted: entities that call themselves by the name of an interface are sent but all hash
    to the empty stream, so only the first of them is fetched. *)
Theorem C15_interface_type_names_refuted :
  exists pt sels o1 o2 w1 w2,
    hash_with pt sels (VObj o1) = Some [] /\ hash_with pt sels (VObj o2) = Some [] /\
    rep pt sels (VObj o1) = Some w1 /\ rep pt sels (VObj o2) = Some w2 /\ w1 <> w2.
Proof.
  exists (fun t => if String.eqb t "Node" then Some ["User"] else None), [on "User" [fld "__typename" []; fld "id" []]],
    [("__typename", VStr "Node"); ("id", VU64 1)], [("__typename", VStr "Node"); ("id", VU64 2)].
  do 2 eexists. split; [reflexivity|]. split; [reflexivity|]. split; [reflexivity|]. split; [reflexivity|discriminate].
Qed.

(** *** Non-vacuity *)
Definition ex_req := [on "User" [fld "__typename" []; fld "id" []; fld "org" [fld "name" []; fld "size" []]];
                      on "Bot" [fld "__typename" []; fld "id" []]].
Definition ex_user (n : N) := VObj [("__typename", VStr "User"); ("id", VU64 n); ("name", VStr "x");
                                    ("org", VArr [VObj [("name", VStr "o")]; VNull; VObj []])].
Example C39_example :
  forallb plain_sel ex_req = true /\ forallb no_bare ex_req = true /\
  rep no_types ex_req (ex_user 7)
  = Some (VObj [("__typename", VStr "User"); ("id", VU64 7); ("org", VArr [VObj [("name", VStr "o")]])]) /\
  rep no_types ex_req (VObj [("__typename", VStr "Cat"); ("id", VU64 7)]) = None /\
  required no_types [("__typename", VStr "User"); ("id", VU64 7)] ex_req "id" "id" [].
Proof.
  repeat split; try reflexivity.
  eapply Req_frag; [left; reflexivity|reflexivity|].
  apply (Req_field _ _ _ "id" None None None None false []); [right; left; reflexivity|discriminate].
Qed.
Example C15_example :
  forallb by_type ex_req = true /\ all_similar no_types ex_req
    [("__typename", VStr "User"); ("id", VU64 7); ("org", VObj [("name", VStr "o")])]
    [("__typename", VStr "User"); ("id", VU64 8); ("org", VObj [("name", VStr "p")])].
Proof.
  split; [reflexivity|]. cbn. repeat split; intros t E H; injection E as <-; exact H.
Qed.

Print Assumptions C39_buffer_holds_the_representation.
Print Assumptions C39_tidy_selections.
Print Assumptions C39_representation_is_json.
Print Assumptions C39_members_of_a_representation.
Print Assumptions C39_objects_left_out.
Print Assumptions C39_untyped_objects_left_out.
Print Assumptions C39_leaf_values_are_sent_whole.
Print Assumptions C39_null_items_are_sent_refuted.
Print Assumptions C39_bare_fragment_is_json_refuted.
Print Assumptions C15_equal_streams_mean_equal_representations_partial.
Print Assumptions C15_equal_streams_of_one_type_partial.
Print Assumptions C15_value_streams_are_prefix_free.
Print Assumptions C15_kinds_of_values_refuted.
Print Assumptions C15_nested_lists_refuted.
Print Assumptions C15_interface_type_names_refuted.
