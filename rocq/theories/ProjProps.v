(** Properties C03, C04, C05 and C36: the response written for the client. *)
From Coq Require Import String Ascii List NArith ZArith Bool.
From Verif Require Import StrOrd StrUtil JsonModel JsonWriterModel JsonText JsonWriterProofs
  ProjModel ProjSpec ProjProofs ProjTextProofs ProjFacts ProjAgree ProjErrs ProjCond.
Import ListNotations.
Local Open Scope string_scope.

(** ** Example data *)
Module Ex.
  Definition ryu (_ : N) : string := "0".
  Definition fields_of (t : string) : option (string -> option (string * nshape)) :=
    if String.eqb t "Query" then Some (fun f => if String.eqb f "me" then Some ("User", NLeaf false) else None)
    else if String.eqb t "User" then
      Some (fun f => if String.eqb f "name" then Some ("String", NLeaf true)
                     else if String.eqb f "tags" then Some ("String", NList false (NLeaf true)) else None)
    else None.
  Definition M : meta := mkmeta (fun t => [t]) (fun _ => None) fields_of
    (fun t => String.eqb t "User") (fun _ => false) (fun _ => false) (fun _ => false).
  Definition vt (_ : string) : bool := false.
  Definition name := Plan "name" "name" false (NLeaf true) None None (SData None).
  Definition tags := Plan "tags" "tags" false (NList false (NLeaf true)) None None (SData None).
  Definition typename := Plan "__typename" "__typename" true (NLeaf true) None None (SData None).
  Definition extra := Plan "name" "extra" false (NLeaf false) None (Some (CInclude "x")) (SData None).
  Definition me := Plan "me" "me" false (NLeaf false) None None (SData (Some [typename; name; extra; tags])).
  Definition q : string := String (chr 34) "".
  Definition run (d : value) := project_by_operation ryu M vt (fun _ => "[]") d [] None "Query" [me].
End Ex.

(** C04: the bytes written are the printed form of the tree that value completion yields,
    followed by errors and extensions; in particular a null propagates exactly as in the
    specification [comp_root], whatever has already been written to the buffer. *)
Theorem C04_response_is_the_completed_tree :
  forall ryu M vtrue errs_json d errs ext root ps text errs',
  project_by_operation ryu M vtrue errs_json d errs ext root ps = inl (text, errs') ->
  exists t, comp_root M vtrue root ps d t /\
    text = "{" ++ (q1 ++ "data" ++ q1 ++ ":" ++ print ryu t)
           ++ (match errs' with [] => "" | _ => "," ++ q1 ++ "errors" ++ q1 ++ ":" ++ errs_json errs' end)
           ++ (match ext with None => "" | Some e => "," ++ q1 ++ "extensions" ++ q1 ++ ":" ++ e end) ++ "}".
Proof. exact by_operation_ok. Qed.
Print Assumptions C04_response_is_the_completed_tree.

(** C04: the completed tree is unique. *)
Theorem C04_completion_is_deterministic :
  forall M vtrue root ps d t1 t2,
  comp_root M vtrue root ps d t1 -> comp_root M vtrue root ps d t2 -> t1 = t2.
Proof. exact comp_root_det. Qed.
Print Assumptions C04_completion_is_deterministic.

(** C04: projecting one value appends exactly its completed form and leaves what is before it. *)
Theorem C04_projection_appends :
  forall ryu M vtrue p d nul pt buf errs prop buf' errs',
  project ryu M vtrue p d nul pt buf errs = Done prop buf' errs' ->
  exists t, comp M vtrue p nul pt d t /\ buf' = buf ++ print ryu t /\ prop = is_onull t.
Proof. exact project_ok. Qed.
Print Assumptions C04_projection_appends.

(** C04: a null member of a shown object sits in a nullable position: the object itself is
    null as soon as one applicable non-null selection is null. *)
Theorem C04_no_null_in_non_null_member :
  forall M vtrue qs pt o kvs q,
  fields M vtrue qs pt o kvs -> In q qs -> is_non_null (p_null q) = true ->
  fieldc M vtrue q pt o ONull -> False.
Proof.
  intros M vt qs pt o kvs q. apply fields_null. apply Forall_forall. intros x _. apply comp_det.
Qed.
Print Assumptions C04_no_null_in_non_null_member.

(** C04: errors raised on the way are only appended; every invalid enum value among the
    selections of a shown object adds one. *)
Theorem C04_enum_errors_are_reported :
  forall ryu M vtrue o pt ps first buf errs prop first' buf' errs',
  with_map M vtrue (project ryu M vtrue) o pt ps first buf errs = MDone prop first' buf' errs' ->
  exists n, errs' = (errs ++ repeat enum_error n)%list /\ (prop = false -> bad_count M vtrue ps pt o <= n).
Proof. exact with_map_errs. Qed.
Print Assumptions C04_enum_errors_are_reported.

Example C04_example_list_item :
  Ex.run (VObj [("me", VObj [("__typename", VStr "User"); ("name", VStr "a"); ("tags", VArr [VStr "x"; VNull])])])
  = inl ("{" ++ Ex.q ++ "data" ++ Ex.q ++ ":{" ++ Ex.q ++ "me" ++ Ex.q ++ ":{" ++ Ex.q ++ "__typename" ++ Ex.q ++ ":" ++ Ex.q ++ "User" ++ Ex.q ++ ","
         ++ Ex.q ++ "name" ++ Ex.q ++ ":" ++ Ex.q ++ "a" ++ Ex.q ++ "," ++ Ex.q ++ "tags" ++ Ex.q ++ ":null}}}", []).
Proof. vm_compute. reflexivity. Qed.
Example C04_example_parent :
  Ex.run (VObj [("me", VObj [("__typename", VStr "User"); ("tags", VArr [])])])
  = inl ("{" ++ Ex.q ++ "data" ++ Ex.q ++ ":{" ++ Ex.q ++ "me" ++ Ex.q ++ ":null}}", []).
Proof. vm_compute. reflexivity. Qed.

(** C03: the members of a shown object are exactly the selections that apply to it, in order. *)
Theorem C03_members_are_the_applicable_selections :
  forall M vtrue qs pt o kvs,
  fields M vtrue qs pt o kvs -> map fst kvs = map p_key (filter (shown M vtrue pt o) qs).
Proof. exact fields_keys. Qed.
Print Assumptions C03_members_are_the_applicable_selections.

(** C03: an object of another type than the selection's guard, or with a false condition,
    does not show the selection. *)
Theorem C03_shown_means_selected :
  forall M vtrue n o q, shown M vtrue (inl n) o q = true ->
  guard_ok (p_guard q) n = true.
Proof.
  intros M vt n o q. unfold shown, field_status, guard_ok. destruct (p_guard q) as [g|]; [|reflexivity].
  destruct (tmatches g n); [reflexivity|discriminate].
Qed.
Print Assumptions C03_shown_means_selected.

(** C03: when no two selections that can apply to the same type have the same response key,
    no key is shown twice. *)
Theorem C03_keys_are_unique :
  forall M vtrue qs n o kvs,
  NoDup (map p_key (filter (fun q => guard_ok (p_guard q) n) qs)) ->
  fields M vtrue qs (inl n) o kvs -> NoDup (map fst kvs).
Proof.
  intros M vt qs n o kvs N F. rewrite (fields_keys _ _ _ _ _ _ F). clear F.
  induction qs as [|q qs IH]; cbn [filter map] in *; [constructor|].
  pose proof (C03_shown_means_selected M vt n o q) as K.
  destruct (shown M vt (inl n) o q).
  - rewrite K in N by reflexivity. cbn [map] in *. inversion N as [|? ? H1 H2]; subst. constructor; [|auto].
    intros H. apply H1. apply in_map_iff in H. destruct H as (r & E & H). apply filter_In in H. destruct H as [Hr Hs].
    apply in_map_iff. exists r. split; [exact E|]. apply filter_In. split; [exact Hr|].
    apply (C03_shown_means_selected M vt n o r Hs).
  - apply IH. destruct (guard_ok (p_guard q) n); [|exact N]. cbn [map] in N. inversion N. assumption.
Qed.
Print Assumptions C03_keys_are_unique.

(** C03: data that is not selected cannot influence the response: two response trees that
    agree on [__typename] and on the selected members give the same bytes. *)
Theorem C03_unselected_data_is_irrelevant :
  forall ryu M vtrue errs_json o o' errs ext root ps,
  (forall q, In q ps -> orel (agree q) (get (p_key q) o) (get (p_key q) o')) ->
  project_by_operation ryu M vtrue errs_json (VObj o) errs ext root ps =
  project_by_operation ryu M vtrue errs_json (VObj o') errs ext root ps.
Proof. exact by_operation_same. Qed.
Print Assumptions C03_unselected_data_is_irrelevant.

Example C03_example_planner_data :
  Ex.run (VObj [("me", VObj [("__typename", VStr "User"); ("id", VStr "secret-key"); ("name", VStr "a"); ("tags", VNull)]);
                ("other", VStr "x")])
  = Ex.run (VObj [("me", VObj [("__typename", VStr "User"); ("name", VStr "a"); ("tags", VNull)])]).
Proof. vm_compute. reflexivity. Qed.

(** C05: the vectorised string writer writes the quoted and escaped string, for every lane
    width it is compiled with and whatever lies beyond the input, without touching memory
    outside what it reserved. *)
Theorem C05_string_writer_is_exact_and_in_bounds :
  forall lanes beyond s, 0 < lanes -> lanes <= 32 ->
  exists w, format_string lanes beyond (list_ascii_of_string s) true = Some w /\
            string_of_list_ascii (written w) = quoted s /\
            touched w <= reserved (list_ascii_of_string s).
Proof. exact writer_is_quoted. Qed.
Print Assumptions C05_string_writer_is_exact_and_in_bounds.

(** C05: the written string decodes back, and nothing of it can break out of the quotes. *)
Theorem C05_strings_decode_back : forall s, decode (quoted s) = Some (JStr s).
Proof. exact quoted_decodes. Qed.
Print Assumptions C05_strings_decode_back.
Theorem C05_no_raw_control_characters :
  forall s, all_chars (fun c => negb (N.leb (N_of_ascii c) 31)) (escape s) = true.
Proof. exact escape_no_control. Qed.
Print Assumptions C05_no_raw_control_characters.

(** C05: a printed value followed by anything is read back as the value and the rest. *)
Theorem C05_values_decode_back :
  forall ryu raw, (forall b, finite b = true -> json_number (ryu b)) ->
  forall v, data_ok raw v -> decode (print_value ryu v) = Some (value_json ryu raw v).
Proof. intros ryu raw H v D. apply text_decodes. apply value_text; assumption. Qed.
Print Assumptions C05_values_decode_back.

(** C05: the whole response decodes to the completed tree, the errors and the extensions,
    provided response keys and type names need no escaping (GraphQL names do not). *)
Theorem C05_response_decodes_to_the_tree :
  forall ryu raw, (forall b, finite b = true -> json_number (ryu b)) ->
  forall M vtrue errs_json d errs ext root ps text errs',
  project_by_operation ryu M vtrue errs_json d errs ext root ps = inl (text, errs') ->
  forall ej xj,
  match errs', ej with [], None => True | _ :: _, Some j => text_of (errs_json errs') j | _, _ => False end ->
  match ext, xj with Some s, Some j => text_of s j | None, None => True | _, _ => False end ->
  exists t, comp_root M vtrue root ps d t /\
    (out_ok raw t -> decode text = Some (doc (out_json ryu raw t) ej xj)).
Proof.
  intros ryu raw Hr M vt ejs d errs ext root ps text errs' E ej xj He Hx.
  destruct (by_operation_ok _ _ _ _ _ _ _ _ _ _ _ E) as (t & C & ->). exists t. split; [exact C|]. intros O.
  pose proof (doc_text ryu raw Hr t (match errs' with [] => None | _ => Some (ejs errs') end) ej ext xj O) as D.
  destruct errs' as [|e l], ej as [j|]; try contradiction; exact (D He Hx).
Qed.
Print Assumptions C05_response_decodes_to_the_tree.

(** C05 refuted for type names taken from subgraph data: they are written without escaping, so
    a [__typename] containing a quote adds a member to the client's object. *)
Definition evil : string := "User" ++ Ex.q ++ "," ++ Ex.q ++ "admin" ++ Ex.q ++ ":" ++ Ex.q ++ "yes".
Theorem C05_typename_is_escaped_refuted :
  exists d t text,
    Ex.run d = inl (text, []) /\ comp_root Ex.M Ex.vt "Query" [Ex.me] d t /\
    decode text = Some (JObj [("data", JObj [("me", JObj [("__typename", JStr "User"); ("admin", JStr "yes");
                                                          ("name", JStr "a"); ("tags", JNull)])])]) /\
    decode text <> Some (doc (out_json Ex.ryu (fun _ => JNull) t) None None).
Proof.
  exists (VObj [("me", VObj [("__typename", VStr evil); ("name", VStr "a"); ("tags", VNull)])]).
  exists (OObj [("me", OObj [("__typename", OName evil); ("name", OLeaf (VStr "a")); ("tags", ONull)])]).
  eexists. split; [vm_compute; reflexivity|]. split.
  - apply root_obj. apply fs_shown; [|discriminate|apply fs_nil].
    eapply f_value; [reflexivity|reflexivity|reflexivity|reflexivity|].
    eapply comp_obj; [reflexivity|].
    apply fs_shown; [eapply (f_typename _ _ Ex.typename evil); reflexivity|discriminate|].
    apply fs_shown; [eapply f_value; [reflexivity..|]; apply comp_leaf; exact I|discriminate|].
    apply fs_absent; [reflexivity|].
    apply fs_shown; [eapply f_value; [reflexivity..|]; apply comp_null|reflexivity|apply fs_nil].
  - split; [vm_compute; reflexivity|]. vm_compute. discriminate.
Qed.
Print Assumptions C05_typename_is_escaped_refuted.

Example C05_example :
  decode (match Ex.run (VObj [("me", VObj [("name", VStr (Ex.q ++ String (chr 10) "x")); ("tags", VNull)])]) with
          | inl (t, _) => t | inr _ => "" end)
  = Some (JObj [("data", JObj [("me", JObj [("__typename", JStr "User"); ("name", JStr (Ex.q ++ String (chr 10) "x")); ("tags", JNull)])])]).
Proof. vm_compute. reflexivity. Qed.

(** C36: type conditions *)
Theorem C36_union_matches_either :
  forall a b t, tmatches (tunion a b) t = (tmatches a t || tmatches b t)%bool.
Proof. exact matches_union. Qed.
Print Assumptions C36_union_matches_either.
Theorem C36_intersection_matches_both :
  forall a b t, tmatches (tintersect a b) t = (tmatches a t && tmatches b t)%bool.
Proof. exact matches_intersect. Qed.
Print Assumptions C36_intersection_matches_both.

(** C36: combined conditions hold exactly when the parts do, for every parent type, field
    type (resolved or not), value and variable assignment. *)
Theorem C36_and_or_hold_like_their_parts :
  forall vtrue a b pt ft v,
  holds_opt vtrue (and_optional a b) pt ft v = (holds_opt vtrue a pt ft v && holds_opt vtrue b pt ft v)%bool /\
  holds_opt vtrue (or_optional a b) pt ft v = (holds_opt vtrue a pt ft v || holds_opt vtrue b pt ft v)%bool.
Proof. intros. split; [apply and_optional_holds|apply or_optional_holds]. Qed.
Print Assumptions C36_and_or_hold_like_their_parts.

Theorem C36_directives_are_conjoined :
  forall vtrue c inc skp pt ft v,
  holds_opt vtrue (apply_directives c inc skp) pt ft v =
  (holds_opt vtrue c pt ft v && match inc with Some x => vtrue x | None => true end
   && match skp with Some x => negb (vtrue x) | None => true end)%bool.
Proof. exact directives_holds. Qed.
Print Assumptions C36_directives_are_conjoined.

(** C36: dropping what the guard already checks changes nothing on objects the guard admits. *)
Theorem C36_simplification_is_safe :
  forall vtrue c g n ft v,
  match g with Some g => tmatches g n = true | None => True end ->
  holds_opt vtrue (simplify c g) (inl n) ft v = holds vtrue c (inl n) ft v.
Proof. exact simplify_holds. Qed.
Print Assumptions C36_simplification_is_safe.

(** C36: two selections of one field are merged into: either applies, each within its guard. *)
Theorem C36_merged_conditions_keep_their_scopes :
  forall vtrue lg lc rg rc n ft v,
  guard_eqb lg rg = false \/ guard_ok lg n = true ->
  holds_opt vtrue (merge_conditions lg lc rg rc) (inl n) ft v =
  ((guard_ok lg n && holds_opt vtrue lc (inl n) ft v) || (guard_ok rg n && holds_opt vtrue rc (inl n) ft v))%bool.
Proof. exact merge_conditions_holds. Qed.
Print Assumptions C36_merged_conditions_keep_their_scopes.

(** C36: what is handed down to child selections never hides a child of a shown field, and
    directive conditions are handed down unchanged. *)
Theorem C36_inherited_conditions :
  forall vtrue c pt ft v pt' ft' v',
  (holds vtrue c pt ft v = true -> holds_opt vtrue (child_conditions c) pt' ft' v' = true) /\
  (directives_only c = true -> holds_opt vtrue (child_conditions c) pt' ft' v' = holds vtrue c pt ft v).
Proof.
  intros. split; [intros H; eapply child_conditions_implied; exact H|apply child_conditions_exact].
Qed.
Print Assumptions C36_inherited_conditions.

(** C36: the guard extracted from a condition admits every type the condition admits. *)
Theorem C36_extracted_guard_is_sound :
  forall vtrue c n ft v, or_free c = true -> holds vtrue c (inl n) ft v = true -> guard_ok (get_type_guard c) n = true.
Proof. exact guard_sound. Qed.
Print Assumptions C36_extracted_guard_is_sound.

(** C36 refuted for conditions with an alternative: the guard is then too narrow. *)
Theorem C36_guard_of_alternatives_refuted :
  exists vtrue c n, holds vtrue c (inl n) (inl "String") None = true /\ guard_ok (get_type_guard c) n = false.
Proof.
  exists (fun _ => true), (COr (CInclude "x") (CParent (TExact "User"))), "Org". split; reflexivity.
Qed.
Print Assumptions C36_guard_of_alternatives_refuted.

(** C36 refuted: a field whose first alternative fails on an invalid enum value and whose
    second is switched off is dropped instead of being shown as null with an error. *)
Theorem C36_invalid_enum_is_reported_refuted :
  exists vtrue c v,
    let inc := cand (CInclude "x") (CEnum ["A"]) in
    c = cor inc (cand (CInclude "y") (CEnum ["A"])) /\
    check vtrue inc (inl "T") (inl "E") v = EEnum /\
    check vtrue c (inl "T") (inl "E") v = ESkip.
Proof.
  exists (String.eqb "x"), (COr (CAnd (CInclude "x") (CEnum ["A"])) (CAnd (CInclude "y") (CEnum ["A"]))), (Some (VStr "B")).
  repeat split; reflexivity.
Qed.
Print Assumptions C36_invalid_enum_is_reported_refuted.

(** C03, C04: the type that decides which selections apply to an object is the one the data
    states, and only without one the declared type of the field. *)
Theorem C03_type_of_an_object :
  forall M p v parent t, resolve_type_name M p v parent = inl t <-> has_type M p v parent t.
Proof. exact resolve_has_type. Qed.
Print Assumptions C03_type_of_an_object.
