(** C31: subgraph responses are parsed without guessing. *)
From Coq Require Import String Ascii List NArith ZArith Bool Permutation.
From Verif Require Import StrOrd StrUtil JsonModel JsonWriterModel Ast ProjModel SubresModel SubresSpec SubresProofs.
Import ListNotations.
Local Open Scope string_scope.

(** Exactly which answers are accepted, and as what. *)
Theorem C31_accepted :
  forall E errors_of custom t o (r : response (E := E)),
  deserialize errors_of custom (DObj t o) false = inl r <->
  Forall (fun kd => snd (fst kd) = false) o /\
  (exists a, optional (with_paths (the_paths custom)) (members "data" o) a /\
     r_data r = match a with Some v => v | None => VNull end) /\
  optional errors_of (members "errors" o) (r_errors r) /\
  optional structured (members "extensions" o) (r_extensions r) /\
  (r_data r <> VNull \/ r_errors r <> None).
Proof. exact @accepted_iff. Qed.
Print Assumptions C31_accepted.

(** Only an object, with nothing after it. *)
Theorem C31_accepted_shape :
  forall E (errors_of : doc -> option (list E)) custom d trailing r,
  deserialize errors_of custom d trailing = inl r -> trailing = false /\ exists t o, d = DObj t o.
Proof. exact @accepted_shape. Qed.
Print Assumptions C31_accepted_shape.

(** Neither data nor errors: an error.  The same for a null [data]. *)
Theorem C31_neither_data_nor_errors :
  forall E (errors_of : doc -> option (list E)) custom t o trailing,
  members "data" o = [] -> members "errors" o = [] ->
  forall r, deserialize errors_of custom (DObj t o) trailing <> inl r.
Proof. exact @neither_rejected. Qed.
Print Assumptions C31_neither_data_nor_errors.

Theorem C31_null_data_without_errors :
  forall E (errors_of : doc -> option (list E)) custom t o t' trailing,
  members "data" o = [DNull t'] -> terminal (the_paths custom) = false -> members "errors" o = [] ->
  forall r, deserialize errors_of custom (DObj t o) trailing <> inl r.
Proof. exact @null_without_errors_rejected. Qed.
Print Assumptions C31_null_data_without_errors.

(** A second [data], [errors] or [extensions] is refused, wherever it stands. *)
Theorem C31_duplicates :
  forall E (errors_of : doc -> option (list E)) custom t o n trailing,
  known n -> 2 <= length (members n o) ->
  deserialize errors_of custom (DObj t o) trailing = inr DeserializationFailure.
Proof. exact @duplicate_rejected. Qed.
Print Assumptions C31_duplicates.

(** Other members make no difference, and neither does the order. *)
Theorem C31_unknown_keys :
  forall E (errors_of : doc -> option (list E)) custom t t' o1 o2 k d trailing,
  ~ known k ->
  deserialize errors_of custom (DObj t (o1 ++ (k, false, d) :: o2)%list) trailing =
  deserialize errors_of custom (DObj t' (o1 ++ o2)%list) trailing.
Proof. exact @unknown_ignored. Qed.
Print Assumptions C31_unknown_keys.

Theorem C31_order :
  forall E (errors_of : doc -> option (list E)) custom t t' o o' trailing,
  Permutation o o' ->
  forall r, deserialize errors_of custom (DObj t o) trailing = inl r <->
            deserialize errors_of custom (DObj t' o') trailing = inl r.
Proof. exact @order_irrelevant. Qed.
Print Assumptions C31_order.

(** Errors are kept, and errors that cannot be read are not dropped either. *)
Theorem C31_errors_are_kept :
  forall E (errors_of : doc -> option (list E)) custom t o d es trailing r,
  members "errors" o = [d] -> errors_of d = Some es ->
  deserialize errors_of custom (DObj t o) trailing = inl r -> r_errors r = Some es.
Proof. exact @errors_kept. Qed.
Print Assumptions C31_errors_are_kept.

Theorem C31_unreadable_errors :
  forall E (errors_of : doc -> option (list E)) custom t o d trailing,
  In d (members "errors" o) -> errors_of d = None ->
  forall r, deserialize errors_of custom (DObj t o) trailing <> inl r.
Proof. exact @unreadable_errors_rejected. Qed.
Print Assumptions C31_unreadable_errors.

(** The tree says what the document says, whatever the custom scalar paths. *)
Theorem C31_same_meaning : forall d p v, with_paths p d = Some v -> says v d.
Proof. exact with_paths_says. Qed.
Print Assumptions C31_same_meaning.

(** Its objects are sorted, as every later lookup expects, when their keys differ. *)
Theorem C31_sorted : forall d, distinct_keys d -> forall p v, with_paths p d = Some v -> wf v.
Proof. exact with_paths_wf. Qed.
Print Assumptions C31_sorted.

(** A part is kept as written exactly where the paths say so. *)
Theorem C31_raw_exactly_where_marked :
  forall d p v ks w, with_paths p d = Some v -> found v ks w -> (is_raw w <-> marked p ks = true).
Proof. exact raw_where_marked. Qed.
Print Assumptions C31_raw_exactly_where_marked.

(** A document without escaped keys is always read; without custom scalars no other is. *)
Theorem C31_plain_keys_are_read : forall d p, plain_keys d -> exists v, with_paths p d = Some v.
Proof. exact with_paths_total. Qed.
Print Assumptions C31_plain_keys_are_read.

Theorem C31_only_plain_keys : forall d, (exists v, structured d = Some v) <-> plain_keys d.
Proof. exact structured_total. Qed.
Print Assumptions C31_only_plain_keys.

(** The paths of a fetch mark a response path exactly when something is selected there and
    everything selected there is a custom scalar. *)
Theorem C31_paths_of_fetch :
  forall fields is_custom_scalar outputs root ks,
  mp (paths_of_fetch fields is_custom_scalar outputs root) ks = true <->
  (exists ty, selected_in fields is_custom_scalar outputs root ks ty) /\
  (forall ty, selected_in fields is_custom_scalar outputs root ks ty -> is_custom_scalar ty = true).
Proof. exact fetch_paths. Qed.
Print Assumptions C31_paths_of_fetch.

Theorem C31_insert_path :
  forall l p ks, marked (fold_left (fun p ks => insert_path ks p) l p) ks = true <-> In ks l \/ marked p ks = true.
Proof. exact marked_inserts. Qed.
Print Assumptions C31_insert_path.

(** An unknown key that happens to be written with an escape makes the whole answer unreadable. *)
Theorem C31_escaped_unknown_key_refuted :
  exists t o k d, ~ known k /\
  (forall E (errors_of : doc -> option (list E)), exists r, deserialize errors_of None (DObj t o) false = inl r) /\
  (forall E (errors_of : doc -> option (list E)),
     deserialize errors_of None (DObj t ((k, true, d) :: o)) false = inr DeserializationFailure).
Proof. exact escaped_unknown. Qed.
Print Assumptions C31_escaped_unknown_key_refuted.

(** A null [data] with an empty list of errors passes as a success without any error. *)
Theorem C31_empty_errors_refuted :
  exists t o, forall E (errors_of : doc -> option (list E)),
  (forall t', errors_of (DArr t' []) = Some []) ->
  exists r, deserialize errors_of None (DObj t o) false = inl r /\ r_data r = VNull /\ r_errors r = Some [].
Proof. exact empty_errors. Qed.
Print Assumptions C31_empty_errors_refuted.

(** The null of a custom scalar is kept as the text [null] and so is not a null to anyone: a
    field that must not be null shows one. *)
Theorem C31_custom_scalar_null_refuted :
  exists p d v, with_paths p d = Some v /\
  (forall w, structured d = Some w -> w = VObj [("meta", VNull)]) /\ v = VObj [("meta", VRaw "null")] /\
  forall ryu M vtrue errs_json,
    let meta := Plan "meta" "meta" false (NLeaf true) None None (SData None) in
    project_by_operation ryu M vtrue errs_json v [] None "Query" [meta] =
      inl ("{" ++ String (chr 34) ("data" ++ String (chr 34) (":{" ++ String (chr 34) ("meta" ++ String (chr 34) ":null}}"))), []) /\
    project_by_operation ryu M vtrue errs_json (VObj [("meta", VNull)]) [] None "Query" [meta] =
      inl ("{" ++ String (chr 34) ("data" ++ String (chr 34) ":null}"), []).
Proof. exact custom_null. Qed.
Print Assumptions C31_custom_scalar_null_refuted.

Definition ex_errors (d : doc) : option (list string) := match d with DArr _ l => Some (map text l) | _ => None end.
Definition ex_doc : doc :=
  DObj "" [("errors", false, DArr "" [DStr "boom" "boom"]); ("foo", false, DNull "null");
           ("data", false, DObj "" [("b", false, DU64 "1" 1); ("a", false, DObj "{ }" [("x", true, DNull "null")])])].
Example ex_raw :
  deserialize ex_errors (Some (insert_path ["a"] empty_paths)) ex_doc false =
  inl {| r_data := VObj [("a", VRaw "{ }"); ("b", VU64 1)]; r_errors := Some ["boom"]; r_extensions := None |}.
Proof. vm_compute. reflexivity. Qed.
Example ex_escaped : deserialize ex_errors None ex_doc false = inr DeserializationFailure.
Proof. vm_compute. reflexivity. Qed.
Definition ex_fields (t : string) : option (string -> option string) :=
  if String.eqb t "Query" then Some (fun f => if String.eqb f "thing" then Some "Thing" else None)
  else if String.eqb t "A" then Some (fun f => if String.eqb f "meta" then Some "JSON" else None)
  else if String.eqb t "B" then Some (fun f => if String.eqb f "meta" then Some "String" else if String.eqb f "blob" then Some "JSON" else None)
  else if String.eqb t "Thing" then Some (fun _ => None) else None.
Definition ex_sel : list sel :=
  [SField "thing" None None None None false
    [SFrag "A" None None [SField "meta" None None None None false []];
     SFrag "B" None None [SField "meta" None None None None false []; SField "blob" None None None None false []]]].
Example ex_conflict :
  paths_of_fetch ex_fields (String.eqb "JSON") [("Query", ex_sel)] None = Some (insert_path ["thing"; "blob"] empty_paths).
Proof. vm_compute. reflexivity. Qed.
