(** C49: the text of an operation says what the planner's tree says. *)
From Coq Require Import String Ascii List NArith ZArith Bool.
From Verif Require Import StrOrd Ast CondModel NormModel GqlModel GqlSpec GqlCases PrintModel PrintSpec PrintRead PrintClient PrintCases.
Import ListNotations.
Local Open Scope string_scope.
Local Open Scope list_scope.

(** By the specification, the text is the document the tree stands for.  [doc_fit]: names are names, floats are
    written as floats, no selection set of a fragment is empty and a kind is there if one is needed. *)
Theorem C49_text_denotes_the_document_partial (f64_of : string -> option N) (show : N -> string) d :
  doc_fit f64_of show any_string d -> denotes f64_of (document_text show d) (shown d).
Proof. exact (text_denotes f64_of show d). Qed.

(** The router's own parser reads the text, and converted back it is the tree, but for what a text does not keep. *)
Theorem C49_text_reads_back_partial (f64_of : string -> option N) (show : N -> string) depth d :
  doc_fit f64_of show no_backspace d -> doc_ordered d -> (N.of_nat (document_depth (shown d)) <= depth)%N ->
  exists ds, parse_query f64_of depth None (document_text show d) = POk ds /\ of_document ds = Some (kept d).
Proof.
  exact (fun F O D => ex_intro _ (shown d) (conj (text_parses f64_of show depth d F D) (document_back d O))).
Qed.

(** Two trees with one text are the same tree. *)
Theorem C49_text_tells_trees_apart_partial (f64_of : string -> option N) (show : N -> string) d d' :
  doc_fit f64_of show no_backspace d -> doc_ordered d -> doc_fit f64_of show no_backspace d' -> doc_ordered d' ->
  document_text show d = document_text show d' -> kept d = kept d'.
Proof. exact (text_injective f64_of show d d'). Qed.

(** Whatever was read can be written, and reads the same again. *)
Theorem C49_what_was_read_is_written_partial (f64_of : string -> option N) (show : N -> string) s ds d :
  denotes f64_of s ds -> Forall (writable f64_of show any_string) (document_tokens ds) -> of_document ds = Some d ->
  exists ds', denotes f64_of (document_text show d) ds' /\ of_document ds' = Some d.
Proof. exact (client_again f64_of show s ds d). Qed.

(** Putting a name into the text names the operation and does nothing else. *)
Theorem C49_a_name_is_put_in_partial (f64_of : string -> option N) (show : N -> string) name d :
  Name name -> doc_fit f64_of show any_string d -> op_name (doc_op d) = None ->
  exists t, named_text show name d = Some t /\ denotes f64_of t (shown (with_name name d)).
Proof. exact (named_denotes f64_of show name d). Qed.
Theorem C49_a_name_is_read_partial (f64_of : string -> option N) (show : N -> string) depth name d :
  Name name -> doc_fit f64_of show no_backspace d -> op_name (doc_op d) = None ->
  (N.of_nat (document_depth (shown (with_name name d))) <= depth)%N ->
  exists t, named_text show name d = Some t /\ parse_query f64_of depth None t = POk (shown (with_name name d)).
Proof. exact (named_parses f64_of show depth name d). Qed.

(** * Where the text says something else *)
(** 1.0 becomes the integer 1. *)
Theorem C49_floats_refuted (f64_of : string -> option N) (show : N -> string) : show one = "1" ->
  exists d ds d', parse_query f64_of 50 None (document_text show d) = POk ds /\ of_document ds = Some d' /\ d' <> kept d.
Proof.
  exact (fun H => ex_intro _ _ (ex_intro _ _ (ex_intro _ _ (conj (float_case f64_of show H) (conj (doc_with_back (GInt 1) eq_refl)
    (fun E : doc_with (GInt 1) = doc_with (GFloat one) =>
       match E in _ = x return match op_sels (doc_op x) with [SField _ _ (Some [(_, GFloat _)]) _ _ _ _] => False | _ => True end with eq_refl => I end)))))).
Qed.
(** Infinity becomes the enum value inf. *)
Theorem C49_infinity_refuted (f64_of : string -> option N) (show : N -> string) : show infinite = "inf" ->
  exists d ds d', parse_query f64_of 50 None (document_text show d) = POk ds /\ of_document ds = Some d' /\ d' <> kept d.
Proof.
  exact (fun H => ex_intro _ _ (ex_intro _ _ (ex_intro _ _ (conj (infinite_case f64_of show H) (conj (doc_with_back (GEnum "inf") eq_refl)
    (fun E : doc_with (GEnum "inf") = doc_with (GFloat infinite) =>
       match E in _ = x return match op_sels (doc_op x) with [SField _ _ (Some [(_, GFloat _)]) _ _ _ _] => False | _ => True end with eq_refl => I end)))))).
Qed.
(** 1e20 is written as an integer the router does not read. *)
Theorem C49_large_floats_refuted (f64_of : string -> option N) (show : N -> string) : show huge = "100000000000000000000" ->
  exists d, parse_query f64_of 50 None (document_text show d) = PErr.
Proof. exact (fun H => ex_intro _ _ (huge_case f64_of show H)). Qed.
(** U+0008 is written by the specification, and read as U+0010. *)
Theorem C49_backspace_refuted (f64_of : string -> option N) (show : N -> string) :
  exists d ds, denotes f64_of (document_text show d) (shown d) /\ parse_query f64_of 50 None (document_text show d) = POk ds /\ ds <> shown d.
Proof.
  exact (ex_intro _ _ (ex_intro _ _ (conj (backspace_denotes f64_of show) (conj (backspace_read f64_of show)
    (fun E : field_with (GStr (String "016" "")) = field_with (GStr (String "008" "")) =>
       match E in _ = x return match x with [PSelections [NField _ _ [(_, GStr (String "008" _))] _ _]] => False | _ => True end with eq_refl => I end))))).
Qed.
(** Variables without a kind *)
Theorem C49_kindless_refuted (f64_of : string -> option N) (show : N -> string) :
  exists d, parse_query f64_of 50 None (document_text show d) = PErr.
Proof. exact (ex_intro _ _ (kindless_case f64_of show)). Qed.

(** * Examples *)
Definition ex_show (b : N) : string := if N.eqb b 4609434218613702656 then "1.5" else "".
Definition ex_f64 (s : string) : option N := if String.eqb s "1.5" then Some 4609434218613702656%N else None.
Definition ex_doc : document :=
  mkdoc (mkop None (Some KQuery)
    [SField "node" (Some "n") (Some [("id", GVar "id"); ("k", GList [GInt (-3); GFloat 4609434218613702656; GStr (String "034" (String "010" (String "127" "x")))]);
                                     ("o", GObj [("e", GEnum "RED"); ("z", GNull)])]) (Some "i") (Some "s") true
       [SFrag "T" (Some "i") None [SField "__typename" None None None None false []]; SSpread "F"]]
    (Some [mkvardef "id" (TNonNull (TList (TNamed "ID"))) (Some (GList [GBool true]))]))
    [mkfragment "F" "T" [SField "b" None (Some []) None None false []]].
Example C49_example_text : document_text ex_show ex_doc =
  ("query($id:[ID]!=[true]){n: node(id: $id, k: [-3, 1.5, " ++ String "034" ("\" ++ String "034" ("\n\u007fx" ++ String "034"
   "], o: {e: RED, z: null}) @skip(if: $s) @include(if: $i){...on T @include(if: $i){__typename} ...F}}"))
   ++ nl ++ nl ++ "fragment F on T {b}" ++ nl)%string.
Proof. vm_compute. reflexivity. Qed.
Example C49_example_back :
  match parse_query ex_f64 50 None (document_text ex_show ex_doc) with POk ds => of_document ds | _ => None end = Some (kept ex_doc).
Proof. vm_compute. reflexivity. Qed.
Example C49_example_named : named_text ex_show "Q__1" (doc_with (GVar "x")) = Some "query Q__1 {a(b: $x)}".
Proof. vm_compute. reflexivity. Qed.
Example C49_example_fit : doc_fit ex_f64 ex_show no_backspace (doc_with (GList [GInt 3; GStr "x"])).
Proof.
  exact (doc_with_fit ex_f64 ex_show no_backspace _ (fit_list _ _ _ _ _ (Forall_cons _ (fit_int _ _ _ _ 3%Z
    (conj (fun E : Lt = Gt => match E in _ = x return match x with Gt => False | _ => True end with eq_refl => I end) eq_refl))
    (Forall_cons _ (fit_str _ _ _ _ "x" (conj (fun E : "x"%char = "008"%char => match E in _ = x return match x with "008"%char => False | _ => True end with eq_refl => I end) I)) (Forall_nil _))))).
Qed.

Print Assumptions C49_text_denotes_the_document_partial.
Print Assumptions C49_text_reads_back_partial.
Print Assumptions C49_text_tells_trees_apart_partial.
Print Assumptions C49_what_was_read_is_written_partial.
Print Assumptions C49_a_name_is_put_in_partial.
Print Assumptions C49_a_name_is_read_partial.
Print Assumptions C49_floats_refuted.
Print Assumptions C49_infinity_refuted.
Print Assumptions C49_large_floats_refuted.
Print Assumptions C49_backspace_refuted.
Print Assumptions C49_kindless_refuted.
