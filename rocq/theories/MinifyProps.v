(** Minified documents: see lib/graphql-tools/src/parser/query/minify.rs. *)
From Coq Require Import String Ascii List NArith ZArith Bool.
From Verif Require Import StrUtil Ast CondModel NormModel GqlModel GqlSpec GqlCases MinifyModel MinifySpec MinifyProofs MinifyDoc MinifyText MinifyRead MinifyCases.
Import ListNotations.
Local Open Scope string_scope.

(** [minify_query] keeps the document. *)
Theorem C51_minified_reads_the_same (f64_of : string -> option N) limit s ds : parse_query f64_of 50 limit s = POk ds ->
  exists m, minify_query s = Some m /\ parse_query f64_of 50 None m = POk ds.
Proof. exact (minified_parses f64_of limit s ds). Qed.
Theorem C51_minified_once (f64_of : string -> option N) limit s ds m : parse_query f64_of 50 limit s = POk ds ->
  minify_query s = Some m -> minify_query m = Some m.
Proof. exact (minified_again f64_of limit s ds m). Qed.
(** Two documents are minified alike if and only if they have the same tokens. *)
Theorem C51_minified_alike (f64_of : string -> option N) limit s limit' s' ds ds' :
  parse_query f64_of 50 limit s = POk ds -> parse_query f64_of 50 limit' s' = POk ds' ->
  (minify_query s = minify_query s' <-> exists ts, tokens 50 None s = LexOk ts /\ tokens 50 None s' = LexOk ts).
Proof. exact (minified_same f64_of limit s limit' s' ds ds'). Qed.

(** [minify_query_document], on documents whose strings and floats can be written *)
Theorem C51_written_denotes_partial (f64_of : string -> option N) (ryu : N -> string) ds :
  tree_fit f64_of ryu ds -> denotes f64_of (minify_query_document ryu ds) ds.
Proof. exact (written_denotes f64_of ryu ds). Qed.
Theorem C51_written_reads_back_partial (f64_of : string -> option N) (ryu : N -> string) depth ds :
  tree_fit f64_of ryu ds -> (N.of_nat (document_depth ds) <= depth)%N ->
  parse_query f64_of depth None (minify_query_document ryu ds) = POk ds.
Proof. exact (written_parses f64_of ryu depth ds). Qed.
Theorem C51_written_is_minified_partial (f64_of : string -> option N) (ryu : N -> string) ds :
  tree_fit f64_of ryu ds -> (N.of_nat (document_depth ds) <= 50)%N ->
  minify_query (minify_query_document ryu ds) = Some (minify_query_document ryu ds).
Proof. exact (written_minified f64_of ryu ds). Qed.
Theorem C51_written_distinct_partial (f64_of : string -> option N) (ryu : N -> string) ds ds' :
  tree_fit f64_of ryu ds -> tree_fit f64_of ryu ds' -> minify_query_document ryu ds = minify_query_document ryu ds' -> ds = ds'.
Proof. exact (written_injective f64_of ryu ds ds'). Qed.
Theorem C51_read_and_written_partial (f64_of : string -> option N) (ryu : N -> string) limit s ds :
  parse_query f64_of 50 limit s = POk ds ->
  Forall (fun d => match d with DFloat _ | DStr _ => token_fit f64_of ryu d | _ => True end) (document_tokens ds) ->
  parse_query f64_of 50 None (minify_query_document ryu ds) = POk ds.
Proof. exact (read_written f64_of ryu limit s ds). Qed.

(** The two ways agree when the text has every token in its one spelling, and only then. *)
Theorem C51_two_ways_partial (f64_of : string -> option N) (ryu : N -> string) limit s ds ts :
  parse_query f64_of 50 limit s = POk ds ->
  Forall (fun d => match d with DFloat _ | DStr _ => token_fit f64_of ryu d | _ => True end) (document_tokens ds) ->
  tokens 50 None s = LexOk ts ->
  (minify_query s = Some (minify_query_document ryu ds) <-> ts = map (spelling ryu) (document_tokens ds)).
Proof. exact (two_ways f64_of ryu limit s ds ts). Qed.

(** Strings that come back as others *)
Theorem C51_control_characters_refuted (f64_of : string -> option N) (ryu : N -> string) :
  exists s s', comes_back f64_of ryu s s' /\ s <> s'.
Proof.
  exact (ex_intro _ _ (ex_intro _ _ (conj (control_case f64_of ryu) (fun E : String "011" "" = String "017" "" =>
    match E in _ = x return match x with String "017" _ => False | _ => True end with eq_refl => I end)))).
Qed.
Theorem C51_astral_characters_refuted (f64_of : string -> option N) (ryu : N -> string) :
  exists s s', comes_back f64_of ryu s s' /\ s <> s'.
Proof.
  exact (ex_intro _ _ (ex_intro _ _ (conj (astral_case f64_of ryu) (fun E : grin = String dquote (String "225" (String "138" (String "133" "12"))) =>
    match E in _ = x return match x with String _ (String "225" _) => False | _ => True end with eq_refl => I end)))).
Qed.
Theorem C51_last_newline_refuted (f64_of : string -> option N) (ryu : N -> string) :
  exists s s', comes_back f64_of ryu s s' /\ s <> s'.
Proof.
  exact (ex_intro _ _ (ex_intro _ _ (conj (newline_case f64_of ryu) (fun E : ("a" ++ String lf "")%string = "a" =>
    match E in _ = x return match x with String _ "" => False | _ => True end with eq_refl => I end)))).
Qed.
Theorem C51_indentation_refuted (f64_of : string -> option N) (ryu : N -> string) :
  exists s s', comes_back f64_of ryu s s' /\ s <> s'.
Proof.
  exact (ex_intro _ _ (ex_intro _ _ (conj (indent_case f64_of ryu) (fun E : (" a" ++ String lf " b")%string = ("a" ++ String lf "b")%string =>
    match E in _ = x return match x with String "a" _ => False | _ => True end with eq_refl => I end)))).
Qed.
Theorem C51_three_quotes_refuted (f64_of : string -> option N) (ryu : N -> string) :
  exists s s', comes_back f64_of ryu s s' /\ s <> s'.
Proof.
  exact (ex_intro _ _ (ex_intro _ _ (conj (quotes_case f64_of ryu)
    (fun E : ("a" ++ String lf quote3)%string = ("a" ++ String lf (String bslash (String dquote (String dquote ""))))%string =>
    match E in _ = x return match x with String _ (String _ (String "\" _)) => False | _ => True end with eq_refl => I end)))).
Qed.
(** Different documents with the same text, so with the same hash *)
Theorem C51_distinct_texts_refuted (ryu : N -> string) : exists ds ds',
  minify_query_document ryu ds = minify_query_document ryu ds' /\ ds <> ds'.
Proof.
  exact (ex_intro _ _ (ex_intro _ _ (conj (collision ryu)
    (fun E : field_with (GStr ("a" ++ String lf "b")) = field_with (GStr ("a" ++ String cr (String lf "b"))) =>
    match E in _ = x return match x with [PSelections [NField _ _ [(_, GStr (String _ (String "013" _)))] _ _]] => False | _ => True end with eq_refl => I end)))).
Qed.
(** A float the router's own parser does not take *)
Theorem C51_exponents_refuted (f64_of : string -> option N) (ryu : N -> string) b : ryu b = "1e90" ->
  exists ds, parse_query f64_of 50 None (minify_query_document ryu ds) = PErr.
Proof. exact (fun E => ex_intro _ _ (exponent_case f64_of ryu b E)). Qed.
(** The text may get longer. *)
Theorem C51_shorter_refuted : exists s m, minify_query s = Some m /\ String.length s < String.length m.
Proof. exact (ex_intro _ _ longer_case). Qed.
(** A text that is no document may come out with other tokens. *)
Theorem C51_texts_refuted : exists s m, minify_query s = Some m /\ minify_query m = None.
Proof. exact (ex_intro _ _ (ex_intro _ _ dots_case)). Qed.

Definition no_float (n : N) : string := "0.5".
Definition half (s : string) : option N := Some 0%N.
Example C51_example_minified :
  minify_query ("query  Q( $a : Int! = 3, # note" ++ String lf " ) { f ( x : [1, 2, {y: $a}] ) @d , ... on T { g } h }")
  = Some "query Q($a:Int!=3){f(x:[1 2{y:$a}])@d...on T{g}h}".
Proof. vm_compute. reflexivity. Qed.
Example C51_example_written :
  minify_query_document no_float [POperation KMutation (Some "M") [] [] [NField (Some "a") "b" [("c", GList [GFloat 0; GNull; GStr ("q" ++ String dquote "")]); ("d", GInt (-4))] [] []];
    PFragment "F" "T" [] [NSpread "G" []]]
  = ("mutation M{a:b(c:[0.5 null " ++ String dquote ("q" ++ String bslash (String dquote (String dquote "]d:-4)}fragment F on T{...G}"))))%string.
Proof. vm_compute. reflexivity. Qed.
Example C51_example_verse : text_fit verse /\ minify_query_document no_float (field_with (GStr verse))
  = around (quote3 ++ String lf ("    a " ++ String lf (String lf ("      b" ++ String lf ("    c" ++ String lf ("  " ++ quote3)))))).
Proof. split; [exact (or_intror verse_fit)|vm_compute; reflexivity]. Qed.
Example C51_example_agree : parse_query half 50 None "{ a b @c }" = POk [PSelections [NField None "a" [] [] []; NField None "b" [] [Build_directive "c" []] []]] /\
  minify_query "{ a b @c }" = Some (minify_query_document no_float [PSelections [NField None "a" [] [] []; NField None "b" [] [Build_directive "c" []] []]]).
Proof. split; vm_compute; reflexivity. Qed.

Print Assumptions C51_minified_reads_the_same.
Print Assumptions C51_minified_once.
Print Assumptions C51_minified_alike.
Print Assumptions C51_written_denotes_partial.
Print Assumptions C51_written_reads_back_partial.
Print Assumptions C51_written_is_minified_partial.
Print Assumptions C51_written_distinct_partial.
Print Assumptions C51_read_and_written_partial.
Print Assumptions C51_two_ways_partial.
Print Assumptions C51_control_characters_refuted.
Print Assumptions C51_astral_characters_refuted.
Print Assumptions C51_last_newline_refuted.
Print Assumptions C51_indentation_refuted.
Print Assumptions C51_three_quotes_refuted.
Print Assumptions C51_distinct_texts_refuted.
Print Assumptions C51_exponents_refuted.
Print Assumptions C51_shorter_refuted.
Print Assumptions C51_texts_refuted.
