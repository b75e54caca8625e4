(** C50: the parser of the router and the GraphQL language. *)
From Coq Require Import String Ascii List NArith ZArith Bool.
From Verif Require Import Ast CondModel NormModel JsonText GqlModel GqlSpec GqlText GqlCases.
Import ListNotations.
Local Open Scope string_scope.
Local Open Scope list_scope.

(** What is read is what is written, but for carriage returns in strings, \b and \u+, block strings with odd
    white space, and fragments called "on". *)
Theorem C50_reads_what_is_written_partial (f64 : string -> option N) depth limit s ts ds :
  (forall v g, among "+-" g -> f64 (v ++ String g "")%string = None) ->
  tokens depth limit s = LexOk ts -> Forall plain_token ts -> Forall not_on ds ->
  parse_query f64 depth limit s = POk ds -> denotes f64 s ds.
Proof. exact (sound f64 depth limit s ts ds). Qed.

(** Every document in the plain language is read, when it is not too deep and not too long. *)
Theorem C50_reads_every_document_partial (f64 : string -> option N) depth limit s ts ds :
  plainly s ts -> document_ok ds -> Forall2 (means f64) ts (document_tokens ds) ->
  (N.of_nat (document_depth ds) <= depth)%N ->
  (match limit with Some l => N.of_nat (weight ts) < l | None => True end)%N ->
  parse_query f64 depth limit s = POk ds /\ denotes f64 s ds.
Proof.
  exact (fun P O M D L => conj (complete f64 depth limit s ts ds P O M D L)
                               (ex_intro _ ts (conj (plainly_lexes f64 s ts P) (conj O M)))).
Qed.

Theorem C50_nesting_is_bounded (f64 : string -> option N) depth limit s ds :
  parse_query f64 depth limit s = POk ds -> (N.of_nat (document_depth ds) <= depth)%N.
Proof. exact (depth_bounded f64 depth limit s ds). Qed.

(** Strings and floats left out *)
Theorem C50_tokens_are_bounded_partial (f64 : string -> option N) depth l s ds :
  parse_query f64 depth (Some l) s = POk ds -> (N.of_nat (length (filter counted (document_tokens ds))) <= l)%N.
Proof. exact (tokens_bounded f64 depth l s ds). Qed.

Theorem C50_reading_ends (f64 : string -> option N) depth limit s : parse_query f64 depth limit s <> PFuel.
Proof. exact (parse_ends f64 depth limit s). Qed.

(** No panic without a block string, and none on ASCII *)
Theorem C50_no_panic_partial (f64 : string -> option N) depth limit s :
  parse_query f64 depth limit s = PPanic -> contains quote3 s /\ wide s.
Proof. exact (parse_panics f64 depth limit s). Qed.

(** * Where the router parts from the specification *)
Theorem C50_tokens_are_bounded_refuted (f64 : string -> option N) n :
  exists s ds, parse_query f64 50 (Some 10%N) s = POk ds /\ n <= length (document_tokens ds).
Proof. exact (quotes_case f64 n). Qed.
(** A document of as many tokens as the limit is turned away. *)
Theorem C50_limit_is_reachable_refuted (f64 : string -> option N) : exists s ds,
  parse_query f64 50 (Some 3%N) s = PErr /\ parse_query f64 50 (Some 4%N) s = POk ds /\ length (document_tokens ds) = 3.
Proof. exact (ex_intro _ "{a}" (ex_intro _ _ (exact_limit_case f64))). Qed.
Theorem C50_no_panic_refuted (f64 : string -> option N) : exists s, parse_query f64 50 None s = PPanic.
Proof. exact (ex_intro _ _ (crooked_case f64)). Qed.
(** \b stands for U+0008; the router reads U+0010. *)
Theorem C50_backspace_refuted (f64 : string -> option N) : exists s a b,
  denotes f64 s (field_with (GStr a)) /\ parse_query f64 50 None s = POk (field_with (GStr b)) /\ a <> b.
Proof.
  exact (ex_intro _ _ (ex_intro _ _ (ex_intro _ _ (conj (proj1 (backspace_case f64))
    (conj (proj2 (backspace_case f64)) (fun E : String "008" "" = String "016" "" =>
      match E in _ = x return match x with String "016" _ => False | _ => True end with eq_refl => I end)))))).
Qed.
(** A blank line shorter than the indent of the others keeps its spaces. *)
Theorem C50_block_lines_refuted (f64 : string -> option N) : exists s a b,
  denotes f64 s (field_with (GStr a)) /\ parse_query f64 50 None s = POk (field_with (GStr b)) /\ a <> b.
Proof.
  exact (ex_intro _ _ (ex_intro _ _ (ex_intro _ _ (conj (proj1 (ragged_case f64))
    (conj (proj2 (ragged_case f64)) (fun E : ("a" ++ String lf (String lf "b"))%string = ("a" ++ String lf (String " " (String lf "b")))%string =>
      match E in _ = x return match x with String _ (String _ (String " " _)) => False | _ => True end with eq_refl => I end)))))).
Qed.
(** A carriage return alone does not end a line. *)
Theorem C50_block_returns_refuted (f64 : string -> option N) : exists s a b,
  denotes f64 s (field_with (GStr a)) /\ parse_query f64 50 None s = POk (field_with (GStr b)) /\ a <> b.
Proof.
  exact (ex_intro _ _ (ex_intro _ _ (ex_intro _ _ (conj (proj1 (carriage_case f64))
    (conj (proj2 (carriage_case f64)) (fun E : ("a" ++ String lf "b")%string = ("a" ++ String cr "b")%string =>
      match E in _ = x return match x with String _ (String "013" _) => False | _ => True end with eq_refl => I end)))))).
Qed.
(** All white space of Unicode is taken for indentation. *)
Theorem C50_block_indents_refuted (f64 : string -> option N) n : other_space n -> exists s a b,
  denotes f64 s (field_with (GStr a)) /\ parse_query f64 50 None s = POk (field_with (GStr b)) /\ a <> b.
Proof. exact (fun H => ex_intro _ _ (ex_intro _ _ (ex_intro _ _ (spaced_case f64 n H)))). Qed.
Theorem C50_surrogates_refuted (f64 : string -> option N) : exists s v,
  denotes f64 s (field_with v) /\ parse_query f64 50 None s = PErr.
Proof. exact (ex_intro _ (around surrogates) (surrogates_case f64)). Qed.
(** Exponents that start with 0 or 9 *)
Theorem C50_exponents_refuted (f64 : string -> option N) b : f64 "1e9" = Some b ->
  exists s v, denotes f64 s (field_with v) /\ parse_query f64 50 None s = PErr.
Proof. exact (fun H => ex_intro _ _ (ex_intro _ _ (exponent_case f64 b H))). Qed.
(** A string right after a number *)
Theorem C50_adjacent_tokens_refuted (f64 : string -> option N) : exists s v,
  denotes f64 s (field_with v) /\ parse_query f64 50 None s = PErr.
Proof. exact (ex_intro _ _ (ex_intro _ _ (touching_case f64))). Qed.
Theorem C50_fragment_called_on_refuted (f64 : string -> option N) : exists s ds,
  parse_query f64 50 None s = POk ds /\ ~ denotes f64 s ds.
Proof. exact (ex_intro _ _ (fragment_on_case f64)). Qed.

(** * Examples *)
Definition some_f64 (s : string) : option N := if String.eqb s "1.5" then Some 4609434218613702656%N else None.
Example C50_example_read :
  parse_query some_f64 50 None "query Q($a: [Int!]! = [1, -2]) { x: f(k: {m: $a, n: 1.5, o: RED}) @skip(if: true) { ... on T { g } ...F } } fragment F on T { h }"
  = POk [POperation KQuery (Some "Q") [mkvardef "a" (TNonNull (TList (TNonNull (TNamed "Int")))) (Some (GList [GInt 1; GInt (-2)]))] []
           [NField (Some "x") "f" [("k", GObj [("m", GVar "a"); ("n", GFloat 4609434218613702656%N); ("o", GEnum "RED")])]
              [{| d_name := "skip"; d_args := [("if", GBool true)] |}]
              [NInline (Some "T") [] [NField None "g" [] [] []]; NSpread "F" []]];
         PFragment "F" "T" [] [NField None "h" [] [] []]].
Proof. vm_compute. reflexivity. Qed.
Example C50_example_literals :
  parse_query some_f64 50 None ("{a(b: """ ++ bs ++ "u00e9" ++ bs ++ "n" ++ bs ++ "/x"", c: """"""" ++ String lf "" ++ "    p" ++ String lf "" ++ "      q  " ++ String lf "" ++ """"""")} # end")
  = POk [PSelections [NField None "a" [("b", GStr (String "195" (String "169" (String lf "/x")))); ("c", GStr ("p" ++ String lf "" ++ "  q  "))] [] []]].
Proof. vm_compute. reflexivity. Qed.
Example C50_example_block_lines :
  parse_query some_f64 50 None (around (quote3 ++ "x" ++ String lf "  p" ++ String lf "  " ++ String lf "" ++ String lf "   " ++ String lf "   q " ++ String lf " " ++ quote3))
  = POk (field_with (GStr ("x" ++ String lf "p" ++ String lf "" ++ String lf "" ++ String lf " " ++ String lf " q "))) /\
  parse_query some_f64 50 None (around (quote3 ++ bs ++ quote3 ++ " " ++ bs ++ bs ++ quote3 ++ quote3))
  = POk (field_with (GStr (quote3 ++ " " ++ bs ++ quote3))).
Proof. split; vm_compute; reflexivity. Qed.
Example C50_example_plain_block : plain_block (String lf "  a" ++ String lf "  b" ++ String lf "").
Proof. exact simple_block. Qed.
Example C50_example_depth :
  parse_query some_f64 2 None "{a{b}}" = POk [PSelections [NField None "a" [] [] [NField None "b" [] [] []]]] /\
  parse_query some_f64 1 None "{a{b}}" = PErr.
Proof. split; vm_compute; reflexivity. Qed.
Example C50_example_errors :
  Forall (fun s => parse_query some_f64 50 None s = PErr)
    [""; "{}"; "{a"; "a}"; "{a(b:)}"; "{a()}"; "{a(b:01)}"; "{a(b:1.)}"; "{a(b:9223372036854775808)}"; "query($a:Int=$b){a}"; "{...on}"; "{a}x";
     "{a(b: ""x)}"; "{a..}"].
Proof. repeat (constructor; [vm_compute; reflexivity|]). constructor. Qed.
Example C50_example_plain : plainly "{" [mktok KPunct "{"] /\ plain_token (mktok KName "a").
Proof.
  split; [|exact I]. apply (lexes_token _ _ KPunct "{" ""); [constructor; do 11 right; left; reflexivity|exact I|constructor].
Qed.

Print Assumptions C50_reads_what_is_written_partial.
Print Assumptions C50_reads_every_document_partial.
Print Assumptions C50_nesting_is_bounded.
Print Assumptions C50_tokens_are_bounded_partial.
Print Assumptions C50_reading_ends.
Print Assumptions C50_no_panic_partial.
Print Assumptions C50_tokens_are_bounded_refuted.
Print Assumptions C50_limit_is_reachable_refuted.
Print Assumptions C50_no_panic_refuted.
Print Assumptions C50_backspace_refuted.
Print Assumptions C50_block_indents_refuted.
Print Assumptions C50_block_lines_refuted.
Print Assumptions C50_block_returns_refuted.
Print Assumptions C50_surrogates_refuted.
Print Assumptions C50_exponents_refuted.
Print Assumptions C50_adjacent_tokens_refuted.
Print Assumptions C50_fragment_called_on_refuted.
