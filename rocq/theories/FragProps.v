(** C52: sharing selection sets through fragments keeps what a subgraph is asked for. *)
From Coq Require Import String List NArith ZArith Bool.
From Verif Require Import Ast AstHashModel PrintModel GqlModel FragModel FragSpec FragProofs FragDoc FragCases.
Import ListNotations.
Local Open Scope string_scope.

(** If the identifiers tell the selection sets of this operation apart (up to order), then replacing every spread of
    the result by its fragment gives the operation back (up to order), and each fragment is for the type it is spread on. *)
Theorem C52_fragments_mean_the_operation_partial sg H D op root :
  sendable sg op root -> tells sg (selection_id H D) shuffled root (op_sels op) ->
  exists d e, minify_operation sg H D op = Done d /\ same_otherwise op d /\
    expands (definitions sg) (defines d) root (op_sels (doc_op d)) e /\ shuffled e (op_sels op).
Proof. exact (minify_shuffled sg (selection_id H D) op root). Qed.
(** With identifiers that tell every two apart, exactly. *)
Theorem C52_fragments_mean_exactly_the_operation_partial sg gid op root :
  sendable sg op root -> tells sg gid eq root (op_sels op) ->
  exists d, minify sg gid op = Done d /\ same_otherwise op d /\
    expands (definitions sg) (defines d) root (op_sels (doc_op d)) (op_sels op).
Proof. exact (minify_exact sg gid op root). Qed.
(** No operation that may be sent makes the planner panic here, whatever the hashers do. *)
Theorem C52_minification_succeeds sg gid op root :
  sendable sg op root -> exists d, minify sg gid op = Done d /\ same_otherwise op d.
Proof. exact (minify_done sg gid op root). Qed.
(** The fragments have different names, made of letters. *)
Theorem C52_fragments_are_named_apart sg gid op d : minify sg gid op = Done d ->
  NoDup (map fr_name (doc_frags d)) /\ Forall (fun f => lettered (fr_name f) /\ fr_name f <> "") (doc_frags d).
Proof. exact (minify_names sg gid op d). Qed.
Theorem C52_names_are_injective i j : fragment_name i = fragment_name j -> i = j.
Proof. exact (name_injective i j). Qed.
(** Sets that differ in order only are shared. *)
Theorem C52_order_does_not_matter H D ty a b : shuffled a b -> selection_id H D ty a = selection_id H D ty b.
Proof. exact (shuffled_id H D ty a b). Qed.

(** * Where another operation is sent *)
(** Two objects are asked for a field with arguments that are written differently but hashed alike: both get the first
    one's arguments.  This happens for all hash functions, perfect ones included. *)
Theorem C52_arguments_kept_refuted : exists v w, sendable pair_graph (asked v w) "Query" /\
  forall H D, injective D -> exists d e, minify_operation pair_graph H D (asked v w) = Done d /\
    expands (definitions pair_graph) (defines d) "Query" (op_sels (doc_op d)) e /\
    (forall e', expands (definitions pair_graph) (defines d) "Query" (op_sels (doc_op d)) e' -> e' = e) /\
    In (under "right" [leaf "f" (Some [("x", v)])]) e /\ ~ shuffled e (op_sels (asked v w)).
Proof.
  exact (ex_intro _ (GVar "id") (ex_intro _ (GStr "id") (conj (asked_sendable _ _)
    (fun H D HD => arguments_confused H D (GVar "id") (GStr "id") HD eq_refl
       (fun E => match E in _ = x return match x with GVar _ => True | _ => False end with eq_refl => I end))))).
Qed.
Theorem C52_null_kept_refuted : exists v w, sendable pair_graph (asked v w) "Query" /\
  forall H D, injective D -> exists d e, minify_operation pair_graph H D (asked v w) = Done d /\
    expands (definitions pair_graph) (defines d) "Query" (op_sels (doc_op d)) e /\
    (forall e', expands (definitions pair_graph) (defines d) "Query" (op_sels (doc_op d)) e' -> e' = e) /\
    In (under "right" [leaf "f" (Some [("x", v)])]) e /\ ~ shuffled e (op_sels (asked v w)).
Proof.
  exact (ex_intro _ GNull (ex_intro _ (GStr "null") (conj (asked_sendable _ _)
    (fun H D HD => arguments_confused H D GNull (GStr "null") HD eq_refl
       (fun E => match E in _ = x return match x with GNull => True | _ => False end with eq_refl => I end))))).
Qed.
Theorem C52_nesting_kept_refuted : exists v w, sendable pair_graph (asked v w) "Query" /\
  forall H D, injective D -> exists d e, minify_operation pair_graph H D (asked v w) = Done d /\
    expands (definitions pair_graph) (defines d) "Query" (op_sels (doc_op d)) e /\
    (forall e', expands (definitions pair_graph) (defines d) "Query" (op_sels (doc_op d)) e' -> e' = e) /\
    In (under "right" [leaf "f" (Some [("x", v)])]) e /\ ~ shuffled e (op_sels (asked v w)).
Proof.
  exact (ex_intro _ (GList [GInt 1]) (ex_intro _ (GInt 1) (conj (asked_sendable _ _)
    (fun H D HD => arguments_confused H D (GList [GInt 1]) (GInt 1) HD eq_refl
       (fun E => match E in _ = x return match x with GList _ => True | _ => False end with eq_refl => I end))))).
Qed.
Theorem C52_numbers_kept_refuted : exists v w, sendable pair_graph (asked v w) "Query" /\
  forall H D, injective D -> exists d e, minify_operation pair_graph H D (asked v w) = Done d /\
    expands (definitions pair_graph) (defines d) "Query" (op_sels (doc_op d)) e /\
    (forall e', expands (definitions pair_graph) (defines d) "Query" (op_sels (doc_op d)) e' -> e' = e) /\
    In (under "right" [leaf "f" (Some [("x", v)])]) e /\ ~ shuffled e (op_sels (asked v w)).
Proof.
  exact (ex_intro _ (GBool true) (ex_intro _ (GInt 1) (conj (asked_sendable _ _)
    (fun H D HD => arguments_confused H D (GBool true) (GInt 1) HD eq_refl
       (fun E => match E in _ = x return match x with GBool _ => True | _ => False end with eq_refl => I end))))).
Qed.
(** A selection made twice cancels out of the identifier. *)
Theorem C52_repeated_selections_refuted : exists op, sendable pair_graph op "Query" /\ forall H D, injective D ->
  exists d e, minify_operation pair_graph H D op = Done d /\
    expands (definitions pair_graph) (defines d) "Query" (op_sels (doc_op d)) e /\
    (forall e', expands (definitions pair_graph) (defines d) "Query" (op_sels (doc_op d)) e' -> e' = e) /\
    ~ shuffled e (op_sels op).
Proof. exact (ex_intro _ cancelling selections_cancel). Qed.
(** The 691st fragment is called "on", which no fragment may be: the text of the document cannot be read. *)
Theorem C52_names_are_usable_refuted : exists op gid, sendable pair_graph op "Query" /\ tells pair_graph gid eq "Query" (op_sels op) /\
  forall f64_of show, exists d, minify pair_graph gid op = Done d /\
    In "on" (map fr_name (doc_frags d)) /\ parse_query f64_of 50 None (document_text show d) = PErr.
Proof. exact (ex_intro _ crowded (ex_intro _ own_id (conj (proj1 crowded_fine) (conj (proj2 crowded_fine) crowded_on)))). Qed.

(** * Not vacuous *)
Example C52_shared : minify pair_graph own_id (query (twice 7)) =
  Done (mkdoc (query [SField "left" (Some "ph") None None None false [SSpread "a"]; SField "left" (Some "qh") None None None false [SSpread "a"]])
              [mkfragment "a" "T" (numbered 7)]).
Proof. vm_compute. reflexivity. Qed.
Example C52_shared_sendable : sendable pair_graph (query (twice 7)) "Query".
Proof. exact (crowd_sendable [7%N]). Qed.
Example C52_shared_tells : tells pair_graph own_id eq "Query" (twice 7).
Proof. exact (crowd_tells 7 []). Qed.
(** Entities: the sets under [_entities] are shared with those elsewhere, and nested fragments are made inside out. *)
Definition entity_graph : supergraph :=
  mksupergraph [("Query", []); ("P", [("near", TList (TNamed "P")); ("far", TNamed "P"); ("id", TNamed "ID")]); ("U", [("id", TNamed "ID")])] "Query" None None.
Definition entity_id (ty : string) (l : list sel) : N :=
  match l with
  | [SField "near" _ _ _ _ _ _; _] => 4
  | [SField "id" _ _ _ _ _ _; SField "__typename" _ _ _ _ _ _] => if String.eqb ty "U" then 3 else 2
  | [] => 0
  | _ => 1
  end%N.
Definition ids : list sel := [under "id" []; under "__typename" []].
Definition places : list sel := [under "near" ids; under "far" ids].
Example C52_entities : minify entity_graph entity_id
    (query [SField "_entities" (Some "x") None None None false
              [under "__typename" []; SFrag "P" None (Some "c") places; SFrag "U" None None ids; SFrag "P" None None places]]) =
  Done (mkdoc (query [SField "_entities" (Some "x") None None None false
                [under "__typename" []; SFrag "P" None (Some "c") [SSpread "a"]; SFrag "U" None None ids; SFrag "P" None None [SSpread "a"]]])
         [mkfragment "a" "P" [under "near" [SSpread "b"]; under "far" [SSpread "b"]]; mkfragment "b" "P" ids]).
Proof. vm_compute. reflexivity. Qed.
Example C52_errors :
  minify entity_graph entity_id (query [under "nothing" []]) = Failed (FieldNotFound "nothing" "Query") /\
  minify entity_graph entity_id (query [SSpread "a"]) = Failed UnsupportedSpread /\
  minify entity_graph entity_id (query [under "_entities" [under "id" []]]) = Failed (UnsupportedField "Query" "id") /\
  minify entity_graph entity_id (query [SFrag "Z" None None ids]) = Failed (TypeNotFound "Z") /\
  minify entity_graph entity_id (mkop None (Some KMutation) [] None) = Failed TypeForOperationNotFound.
Proof. vm_compute. repeat split. Qed.
Example C52_names : map fragment_name [0; 25; 26; 51; 52; 53; 104; 690; 2703; 2704; 5408]%N =
  ["a"; "z"; "A"; "Z"; "ab"; "bb"; "ac"; "on"; "ZZ"; "aab"; "aac"].
Proof. vm_compute. reflexivity. Qed.

Print Assumptions C52_fragments_mean_the_operation_partial.
Print Assumptions C52_fragments_mean_exactly_the_operation_partial.
Print Assumptions C52_minification_succeeds.
Print Assumptions C52_fragments_are_named_apart.
Print Assumptions C52_names_are_injective.
Print Assumptions C52_order_does_not_matter.
Print Assumptions C52_arguments_kept_refuted.
Print Assumptions C52_null_kept_refuted.
Print Assumptions C52_nesting_kept_refuted.
Print Assumptions C52_numbers_kept_refuted.
Print Assumptions C52_repeated_selections_refuted.
Print Assumptions C52_names_are_usable_refuted.
