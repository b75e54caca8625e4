(** C58: which fields may share a response name. *)
From Coq Require Import String List NArith ZArith Bool.
From Verif Require Import Ast NormModel OverlapModel OverlapSpec OverlapBase OverlapTop OverlapMain OverlapEnds OverlapCases.
Import ListNotations.
Local Open Scope string_scope.
Local Open Scope list_scope.

(** The rule reports a conflict only where the document has one. *)
Theorem C58_no_false_alarm : forall sch doc fuel l,
  unique_types sch -> unique_fragments doc -> known_conditions sch doc -> tidy_arguments sch doc ->
  validate sch doc fuel = Some l -> l <> [] -> document_clash sch doc.
Proof. intros sch doc fuel l Ht Hf Hc Ha. exact (no_false_alarm sch doc Ht Hf Hc Ha fuel l). Qed.

(** It is silent only where there is none, when fragments spread no others beside their fields and no argument is a list. *)
Theorem C58_silence_partial : forall sch doc fuel,
  unique_types sch -> unique_fragments doc -> known_conditions sch doc -> tidy_arguments sch doc ->
  listless_arguments sch doc -> flat doc ->
  validate sch doc fuel = Some [] -> ~ document_clash sch doc.
Proof. exact silence_is_right. Qed.

(** Without cycles of fragments, the rule comes to an end, with one answer. *)
Theorem C58_ends : forall sch doc, acyclic doc -> exists n l, forall fuel, n <= fuel -> validate sch doc fuel = Some l.
Proof. exact validate_ends. Qed.

(** Together: on such documents the rule decides. *)
Theorem C58_decides_partial : forall sch doc,
  unique_types sch -> unique_fragments doc -> known_conditions sch doc -> tidy_arguments sch doc -> acyclic doc ->
  listless_arguments sch doc -> flat doc ->
  exists n l, (forall fuel, n <= fuel -> validate sch doc fuel = Some l) /\ (l <> [] <-> document_clash sch doc).
Proof.
  intros sch doc Ht Hf Hc Ha Hr Hl Hflat. destruct (validate_ends sch doc Hr) as (n & l & H). exists n, l. split; [exact H|].
  specialize (H n (le_n n)). split.
  - exact (no_false_alarm sch doc Ht Hf Hc Ha n l H).
  - intros D ->. exact (silence_is_right sch doc n Ht Hf Hc Ha Hl Hflat H D).
Qed.

(** A fragment spread by another is skipped once it was visited for some other fields: a conflict passes. *)
Theorem C58_nested_fragments_refuted : exists sch doc,
  in_order sch doc /\ (exists fuel, validate sch doc fuel = Some []) /\ document_clash sch doc.
Proof. exists three_sch, three_doc. exact (conj three_order (conj (ex_intro _ 20 three_passes) three_clash)). Qed.

(** Lists are compared as far as the shorter goes: fields with different arguments pass. *)
Theorem C58_lists_refuted : exists sch doc,
  in_order sch doc /\ flat doc /\ (exists fuel, validate sch doc fuel = Some []) /\ document_clash sch doc.
Proof. exists list_sch, list_doc. exact (conj list_order (conj list_flat (conj (ex_intro _ 20 list_passes) list_clash))). Qed.

(** The field that names the type has no definition: it passes beside a number of the same response name. *)
Theorem C58_typename_refuted : exists sch doc p set r f s g,
  (exists fuel, validate sch doc fuel = Some []) /\
  stands sch doc p set /\ collected sch doc p set r f /\ collected sch doc p set s g /\ key f "k" /\ key g "k" /\
  f_name f = "__typename" /\ declares s (f_name g) (TNamed "Int") /\ the_type sch "Int" (Some (mktdef "Int" KLeaf [])).
Proof.
  destruct name_collected as (A & B & C). eexists name_sch, name_doc, _, _, _, _, _, _.
  split; [exists 20; exact name_passes|]. split; [exact A|]. split; [exact B|]. split; [exact C|].
  split; [now left|]. split; [now left|]. split; [reflexivity|]. split; [now apply declares_ok|].
  apply type_by_name_ok; [exact name_types|reflexivity].
Qed.

(** A document of one fragment and one operation on which the rule never ends, whatever the schema. *)
Theorem C58_ends_refuted : exists doc,
  List.length doc = 2 /\
  forall sch, unique_types sch -> (forall p ty, the_type sch "Query" p -> ~ declares p "zz" ty) ->
  forall fuel, validate sch doc fuel = None.
Proof.
  exists loop_doc. split; [reflexivity|]. intros sch U H fuel. apply loop_forever.
  destruct (fdef (type_by_name sch "Query") "zz") as [ty|] eqn:E; [|reflexivity].
  exfalso. apply (H (type_by_name sch "Query") ty); [now apply type_by_name_ok|now apply declares_ok].
Qed.

(** Fields of the same name merge; others of the same response name do not, unless no object has both. *)
Definition example_sch : list tdef :=
  [mktdef "Query" KObject [("u", TNamed "U"); ("f", TNamed "String"); ("g", TNamed "String")]; mktdef "U" KUnion [];
   mktdef "A" KObject [("n", TNamed "Int"); ("m", TNamed "Int"); ("s", TNamed "String")];
   mktdef "B" KObject [("n", TNamed "Int"); ("m", TNamed "Int"); ("l", TList (TNamed "Int"))];
   mktdef "Int" KLeaf []; mktdef "String" KLeaf []].
Definition example_doc (in_b : list nsel) : list definition :=
  [Oper (Some "Query") [fld (Some "x") "f" []; NSpread "F" []; fld None "u" [NInline (Some "A") [] [fld (Some "k") "n" []]; NInline (Some "B") [] in_b]];
   Frag "F" "Query" [fld (Some "x") "f" []]].
Example C58_example :
  validate example_sch (example_doc [fld (Some "k") "m" []]) 20 = Some []
  /\ validate example_sch (example_doc [fld (Some "k") "l" []]) 20 = Some [Conflict "k" (Types (TNamed "Int") (TList (TNamed "Int")))]
  /\ validate example_sch [Oper (Some "Query") [fld (Some "x") "g" []; NSpread "F" []]; Frag "F" "Query" [fld (Some "x") "f" []]] 20
     = Some [Conflict "x" (Differ "g" "f")]
  /\ validate example_sch [Oper (Some "Query") [NField None "f" [("a", GInt 1)] [] []; fld None "f" []]] 20 = Some [Conflict "f" Arguments]
  /\ validate example_sch
       [Oper (Some "Query") [fld None "u" [NInline (Some "A") [] [fld (Some "k") "n" []]]; fld None "u" [NInline (Some "A") [] [fld (Some "k") "m" []]]]] 20
     = Some [Conflict "u" (Nested [Conflict "k" (Differ "n" "m")])].
Proof. repeat split; vm_compute; reflexivity. Qed.

Print Assumptions C58_no_false_alarm.
Print Assumptions C58_silence_partial.
Print Assumptions C58_ends.
Print Assumptions C58_decides_partial.
Print Assumptions C58_nested_fragments_refuted.
Print Assumptions C58_lists_refuted.
Print Assumptions C58_typename_refuted.
Print Assumptions C58_ends_refuted.
