(** C75: which operations are reported as the same. *)
From Coq Require Import String List ZArith Bool Permutation Sorted.
From Verif Require Import OpnormModel OpnormSpec OpnormProofs OpnormMain.
Import ListNotations.
Local Open Scope string_scope.
Local Open Scope list_scope.

(** Copying from the first change on is the same as mapping over the list *)
Theorem C75_list : forall (A : Type) (f : A -> transformed A) l, replaced (transform_list f l) l = map (fun x => replaced (f x) x) l.
Proof. exact @transform_list_map. Qed.
Print Assumptions C75_list.

(** Exactly the operations that are the same but for numbers, strings and aliases become the same when literals are hidden *)
Theorem C75_hidden : forall d d', strip d = strip d' <-> alike d d'.
Proof. intros d d'. split; [apply strip_alike | apply alike_strip]. Qed.
Print Assumptions C75_hidden.
(** ... and nothing else is changed *)
Theorem C75_hides : forall d, alike d (strip d) /\ strip (strip d) = strip d.
Proof. intros d. split; [apply strip_alike; symmetry|]; apply strip_twice. Qed.
Print Assumptions C75_hides.
(** No literal or alias has an influence on what is reported *)
Theorem C75_blind : forall usort d d', alike d d' -> normalize usort d = normalize usort d'.
Proof. exact normalize_alike. Qed.
Print Assumptions C75_blind.
(** ... nor is any left in it *)
Theorem C75_bare : forall usort, sorts usort -> forall d, strip (normalize usort d) = normalize usort d.
Proof. exact normalize_bare. Qed.
Print Assumptions C75_bare.

(** Normalising a normal form changes nothing *)
Theorem C75_idempotent : forall usort, sorts usort -> forall d, normalize usort (normalize usort d) = normalize usort d.
Proof. exact normalize_twice. Qed.
Print Assumptions C75_idempotent.
(** Nothing is lost or made up: the normal form is a rearrangement of an operation that is alike *)
Theorem C75_rearranged : forall usort, sorts usort -> forall d, exists m, alike d m /\ moved m (normalize usort d).
Proof. exact normalize_moved. Qed.
Print Assumptions C75_rearranged.
(** Operations that differ in order, literals and aliases have one normal form, when there are no ties *)
Theorem C75_order_partial : forall usort, sorts usort -> forall d m d', clear d -> moved d m -> alike m d' -> normalize usort d = normalize usort d'.
Proof. exact normalize_eq. Qed.
Print Assumptions C75_order_partial.
(** All that is asked of the sort can be had *)
Theorem C75_sort : sorts isort.
Proof. exact isort_sorts. Qed.
Print Assumptions C75_sort.

(** Two inline fragments stay in the order in which they are written *)
Theorem C75_inline_refuted : forall usort, sorts usort ->
  moved [Short [Inline (Some "A") [] []; Inline (Some "B") [] []]] [Short [Inline (Some "B") [] []; Inline (Some "A") [] []]] /\
  normalize usort [Short [Inline (Some "A") [] []; Inline (Some "B") [] []]] <> normalize usort [Short [Inline (Some "B") [] []; Inline (Some "A") [] []]].
Proof. intros usort H. split; [exact moved_inline | exact (tie_inline usort H)]. Qed.
Print Assumptions C75_inline_refuted.
(** So do two fields of one name *)
Theorem C75_field_refuted : forall usort, sorts usort ->
  let a := Field (Some "a") "f" [("x", VNull)] [] [] in let b := Field (Some "b") "f" [("y", VNull)] [] [] in
  moved [Short [a; b]] [Short [b; a]] /\ normalize usort [Short [a; b]] <> normalize usort [Short [b; a]].
Proof. intros usort H a b. split; [exact (moved_two a b) | exact (tie_field usort H)]. Qed.
Print Assumptions C75_field_refuted.
(** The directives of a spread are not sorted *)
Theorem C75_spread_refuted : forall usort, sorts usort ->
  normalize usort [Short [Spread "F" [mkdirective "c" []; mkdirective "d" []]]] <> normalize usort [Short [Spread "F" [mkdirective "d" []; mkdirective "c" []]]].
Proof. exact tie_spread. Qed.
Print Assumptions C75_spread_refuted.
(** Nor are the fields of an object *)
Theorem C75_object_refuted : forall usort, sorts usort ->
  normalize usort [Short [Field None "f" [("x", VObject [("a", VNull); ("b", VNull)])] [] []]] <>
  normalize usort [Short [Field None "f" [("x", VObject [("b", VNull); ("a", VNull)])] [] []]].
Proof. exact tie_object. Qed.
Print Assumptions C75_object_refuted.
(** Nor are the arguments of a directive of a fragment definition *)
Theorem C75_fragment_refuted : forall usort, sorts usort ->
  normalize usort [Fragment "F" "T" [mkdirective "d" [("x", VNull); ("y", VNull)]] []] <>
  normalize usort [Fragment "F" "T" [mkdirective "d" [("y", VNull); ("x", VNull)]] []].
Proof. exact tie_fragment. Qed.
Print Assumptions C75_fragment_refuted.

(** An operation with everything in it *)
Example C75_example : normalize isort
  [Fragment "G" "T" [] [Field None "z" [] [] []; Field (Some "q") "y" [] [] []];
   Operation Query (Some "Q") [mkvardef "b" "Int" (Some (VInt 7)); mkvardef "a" "String" None] [mkdirective "y" [("n", VFloat "1.5"); ("m", VBoolean true)]; mkdirective "x" []]
     [Field (Some "k") "f" [("s", VList [VString "secret"; VVariable "a"]); ("o", VObject [("z", VInt 3); ("y", VEnum "E")])] [] [Field None "id" [] [] []];
      Inline (Some "T") [] [Field None "b" [] [] []; Field None "a" [] [] []];
      Spread "G" []];
   Fragment "F" "T" [] []] =
  [Operation Query (Some "Q") [mkvardef "a" "String" None; mkvardef "b" "Int" (Some (VInt 0))] [mkdirective "x" []; mkdirective "y" [("m", VBoolean true); ("n", VFloat "0.0")]]
     [Spread "G" [];
      Inline (Some "T") [] [Field None "a" [] [] []; Field None "b" [] [] []];
      Field None "f" [("o", VObject [("z", VInt 0); ("y", VEnum "E")]); ("s", VList [VString ""; VVariable "a"])] [] [Field None "id" [] [] []]];
   Fragment "F" "T" [] [];
   Fragment "G" "T" [] [Field None "y" [] [] []; Field None "z" [] [] []]].
Proof. vm_compute. reflexivity. Qed.
Example C75_example_list : transform_list (fun n => if Nat.even n then Replace (n * 2) else Keep) [1; 2; 3; 4] = Replace [1; 4; 3; 8] /\
  transform_list (fun n => if Nat.even n then Replace (n * 2) else Keep) [1; 3] = Keep.
Proof. split; vm_compute; reflexivity. Qed.
