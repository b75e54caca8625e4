(** Trees whose text says something else. *)
From Coq Require Import String Ascii List NArith ZArith Bool.
From Verif Require Import StrOrd StrUtil Ast CondModel NormModel GqlModel GqlSpec GqlCases PrintModel PrintSpec PrintRead.
Import ListNotations.
Local Open Scope string_scope.
Local Open Scope list_scope.

Definition doc_with (v : gvalue) : document :=
  mkdoc (mkop None (Some KQuery) [SField "a" None (Some [("b", v)]) None None false []] None) [].
Lemma doc_with_text show v : document_text show (doc_with v) = ("{a(b: " ++ value_text show v ++ ")}")%string.
Proof. unfold document_text, operation_text, set_text. cbn. rewrite !string_app_assoc. reflexivity. Qed.
Lemma doc_with_kept v : kept (doc_with v) = doc_with v. Proof. reflexivity. Qed.
Lemma doc_with_back v : of_value v = v -> of_document (field_with v) = Some (doc_with v).
Proof. intros H. unfold of_document, field_with. cbn. rewrite H. reflexivity. Qed.
Definition one : N := 4607182418800017408.
Definition infinite : N := 9218868437227405312.
Definition huge : N := 4906019910204099648.
Lemma float_case f64_of show : show one = "1" ->
  parse_query f64_of 50 None (document_text show (doc_with (GFloat one))) = POk (field_with (GInt 1)).
Proof. intros H. rewrite doc_with_text. cbn [value_text]. rewrite H. reflexivity. Qed.
Lemma infinite_case f64_of show : show infinite = "inf" ->
  parse_query f64_of 50 None (document_text show (doc_with (GFloat infinite))) = POk (field_with (GEnum "inf")).
Proof. intros H. rewrite doc_with_text. cbn [value_text]. rewrite H. reflexivity. Qed.
Lemma huge_case f64_of show : show huge = "100000000000000000000" ->
  parse_query f64_of 50 None (document_text show (doc_with (GFloat huge))) = PErr.
Proof. intros H. rewrite doc_with_text. cbn [value_text]. rewrite H. vm_compute. reflexivity. Qed.
Lemma backspace_read f64_of show :
  parse_query f64_of 50 None (document_text show (doc_with (GStr (String "008" "")))) = POk (field_with (GStr (String "016" ""))).
Proof. rewrite doc_with_text. reflexivity. Qed.
Lemma name_a : Name "a". Proof. split; [cbn; tauto|exact I]. Qed.
Lemma name_b : Name "b". Proof. split; [cbn; tauto|exact I]. Qed.
Lemma doc_with_fit f64_of show string_ok v : value_fit f64_of show string_ok false v -> doc_fit f64_of show string_ok (doc_with v).
Proof.
  intros H. split; [|constructor]. split; [exact I|]. split; [constructor|]. split; [|discriminate]. split; [discriminate|].
  constructor; [|constructor]. constructor; try exact I; [exact name_a| |constructor]. constructor; [|constructor]. split; [exact name_b|exact H].
Qed.
Lemma backspace_denotes f64_of show : denotes f64_of (document_text show (doc_with (GStr (String "008" "")))) (field_with (GStr (String "008" ""))).
Proof.
  change (field_with (GStr (String "008" ""))) with (shown (doc_with (GStr (String "008" "")))). apply text_denotes, doc_with_fit. constructor. exact I.
Qed.
(** A kind that is not there *)
Definition kindless : document :=
  mkdoc (mkop None None [SField "a" None None None None false []] (Some [mkvardef "v" (TNamed "T") None])) [].
Lemma kindless_case f64_of show : parse_query f64_of 50 None (document_text show kindless) = PErr.
Proof. vm_compute. reflexivity. Qed.
