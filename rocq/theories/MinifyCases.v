(** Documents the minifier changes. *)
From Coq Require Import String Ascii List NArith ZArith Bool.
From Verif Require Import StrUtil Utf8 JsonText Ast CondModel NormModel GqlModel GqlSpec GqlCases MinifyModel MinifySpec.
Import ListNotations.
Local Open Scope string_scope.
Local Open Scope list_scope.

(** What the string [s] is read as, once minified *)
Definition comes_back (f64_of : string -> option N) (ryu : N -> string) (s s' : string) : Prop :=
  parse_query f64_of 50 None (minify_query_document ryu (field_with (GStr s))) = POk (field_with (GStr s')).
Lemma control_case f64_of ryu : comes_back f64_of ryu (String "011" "") (String "017" "").
Proof. vm_compute. reflexivity. Qed.
(** A quote and U+1F600 *)
Definition grin : string := String dquote (String "240" (String "159" (String "152" (String "128" "")))).
Lemma astral_case f64_of ryu : comes_back f64_of ryu grin (String dquote (String "225" (String "138" (String "133" "12")))).
Proof. vm_compute. reflexivity. Qed.
Lemma newline_case f64_of ryu : comes_back f64_of ryu ("a" ++ String lf "") "a".
Proof. vm_compute. reflexivity. Qed.
Lemma indent_case f64_of ryu : comes_back f64_of ryu (" a" ++ String lf " b") ("a" ++ String lf "b").
Proof. vm_compute. reflexivity. Qed.
Lemma quotes_case f64_of ryu : comes_back f64_of ryu ("a" ++ String lf quote3) ("a" ++ String lf (String bslash (String dquote (String dquote "")))).
Proof. vm_compute. reflexivity. Qed.
Lemma collision ryu : minify_query_document ryu (field_with (GStr ("a" ++ String lf "b"))) =
  minify_query_document ryu (field_with (GStr ("a" ++ String cr (String lf "b")))).
Proof. vm_compute. reflexivity. Qed.
Lemma exponent_case f64_of ryu b : ryu b = "1e90" ->
  parse_query f64_of 50 None (minify_query_document ryu (field_with (GFloat b))) = PErr.
Proof.
  intros E. replace (minify_query_document ryu (field_with (GFloat b))) with "{a(b:1e90)}"; [vm_compute; reflexivity|].
  unfold minify_query_document, field_with. cbn. rewrite E. reflexivity.
Qed.
Definition two_strings : string := around ("[" ++ String dquote (String "x" (String dquote (String dquote (String "y" (String dquote "]")))))).
Lemma longer_case : exists m, minify_query two_strings = Some m /\ String.length two_strings < String.length m.
Proof. eexists. split; [vm_compute; reflexivity|]. vm_compute. repeat constructor. Qed.
Lemma dots_case : minify_query "1 ..." = Some "1..." /\ minify_query "1..." = None.
Proof. split; vm_compute; reflexivity. Qed.
(** Two lines, an empty one, and one that is indented *)
Definition verse : string := ("a " ++ String lf (String lf ("  b" ++ String lf "c")))%string.
Lemma verse_fit : block_fit verse.
Proof.
  split; [reflexivity|]. split; [|split; [|split; [|split; [|split]]]].
  - intros n Hn (u & v & E).
    assert (G : each_char (fun c => In c [lf; " "; "a"; "b"; "c"]%char) (u ++ utf8 n ++ v)) by (rewrite <- E; cbn; tauto).
    clear E. induction u as [|c u IH]; [|apply IH; apply G].
    unfold other_space in Hn. cbn [In] in Hn. repeat match type of Hn with _ \/ _ => destruct Hn as [<-|Hn] end; try contradiction;
      vm_compute in G; intuition discriminate.
  - intros (u & v & E). assert (G : each_char (fun c => c <> cr) (u ++ String "013" v)) by (change (u ++ String "013" v)%string with (u ++ String "013" "" ++ v)%string; rewrite <- E; cbn; repeat split; discriminate).
    clear E. induction u as [|c u IH]; [destruct G as [G _]; apply G; reflexivity|apply IH; apply G].
  - intros (u & v & E). assert (G : each_char (fun c => c <> dquote) (u ++ quote3 ++ v)) by (rewrite <- E; cbn; repeat split; discriminate).
    clear E. induction u as [|c u IH]; [destruct G as [G _]; apply G; reflexivity|apply IH; apply G].
  - cbn. repeat constructor; discriminate.
  - exists "a ", "c", [""; "  b"]. repeat split; reflexivity.
  - exists "c". repeat split; [cbn; tauto].
Qed.
