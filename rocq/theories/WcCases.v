(* Connections on which something goes wrong, and one on which nothing does. *)
From Coq Require Import String List Bool Arith NArith Lia.
From Verif Require Import StrUtil WcModel WcSpec WcBase WcProofs WcMain.
Import ListNotations.
Open Scope string_scope.
Open Scope list_scope.

Definition closed_first : list action := [Receive (Frame RClose); Begin "subscription { a }" ""; Sent].
Definition closed_state : client :=
  mkclient [("1", "")] 2 None ["1"] true false [("1", mkchan [] true)] [WSubscribe "1" "subscription { a }"].
Definition text (m : smsg) : action := Receive (Frame (RText (Some m))).
Definition busy : list action :=
  [Begin "subscription { a }" ""; Sent; Begin "subscription { b }" ""; text (SNext "1" "x"); Sent; text (SNext "2" "y"); text (SNext "3" "z"); text SPing;
   text (SNext "1" "bad"); text (SComplete "1"); text (SNext "1" "w"); Begin "subscription { c }" ""; NotSent false; Begin "subscription { d }" ""; Sent; Drop "1";
   text (SNext "2" "v"); Drop "2"; text (SNext "2" "u"); Receive Broken].

Section Cases.
  Variable parse : string -> string -> option string.
  Lemma closed_steps : steps parse start closed_first = Some closed_state.
  Proof. vm_compute. reflexivity. Qed.
  Lemma closed_later more c : steps parse closed_state more = Some c -> get "1" (channels c) = Some (mkchan [] true).
  Proof.
    apply (late parse closed_first closed_state 0 (mkchan [] true) more c closed_steps eq_refl); [cbn; lia|unfold numbered; lia|reflexivity].
  Qed.
End Cases.
Definition ok (paths payload : string) : option string := if String.eqb payload "bad" then None else Some payload.
