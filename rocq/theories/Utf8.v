(** UTF-8 validity of a byte string, as checked by Rust's [std::str::from_utf8]
    (Unicode 15, table 3-7). *)
From Coq Require Import String Ascii List NArith Bool Lia ZifyBool ZifyN.
Local Open Scope string_scope.
Local Open Scope bool_scope.

Definition byte_in (lo hi : N) (c : ascii) : bool :=
  let n := N_of_ascii c in ((lo <=? n) && (n <=? hi))%N.

Definition is_cont (c : ascii) : bool := byte_in 128 191 c.

Fixpoint utf8_ok (s : string) : bool :=
  match s with
  | EmptyString => true
  | String a r =>
      if byte_in 0 127 a then utf8_ok r
      else if byte_in 194 223 a then
        match r with
        | String b r' => is_cont b && utf8_ok r'
        | _ => false
        end
      else if byte_in 224 239 a then
        match r with
        | String b (String c r') =>
            (if byte_in 224 224 a then byte_in 160 191 b
             else if byte_in 237 237 a then byte_in 128 159 b
             else is_cont b) && is_cont c && utf8_ok r'
        | _ => false
        end
      else if byte_in 240 244 a then
        match r with
        | String b (String c (String d r')) =>
            (if byte_in 240 240 a then byte_in 144 191 b
             else if byte_in 244 244 a then byte_in 128 143 b
             else is_cont b) && is_cont c && is_cont d && utf8_ok r'
        | _ => false
        end
      else false
  end.

Lemma utf8_ascii c s : byte_in 0 127 c = true -> utf8_ok (String c s) = utf8_ok s.
Proof. intro H. simpl. rewrite H. reflexivity. Qed.

Lemma utf8_strong (P : string -> Prop) :
  (forall s, (forall t, String.length t < String.length s -> P t) -> P s) -> forall s, P s.
Proof.
  intros H s. assert (A : forall n t, String.length t < n -> P t).
  { induction n; intros t Ht; [lia|]. apply H. intros u Hu. apply IHn. lia. }
  apply (A (S (String.length s))). lia.
Qed.

Lemma utf8_app a : forall b, utf8_ok a = true -> utf8_ok (a ++ b) = utf8_ok b.
Proof.
  induction a as [a IH] using utf8_strong. intros b.
  destruct a as [|c r]; [reflexivity|]. cbn [append utf8_ok].
  destruct (byte_in 0 127 c). { apply IH. simpl; lia. }
  destruct (byte_in 194 223 c).
  { destruct r as [|c1 r]; [discriminate|]. cbn [append]. intro H.
    apply andb_prop in H. destruct H as [H1 H2]. rewrite H1. cbn [andb].
    apply IH; [simpl; lia|assumption]. }
  destruct (byte_in 224 239 c).
  { destruct r as [|c1 [|c2 r]]; try discriminate. cbn [append]. intro H.
    apply andb_prop in H. destruct H as [H1 H2]. rewrite H1. cbn [andb].
    apply IH; [simpl; lia|assumption]. }
  destruct (byte_in 240 244 c); [|discriminate].
  destruct r as [|c1 [|c2 [|c3 r]]]; try discriminate. cbn [append]. intro H.
  apply andb_prop in H. destruct H as [H1 H2]. rewrite H1. cbn [andb].
  apply IH; [simpl; lia|assumption].
Qed.
