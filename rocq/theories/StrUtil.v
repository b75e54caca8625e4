(** The parts of Rust's [str] library the router's small text parsers use.
    Strings are byte strings; every parser modelled with these functions only runs on
    text that is ASCII or only cares about ASCII delimiters. *)
From Coq Require Import String Ascii List NArith Lia ZifyBool ZifyN Bool DecimalString DecimalN.
Import ListNotations.
Local Open Scope string_scope.

(** [char::is_whitespace] restricted to ASCII: U+0009..U+000D and U+0020. *)
Definition is_ws (c : ascii) : bool :=
  let n := N_of_ascii c in
  ((9 <=? n) && (n <=? 13) || (n =? 32))%N.

(** [str::trim_start]. *)
Fixpoint trim_start (s : string) : string :=
  match s with
  | String c s' => if is_ws c then trim_start s' else s
  | EmptyString => EmptyString
  end.

(** [str::trim_end]. *)
Fixpoint trim_end (s : string) : string :=
  match s with
  | EmptyString => EmptyString
  | String c s' =>
      match trim_end s' with
      | EmptyString => if is_ws c then EmptyString else String c EmptyString
      | t => String c t
      end
  end.

(** [str::trim]. *)
Definition trim (s : string) : string := trim_end (trim_start s).

(** [str::split(char)]: always at least one piece. *)
Fixpoint split_on (c : ascii) (s : string) : list string :=
  match s with
  | EmptyString => [EmptyString]
  | String d s' =>
      if Ascii.eqb c d then EmptyString :: split_on c s'
      else match split_on c s' with
           | [] => [String d EmptyString]          (* unreachable, see split_on_nonempty *)
           | p :: ps => String d p :: ps
           end
  end.

(** [str::split_once(char)]: split at the first occurrence. *)
Fixpoint split_once (c : ascii) (s : string) : option (string * string) :=
  match s with
  | EmptyString => None
  | String d s' =>
      if Ascii.eqb c d then Some (EmptyString, s')
      else match split_once c s' with
           | Some (a, b) => Some (String d a, b)
           | None => None
           end
  end.

(** [to_ascii_lowercase]. *)
Definition lower_char (c : ascii) : ascii :=
  let n := N_of_ascii c in
  if ((65 <=? n) && (n <=? 90))%N then ascii_of_N (n + 32) else c.

Fixpoint lower (s : string) : string :=
  match s with
  | EmptyString => EmptyString
  | String c s' => String (lower_char c) (lower s')
  end.

(** [slice::join]. *)
Fixpoint join (sep : string) (l : list string) : string :=
  match l with
  | [] => EmptyString
  | [x] => x
  | x :: l' => x ++ sep ++ join sep l'
  end.

Fixpoint all_chars (p : ascii -> bool) (s : string) : bool :=
  match s with
  | EmptyString => true
  | String c s' => p c && all_chars p s'
  end.

Definition has_char (c : ascii) (s : string) : bool := negb (all_chars (fun d => negb (Ascii.eqb c d)) s).

(** [u32]/[usize] [Display]: decimal without leading zeros. *)
Definition N_to_dec (n : N) : string := NilZero.string_of_uint (N.to_uint n).

Definition u32_max : N := 4294967295.

(** [str::parse::<u32>]: an optional '+', at least one decimal digit, value at most
    2^32-1.  (Rust multiplies digit by digit with overflow checks; the accumulator only
    grows, so checking the final value is the same.) *)
Definition parse_u32 (s : string) : option N :=
  let body := match s with String "+" s' => s' | _ => s end in
  match body with
  | EmptyString => None
  | _ => match NilEmpty.uint_of_string body with
         | Some u => let n := N.of_uint u in if (n <=? u32_max)%N then Some n else None
         | None => None
         end
  end.

Fixpoint starts_with (p s : string) : bool :=
  match p, s with
  | EmptyString, _ => true
  | String a p', String b s' => Ascii.eqb a b && starts_with p' s'
  | String _ _, EmptyString => false
  end.

(** ** Lemmas *)

Lemma string_app_nil_r (s : string) : s ++ "" = s.
Proof. induction s as [|c s IH]; simpl; congruence. Qed.

Lemma string_app_assoc (a b c : string) : (a ++ b) ++ c = a ++ b ++ c.
Proof. induction a as [|x a IH]; simpl; congruence. Qed.

Lemma split_on_nonempty c s : split_on c s <> [].
Proof.
  destruct s as [|d s]; simpl; [discriminate|].
  destruct (Ascii.eqb c d); [discriminate|].
  destruct (split_on c s); discriminate.
Qed.

Lemma split_on_app c a b :
  has_char c a = false -> split_on c (a ++ String c b) = a :: split_on c b.
Proof.
  unfold has_char. intro H. apply negb_false_iff in H.
  induction a as [|d a IH]; simpl in *.
  - rewrite Ascii.eqb_refl. reflexivity.
  - apply andb_true_iff in H as [H1 H2]. apply negb_true_iff in H1. rewrite H1, (IH H2).
    reflexivity.
Qed.

Lemma split_on_none c a : has_char c a = false -> split_on c a = [a].
Proof.
  unfold has_char. intro H. apply negb_false_iff in H.
  induction a as [|d a IH]; simpl in *; [reflexivity|].
  apply andb_true_iff in H as [H1 H2]. apply negb_true_iff in H1. rewrite H1, (IH H2).
  reflexivity.
Qed.

Lemma split_once_app c a b :
  has_char c a = false -> split_once c (a ++ String c b) = Some (a, b).
Proof.
  unfold has_char. intro H. apply negb_false_iff in H.
  induction a as [|d a IH]; simpl in *.
  - rewrite Ascii.eqb_refl. reflexivity.
  - apply andb_true_iff in H as [H1 H2]. apply negb_true_iff in H1. rewrite H1, (IH H2).
    reflexivity.
Qed.

Lemma split_once_none c a : has_char c a = false -> split_once c a = None.
Proof.
  unfold has_char. intro H. apply negb_false_iff in H.
  induction a as [|d a IH]; simpl in *; [reflexivity|].
  apply andb_true_iff in H as [H1 H2]. apply negb_true_iff in H1. rewrite H1, (IH H2).
  reflexivity.
Qed.

Lemma all_chars_app p a b : all_chars p (a ++ b) = all_chars p a && all_chars p b.
Proof. induction a as [|c a IH]; simpl; [reflexivity|]. rewrite IH, andb_assoc. reflexivity. Qed.

Lemma has_char_app c a b : has_char c (a ++ b) = has_char c a || has_char c b.
Proof. unfold has_char. rewrite all_chars_app, negb_andb. reflexivity. Qed.

Lemma all_chars_impl (p q : ascii -> bool) s :
  (forall c, p c = true -> q c = true) -> all_chars p s = true -> all_chars q s = true.
Proof.
  intros Hpq. induction s as [|c s IH]; simpl; [reflexivity|].
  intro H. apply andb_true_iff in H as [H1 H2]. rewrite (Hpq _ H1), (IH H2). reflexivity.
Qed.

(** A string without any whitespace is left alone by [trim]. *)
Definition no_ws (s : string) : bool := all_chars (fun c => negb (is_ws c)) s.

Lemma trim_start_no_ws s : no_ws s = true -> trim_start s = s.
Proof.
  destruct s as [|c s]; simpl; [reflexivity|]. intro H.
  apply andb_true_iff in H as [H1 _]. apply negb_true_iff in H1. rewrite H1. reflexivity.
Qed.

Lemma trim_end_no_ws s : no_ws s = true -> trim_end s = s.
Proof.
  unfold no_ws. induction s as [|c s IH]; simpl; [reflexivity|]. intro H.
  apply andb_true_iff in H as [H1 H2]. apply negb_true_iff in H1. rewrite (IH H2), H1.
  destruct s; reflexivity.
Qed.

Lemma trim_no_ws s : no_ws s = true -> trim s = s.
Proof. intro H. unfold trim. rewrite trim_start_no_ws by exact H. apply trim_end_no_ws, H. Qed.

(** A string whose last character is not whitespace is left alone by [trim_end]. *)
Lemma trim_end_app a b : b <> "" -> trim_end b = b -> trim_end (a ++ b) = a ++ b.
Proof.
  intros Hb E. induction a as [|c a IH]; simpl; [exact E|].
  rewrite IH. destruct a; simpl; [destruct b; [congruence|reflexivity]|reflexivity].
Qed.

Definition is_digit (c : ascii) : bool := let n := N_of_ascii c in ((48 <=? n) && (n <=? 57))%N.

Lemma string_of_uint_digits u : all_chars is_digit (NilEmpty.string_of_uint u) = true.
Proof. induction u; simpl; auto. Qed.

Lemma N_to_dec_digits n : all_chars is_digit (N_to_dec n) = true.
Proof.
  unfold N_to_dec, NilZero.string_of_uint.
  destruct (N.to_uint n); try reflexivity; apply string_of_uint_digits.
Qed.

Lemma N_to_dec_nonempty n : N_to_dec n <> "".
Proof. unfold N_to_dec, NilZero.string_of_uint. destruct (N.to_uint n); discriminate. Qed.

Lemma digit_not_ws c : is_digit c = true -> negb (is_ws c) = true.
Proof. unfold is_digit, is_ws. cbv zeta. intro H. lia. Qed.

Lemma N_to_dec_no_ws n : no_ws (N_to_dec n) = true.
Proof.
  unfold no_ws. eapply all_chars_impl; [|apply N_to_dec_digits]. apply digit_not_ws.
Qed.

Lemma digits_no_char c s :
  is_digit c = false -> all_chars is_digit s = true -> has_char c s = false.
Proof.
  intros Hc H. unfold has_char. apply negb_false_iff.
  eapply all_chars_impl; [|exact H]. intros d Hd.
  apply negb_true_iff. apply Ascii.eqb_neq. intro E. subst. congruence.
Qed.

Lemma parse_u32_dec n : (n <= u32_max)%N -> parse_u32 (N_to_dec n) = Some n.
Proof.
  intro Hn. unfold parse_u32.
  assert (D : all_chars is_digit (N_to_dec n) = true) by apply N_to_dec_digits.
  assert (Hb : (match N_to_dec n with String "+" s' => s' | _ => N_to_dec n end) = N_to_dec n).
  { destruct (N_to_dec n) as [|c s]; [reflexivity|].
    simpl in D. apply andb_true_iff in D as [D _].
    destruct c as [b0 b1 b2 b3 b4 b5 b6 b7].
    destruct b0, b1, b2, b3, b4, b5, b6, b7; reflexivity || discriminate D. }
  rewrite Hb.
  assert (U : NilEmpty.uint_of_string (N_to_dec n) = Some (match N.to_uint n with Decimal.Nil => Decimal.D0 Decimal.Nil | u => u end)).
  { unfold N_to_dec, NilZero.string_of_uint. destruct (N.to_uint n) eqn:E; try apply NilEmpty.usu. reflexivity. }
  rewrite U.
  assert (V : N.of_uint (match N.to_uint n with Decimal.Nil => Decimal.D0 Decimal.Nil | u => u end) = n).
  { pose proof (DecimalN.Unsigned.of_to n) as O. destruct (N.to_uint n) eqn:E; try exact O. }
  rewrite V.
  destruct (N_to_dec n) eqn:E; [destruct (N_to_dec_nonempty n E)|].
  apply N.leb_le in Hn. rewrite Hn. reflexivity.
Qed.
