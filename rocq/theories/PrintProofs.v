(** The text of an operation, read by the specification and by the router. *)
From Coq Require Import String Ascii List NArith ZArith Bool Lia Sorted Decimal DecimalString DecimalN.
From Verif Require Import StrOrd StrUtil Ast CondModel NormModel NormProofs JsonWriterModel ProjModel JsonText ProjTextProofs RequestModel RequestProofs
  GqlModel GqlSpec GqlChars GqlScan GqlText PrintModel PrintSpec PrintWrites.
Import ListNotations.
Local Open Scope string_scope.
Local Open Scope list_scope.

(** * Integers *)
Lemma is_digit_spec c : is_digit c = true <-> Digit c.
Proof.
  rewrite <- digit_spec. split; intros H.
  - destruct c as [[] [] [] [] [] [] [] []]; try discriminate H; reflexivity.
  - destruct c as [[] [] [] [] [] [] [] []]; try discriminate H; reflexivity.
Qed.
Lemma all_chars_digits s : all_chars is_digit s = true -> each_char Digit s.
Proof.
  induction s as [|c s IH]; cbn; [constructor|]. intros H. apply andb_prop in H. destruct H as [H1 H2].
  split; [apply is_digit_spec; exact H1|apply IH; exact H2].
Qed.
Lemma dec_part n : exists c ds, N_to_dec n = String c ds /\ Digit c /\ each_char Digit ds /\ (ds = "" \/ c <> "0"%char).
Proof.
  pose proof (N_to_dec_digits n) as D. pose proof (N_to_dec_nonempty n) as E. pose proof (N_to_dec_no_zero n) as Z.
  destruct (N_to_dec n) as [|c ds]; [congruence|]. exists c, ds. split; [reflexivity|].
  apply all_chars_digits in D. destruct D as [D1 D2]. split; [exact D1|]. split; [exact D2|].
  destruct ds as [|d ds]; [left; reflexivity|right]. cbn in Z. intros ->. discriminate Z.
Qed.
Lemma dec_int n : IntegerPart (N_to_dec n).
Proof.
  destruct (dec_part n) as (c & ds & -> & H1 & H2 & H3). destruct (ascii_dec c "0") as [->|Hc].
  - destruct H3 as [->|H3]; [constructor|congruence].
  - constructor; assumption.
Qed.
Lemma dec_minus p : IntegerPart (String "-" (N_to_dec (Npos p))).
Proof.
  destruct (dec_part (Npos p)) as (c & ds & E & H1 & H2 & H3). rewrite E. destruct (ascii_dec c "0") as [->|Hc].
  - destruct H3 as [->|H3]; [constructor|congruence].
  - constructor; assumption.
Qed.
Lemma int_part z : IntegerPart (i64_text z).
Proof. destruct z; cbn [i64_text]; [constructor|apply dec_int|apply dec_minus]. Qed.
Lemma dec_value n : digits_value 0 (N_to_dec n) = Z.of_N n.
Proof.
  destruct (uint_value (N_to_dec n)) as (u & U & V).
  { destruct (dec_part n) as (c & ds & -> & H1 & H2 & _). split; assumption. }
  rewrite <- V. unfold N_to_dec in U.
  assert (U' : NilEmpty.uint_of_string (NilZero.string_of_uint (N.to_uint n)) = Some (match N.to_uint n with Nil => D0 Nil | u => u end)).
  { unfold NilZero.string_of_uint. destruct (N.to_uint n) eqn:E; try apply NilEmpty.usu. reflexivity. }
  rewrite U' in U. injection U as <-. pose proof (DecimalN.Unsigned.of_to n) as O.
  rewrite <- O at 2. unfold Z.of_uint, N.of_uint. destruct (N.to_uint n) eqn:E; reflexivity.
Qed.
Lemma int_says z : int_value (i64_text z) = z.
Proof.
  destruct z as [|p|p]; [reflexivity| |].
  - cbn [i64_text]. unfold int_value. pose proof (dec_value (Npos p)) as V.
    destruct (dec_part (Npos p)) as (c & ds & E & H1 & _). rewrite E in *. destruct (ascii_dec c "-") as [->|_].
    + apply digit_spec in H1. discriminate H1.
    + exact V.
  - change (i64_text (Zneg p)) with (String "-" (N_to_dec (Npos p))). cbn [int_value].
    destruct (ascii_dec "-" "-") as [_|H]; [|congruence]. rewrite dec_value. reflexivity.
Qed.

(** * Strings *)
Lemma hex_digit_val n : (n < 16)%N -> hex_val (hex_digit n) = Some n.
Proof.
  intros H. assert (I : In n [0;1;2;3;4;5;6;7;8;9;10;11;12;13;14;15]%N).
  { cbn. lia. }
  cbn in I. repeat (destruct I as [<-|I]; [reflexivity|]). destruct I.
Qed.
Lemma hex04_val n : (n < 256)%N -> hex4 "0" "0" (hex_digit (n / 16)) (hex_digit (n mod 16)) = Some n.
Proof.
  intros H. unfold hex4. rewrite !hex_digit_val.
  - change (hex_val "0") with (Some 0%N). cbv beta iota. f_equal. rewrite (N.div_mod n 16) at 3 by discriminate. lia.
  - apply N.mod_lt. discriminate.
  - apply N.div_lt_upper_bound; [discriminate|lia].
Qed.
(** One character *)
Lemma escape_cases c :
  (escape c = String c "" /\ c <> "034"%char /\ c <> "092"%char /\ ~ LineTerminator c) \/
  (exists e, escape c = (bs ++ e)%string /\ escaped_as e (String c "") /\ (c <> "008"%char -> simple_escape e (String c ""))).
Proof.
  unfold escape. set (n := N_of_ascii c).
  assert (K : forall m, (n =? m)%N = true -> c = ascii_of_N m).
  { intros m H. apply N.eqb_eq in H. rewrite <- H. symmetry. apply ascii_N_embedding. }
  assert (S : forall e, escaped_as e (String c "") -> (c <> "008"%char -> e <> "b") -> String.length e <= 5 ->
    exists e', (bs ++ e)%string = (bs ++ e')%string /\ escaped_as e' (String c "") /\ (c <> "008"%char -> simple_escape e' (String c ""))).
  { intros e H1 H2 H3. exists e. split; [reflexivity|]. split; [exact H1|]. intros Hc. split; [exact H1|]. split; [auto|exact H3]. }
  destruct (n =? 34)%N eqn:E1; [right; apply K in E1; rewrite E1; rewrite E1 in S; apply (S (String "034" "")); [exact esc_quote|discriminate|cbn; lia]|].
  destruct (n =? 92)%N eqn:E2; [right; apply K in E2; rewrite E2; rewrite E2 in S; apply (S bs); [exact esc_backslash|discriminate|cbn; lia]|].
  destruct (n =? 10)%N eqn:E3; [right; apply K in E3; rewrite E3; rewrite E3 in S; apply (S "n"); [exact esc_n|discriminate|cbn; lia]|].
  destruct (n =? 13)%N eqn:E4; [right; apply K in E4; rewrite E4; rewrite E4 in S; apply (S "r"); [exact esc_r|discriminate|cbn; lia]|].
  destruct (n =? 9)%N eqn:E5; [right; apply K in E5; rewrite E5; rewrite E5 in S; apply (S "t"); [exact esc_t|discriminate|cbn; lia]|].
  destruct (n =? 8)%N eqn:E6; [right; apply K in E6; rewrite E6; rewrite E6 in S; apply (S "b"); [exact esc_b|intros Hc; destruct Hc; reflexivity|cbn; lia]|].
  destruct (n =? 12)%N eqn:E7; [right; apply K in E7; rewrite E7; rewrite E7 in S; apply (S "f"); [exact esc_f|discriminate|cbn; lia]|].
  destruct ((n <? 32) || (n =? 127))%N%bool eqn:E8.
  - right. assert (B : (n < 128)%N) by (apply orb_prop in E8; destruct E8 as [E8|E8]; [apply N.ltb_lt in E8; lia|apply N.eqb_eq in E8; lia]).
    apply (S (String "u" (hex04 n))); [|discriminate|cbn; lia].
    assert (U : utf8 n = String c "").
    { unfold utf8. assert (X : (n <? 128)%N = true) by (apply N.ltb_lt; exact B). rewrite X. unfold chr. unfold n. rewrite ascii_N_embedding. reflexivity. }
    rewrite <- U. apply esc_u; [apply hex04_val; lia|left; lia].
  - left. split; [reflexivity|]. split; [intros ->; discriminate E1|]. split; [intros ->; discriminate E2|].
    intros [H|H]; fold n in H; rewrite H in *; discriminate.
Qed.
Lemma escapes_chars s : chars (escapes s) s.
Proof.
  unfold chars. induction s as [|c s IH]; [constructor|]. cbn [escapes].
  destruct (escape_cases c) as [(-> & H1 & H2 & H3)|(e & -> & H1 & _)].
  - apply (chars_plain escaped_as); auto.
  - rewrite string_app_assoc. change (String c s) with (String c "" ++ s)%string. apply (chars_escape escaped_as); auto.
Qed.
Lemma escapes_simple s : no_backspace s -> chars_with simple_escape (escapes s) s.
Proof.
  induction s as [|c s IH]; intros B; [constructor|]. cbn [escapes]. destruct B as [B1 B2].
  destruct (escape_cases c) as [(-> & H1 & H2 & H3)|(e & -> & _ & H1)].
  - apply (chars_plain simple_escape); auto.
  - rewrite string_app_assoc. change (String c s) with (String c "" ++ s)%string. apply (chars_escape simple_escape); auto.
Qed.
Lemma literal_form s : string_literal s = (quote1 ++ escapes s ++ quote1)%string.
Proof. reflexivity. Qed.

(** * Both languages *)
Lemma parts_class c : parts c -> ~ NameContinue c /\ c <> "."%char /\ c <> "034"%char /\ (among " ,#!$&():=@[]{}|" c \/ c = "009"%char \/ LineTerminator c).
Proof.
  intros [H|H].
  - cbn in H. repeat (destruct H as [<-|H]; [split; [|split; [discriminate|split; [discriminate|left; cbn; tauto]]]; rewrite <- name_continue_spec; discriminate|]). destruct H.
  - subst c. split; [|split; [discriminate|split; [discriminate|right; right; left; reflexivity]]]. rewrite <- name_continue_spec. discriminate.
Qed.
Lemma parted_first (P : ascii -> Prop) r : (forall c, parts c -> ~ P c) -> parted r -> first_not P r.
Proof. intros H [->|S]; [exact I|]. destruct r as [|c r]; [exact I|]. apply H. exact S. Qed.
Lemma parted_ends k v r : k <> KPunct -> parted r -> ends k v r.
Proof.
  intros K H. destruct k; cbn [ends]; try exact I.
  - apply (parted_first NameContinue); [|exact H]. intros c C. apply (parts_class c C).
  - apply (parted_first _ r); [|exact H]. intros c C [X|X]; destruct (parts_class c C) as (C1 & C2 & _); auto.
  - apply (parted_first _ r); [|exact H]. intros c C [X|X]; destruct (parts_class c C) as (C1 & C2 & _); auto.
  - intros _. apply (parted_first _ r); [|exact H]. intros c C X. destruct (parts_class c C) as (_ & _ & C3 & _). auto.
Qed.
Lemma parted_plain k v r : k <> KPunct -> parted r -> plain_ends k v r.
Proof.
  intros K H. destruct k; cbn [plain_ends]; try (apply parted_ends; assumption).
  - apply (parted_first _ r); [|exact H]. intros c C X. destruct (parts_class c C) as (_ & _ & _ & C4). auto.
  - apply (parted_first _ r); [|exact H]. intros c C X. destruct (parts_class c C) as (_ & _ & _ & C4). auto.
Qed.

Section Both.
  Variable f64_of : string -> option N.
  Variable show : N -> string.

  Lemma spec_writes d : doc_fit f64_of show any_string d -> writes f64_of lexeme ends false (document_text show d) (document_tokens (shown d)).
  Proof.
    apply doc_writes.
    - exact lexeme_punct.
    - intros; exact I.
    - exact lexeme_name.
    - exact lexeme_int.
    - intros v H _. constructor. exact H.
    - intros s _. rewrite literal_form. apply (lexeme_string _ s). apply escapes_chars.
    - exact parted_ends.
    - intros s _. rewrite literal_form. constructor. apply escapes_chars.
    - exact int_part.
    - exact int_says.
  Qed.
  Lemma plain_writes d : doc_fit f64_of show no_backspace d -> writes f64_of plain_lexeme plain_ends false (document_text show d) (document_tokens (shown d)).
  Proof.
    apply doc_writes.
    - exact plain_punct.
    - intros; exact I.
    - exact plain_name.
    - exact plain_int.
    - exact plain_float.
    - intros s H. rewrite literal_form. apply (plain_string _ s). apply escapes_simple. exact H.
    - exact parted_plain.
    - intros s _. rewrite literal_form. constructor. apply escapes_chars.
    - exact int_part.
    - exact int_says.
  Qed.
  Lemma spec_named name b d : Name name -> doc_fit f64_of show any_string d ->
    writes f64_of lexeme ends false
      (opkind_text (kind_of (doc_op d)) ++ " " ++ name ++ blank_if b ++ vars_part show (listed (op_vars (doc_op d)))
        ++ set_text show (op_sels (doc_op d)) ++ frags_part show (doc_frags d))
      (definition_tokens (POperation (kind_of (doc_op d)) (Some name) (listed (op_vars (doc_op d))) [] (map shown_sel (op_sels (doc_op d))))
        ++ flat_map definition_tokens (map shown_frag (doc_frags d))).
  Proof.
    intros Hn [(_ & V & S & _) F]. eapply named_writes; try eassumption.
    - exact lexeme_punct.
    - intros; exact I.
    - exact lexeme_name.
    - exact lexeme_int.
    - intros v H _. constructor. exact H.
    - intros s _. rewrite literal_form. apply (lexeme_string _ s). apply escapes_chars.
    - exact parted_ends.
    - intros s _. rewrite literal_form. constructor. apply escapes_chars.
    - exact int_part.
    - exact int_says.
  Qed.
  Lemma plain_named name b d : Name name -> doc_fit f64_of show no_backspace d ->
    writes f64_of plain_lexeme plain_ends false
      (opkind_text (kind_of (doc_op d)) ++ " " ++ name ++ blank_if b ++ vars_part show (listed (op_vars (doc_op d)))
        ++ set_text show (op_sels (doc_op d)) ++ frags_part show (doc_frags d))
      (definition_tokens (POperation (kind_of (doc_op d)) (Some name) (listed (op_vars (doc_op d))) [] (map shown_sel (op_sels (doc_op d))))
        ++ flat_map definition_tokens (map shown_frag (doc_frags d))).
  Proof.
    intros Hn [(_ & V & S & _) F]. eapply named_writes; try eassumption.
    - exact plain_punct.
    - intros; exact I.
    - exact plain_name.
    - exact plain_int.
    - exact plain_float.
    - intros s H. rewrite literal_form. apply (plain_string _ s). apply escapes_simple. exact H.
    - exact parted_plain.
    - intros s _. rewrite literal_form. constructor. apply escapes_chars.
    - exact int_part.
    - exact int_says.
  Qed.
End Both.
