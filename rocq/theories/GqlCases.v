(** Texts on which the router and the GraphQL specification part. *)
From Coq Require Import String Ascii List NArith ZArith Bool Arith Lia.
From Verif Require Import StrUtil Ast CondModel NormModel NormProofs JsonWriterModel JsonWriterProofs JsonText GqlModel GqlSpec GqlChars GqlLex
  GqlScan GqlGrammar GqlComplete GqlSafe GqlBlockProofs GqlText.
Import ListNotations.
Local Open Scope string_scope.
Local Open Scope list_scope.

Ltac member := cbn; tauto.
Definition field_with (v : gvalue) : list pdef := [PSelections [NField None "a" [("b", v)] [] []]].
Definition around (body : string) : string := ("{a(b:" ++ body ++ ")}")%string.
Definition around_tokens (t : list token) : list token :=
  [mktok KPunct "{"; mktok KName "a"; mktok KPunct "("; mktok KName "b"; mktok KPunct ":"] ++ t ++ [mktok KPunct ")"; mktok KPunct "}"].
Lemma field_with_ok v : value_ok false v -> document_ok (field_with v).
Proof.
  intros H. split; [discriminate|]. constructor; [|constructor]. split; [discriminate|]. constructor; [|constructor].
  cbn. split; [|split; [constructor|exact I]]. constructor; [exact H|constructor].
Qed.
Lemma field_with_means f64 v t : Forall2 (means f64) t (value_tokens v) -> Forall2 (means f64) (around_tokens t) (document_tokens (field_with v)).
Proof.
  intros H. unfold document_tokens, field_with, around_tokens. cbn -[value_tokens]. rewrite !app_nil_r, <- !app_assoc.
  do 5 (constructor; [constructor|]). apply Forall2_app; [exact H|]. do 2 (constructor; [constructor|]). constructor.
Qed.
(** The text around an argument, in any language with names and punctuators *)
Lemma around_lexed (L : tkind -> string -> Prop) (E : tkind -> string -> string -> Prop) body t :
  (forall v, Punctuator v -> L KPunct v) -> (forall v, Name v -> L KName v) -> (forall v r, E KPunct v r) ->
  (forall v r, first_not NameContinue r -> E KName v r) ->
  lexes_with L E (body ++ ")}")%string (t ++ [mktok KPunct ")"; mktok KPunct "}"]) ->
  lexes_with L E (around body) (around_tokens t).
Proof.
  intros Lp Ln Ep En H. unfold around, around_tokens. cbn [app].
  assert (A : forall c r, In c ["a"; "b"]%char -> (match r with String d _ => In d ["("; ":"]%char | EmptyString => True end) ->
    L KName (String c "") /\ E KName (String c "") r).
  { intros c r Hc Hr. split.
    - apply Ln. split; [|exact I]. destruct Hc as [<-|[<-|[]]]; member.
    - apply En. destruct r as [|d r]; [exact I|]. destruct Hr as [<-|[<-|[]]]; cbn; intros [K|K]; cbn in K; intuition discriminate. }
  apply (lexes_token _ _ KPunct "{"); [apply Lp; member|apply Ep|].
  apply (lexes_token _ _ KName "a"); [apply A with (r := ""); [member|exact I]|apply A; member|].
  apply (lexes_token _ _ KPunct "("); [apply Lp; member|apply Ep|].
  apply (lexes_token _ _ KName "b"); [apply A with (r := ""); [member|exact I]|apply A; member|].
  apply (lexes_token _ _ KPunct ":"); [apply Lp; member|apply Ep|]. exact H.
Qed.
Lemma closing_lexed (L : tkind -> string -> Prop) (E : tkind -> string -> string -> Prop) :
  (forall v, Punctuator v -> L KPunct v) -> (forall v r, E KPunct v r) -> lexes_with L E ")}" [mktok KPunct ")"; mktok KPunct "}"].
Proof.
  intros Lp Ep. apply (lexes_token _ _ KPunct ")"); [apply Lp; member|apply Ep|].
  apply (lexes_token _ _ KPunct "}" ""); [apply Lp; member|apply Ep|constructor].
Qed.
Lemma around_denotes f64 body t v : value_ok false v -> Forall2 (means f64) t (value_tokens v) ->
  lexes_with lexeme ends (body ++ ")}")%string (t ++ [mktok KPunct ")"; mktok KPunct "}"]) -> denotes f64 (around body) (field_with v).
Proof.
  intros H1 H2 H3. exists (around_tokens t). split; [|split; [apply field_with_ok; exact H1|apply field_with_means; exact H2]].
  apply around_lexed; [intros; constructor; assumption|intros; constructor; assumption|intros; exact I|intros v0 r Hr; exact Hr|exact H3].
Qed.
Lemma literal_denotes f64 k body v : value_ok false v -> lexeme k body -> ends k body ")}" ->
  Forall2 (means f64) [mktok k body] (value_tokens v) -> denotes f64 (around body) (field_with v).
Proof.
  intros H1 H2 H3 H4. apply (around_denotes f64 body [mktok k body]); [exact H1|exact H4|].
  apply lexes_token; [exact H2|exact H3|]. apply closing_lexed; [intros; constructor; assumption|intros; exact I].
Qed.

Lemma closer_ends k v : ends k v ")}".
Proof.
  assert (N : ~ NameContinue ")"%char) by (intros [K|K]; cbn in K; intuition discriminate).
  destruct k; cbn [ends first_not]; try exact I; try exact N.
  - intros [K|K]; [exact (N K)|discriminate K].
  - intros [K|K]; [exact (N K)|discriminate K].
  - intros _ K. discriminate K.
Qed.

Definition backspace : string := String "034" (bs ++ "b" ++ String "034" "")%string.
Lemma backspace_case f64 : denotes f64 (around backspace) (field_with (GStr (String "008" ""))) /\
  parse_query f64 50 None (around backspace) = POk (field_with (GStr (String "016" ""))).
Proof.
  split; [|vm_compute; reflexivity].
  assert (C : chars (bs ++ "b" ++ "")%string (String "008" "" ++ "")%string) by (apply chars_escape; constructor).
  apply (literal_denotes f64 KString backspace); [exact I|exact (lexeme_string _ _ C)|apply closer_ends|].
  constructor; [exact (means_string f64 _ _ C)|constructor].
Qed.
Definition surrogates : string := String "034" (bs ++ "uD83D" ++ bs ++ "uDE00" ++ String "034" "")%string.
Lemma surrogates_case f64 : exists v, denotes f64 (around surrogates) (field_with v) /\ parse_query f64 50 None (around surrogates) = PErr.
Proof.
  exists (GStr (utf8 128512)). split; [|vm_compute; reflexivity].
  assert (C : chars (bs ++ ("uD83D" ++ bs ++ "uDE00") ++ "")%string (utf8 (65536 + (55357 - 55296) * 1024 + (56832 - 56320)) ++ "")%string).
  { apply (chars_escape escaped_as ("uD83D" ++ bs ++ "uDE00")%string); [|constructor].
    apply (esc_pair "D" "8" "3" "D" 55357 "D" "E" "0" "0" 56832); [reflexivity|reflexivity|lia|lia]. }
  apply (literal_denotes f64 KString surrogates); [exact I|exact (lexeme_string _ _ C)|apply closer_ends|].
  constructor; [exact (means_string f64 _ _ C)|constructor].
Qed.
Lemma exponent_case f64 b : f64 "1e9" = Some b ->
  denotes f64 (around "1e9") (field_with (GFloat b)) /\ parse_query f64 50 None (around "1e9") = PErr.
Proof.
  intros H. split; [|vm_compute; reflexivity].
  apply (literal_denotes f64 KFloat "1e9"); [exact I| |apply closer_ends|constructor; [constructor; exact H|constructor]].
  constructor. apply (float_exp "1" "e9").
  - constructor; [cbn; tauto|discriminate|exact I].
  - constructor; [cbn; tauto|cbn; tauto|exact I].
Qed.
Definition touching : string := ("[1" ++ String "034" (String "034" "") ++ "]")%string.
Lemma touching_case f64 : denotes f64 (around touching) (field_with (GList [GInt 1; GStr ""])) /\
  parse_query f64 50 None (around touching) = PErr.
Proof.
  split; [|vm_compute; reflexivity].
  apply (around_denotes f64 touching [mktok KPunct "["; mktok KInt "1"; mktok KString (String "034" (String "034" "")); mktok KPunct "]"]).
  - cbn. tauto.
  - cbn. constructor; [constructor|]. constructor; [apply (means_int f64 "1"); unfold in_i64; cbn; lia|].
    constructor; [apply (means_string f64 "" ""); constructor|]. constructor; [constructor|constructor].
  - cbn [app]. apply (lexes_token _ _ KPunct "["); [constructor; member|exact I|].
    apply (lexes_token _ _ KInt "1"); [constructor; constructor; [cbn; tauto|discriminate|exact I]|cbn; intros [[K|K]|K]; cbn in K; intuition discriminate|].
    apply (lexes_token _ _ KString (String "034" (String "034" ""))); [apply (lexeme_string "" ""); constructor|cbn; intros _ K; discriminate K|].
    apply (lexes_token _ _ KPunct "]"); [constructor; member|exact I|]. apply closing_lexed; [intros; constructor; assumption|intros; exact I].
Qed.
Lemma fragment_on_case f64 : exists ds, parse_query f64 50 None "{a}fragment on on T{a}" = POk ds /\ ~ denotes f64 "{a}fragment on on T{a}" ds.
Proof.
  eexists. split; [vm_compute; reflexivity|]. intros (ts & _ & [_ H] & _). apply Forall_inv_tail, Forall_inv in H. destruct H as [K _]. congruence.
Qed.
(** One line indented by a space, the next by U+3000 *)
Definition crooked : string :=
  (quote3 ++ String lf "" ++ " x" ++ String lf "" ++ String "227" (String "128" (String "128" "")) ++ "y" ++ quote3)%string.
Lemma crooked_case f64 : parse_query f64 50 None (around crooked) = PPanic.
Proof. vm_compute. reflexivity. Qed.
(** Block strings without quotes and backslashes *)
Definition bare_char (c : ascii) : Prop := c <> dquote /\ c <> bslash.
Lemma bare_closed r : each_char bare_char r -> block_closed (r ++ quote3) r /\ unescapes r r.
Proof.
  induction r as [|c r IH]; [intros _; split; constructor|]. intros [[N1 N2] H]. destruct (IH H) as [I1 I2]. split.
  - apply (block_char c (r ++ quote3)); [| |exact I1]; intros u E; injection E as E _; [apply N1|apply N2]; exact E.
  - apply unesc_char; [|exact I2]. intros u E. injection E as E _. apply N2. exact E.
Qed.
Lemma bare_denotes f64 r : each_char bare_char r -> denotes f64 (around (quote3 ++ r ++ quote3)) (field_with (GStr (block_value r))).
Proof.
  intros H. destruct (bare_closed r H) as [C V].
  apply (literal_denotes f64 KBlock (quote3 ++ r ++ quote3)); [exact I|exact (lexeme_block _ _ C)|apply closer_ends|].
  constructor; [exact (means_block f64 _ _ _ C V)|constructor].
Qed.
(** A line with one space, between lines indented by two *)
Definition ragged : string := (String lf "  a" ++ String lf " " ++ String lf "  b")%string.
Lemma ragged_case f64 : denotes f64 (around (quote3 ++ ragged ++ quote3)) (field_with (GStr ("a" ++ String lf (String lf "b")))) /\
  parse_query f64 50 None (around (quote3 ++ ragged ++ quote3)) = POk (field_with (GStr ("a" ++ String lf (String " " (String lf "b"))))).
Proof.
  split; [|vm_compute; reflexivity]. apply (bare_denotes f64 ragged). cbn. unfold bare_char. repeat split; discriminate.
Qed.
Definition carriage : string := ("a" ++ String cr "b")%string.
Lemma carriage_case f64 : denotes f64 (around (quote3 ++ carriage ++ quote3)) (field_with (GStr ("a" ++ String lf "b"))) /\
  parse_query f64 50 None (around (quote3 ++ carriage ++ quote3)) = POk (field_with (GStr ("a" ++ String cr "b"))).
Proof.
  split; [|vm_compute; reflexivity]. apply (bare_denotes f64 carriage). cbn. unfold bare_char. repeat split; discriminate.
Qed.
(** A line indented by white space that is none of GraphQL *)
Definition spaced (n : N) : string := (String lf (utf8 n ++ "a"))%string.
Lemma bare_each s t : each_char bare_char s -> each_char bare_char t -> each_char bare_char (s ++ t).
Proof. intros H K. induction s as [|c s IH]; [exact K|]. destruct H as [H1 H2]. split; [exact H1|apply IH; exact H2]. Qed.
Lemma spaced_case f64 n : other_space n ->
  denotes f64 (around (quote3 ++ spaced n ++ quote3)) (field_with (GStr (utf8 n ++ "a"))) /\
  parse_query f64 50 None (around (quote3 ++ spaced n ++ quote3)) = POk (field_with (GStr "a")) /\ (utf8 n ++ "a" <> "a")%string.
Proof.
  intros H. assert (B : block_value (spaced n) = (utf8 n ++ "a")%string /\ each_char bare_char (spaced n) /\
    parse_query f64 50 None (around (quote3 ++ spaced n ++ quote3)) = POk (field_with (GStr "a")) /\ (utf8 n ++ "a" <> "a")%string).
  { unfold other_space in H. cbn [In] in H. repeat match type of H with _ \/ _ => destruct H as [<-|H] end; try contradiction;
      (split; [vm_compute; reflexivity|split; [vm_compute; repeat split; discriminate|split; [vm_compute; reflexivity|vm_compute; discriminate]]]). }
  destruct B as (B1 & B2 & B3). split; [|exact B3]. rewrite <- B1. apply bare_denotes. exact B2.
Qed.
Lemma simple_block : plain_block (String lf "  a" ++ String lf "  b" ++ String lf "").
Proof.
  split; [reflexivity|]. split; [|split].
  - intros n Hn (a & b & E). unfold other_space in Hn.
    assert (L : String.length (utf8 n) <= 9).
    { apply (f_equal String.length) in E. rewrite !length_app in E. cbn in E. lia. }
    assert (G : each_char (fun c => In c [lf; " "; "a"; "b"]%char) (utf8 n)).
    { assert (W : forall s t u : string, each_char (fun c => In c [lf; " "; "a"; "b"]%char) (s ++ t ++ u) -> each_char (fun c => In c [lf; " "; "a"; "b"]%char) t).
      { intros s0 t0 u0. induction s0 as [|c s0 IHs]; [|intros [_ K]; apply IHs; exact K]. cbn [String.append].
        induction t0 as [|c t0 IHt]; [intros; exact I|]. intros [K1 K2]. split; [exact K1|apply IHt; exact K2]. }
      apply (W a (utf8 n) b). rewrite <- E. cbn. tauto. }
    clear E L. cbn [In] in Hn. repeat match type of Hn with _ \/ _ => destruct Hn as [<-|Hn] end; try contradiction;
      vm_compute in G; intuition discriminate.
  - intros a b E. exfalso.
    assert (G : each_char (fun c => c <> cr) (a ++ String "013" b)) by (rewrite <- E; cbn; repeat split; discriminate).
    clear E. induction a as [|c a IH]; [destruct G as [G _]; apply G; reflexivity|apply IH; apply G].
  - intros a l b x y k E Hx Bx Hy By Bl _. exfalso. cbn in E.
    destruct a as [|a0 [|a1 [|a2 [|a3 a]]]]; cbn in E.
    + destruct Hx.
    + injection E as <- <- <-. discriminate Bl.
    + injection E as <- <- <- <-. discriminate Bl.
    + injection E as <- <- <- <- <-. destruct Hy.
    + injection E. intros. destruct a; discriminate.
Qed.
Lemma exact_limit_case f64 : parse_query f64 50 (Some 3%N) "{a}" = PErr /\ parse_query f64 50 (Some 4%N) "{a}" = POk [PSelections [NField None "a" [] [] []]]
  /\ length (document_tokens [PSelections [NField None "a" [] [] []]]) = 3.
Proof. split; [|split]; vm_compute; reflexivity. Qed.

(** Any number of strings passes a limit of ten tokens. *)
Fixpoint quotes (n : nat) : string := match n with O => "" | S n => (String "034" (String "034" " ") ++ quotes n)%string end.
Definition quote_tokens (n : nat) : list token := repeat (mktok KString (String "034" (String "034" ""))) n.
Lemma quotes_case f64 n : exists s ds, parse_query f64 50 (Some 10%N) s = POk ds /\ n <= length (document_tokens ds).
Proof.
  exists (around ("[" ++ quotes n ++ "]")%string), (field_with (GList (repeat (GStr "") n))).
  assert (V : flat_map value_tokens (repeat (GStr "") n) = repeat (DStr "") n) by (induction n; cbn; congruence).
  split.
  - apply (complete f64 50 (Some 10%N) _ (around_tokens ([mktok KPunct "["] ++ quote_tokens n ++ [mktok KPunct "]"]))).
    + apply around_lexed; [intros; constructor; assumption|intros; constructor; assumption|intros; exact I|intros v r Hr; exact Hr|].
      cbn [app]. apply (lexes_token _ _ KPunct "["); [constructor; member|exact I|]. rewrite <- app_assoc, string_app_assoc.
      assert (G : lexes_with plain_lexeme plain_ends ("]" ++ ")}")%string ([mktok KPunct "]"] ++ [mktok KPunct ")"; mktok KPunct "}"])).
      { apply (lexes_token _ _ KPunct "]"); [constructor; member|exact I|]. apply closing_lexed; [intros; constructor; assumption|intros; exact I]. }
      clear V. induction n as [|n IH]; [exact G|]. cbn [quotes quote_tokens repeat app]. rewrite string_app_assoc.
      apply (lexes_token _ _ KString (String "034" (String "034" "")) (" " ++ quotes n ++ "]" ++ ")}")%string).
      * apply (plain_string "" ""). constructor.
      * cbn. intros _ K. discriminate K.
      * apply lexes_ignored; [constructor; left; member|exact IH].
    + apply field_with_ok. cbn. clear. induction n; cbn; auto.
    + apply field_with_means. cbn [value_tokens]. unfold framed. rewrite V. cbn [app]. constructor; [constructor|].
      apply Forall2_app; [|constructor; [constructor|constructor]]. clear. unfold quote_tokens. induction n; constructor; [|assumption].
      apply (means_string f64 "" ""). constructor.
    + cbn. replace (deepest (map value_depth (repeat (GStr "") n))) with 0; [cbn; lia|]. clear. induction n; cbn; auto.
    + assert (W : weight (around_tokens ([mktok KPunct "["] ++ quote_tokens n ++ [mktok KPunct "]"])) = 9); [|rewrite W; lia].
      unfold weight, around_tokens. rewrite !filter_app, !app_length.
      assert (Z : filter (fun t => match tok_kind t with KPunct | KName | KInt => true | _ => false end) (quote_tokens n) = []) by (clear; unfold quote_tokens; induction n; cbn; auto).
      rewrite Z. reflexivity.
  - unfold document_tokens, field_with. cbn -[value_tokens]. rewrite !app_nil_r. cbn [value_tokens]. unfold framed. rewrite V.
    cbn. rewrite !app_length, repeat_length. lia.
Qed.
