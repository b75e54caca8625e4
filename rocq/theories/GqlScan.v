(** Scanning one token, skipping what is ignored, and the list of tokens of a text. *)
From Coq Require Import String Ascii List NArith ZArith Bool Arith Lia.
From Verif Require Import StrUtil Ast CondModel NormModel JsonWriterModel JsonWriterProofs GqlModel GqlSpec GqlChars GqlLex GqlBlockProofs.
Import ListNotations.
Local Open Scope list_scope.
Local Open Scope string_scope.

Definition ends_in_sign (v : string) : Prop := exists w g, v = w ++ String g "" /\ among "+-" g.
Lemma exp_accepted e y : is_e e = true -> check_exp y = true -> ExponentPart (String e y) \/ ends_in_sign y.
Proof.
  intros He H. apply is_e_spec in He. destruct y as [|c y]; [discriminate|]. cbn [check_exp] in H.
  destruct (negb (is "-" c) && negb (is "+" c) && negb (between "1" "8" c))%bool eqn:E; [discriminate|].
  apply all_digits in H. destruct (is_sign c) eqn:Sg.
  - apply is_sign_spec in Sg. destruct y as [|d ds].
    + right. exists "", c. auto.
    + left. destruct H as [Hd Hds]. constructor; assumption.
  - left. constructor; [exact He| |exact H]. apply digit_spec.
    assert (B : between "1" "8" c = true).
    { unfold is_sign, one_of in Sg. cbn [existsb] in Sg. apply orb_false_iff in Sg as [S1 S2]. apply orb_false_iff in S2 as [S2 _].
      unfold is in E. rewrite S1, S2 in E. cbn in E. destruct (between "1" "8" c); [reflexivity|discriminate E]. }
    revert B. apply (implied_class (between "1" "8") digit). vm_compute. reflexivity.
Qed.
Lemma sign_app a v : ends_in_sign v -> ends_in_sign (a ++ v).
Proof. intros (w & g & -> & H). exists (a ++ w), g. split; [symmetry; apply string_app_assoc|exact H]. Qed.
Lemma take_len n s : n <= String.length s -> String.length (take_str n s) = n.
Proof. revert s. induction n as [|n IH]; intros [|c s] H; cbn in *; try lia. rewrite IH; lia. Qed.
Lemma head_take i c v : 0 < i -> exists v', take_str i (String c v) = String c v'.
Proof. destruct i; [lia|]. intros _. cbn. eauto. Qed.
Lemma last_pos p c v i : last_index p (String c v) = Some i -> p c = false -> 0 < i.
Proof. cbn. destruct (last_index p v); [intros H; injection H as <-; lia|]. intros H K. rewrite K in H. discriminate. Qed.
Lemma dec_accepted v : check_dec v = true -> FractionalPart (String "." v).
Proof.
  unfold check_dec. intros H. apply andb_true_iff in H as [H1 H2]. destruct v as [|d ds]; [discriminate|].
  apply all_digits in H2. destruct H2 as [Hd Hds]. constructor; assumption.
Qed.
Lemma first_not_e c : (is "-" c || digit c)%bool = true -> is_e c = false /\ is "." c = false.
Proof.
  intros H. assert (K : (negb (is_e c) && negb (is "." c))%bool = true).
  { revert H. apply (implied_class (fun c => (is "-" c || digit c)%bool) (fun c => (negb (is_e c) && negb (is "." c))%bool)). vm_compute. reflexivity. }
  apply andb_true_iff in K as [K1 K2]. apply negb_true_iff in K1, K2. auto.
Qed.
Lemma float_accepted c v : (is "-" c || digit c)%bool = true ->
  check_float (String c v) (last_index is_e (String c v)) (last_index (is ".") (String c v)) = true ->
  FloatText (String c v) \/ ends_in_sign (String c v).
Proof.
  intros Hc H. destruct (first_not_e c Hc) as [Fe Fd].
  destruct (last_index is_e (String c v)) as [e|] eqn:Ee; destruct (last_index (is ".") (String c v)) as [r|] eqn:Er.
  - cbn [check_float] in H. destruct (Nat.ltb e r) eqn:Lt; [discriminate|]. rewrite !andb_true_iff in H. destruct H as [[H1 H2] H3].
    pose proof (last_pos _ _ _ _ Er Fd) as P.
    destruct (last_some _ _ _ Ee) as (x & Hx & Ex & Nx & Lx). destruct (last_some _ _ _ Er) as (y & Hy & Ey & Ny & Ly).
    apply is_spec in Hy as ->. destruct (head_take r c v P) as [i Ei].
    assert (I : IntegerPart (take_str r (String c v))) by (rewrite Ei in *; apply int_accepted; assumption).
    assert (Hne : e <> r).
    { intros ->. rewrite Ex in Ey at 1. apply app_same_l in Ey. injection Ey as ->. discriminate Hx. }
    apply Nat.ltb_ge in Lt.
    assert (Ev : String c v = take_str r (String c v) ++ String "." (slice (S r) e (String c v)) ++ String x (drop_str (S e) (String c v))).
    { rewrite Ex in Ey at 1. set (s := String c v) in *. unfold slice.
      assert (T : take_str e s = take_str r s ++ String "." (take_str (e - S r) (drop_str (S r) s))).
      { clear -Ey Lt Hne Ex Ly Lx. assert (E' : s = take_str r s ++ String "." (drop_str (S r) s)) by congruence.
        rewrite E' at 1. replace e with (String.length (take_str r s) + S (e - S r)) at 1 by lia.
        generalize (e - S r) as m. generalize (take_str r s) as a. generalize (drop_str (S r) s) as b. clear.
        intros b a m. induction a as [|q a IH]; cbn; [reflexivity|]. rewrite IH. reflexivity. }
      rewrite Ex at 1. rewrite T, string_app_assoc. reflexivity. }
    apply dec_accepted in H2. destruct (exp_accepted x _ Hx H3) as [X|X].
    + left. rewrite Ev. apply (float_both _ (String "." (slice (S r) e (String c v)))); assumption.
    + right. rewrite Ev. apply sign_app. apply sign_app. destruct X as (w & g & -> & Hg). exists (String x w), g. auto.
  - cbn [check_float] in H. rewrite !andb_true_iff in H. destruct H as [H1 H3].
    pose proof (last_pos _ _ _ _ Ee Fe) as P. destruct (last_some _ _ _ Ee) as (x & Hx & Ex & Nx & Lx).
    destruct (head_take e c v P) as [i Ei].
    assert (I : IntegerPart (take_str e (String c v))) by (rewrite Ei in *; apply int_accepted; assumption).
    destruct (exp_accepted x _ Hx H3) as [X|X].
    + left. rewrite Ex. apply float_exp; assumption.
    + right. rewrite Ex. apply sign_app. destruct X as (w & g & -> & Hg). exists (String x w), g. auto.
  - cbn [check_float] in H. rewrite !andb_true_iff in H. destruct H as [H1 H2].
    pose proof (last_pos _ _ _ _ Er Fd) as P. destruct (last_some _ _ _ Er) as (y & Hy & Ey & Ny & Ly). apply is_spec in Hy as ->.
    destruct (head_take r c v P) as [i Ei].
    assert (I : IntegerPart (take_str r (String c v))) by (rewrite Ei in *; apply int_accepted; assumption).
    left. rewrite Ey. apply float_frac; [exact I|]. apply dec_accepted. exact H2.
  - discriminate H.
Qed.

(** * One token *)
Definition puncts : ascii -> bool := one_of ["("; "["; "{"; ")"; "]"; "}"; "!"; "$"; ":"; "="; "@"; "|"; "&"]%char.
Definition opener (t : token) : bool :=
  match tok_kind t, tok_text t with KPunct, String c _ => one_of ["("; "["; "{"]%char c | _, _ => false end.
Definition closer (t : token) : bool :=
  match tok_kind t, tok_text t with KPunct, String c _ => one_of [")"; "]"; "}"]%char c | _, _ => false end.
Lemma span_app p a b : all p a = true -> (match b with String c _ => p c = false | EmptyString => True end) -> span p (a ++ b) = (a, b).
Proof.
  intros Ha Hb. induction a as [|c a IH]; cbn in *.
  - destruct b as [|c b]; [reflexivity|]. cbn. rewrite Hb. reflexivity.
  - apply andb_true_iff in Ha as [H1 H2]. rewrite H1. rewrite (IH H2). reflexivity.
Qed.
Lemma span_split p s a b : span p s = (a, b) -> s = a ++ b /\ all p a = true /\ match b with String c _ => p c = false | EmptyString => True end.
Proof.
  revert a b. induction s as [|c s IH]; intros a b; cbn.
  - intros H. injection H as <- <-. auto.
  - destruct (p c) eqn:E.
    + destruct (span p s) as [x y]. intros H. injection H as <- <-. destruct (IH _ _ eq_refl) as (-> & H1 & H2).
      cbn. rewrite E. auto.
    + intros H. injection H as <- <-. auto.
Qed.
Lemma not_first (p : ascii -> bool) (P : ascii -> Prop) s : (forall c, p c = true <-> P c) ->
  (match s with String c _ => p c = false | EmptyString => True end) <-> first_not P s.
Proof.
  intros H. destruct s as [|c s]; cbn; [tauto|]. rewrite <- H. destruct (p c); split; intros; congruence.
Qed.
Lemma not_puncts_open c : puncts c = false -> one_of ["("; "["; "{"]%char c = false /\ one_of [")"; "]"; "}"]%char c = false.
Proof.
  intros H. assert (K : (negb (one_of ["("; "["; "{"]%char c) && negb (one_of [")"; "]"; "}"]%char c))%bool = true).
  { apply negb_true_iff in H. revert H.
    apply (implied_class (fun c => negb (puncts c)) (fun c => (negb (one_of ["("; "["; "{"]%char c) && negb (one_of [")"; "]"; "}"]%char c))%bool)).
    vm_compute. reflexivity. }
  apply andb_true_iff in K as [K1 K2]. apply negb_true_iff in K1, K2. auto.
Qed.
Lemma block_scan s : forall escaped a rest, scan_block escaped s = Some (a, rest) -> s = a ++ rest /\ a <> "".
Proof.
  assert (G : forall n s escaped a rest, String.length s <= n -> scan_block escaped s = Some (a, rest) -> s = a ++ rest /\ a <> "").
  { clear s. induction n as [|n IH]; intros [|c s1] escaped a rest Hn; cbn in Hn; try discriminate; try lia. cbn [scan_block].
    assert (Sk : (match scan_block (is bslash c) s1 with Some (a, b) => Some (String c a, b) | None => None end = Some (a, rest)) ->
      String c s1 = a ++ rest /\ a <> "").
    { destruct (scan_block _ s1) as [[a' b']|] eqn:E; [|discriminate]. intros H. injection H as <- <-.
      apply IH in E as [-> _]; [|lia]. split; [reflexivity|discriminate]. }
    destruct s1 as [|d [|e s3]]; [exact Sk|exact Sk|].
    destruct (is dquote c && is dquote d && is dquote e)%bool; [|exact Sk]. destruct escaped.
    - destruct (scan_block false s3) as [[a' b']|] eqn:E; [|discriminate]. intros H. injection H as <- <-.
      apply IH in E as [-> _]; [|cbn in Hn; lia]. split; [reflexivity|discriminate].
    - intros H. injection H as <- <-. split; [reflexivity|discriminate]. }
  intros escaped a rest. apply (G (String.length s)). lia.
Qed.
(** What a scanned token is made of *)
Lemma scan_split s k v r n : scan_token s = Some (k, v, r, n) ->
  s = v ++ r /\ v <> "" /\ (n = true -> k = KPunct \/ k = KName \/ k = KInt) /\
  (match s with String c _ => one_of ["("; "["; "{"]%char c = opener (mktok k v) /\ one_of [")"; "]"; "}"]%char c = closer (mktok k v) | EmptyString => True end).
Proof.
  destruct s as [|c s]; [discriminate|]. unfold scan_token.
  destruct (one_of ["("; "["; "{"; ")"; "]"; "}"; "!"; "$"; ":"; "="; "@"; "|"; "&"]%char c) eqn:Ep.
  { intros H. injection H as <- <- <- <-. split; [reflexivity|]. split; [discriminate|]. split; [auto|]. split; reflexivity. }
  destruct (not_puncts_open c Ep) as [O1 O2].
  assert (Z : forall k' v', k' <> KPunct -> one_of ["("; "["; "{"]%char c = opener (mktok k' v') /\ one_of [")"; "]"; "}"]%char c = closer (mktok k' v')).
  { intros k' v' Hk. rewrite O1, O2. destruct k'; try (split; reflexivity). congruence. }
  destruct (is "." c) eqn:Ed.
  { destruct s as [|d [|e s3]]; try discriminate. destruct (is "." d && is "." e)%bool eqn:E; [|discriminate].
    intros H. injection H as <- <- <- <-. apply andb_true_iff in E as [E1 E2]. apply is_spec in Ed as ->. apply is_spec in E1 as ->. apply is_spec in E2 as ->.
    split; [reflexivity|]. split; [discriminate|]. split; [auto|]. split; reflexivity. }
  destruct (name_start c) eqn:En.
  { destruct (span name_continue s) as [a b] eqn:E. intros H. injection H as <- <- <- <-. apply span_split in E as (-> & _ & _).
    split; [reflexivity|]. split; [discriminate|]. split; [auto|]. apply Z. discriminate. }
  destruct (is "-" c || digit c)%bool eqn:Eg.
  { destruct (span (fun d => negb (number_end d)) s) as [a b] eqn:E. apply span_split in E as (-> & _ & _).
    destruct (last_index _ (String c a)) as [i|]; destruct (last_index (is ".") (String c a)) as [j|];
      try (destruct (check_float _ _ _); [|discriminate]); try (destruct (check_int _); [|discriminate]);
      (intros H; injection H as <- <- <- <-; split; [reflexivity|]; split; [discriminate|]; split; [auto|]; try (apply Z; discriminate)); discriminate. }
  destruct (is dquote c) eqn:Eq; [|discriminate].
  destruct (starts_with (String dquote (String dquote "")) s) eqn:Es.
  - destruct (scan_block false (tail (tail s))) as [[a b]|] eqn:E; [|discriminate]. intros H. injection H as <- <- <- <-.
    apply block_scan in E as [E _]. apply is_spec in Eq as ->.
    destruct s as [|x [|y s2]]; try discriminate Es; [cbn [starts_with] in Es; rewrite andb_false_r in Es; discriminate Es|].
    cbn [starts_with] in Es. rewrite !andb_true_iff in Es. destruct Es as [E1 [E2 _]]. apply Ascii.eqb_eq in E1, E2. subst x y.
    cbn [tail] in E. subst s2. split; [reflexivity|]. split; [discriminate|]. split; [discriminate|]. apply Z. discriminate.
  - destruct (scan_string false s) as [[a b]|] eqn:E; [|discriminate]. intros H. injection H as <- <- <- <-.
    apply scan_inside in E as (q & -> & -> & _). split; [reflexivity|]. split; [discriminate|]. split; [discriminate|]. apply Z. discriminate.
Qed.

(** A token of the plain language is scanned. *)
Lemma plain_scanned k v rest : plain_lexeme k v -> plain_ends k v rest -> exists n, scan_token (v ++ rest) = Some (k, v, rest, n).
Proof.
  assert (Num : forall (c : ascii) (v' : string), (is "-" c || digit c)%bool = true ->
    one_of ["("; "["; "{"; ")"; "]"; "}"; "!"; "$"; ":"; "="; "@"; "|"; "&"]%char c = false /\ is "." c = false /\ name_start c = false).
  { intros c _ H. assert (K : (negb (puncts c) && negb (is "." c) && negb (name_start c))%bool = true).
    { revert H. apply (implied_class (fun c => (is "-" c || digit c)%bool) (fun c => (negb (puncts c) && negb (is "." c) && negb (name_start c))%bool)).
      vm_compute. reflexivity. }
    rewrite !andb_true_iff, !negb_true_iff in K. destruct K as [[K1 K2] K3]. auto. }
  assert (Stop : forall rest, first_not (fun c => ~ (among " ,#!$&():=@[]{}|" c \/ c = "009"%char \/ LineTerminator c)) rest ->
    match rest with String c _ => negb (number_end c) = false | EmptyString => True end).
  { intros [|c r]; cbn [first_not]; [tauto|]. intros H. apply negb_false_iff. destruct (number_end c) eqn:E; [reflexivity|]. exfalso. apply H.
    intros K. assert (F : number_end c = true); [|congruence].
    destruct K as [K|[->|K]]; [|reflexivity|].
    - apply among_spec in K. revert K. apply (implied_class (fun c => existsb (Ascii.eqb c) (list_ascii_of_string " ,#!$&():=@[]{}|")) number_end). vm_compute. reflexivity.
    - apply terminator_spec in K as [->| ->]; reflexivity. }
  intros H He. destruct H as [v H|v H|v H|v H Hx|r s H|t r H Hb].
  - exists true. unfold Punctuator in H. cbn [In] in H.
    repeat match type of H with _ \/ _ => destruct H as [<-|H] end; try contradiction; reflexivity.
  - destruct v as [|c v]; [contradiction|]. cbn in H. destruct H as [Hc Hv]. apply name_start_spec in Hc.
    assert (Hv' : all name_continue v = true) by (apply (all_each _ _ v name_continue_spec); exact Hv).
    assert (K : (negb (puncts c) && negb (is "." c))%bool = true).
    { revert Hc. apply (implied_class name_start (fun c => (negb (puncts c) && negb (is "." c))%bool)). vm_compute. reflexivity. }
    apply andb_true_iff in K as [K1 K2]. apply negb_true_iff in K1, K2. unfold puncts in K1.
    cbn [plain_ends ends] in He. apply (not_first _ _ _ name_continue_spec) in He.
    exists (negb (String.eqb rest "")). rewrite app_cons. unfold scan_token. rewrite K1, K2, Hc, (span_app _ v rest Hv' He). reflexivity.
  - destruct (int_shape v H) as (C & N1 & N2 & N3 & c & v' & -> & Hc). destruct (Num c v' Hc) as (K1 & K2 & K3).
    exists true. rewrite app_cons. unfold scan_token. rewrite K1, K2, K3, Hc.
    rewrite none_cons in N3. apply andb_true_iff in N3 as [_ N3].
    rewrite (span_app (fun d => negb (number_end d)) v' rest N3 (Stop rest He)).
    apply last_none in N1, N2. unfold is_e in N1. rewrite N1, N2, C. reflexivity.
  - destruct (float_shape v H Hx) as (N3 & (c & v' & -> & Hc) & e & r & Ee & Er & Hn & C). destruct (Num c v' Hc) as (K1 & K2 & K3).
    exists false. rewrite app_cons. unfold scan_token. rewrite K1, K2, K3, Hc.
    rewrite none_cons in N3. apply andb_true_iff in N3 as [_ N3].
    rewrite (span_app (fun d => negb (number_end d)) v' rest N3 (Stop rest He)).
    unfold is_e in Ee. rewrite Ee, Er. destruct e, r; try (rewrite C; reflexivity). destruct Hn; congruence.
  - exists false. pose proof (chars_inside _ _ (simple_chars _ _ H)) as I. rewrite string_app_assoc. cbn [quote1 String.append].
    rewrite string_app_assoc. cbn [String.append].
    assert (Q : forall s', scan_token (String "034" s') =
      if starts_with (String dquote (String dquote "")) s' then
        match scan_block false (tail (tail s')) with
        | Some (a, r) => Some (KBlock, String "034" (String "034" (String "034" a)), r, false)
        | None => None
        end
      else match scan_string false s' with Some (a, r) => Some (KString, String "034" a, r, false) | None => None end) by reflexivity.
    rewrite Q.
    assert (Ns : starts_with (String dquote (String dquote "")) (r ++ String "034" rest) = false).
    { destruct r as [|x r].
      - cbn [plain_ends ends] in He. specialize (He eq_refl). destruct rest as [|y rest]; [reflexivity|]. cbn [first_not] in He.
        cbn [starts_with String.append]. destruct (Ascii.eqb dquote y) eqn:E; [|reflexivity]. apply Ascii.eqb_eq in E. subst y. exfalso. apply He. reflexivity.
      - cbn in I. destruct I as (I & _ & _). cbn [starts_with String.append]. destruct (Ascii.eqb dquote x) eqn:E; [|reflexivity].
        apply Ascii.eqb_eq in E. subst x. discriminate I. }
    change (quote1 ++ rest) with (String "034" rest). rewrite Ns. change (String "034" rest) with (String dquote rest). rewrite (inside_scan r rest false I). reflexivity.
  - exists false. pose proof (closed_scan t r rest H) as Sc. rewrite string_app_assoc.
    change (scan_token (quote3 ++ t ++ rest)) with
      (match scan_block false (t ++ rest) with
       | Some (a, r) => Some (KBlock, quote3 ++ a, r, false)
       | None => None
       end). rewrite Sc. reflexivity.
Qed.
(** A scanned token is a lexeme, when its literal can be decoded and has nothing odd in it. *)
Lemma scanned_lexeme s k v r n : scan_token s = Some (k, v, r, n) -> plain_token (mktok k v) ->
  (k = KString -> exists t, unquote_string v = POk t) -> (k = KFloat -> ~ ends_in_sign v) -> lexeme k v /\ ends k v r.
Proof.
  assert (Stop : forall rest, match rest with String c _ => negb (number_end c) = false | EmptyString => True end ->
    first_not (fun c => NameContinue c \/ c = "."%char) rest).
  { intros [|c r']; cbn [first_not]; [tauto|]. intros H [K|K].
    - apply name_continue_spec in K. assert (F : number_end c = false); [|rewrite F in H; discriminate H].
      apply negb_true_iff. revert K. apply (implied_class name_continue (fun c => negb (number_end c))). vm_compute. reflexivity.
    - subst c. discriminate H. }
  destruct s as [|c s]; [discriminate|]. unfold scan_token. intros H Hp Hs Hf. revert H.
  destruct (one_of ["("; "["; "{"; ")"; "]"; "}"; "!"; "$"; ":"; "="; "@"; "|"; "&"]%char c) eqn:Ep.
  { intros H. injection H as <- <- <- <-. split; [|exact I]. constructor. unfold one_of in Ep. cbn [existsb] in Ep.
    repeat (apply orb_true_iff in Ep as [Ep|Ep]; [apply Ascii.eqb_eq in Ep; subst c; cbn; tauto|]). discriminate Ep. }
  destruct (is "." c) eqn:Ed.
  { destruct s as [|d [|e s3]]; try discriminate. destruct (is "." d && is "." e)%bool eqn:E; [|discriminate].
    intros H. injection H as <- <- <- <-. split; [|exact I]. constructor. cbn. tauto. }
  destruct (name_start c) eqn:En.
  { destruct (span name_continue s) as [a b] eqn:E. intros H. injection H as <- <- <- <-. apply span_split in E as (-> & Ha & Hb). split.
    - constructor. cbn. split; [apply name_start_spec; exact En|]. apply (all_each _ _ a name_continue_spec). exact Ha.
    - cbn. apply (not_first _ _ _ name_continue_spec). exact Hb. }
  destruct (is "-" c || digit c)%bool eqn:Eg.
  { destruct (span (fun d => negb (number_end d)) s) as [a b] eqn:E. apply span_split in E as (-> & Ha & Hb).
    assert (Fl : forall e d, last_index (one_of ["e"; "E"]%char) (String c a) = e -> last_index (is ".") (String c a) = d ->
      (if check_float (String c a) e d then Some (KFloat, String c a, b, false) else None) = Some (k, v, r, n) ->
      lexeme k v /\ ends k v r).
    { intros e d Ee Er. destruct (check_float _ _ _) eqn:C; [|discriminate]. intros H. injection H as <- <- <- <-.
      assert (F : FloatText (String c a)).
      { destruct (float_accepted c a Eg) as [F|F]; [|exact F|exfalso; apply (Hf eq_refl); exact F]. unfold is_e. rewrite Ee, Er. exact C. }
      split; [constructor; exact F|]. cbn. apply Stop. exact Hb. }
    destruct (last_index _ (String c a)) as [i|]; destruct (last_index (is ".") (String c a)) as [j|];
      try (apply Fl; reflexivity).
    destruct (check_int (String c a)) eqn:C; [|discriminate]. intros H. injection H as <- <- <- <-.
    split; [constructor; apply int_accepted; assumption|]. cbn. apply Stop. exact Hb. }
  destruct (is dquote c) eqn:Eq; [|discriminate]. apply is_spec in Eq as ->.
  destruct (starts_with (String dquote (String dquote "")) s) eqn:Es.
  - destruct (scan_block false (tail (tail s))) as [[a b]|] eqn:Eb; [|discriminate]. intros H. injection H as <- <- <- <-. split; [|exact I].
    destruct (scan_closed _ _ _ _ _ (le_n _) Eb) as [q Hq]. exact (lexeme_block a q Hq).
  - destruct (scan_string false s) as [[a b]|] eqn:E; [|discriminate]. intros H. injection H as <- <- <- <-.
    apply scan_inside in E as (q & -> & -> & In). destruct (Hs eq_refl) as [t Ht].
    change (String dquote (q ++ quote1)) with (quote1 ++ q ++ quote1) in *. rewrite quoted_inner in Ht.
    destruct Hp as (P1 & P2 & P3). cbn [tok_text] in P1, P2, P3. split.
    + apply (lexeme_string q t). apply (unquote_chars (String.length q)); [lia|exact In|exact Ht| | |];
        intros K; [apply P1|apply P2|apply P3]; apply contains_app; exact K.
    + cbn [ends]. intros K. change (quote1 ++ q ++ quote1) with (String "034" (q ++ quote1)) in K. cbn in K. injection K as K.
      destruct q as [|x q]; [|apply (f_equal String.length) in K; cbn in K; rewrite length_app in K; cbn in K; lia].
      destruct b as [|y b]; [exact I|]. cbn. intros ->. cbn in Es. discriminate Es.
Qed.

(** * What is ignored *)
Definition starter (c : ascii) : bool := (puncts c || is "." c || name_start c || is "-" c || digit c || is dquote c)%bool.
Lemma starter_kept c s : starter c = true -> skip_ws false (String c s) = String c s.
Proof.
  intros H. assert (K : (negb (is cr c || is tab c || is lf c || is " " c || is "," c) && negb (is "#" c) && negb (is "239" c))%bool = true).
  { revert H. apply (implied_class starter (fun c => (negb (is cr c || is tab c || is lf c || is " " c || is "," c) && negb (is "#" c) && negb (is "239" c))%bool)).
    vm_compute. reflexivity. }
  rewrite !andb_true_iff, !negb_true_iff in K. destruct K as [[K1 K2] K3]. cbn [skip_ws]. rewrite K1, K2.
  destruct s as [|d [|e s]]; [reflexivity|reflexivity|]. rewrite K3. reflexivity.
Qed.
Lemma plain_starter k v rest : plain_lexeme k v -> skip_ws false (v ++ rest) = v ++ rest.
Proof.
  assert (G : exists c v', v = String c v' /\ starter c = true -> True) by (exists "a"%char, ""; tauto). clear G.
  intros H. assert (G : plain_lexeme k v -> exists c v', v = String c v' /\ starter c = true).
  { clear H. intros H. destruct H as [v H|v H|v H|v H Hx|r s H|t r H Hb].
    - unfold Punctuator in H. cbn [In] in H.
      repeat match type of H with _ \/ _ => destruct H as [<-|H] end; try contradiction;
        (eexists; eexists; split; [reflexivity|reflexivity]).
    - destruct v as [|c v]; [contradiction|]. exists c, v. split; [reflexivity|]. destruct H as [H _]. apply name_start_spec in H.
      unfold starter. rewrite H. rewrite !orb_true_r. reflexivity.
    - destruct (int_shape v H) as (_ & _ & _ & _ & c & v' & -> & Hc). exists c, v'. split; [reflexivity|].
      revert Hc. apply (implied_class (fun c => (is "-" c || digit c)%bool) starter). vm_compute. reflexivity.
    - destruct (float_shape v H Hx) as (_ & (c & v' & -> & Hc) & _). exists c, v'. split; [reflexivity|].
      revert Hc. apply (implied_class (fun c => (is "-" c || digit c)%bool) starter). vm_compute. reflexivity.
    - exists dquote, (r ++ quote1). split; reflexivity.
    - exists dquote, (String dquote (String dquote t)). split; reflexivity. }
  destruct (G H) as (c & v' & -> & Hc). rewrite app_cons. apply starter_kept. exact Hc.
Qed.
Lemma comment_skipped t rest : each_char (fun c => ~ LineTerminator c) t -> first_not (fun c => ~ LineTerminator c) rest ->
  skip_ws true (t ++ rest) = skip_ws false rest.
Proof.
  induction t as [|c t IH]; cbn [each_char String.append].
  - intros _ H. destruct rest as [|c r]; [reflexivity|]. cbn [first_not] in H. cbn [skip_ws].
    destruct (is cr c || is lf c)%bool eqn:E.
    + cbn [negb]. apply orb_true_iff in E as [E|E]; apply is_spec in E as ->; reflexivity.
    + exfalso. apply H. rewrite terminator_bool, E. discriminate.
  - intros [Hc Ht] Hr. cbn [skip_ws]. rewrite terminator_bool in Hc. apply not_true_iff_false in Hc. rewrite Hc. cbn [negb]. apply IH; assumption.
Qed.
Lemma ignored_skipped i s : ignored i s -> skip_ws false (i ++ s) = skip_ws false s.
Proof.
  intros H. destruct H as [rest|c rest H|t rest H1 H2].
  - reflexivity.
  - rewrite app_cons. cbn [String.append skip_ws].
    assert (K : (is cr c || is tab c || is lf c || is " " c || is "," c)%bool = true).
    { destruct H as [H|[->|H]]; [|reflexivity|].
      - apply among_spec in H. revert H. apply (implied_class (fun c => existsb (Ascii.eqb c) (list_ascii_of_string " ,"))
          (fun c => (is cr c || is tab c || is lf c || is " " c || is "," c)%bool)). vm_compute. reflexivity.
      - apply terminator_spec in H as [->| ->]; reflexivity. }
    rewrite K. reflexivity.
  - cbn [String.append]. change (skip_ws false (String "#" (t ++ rest))) with (skip_ws true (t ++ rest)). apply comment_skipped; assumption.
Qed.
Lemma skipped_ignored L Q : forall n s ts, String.length s <= n -> lexes_with L Q (skip_ws false s) ts -> lexes_with L Q s ts.
Proof.
  assert (C : forall s, exists t rest, s = t ++ rest /\ each_char (fun c => ~ LineTerminator c) t
    /\ first_not (fun c => ~ LineTerminator c) rest /\ skip_ws true s = skip_ws false rest).
  { induction s as [|c s IH].
    - exists "", "". repeat split.
    - destruct (is cr c || is lf c)%bool eqn:E.
      + exists "", (String c s). split; [reflexivity|]. split; [exact I|]. cbn [first_not]. rewrite terminator_bool, E. split; [tauto|].
        cbn [skip_ws]. rewrite E. apply orb_true_iff in E as [E|E]; apply is_spec in E as ->; reflexivity.
      + destruct IH as (t & rest & -> & H1 & H2 & H3). exists (String c t), rest. split; [reflexivity|].
        split; [cbn; split; [rewrite terminator_bool, E; discriminate|exact H1]|]. split; [exact H2|].
        cbn [skip_ws]. rewrite E. exact H3. }
  induction n as [|n IH]; intros [|c s] ts Hn; cbn in Hn; try lia; try (intros H; exact H).
  cbn [skip_ws]. destruct (is cr c || is tab c || is lf c || is " " c || is "," c)%bool eqn:Ew.
  { intros H. apply (lexes_ignored _ _ (String c "") s); [|apply IH; [lia|exact H]]. constructor.
    rewrite !orb_true_iff, !is_spec in Ew. rewrite terminator_spec. unfold among. cbn. intuition congruence. }
  destruct (is "#" c) eqn:Eh.
  { apply is_spec in Eh as ->. destruct (C s) as (t & rest & -> & H1 & H2 & ->). intros H.
    apply (lexes_ignored _ _ (String "#" t) rest); [constructor; assumption|]. apply IH; [|exact H]. rewrite length_app in Hn. lia. }
  destruct s as [|d [|e s]]; try (intros H; exact H).
  destruct (is "239" c && is "187" d && is "191" e)%bool eqn:Eb; [|intros H; exact H].
  apply andb_true_iff in Eb as [Eb E3]. apply andb_true_iff in Eb as [E1 E2]. apply is_spec in E1 as ->. apply is_spec in E2 as ->. apply is_spec in E3 as ->.
  intros H. apply (lexes_ignored _ _ (String "239" (String "187" (String "191" ""))) s); [constructor|]. apply IH; [cbn in Hn; lia|exact H].
Qed.
Lemma skip_length : forall n b s, String.length s <= n -> String.length (skip_ws b s) <= String.length s.
Proof.
  induction n as [|n IH]; intros b [|c s] Hn; cbn in Hn; try lia; [reflexivity..|]. cbn [skip_ws]. destruct b.
  - etransitivity; [apply IH; lia|]. cbn. lia.
  - destruct (_ || _ || _ || _ || _)%bool; [etransitivity; [apply IH; lia|cbn; lia]|].
    destruct (is "#" c); [etransitivity; [apply IH; lia|cbn; lia]|].
    destruct s as [|d [|e s]]; try (cbn; lia). destruct (_ && _ && _)%bool; [|lia].
    cbn in Hn. etransitivity; [apply IH; lia|cbn; lia].
Qed.

(** * The tokens of a text *)
Fixpoint within (d : N) (ts : list token) : Prop :=
  match ts with
  | [] => True
  | t :: r => if opener t then d <> 0%N /\ within (N.pred d) r else if closer t then within (N.succ d) r else within d r
  end.
Lemma plainly_lexed s ts : plainly s ts -> forall fuel depth limit count, String.length s < fuel -> within depth ts ->
  (match limit with Some l => count + N.of_nat (weight ts) < l | None => True end)%N ->
  lex fuel depth limit count (skip_ws false s) = LexOk ts.
Proof.
  induction 1 as [|i s ts Hi H IH|k v s ts Hk He H IH]; intros fuel depth limit count Hf Hw Hl.
  - destruct fuel; [lia|]. cbn. destruct limit as [l|]; [|reflexivity]. cbn in Hl. rewrite N.add_0_r in Hl.
    replace (N.leb l count) with false by (symmetry; apply N.leb_gt; exact Hl). reflexivity.
  - rewrite (ignored_skipped _ _ Hi). apply IH; [|exact Hw|exact Hl]. rewrite length_app in Hf. lia.
  - rewrite (plain_starter k v s Hk). destruct (plain_scanned k v s Hk He) as [n Hs].
    destruct (scan_split _ _ _ _ _ Hs) as (_ & Hne & Hn & Ho).
    destruct v as [|c v]; [congruence|]. destruct fuel as [|fuel]; [lia|]. rewrite app_cons in *.
    cbn [String.length] in Hf. rewrite length_app in Hf. cbn [lex].
    destruct Ho as [Ho Hc]. rewrite Hs, Ho, Hc. cbn [within] in Hw.
    assert (Lt : match limit with Some l => N.leb l count | None => false end = false).
    { destruct limit as [l|]; [|reflexivity]. apply N.leb_gt. lia. }
    rewrite Lt.
    assert (Hl' : match limit with Some l => (match limit with Some _ => if n then N.succ count else count | None => count end) + N.of_nat (weight ts) < l | None => True end%N).
    { destruct limit as [l|]; [|exact I]. assert (W : (if n then 1 else 0) + weight ts <= weight (mktok k (String c v) :: ts)).
      { unfold weight. cbn [filter tok_kind]. destruct n; [destruct (Hn eq_refl) as [->|[->| ->]]; cbn; lia|].
        destruct k; cbn; lia. }
      destruct n; lia. }
    destruct (opener (mktok k (String c v))).
    + destruct Hw as [Hz Hw]. apply N.eqb_neq in Hz. rewrite Hz. rewrite IH; [reflexivity|lia|exact Hw|exact Hl'].
    + destruct (closer (mktok k (String c v))); (rewrite IH; [reflexivity|lia|exact Hw|exact Hl']).
Qed.

Lemma lex_step fuel depth limit count s x : lex (S fuel) depth limit count s = x -> x <> LexFuel ->
  (x = LexOk [] /\ s = "") \/ x = LexErr [] \/
  exists k v r n t depth' count', scan_token s = Some (k, v, r, n) /\ s = v ++ r /\ t = mktok k v /\
    (count <= count')%N /\ (count' = if n then match limit with Some _ => N.succ count | None => count end else count) /\
    (if opener t then depth <> 0%N /\ depth' = N.pred depth else if closer t then depth' = N.succ depth else depth' = depth) /\
    (match limit with Some l => count < l | None => True end)%N /\
    x = lcons t (lex fuel depth' limit count' (skip_ws false r)).
Proof.
  intros <- Hx. cbn [lex] in *.
  destruct (match limit with Some l => N.leb l count | None => false end) eqn:El; [auto|].
  assert (Lt : match limit with Some l => (count < l)%N | None => True end) by (destruct limit; [apply N.leb_gt; exact El|exact I]).
  destruct s as [|c s]; [auto|]. destruct (scan_token (String c s)) as [[[[k v] r] n]|] eqn:Es; [|auto].
  destruct (scan_split _ _ _ _ _ Es) as (Ev & Hv & Hn & Ho & Hc). rewrite Ho, Hc in *.
  set (count' := match limit with Some _ => if n then N.succ count else count | None => count end) in *.
  assert (Cc : (count <= count')%N) by (unfold count'; destruct limit; [destruct n|]; lia).
  assert (Ce : count' = if n then match limit with Some _ => N.succ count | None => count end else count)
    by (unfold count'; destruct limit, n; reflexivity).
  destruct (opener (mktok k v)) eqn:Eo.
  - destruct (N.eqb depth 0) eqn:Ez; [auto|]. apply N.eqb_neq in Ez. right. right.
    exists k, v, r, n, (mktok k v), (N.pred depth), count'. rewrite Eo. auto 12.
  - destruct (closer (mktok k v)) eqn:Ek; right; right.
    + exists k, v, r, n, (mktok k v), (N.succ depth), count'. rewrite Eo, Ek. auto 12.
    + exists k, v, r, n, (mktok k v), depth, count'. rewrite Eo, Ek. auto 12.
Qed.
Lemma lcons_ok t l ts : lcons t l = LexOk ts -> exists ts', l = LexOk ts' /\ ts = t :: ts'.
Proof. destruct l; cbn; intros H; try discriminate. injection H as <-. eauto. Qed.
(** The texts of a token list, decoded *)
Lemma lexed_lexes (f64_of : string -> option N) : (forall v g, among "+-" g -> f64_of (v ++ String g "") = None) ->
  forall fuel depth limit count s ts, lex fuel depth limit count s = LexOk ts ->
  Forall plain_token ts ->
  Forall (fun t => (tok_kind t = KString -> exists x, unquote_string (tok_text t) = POk x) /\ (tok_kind t = KFloat -> f64_of (tok_text t) <> None)) ts ->
  lexes s ts.
Proof.
  intros Hf. induction fuel as [|fuel IH]; intros depth limit count s ts H Hp Hd; [discriminate|].
  destruct (lex_step _ _ _ _ _ _ H) as [[E ->]|[E|(k & v & r & n & t & d' & c' & Es & -> & -> & _ & _ & _ & _ & E)]]; try discriminate.
  - injection E as ->. constructor.
  - symmetry in E. apply lcons_ok in E as (ts' & E & ->). inversion Hp as [|x y P1 P2]; subst. inversion Hd as [|x y D1 D2]; subst.
    destruct D1 as [D1 D3]. cbn [tok_kind tok_text] in D1, D3.
    destruct (scanned_lexeme _ _ _ _ _ Es P1 D1) as [L1 L2].
    { intros -> (w & g & -> & Hg). apply (D3 eq_refl). apply Hf. exact Hg. }
    apply lexes_token; [exact L1|exact L2|]. apply (skipped_ignored _ _ (String.length r)); [lia|]. eapply IH; eassumption.
Qed.
Lemma lexed_within : forall fuel depth limit count s ts, lex fuel depth limit count s = LexOk ts -> within depth ts.
Proof.
  induction fuel as [|fuel IH]; intros depth limit count s ts H; [discriminate|].
  destruct (lex_step _ _ _ _ _ _ H) as [[E ->]|[E|(k & v & r & n & t & d' & c' & Es & -> & -> & _ & _ & Ho & _ & E)]]; try discriminate.
  - injection E as ->. exact I.
  - symmetry in E. apply lcons_ok in E as (ts' & E & ->). apply IH in E. cbn [within].
    destruct (opener _); [destruct Ho as [Ho ->]; auto|]. destruct (closer _); subst d'; exact E.
Qed.
(** Names, punctuators and integers never outnumber the limit. *)
Lemma lexed_weight : forall fuel depth l count s ts, lex fuel depth (Some l) count s = LexOk ts -> (count + N.of_nat (weight ts) <= l)%N.
Proof.
  assert (Last : forall s k v r n, scan_token s = Some (k, v, r, n) -> (k = KPunct \/ k = KName \/ k = KInt) -> n = false -> r = "").
  { intros s k v r n Hs Hk Hn. subst n. destruct s as [|c s]; [discriminate|]. revert Hs. unfold scan_token.
    destruct (one_of _ c); [discriminate|]. destruct (is "." c).
    { destruct s as [|d [|e s]]; try discriminate. destruct (_ && _)%bool; discriminate. }
    destruct (name_start c).
    { destruct (span name_continue s) as [a b]. intros H. injection H as <- <- <- H. apply negb_false_iff in H. apply String.eqb_eq in H. exact H. }
    destruct (_ || _)%bool.
    { destruct (span _ s) as [a b]. destruct (last_index _ (String c a)), (last_index _ (String c a));
        try (destruct (check_float _ _ _); [|discriminate]; intros H; injection H as <- _ _; intuition discriminate).
      destruct (check_int _); discriminate. }
    destruct (is dquote c); [|discriminate]. destruct (starts_with _ s).
    - destruct (scan_block _ _) as [[a b]|]; [|discriminate]. intros H. injection H as <- _ _. intuition discriminate.
    - destruct (scan_string _ _) as [[a b]|]; [|discriminate]. intros H. injection H as <- _ _. intuition discriminate. }
  induction fuel as [|fuel IH]; intros depth l count s ts H; [discriminate|].
  destruct (lex_step _ _ _ _ _ _ H) as [[E ->]|[E|(k & v & r & n & t & d' & c' & Es & -> & -> & _ & Hc & _ & Hl & E)]]; try discriminate.
  - injection E as ->. cbn [lex] in H. destruct (N.leb l count) eqn:El; [discriminate|]. apply N.leb_gt in El. cbn. lia.
  - symmetry in E. apply lcons_ok in E as (ts' & E & ->). cbn in Hl.
    assert (W : weight (mktok k v :: ts') = (match k with KPunct | KName | KInt => 1 | _ => 0 end) + weight ts').
    { unfold weight. cbn [filter tok_kind]. destruct k; reflexivity. }
    rewrite W. destruct n.
    + specialize (IH _ _ _ _ _ E). destruct k; lia.
    + subst c'. destruct k; try (specialize (IH _ _ _ _ _ E); lia);
        (assert (R : r = "") by (eapply Last; [exact Es|auto|reflexivity]); subst r; destruct fuel; [discriminate E|];
         cbn [skip_ws lex] in E; destruct (N.leb l count); [discriminate E|]; injection E as <-; cbn; lia).
Qed.
Lemma lex_ends : forall fuel depth limit count s, String.length s < fuel -> lex fuel depth limit count s <> LexFuel.
Proof.
  induction fuel as [|fuel IH]; intros depth limit count s Hf; [lia|]. cbn [lex].
  destruct (match limit with Some l => N.leb l count | None => false end); [discriminate|].
  destruct s as [|c s]; [discriminate|]. destruct (scan_token (String c s)) as [[[[k v] r] n]|] eqn:Es; [|discriminate].
  destruct (scan_split _ _ _ _ _ Es) as (Ev & Hv & _). destruct v as [|x v]; [congruence|]. rewrite Ev in Hf. rewrite app_cons in Hf.
  cbn [String.length] in Hf. rewrite length_app in Hf. pose proof (skip_length (String.length r) false r (le_n _)) as Hr.
  assert (G : forall d c', lcons (mktok k (String x v)) (lex fuel d limit c' (skip_ws false r)) <> LexFuel).
  { intros d c'. assert (K : lex fuel d limit c' (skip_ws false r) <> LexFuel) by (apply IH; lia).
    destruct (lex fuel d limit c' (skip_ws false r)); cbn; congruence. }
  destruct (one_of _ c); [destruct (N.eqb depth 0); [discriminate|apply G]|]. destruct (one_of _ c); apply G.
Qed.
