(** Characters and literals: the model against the GraphQL specification. *)
From Coq Require Import String Ascii List NArith ZArith Bool Arith Lia Decimal DecimalString.
From Verif Require Import StrUtil Ast CondModel NormModel JsonWriterModel JsonText JsonWriterProofs GqlModel GqlSpec.
Import ListNotations.
Local Open Scope list_scope.
Local Open Scope string_scope.

(** * Characters *)
Lemma among_spec l c : among l c <-> existsb (Ascii.eqb c) (list_ascii_of_string l) = true.
Proof.
  unfold among. rewrite existsb_exists. split.
  - intros H. exists c. split; [exact H|apply Ascii.eqb_refl].
  - intros (d & H & E). apply Ascii.eqb_eq in E. congruence.
Qed.
Lemma same_class (f g : ascii -> bool) :
  forallb (fun n => Bool.eqb (f (ascii_of_nat n)) (g (ascii_of_nat n))) (seq 0 256) = true -> forall c, f c = g c.
Proof. intros H c. apply eqb_prop. apply (all_ascii (fun c => Bool.eqb (f c) (g c))). exact H. Qed.
Lemma digit_spec c : digit c = true <-> Digit c.
Proof.
  unfold Digit. rewrite among_spec.
  rewrite (same_class digit (fun c => existsb (Ascii.eqb c) (list_ascii_of_string "0123456789")) ltac:(vm_compute; reflexivity) c).
  reflexivity.
Qed.
Lemma name_start_spec c : name_start c = true <-> NameStart c.
Proof.
  unfold NameStart. rewrite among_spec.
  rewrite (same_class name_start (fun c => existsb (Ascii.eqb c) (list_ascii_of_string "ABCDEFGHIJKLMNOPQRSTUVWXYZabcdefghijklmnopqrstuvwxyz_")) ltac:(vm_compute; reflexivity) c).
  reflexivity.
Qed.
Lemma name_continue_spec c : name_continue c = true <-> NameContinue c.
Proof. unfold name_continue, NameContinue. rewrite orb_true_iff, name_start_spec, digit_spec. reflexivity. Qed.
Lemma is_spec d c : is d c = true <-> c = d.
Proof. apply Ascii.eqb_eq. Qed.
Lemma is_not d c : is d c = false <-> c <> d.
Proof. apply Ascii.eqb_neq. Qed.
Lemma terminator_spec c : LineTerminator c <-> c = lf \/ c = cr.
Proof.
  unfold LineTerminator. split.
  - intros [H|H]; [left|right]; rewrite <- (ascii_N_embedding c), H; reflexivity.
  - intros [->| ->]; [left|right]; reflexivity.
Qed.
Lemma terminator_bool c : LineTerminator c <-> (is cr c || is lf c)%bool = true.
Proof. rewrite terminator_spec, orb_true_iff, !is_spec. tauto. Qed.

Lemma app_cons c a b : String c a ++ b = String c (a ++ b).
Proof. reflexivity. Qed.
Lemma length_app a b : String.length (a ++ b) = String.length a + String.length b.
Proof. induction a; cbn; congruence. Qed.
Lemma take_app a b : take_str (String.length a) (a ++ b) = a.
Proof. induction a; cbn; congruence. Qed.
Lemma drop_app a b : drop_str (String.length a) (a ++ b) = b.
Proof. induction a; cbn; congruence. Qed.
Lemma app_same_l a b c : a ++ b = a ++ c -> b = c.
Proof. induction a; cbn; [auto|]. intros H. injection H as H. auto. Qed.
Lemma app_same_r a b c : a ++ c = b ++ c -> a = b.
Proof.
  revert b. induction a as [|x a IH]; intros [|y b]; cbn; intros H; try reflexivity.
  - apply (f_equal String.length) in H. cbn in H. rewrite length_app in H. lia.
  - apply (f_equal String.length) in H. cbn in H. rewrite length_app in H. lia.
  - injection H as -> H. f_equal. auto.
Qed.
Lemma all_each p (P : ascii -> Prop) s : (forall c, p c = true <-> P c) -> (all p s = true <-> each_char P s).
Proof.
  intros H. induction s as [|c s IH]; cbn; [tauto|]. rewrite andb_true_iff, IH, H. reflexivity.
Qed.
Lemma each_app P a b : each_char P (a ++ b) <-> each_char P a /\ each_char P b.
Proof. induction a; cbn; tauto. Qed.

(** * Escapes *)
Lemma radix_hex a b c d : is "+" a = false -> from_str_radix16 a b c d = hex4 a b c d.
Proof.
  intros H. unfold from_str_radix16, hex4. rewrite H. cbn [radix16].
  change (hex_digit_value a) with (hex_val a). change (hex_digit_value b) with (hex_val b).
  change (hex_digit_value c) with (hex_val c). change (hex_digit_value d) with (hex_val d).
  destruct (hex_val a); [|reflexivity]. destruct (hex_val b); [|reflexivity].
  destruct (hex_val c); [|reflexivity]. destruct (hex_val d); reflexivity.
Qed.
Lemma hex_val_small c n : hex_val c = Some n -> (n < 16)%N.
Proof.
  unfold hex_val, code. destruct (_ && _)%bool eqn:E1.
  - apply andb_true_iff in E1 as [E1 E2]. apply N.leb_le in E1, E2. intros H. injection H as <-. lia.
  - destruct (_ && _)%bool eqn:E2 in |- *.
    + apply andb_true_iff in E2 as [E2 E3]. apply N.leb_le in E2, E3. intros H. injection H as <-. lia.
    + destruct (_ && _)%bool eqn:E3 in |- *; [|discriminate].
      apply andb_true_iff in E3 as [E3 E4]. apply N.leb_le in E3, E4. intros H. injection H as <-. lia.
Qed.
Lemma hex4_small a b c d n : hex4 a b c d = Some n -> (n < 65536)%N.
Proof.
  unfold hex4. destruct (hex_val a) eqn:A; [|discriminate]. destruct (hex_val b) eqn:B; [|discriminate].
  destruct (hex_val c) eqn:C; [|discriminate]. destruct (hex_val d) eqn:D; [|discriminate].
  apply hex_val_small in A, B, C, D. intros H. injection H as <-. lia.
Qed.
Lemma hex4_not_plus a b c d n : hex4 a b c d = Some n -> is "+" a = false.
Proof. intros H. apply is_not. intros ->. discriminate H. Qed.
Lemma push_utf8 n s : (n < 65536)%N -> push_char n s = utf8 n ++ s.
Proof.
  intros H. unfold push_char, utf8. destruct (N.ltb n 128); [reflexivity|]. destruct (N.ltb n 2048); [reflexivity|].
  apply N.ltb_lt in H. rewrite H. reflexivity.
Qed.
Lemma surrogate_spec n : surrogate n = false <-> (n < 55296 \/ 57343 < n)%N.
Proof. unfold surrogate. rewrite andb_false_iff, !N.leb_gt. reflexivity. Qed.

Lemma unquote_plain c r : c <> bslash -> unquote (String c r) = pmap (String c) (unquote r).
Proof. intros H. apply is_not in H. cbn. rewrite H. reflexivity. Qed.
Lemma unquote_hex a b c d r : unquote (String bslash (String "u" (String a (String b (String c (String d r)))))) =
  match from_str_radix16 a b c d with
  | Some n => if surrogate n then PErr else pmap (push_char n) (unquote r)
  | None => PErr
  end.
Proof. reflexivity. Qed.
(** Read by the router when neither a \b nor an escaped surrogate is there *)
Lemma simple_unquote r s : chars_with simple_escape r s -> unquote r = POk s.
Proof.
  induction 1 as [|c r s Hq Hb Ht H IH|e v r s (He & Hn & Hl) H IH].
  - reflexivity.
  - rewrite unquote_plain by exact Hb. rewrite IH. reflexivity.
  - destruct He as [| | | | | | | |a b c d n Hx Hs|]; try (cbn; rewrite IH; reflexivity); try congruence.
    + cbn [String.append bs]. change ("092"%char) with bslash. rewrite unquote_hex.
      rewrite radix_hex by (eapply hex4_not_plus; exact Hx). rewrite Hx. apply surrogate_spec in Hs. rewrite Hs, IH.
      cbn [pmap]. rewrite push_utf8 by (eapply hex4_small; exact Hx). reflexivity.
    + cbn in Hl. lia.
Qed.
Lemma simple_chars r s : chars_with simple_escape r s -> chars r s.
Proof.
  induction 1 as [|c r s Hq Hb Ht H IH|e v r s (He & Hn & Hl) H IH].
  - constructor.
  - constructor; assumption.
  - constructor; assumption.
Qed.

(** What is between the quotes: the router stops at a quote that is not escaped and refuses line feeds. *)
Fixpoint inside (escaped : bool) (r : string) : Prop :=
  match r with
  | EmptyString => escaped = false
  | String c r' => ((is dquote c && negb escaped)%bool = false) /\ c <> lf /\ inside (negb escaped && is bslash c) r'
  end.
Lemma scan_inside s : forall escaped a rest, scan_string escaped s = Some (a, rest) ->
  exists r, a = r ++ quote1 /\ s = a ++ rest /\ inside escaped r.
Proof.
  induction s as [|c s IH]; intros escaped a rest; cbn; [discriminate|].
  destruct (is dquote c && negb escaped)%bool eqn:E.
  - intros H. injection H as <- <-. apply andb_true_iff in E as [E E']. apply is_spec in E as ->.
    exists "". split; [reflexivity|]. split; [reflexivity|]. destruct escaped; [discriminate E'|reflexivity].
  - destruct (is lf c) eqn:L; [discriminate|]. destruct (scan_string _ s) as [[a' r']|] eqn:F; [|discriminate].
    intros H. injection H as <- <-. apply IH in F as (r & -> & -> & I). exists (String c r).
    split; [reflexivity|]. split; [reflexivity|]. cbn. rewrite E. apply is_not in L. auto.
Qed.
Lemma inside_scan r rest : forall escaped, inside escaped r ->
  scan_string escaped (r ++ String dquote rest) = Some (r ++ quote1, rest).
Proof.
  induction r as [|c r IH]; intros escaped; cbn.
  - intros ->. reflexivity.
  - intros (E & L & I). rewrite E. apply is_not in L. rewrite L. rewrite (IH _ I). reflexivity.
Qed.
Lemma inside_hex c r : hex_val c <> None -> inside false r -> inside false (String c r).
Proof.
  intros H I. cbn. assert (K : c <> dquote /\ c <> lf /\ c <> bslash) by (repeat split; intros ->; apply H; reflexivity).
  destruct K as (K1 & K2 & K3). apply is_not in K1, K3. rewrite K1, K3. cbn. auto.
Qed.
Lemma hex4_each a b c d n : hex4 a b c d = Some n ->
  hex_val a <> None /\ hex_val b <> None /\ hex_val c <> None /\ hex_val d <> None.
Proof.
  unfold hex4. destruct (hex_val a); [|discriminate]. destruct (hex_val b); [|discriminate].
  destruct (hex_val c); [|discriminate]. destruct (hex_val d); [|discriminate]. repeat split; discriminate.
Qed.
Lemma inside_escape e r : e <> lf -> inside false r -> inside false (String bslash (String e r)).
Proof.
  intros H I. cbn. split; [reflexivity|]. split; [discriminate|]. rewrite andb_false_r.
  split; [reflexivity|]. split; [exact H|exact I].
Qed.
Lemma chars_inside r s : chars r s -> inside false r.
Proof.
  induction 1 as [|c r s Hq Hb Ht H IH|e v r s He H IH].
  - reflexivity.
  - cbn. assert (Q : is dquote c = false) by (apply is_not; exact Hq). assert (B : is bslash c = false) by (apply is_not; exact Hb).
    rewrite Q, B. cbn. rewrite terminator_spec in Ht. tauto.
  - destruct He as [| | | | | | | |a b c d n Hx Hs|a b c d n a' b' c' d' n' Hx Hx' Hs Hs'];
      try (cbn; split; [reflexivity|]; split; [discriminate|]; split; [reflexivity|]; split; [discriminate|]; exact IH).
    + apply hex4_each in Hx as (A & B & C & D). cbn [String.append bs]. apply inside_escape; [discriminate|].
      repeat (apply inside_hex; [assumption|]). exact IH.
    + apply hex4_each in Hx as (A & B & C & D). apply hex4_each in Hx' as (A' & B' & C' & D').
      cbn [String.append bs]. apply inside_escape; [discriminate|].
      repeat (apply inside_hex; [assumption|]). apply inside_escape; [discriminate|].
      repeat (apply inside_hex; [assumption|]). exact IH.
Qed.

Lemma contains_cons p c v : contains p v -> contains p (String c v).
Proof. intros (a & b & ->). exists (String c a), b. reflexivity. Qed.
Lemma contains_here p b : contains p (p ++ b).
Proof. exists "", b. reflexivity. Qed.
Lemma contains_app p a v b : contains p v -> contains p (a ++ v ++ b).
Proof.
  intros (x & y & ->). exists (a ++ x), (y ++ b). rewrite <- !string_app_assoc. reflexivity.
Qed.
(** Without carriage return, \b and \u+, what the router decodes is what is written. *)
Lemma unquote_chars : forall n r s, String.length r <= n -> inside false r -> unquote r = POk s ->
  ~ contains (String "013" "") r -> ~ contains (bs ++ "b") r -> ~ contains (bs ++ "u+") r -> chars r s.
Proof.
  induction n as [|n IH]; intros [|c r] s Hn I U Hc Hb Hp; cbn in Hn; try lia.
  - injection U as <-. constructor.
  - injection U as <-. constructor.
  - assert (N : forall p r', (exists x, String c r = x ++ r') -> ~ contains p (String c r) -> ~ contains p r').
    { intros p r' (x & ->) H K. apply H. destruct K as (a & b & ->). exists (x ++ a), b. rewrite string_app_assoc. reflexivity. }
    destruct (ascii_dec c bslash) as [->|Hne].
    + destruct r as [|e r]; [discriminate U|]. cbn in I. destruct I as (_ & _ & _ & He & I).
      assert (G : forall v t, escaped_as (String e "") v -> unquote r = POk t -> chars (String bslash (String e r)) (v ++ t)).
      { intros v t Hv Ht. apply (chars_escape escaped_as (String e "") v r t); [exact Hv|].
        apply IH; [cbn in Hn; lia|exact I|exact Ht| | |];
          (eapply N; [exists (String bslash (String e "")); reflexivity|assumption]). }
      cbn [unquote] in U. change (is bslash bslash) with true in U. cbv iota in U.
      destruct (is dquote e || is bslash e || is "/" e)%bool eqn:E1.
      { destruct (unquote r) as [t| | | |] eqn:Er; try discriminate U. injection U as <-. change (String e t) with (String e "" ++ t).
        apply G; [|reflexivity]. apply orb_true_iff in E1 as [E1|E1]; [apply orb_true_iff in E1 as [E1|E1]|]; apply is_spec in E1 as ->; constructor. }
      destruct (is "b" e) eqn:E2.
      { apply is_spec in E2 as ->. exfalso. apply Hb. apply (contains_here (bs ++ "b") r). }
      destruct (is "f" e) eqn:E3.
      { apply is_spec in E3 as ->. destruct (unquote r) as [t| | | |] eqn:Er; try discriminate U. injection U as <-.
        apply (G (String "012" "")); [constructor|reflexivity]. }
      destruct (is "n" e) eqn:E4.
      { apply is_spec in E4 as ->. destruct (unquote r) as [t| | | |] eqn:Er; try discriminate U. injection U as <-.
        apply (G (String "010" "")); [constructor|reflexivity]. }
      destruct (is "r" e) eqn:E5.
      { apply is_spec in E5 as ->. destruct (unquote r) as [t| | | |] eqn:Er; try discriminate U. injection U as <-.
        apply (G (String "013" "")); [constructor|reflexivity]. }
      destruct (is "t" e) eqn:E6.
      { apply is_spec in E6 as ->. destruct (unquote r) as [t| | | |] eqn:Er; try discriminate U. injection U as <-.
        apply (G (String "009" "")); [constructor|reflexivity]. }
      destruct (is "u" e) eqn:E7; [|discriminate U]. apply is_spec in E7 as ->.
      destruct r as [|h1 [|h2 [|h3 [|h4 r]]]]; try discriminate U.
      assert (Pl : is "+" h1 = false).
      { apply is_not. intros ->. apply Hp. apply (contains_here (bs ++ "u+") (String h2 (String h3 (String h4 r)))). }
      rewrite radix_hex in U by exact Pl. destruct (hex4 h1 h2 h3 h4) as [k|] eqn:Hx; [|discriminate U].
      destruct (surrogate k) eqn:Sg; [discriminate U|]. destruct (unquote r) as [t| | | |] eqn:Er; try discriminate U.
      cbn [pmap] in U. injection U as <-. rewrite push_utf8 by (eapply hex4_small; exact Hx).
      apply (chars_escape escaped_as (String "u" (String h1 (String h2 (String h3 (String h4 ""))))) (utf8 k) r t).
      { apply esc_u; [exact Hx|]. apply surrogate_spec. exact Sg. }
      apply IH; [cbn in Hn; lia| |exact Er| | |].
      2-4: (eapply N; [exists (String bslash (String "u" (String h1 (String h2 (String h3 (String h4 "")))))); reflexivity|assumption]).
      apply hex4_each in Hx as (A & B & C & D).
      assert (W : forall c r, hex_val c <> None -> inside false (String c r) -> inside false r).
      { intros x y Hx' K. cbn in K. destruct K as (_ & _ & K).
        assert (F : is bslash x = false) by (apply is_not; intros ->; apply Hx'; reflexivity). rewrite F in K. exact K. }
      cbn [negb andb] in I. apply W in I; [|exact A]. apply W in I; [|exact B]. apply W in I; [|exact C]. apply W in I; [|exact D]. exact I.
    + rewrite unquote_plain in U by exact Hne. destruct (unquote r) as [t| | | |] eqn:Er; try discriminate U. injection U as <-.
      cbn in I. destruct I as (I1 & I2 & I3). assert (F : is bslash c = false) by (apply is_not; exact Hne). rewrite F in I3. cbn in I3.
      rewrite andb_true_r in I1. apply is_not in I1. constructor; [exact I1|exact Hne| |].
      * rewrite terminator_spec. intros [->| ->]; [congruence|]. apply Hc. apply (contains_here (String "013" "") r).
      * apply IH; [lia|exact I3|exact Er| | |]; (eapply N; [exists (String c ""); reflexivity|assumption]).
Qed.
Lemma quoted_inner r : unquote_string (quote1 ++ r ++ quote1) = unquote r.
Proof.
  unfold unquote_string. rewrite !length_app. cbn [String.length quote1 tail String.append].
  replace (1 + (String.length r + 1) - 2) with (String.length r) by lia. rewrite take_app. reflexivity.
Qed.

(** * A literal has one meaning *)
Lemma escaped_one e v e' v' r r' : escaped_as e v -> escaped_as e' v' -> e ++ r = e' ++ r' -> e = e' /\ v = v' /\ r = r'.
Proof.
  intros H H' E. destruct H as [| | | | | | | |a b c d n Hx Hs|a b c d n a1 b1 c1 d1 n1 Hx Hx1 Hs Hs1];
    destruct H' as [| | | | | | | |a' b' c' d' n' Hx' Hs'|a' b' c' d' n' a1' b1' c1' d1' n1' Hx' Hx1' Hs' Hs1'];
    cbn in E; try discriminate E; try (injection E as E; auto; fail).
  - injection E as -> -> -> -> E. rewrite Hx in Hx'. injection Hx' as <-. auto.
  - injection E as -> -> -> -> E. rewrite Hx in Hx'. injection Hx' as <-. lia.
  - injection E as -> -> -> -> E. rewrite Hx in Hx'. injection Hx' as <-. lia.
  - injection E as -> -> -> -> -> -> -> -> E. rewrite Hx in Hx'. injection Hx' as <-. rewrite Hx1 in Hx1'. injection Hx1' as <-. auto.
Qed.
Lemma chars_one r s : chars r s -> forall s', chars r s' -> s = s'.
Proof.
  induction 1 as [|c r s Hq Hb Ht H IH|e v r s He H IH]; intros s' K.
  - inversion K as [| |e' v' r' s'' He' K' E]. reflexivity.
  - inversion K as [|c' r' s'' Hq' Hb' Ht' K' E|e' v' r' s'' He' K' E]; subst.
    + f_equal. apply IH. exact K'.
    + congruence.
  - inversion K as [|c' r' s'' Hq' Hb' Ht' K' E|e' v' r' s'' He' K' E]; subst.
    + congruence.
    + destruct (escaped_one _ _ _ _ _ _ He' He E) as (-> & -> & ->). f_equal. apply IH. exact K'.
Qed.

(** * Numbers *)
Lemma acc_value s : each_char Digit s -> exists u, NilEmpty.uint_of_string s = Some u /\
  forall p, Z.pos (Pos.of_uint_acc u p) = digits_value (Z.pos p) s.
Proof.
  induction s as [|c s IH]; cbn [each_char NilEmpty.uint_of_string].
  - intros _. exists Nil. auto.
  - intros [Hc Hs]. destruct (IH Hs) as (u & -> & Hu). unfold Digit, among in Hc. cbn [list_ascii_of_string In] in Hc.
    repeat match type of Hc with _ \/ _ => destruct Hc as [<-|Hc] end; try contradiction;
      (eexists; split; [cbn; reflexivity|]; intros p; cbn [Pos.of_uint_acc]; rewrite Hu; cbn [digits_value]; f_equal;
       match goal with |- _ = (_ + digit_value ?c)%Z => let x := eval vm_compute in (digit_value c) in change (digit_value c) with x end; lia).
Qed.
Lemma uint_value s : each_char Digit s -> exists u, NilEmpty.uint_of_string s = Some u /\ Z.of_uint u = digits_value 0 s.
Proof.
  induction s as [|c s IH]; cbn.
  - intros _. exists Nil. auto.
  - intros [Hc Hs]. destruct (IH Hs) as (u & Eu & Hu). destruct (acc_value s Hs) as (u' & Eu' & Hu'). rewrite Eu in Eu'. injection Eu' as <-.
    rewrite Eu. unfold Digit, among in Hc. cbn in Hc.
    repeat match type of Hc with _ \/ _ => destruct Hc as [<-|Hc] end; try contradiction;
      (eexists; split; [reflexivity|]; unfold Z.of_uint in *; cbn [Pos.of_uint];
       first [exact Hu | (cbn [Z.of_N]; rewrite Hu'; reflexivity)]).
Qed.
Lemma bounded_i64 z : (((-9223372036854775808 <=? z) && (z <=? 9223372036854775807))%Z = true) <-> in_i64 z.
Proof. rewrite andb_true_iff, !Z.leb_le. unfold in_i64. lia. Qed.
Lemma i64_value v : IntegerPart v -> forall z, parse_i64 v = Some z <-> in_i64 (int_value v) /\ z = int_value v.
Proof.
  assert (G : forall (neg : bool) (body : string) (w z : Z), each_char Digit body -> w = (if neg then - digits_value 0 body else digits_value 0 body)%Z ->
    match NilEmpty.uint_of_string body with
    | Some u => let z := (if neg then - Z.of_uint u else Z.of_uint u)%Z in
        if ((-9223372036854775808 <=? z) && (z <=? 9223372036854775807))%Z then Some z else None
    | None => None
    end = Some z <-> in_i64 w /\ z = w).
  { intros neg body w z H ->. destruct (uint_value body H) as (u & -> & Hu). cbn zeta. rewrite Hu.
    destruct neg.
    - destruct (_ && _)%bool eqn:E.
      + apply bounded_i64 in E. split; [intros K; injection K as <-; auto|intros [_ ->]; reflexivity].
      + split; [discriminate|]. intros [K _]. apply bounded_i64 in K. congruence.
    - destruct (_ && _)%bool eqn:E.
      + apply bounded_i64 in E. split; [intros K; injection K as <-; auto|intros [_ ->]; reflexivity].
      + split; [discriminate|]. intros [K _]. apply bounded_i64 in K. congruence. }
  assert (Z0 : each_char Digit "0") by (cbn; split; [left; reflexivity|exact I]).
  intros H z. destruct H as [| |d ds Hd Hz Hds|d ds Hd Hz Hds].
  - apply (G false "0"); [exact Z0|reflexivity].
  - apply (G true "0"); [exact Z0|reflexivity].
  - assert (M : d <> "-"%char) by (intros ->; vm_compute in Hd; intuition discriminate).
    unfold parse_i64. replace (match String d ds with String "-" b => (true, b) | _ => (false, String d ds) end) with (false, String d ds).
    + apply (G false (String d ds)); [cbn; auto|]. unfold int_value. destruct (ascii_dec d "-"); [congruence|reflexivity].
    + clear -M. destruct d as [[] [] [] [] [] [] [] []]; try reflexivity. congruence.
  - unfold parse_i64. apply (G true (String d ds)); [cbn; auto|]. unfold int_value. destruct (ascii_dec "-" "-"); [reflexivity|congruence].
Qed.
