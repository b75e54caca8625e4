(** The value of a block string. *)
From Coq Require Import String Ascii List NArith Bool Arith Lia.
From Verif Require Import StrUtil Utf8 Ast JsonWriterModel JsonText GqlModel GqlSpec GqlChars GqlLex.
Import ListNotations.
Local Open Scope string_scope.
Local Open Scope list_scope.

Notation U := unescape_block.
Definition clean_char (c : ascii) : Prop := c <> lf /\ c <> cr.
Notation clean := (each_char clean_char).

Lemma app_cons' c a b : (String c a ++ b)%string = String c (a ++ b).
Proof. reflexivity. Qed.
Lemma is_eq d c : is d c = true <-> c = d.
Proof. unfold is. apply Ascii.eqb_eq. Qed.
Lemma is_neq d c : is d c = false <-> c <> d.
Proof. unfold is. apply Ascii.eqb_neq. Qed.
Lemma is_refl d : is d d = true.
Proof. apply is_eq. reflexivity. Qed.

(** * Lines *)
Lemma line_cases s : no_lone_cr s -> clean s \/
  exists a b, clean a /\ (s = (a ++ String lf b)%string \/ s = (a ++ String cr (String lf b))%string).
Proof.
  induction s as [|c s IH]; intros H; [left; exact I|].
  destruct (ascii_dec c lf) as [->|Hl]; [right; exists "", s; split; [exact I|left; reflexivity]|].
  destruct (ascii_dec c cr) as [->|Hc].
  - destruct (H "" s eq_refl) as [b' ->]. right. exists "", b'. split; [exact I|right; reflexivity].
  - assert (H' : no_lone_cr s) by (intros a b E; apply (H (String c a) b); rewrite E; reflexivity).
    destruct (IH H') as [K|(a & b & Ka & [->| ->])].
    + left. split; [split; assumption|exact K].
    + right. exists (String c a), b. split; [split; [split; assumption|exact Ka]|left; reflexivity].
    + right. exists (String c a), b. split; [split; [split; assumption|exact Ka]|right; reflexivity].
Qed.
Lemma lone_tail a b : no_lone_cr (a ++ b)%string -> no_lone_cr b.
Proof. intros H u v ->. apply (H (a ++ u)%string v). rewrite string_app_assoc. reflexivity. Qed.

Lemma split_clean a : clean a -> split_lines a = [a].
Proof.
  induction a as [|c a IH]; [reflexivity|]. intros [[H1 H2] H3]. cbn [split_lines].
  destruct (ascii_dec c "010") as [->|_]; [exfalso; apply H1; reflexivity|].
  destruct (ascii_dec c "013") as [->|_]; [exfalso; apply H2; reflexivity|]. rewrite (IH H3). reflexivity.
Qed.
Lemma split_clean_app a b p : clean a -> split_lines b = "" :: p -> split_lines (a ++ b) = a :: p.
Proof.
  induction a as [|c a IH]; [auto|]. intros [[H1 H2] H3] Hb. rewrite app_cons'. cbn [split_lines].
  destruct (ascii_dec c "010") as [->|_]; [exfalso; apply H1; reflexivity|].
  destruct (ascii_dec c "013") as [->|_]; [exfalso; apply H2; reflexivity|]. rewrite (IH H3 Hb). reflexivity.
Qed.
Lemma split_lf a b : clean a -> split_lines (a ++ String lf b) = a :: split_lines b.
Proof. intros H. apply split_clean_app; [exact H|reflexivity]. Qed.
Lemma split_crlf a b : clean a -> split_lines (a ++ String cr (String lf b)) = a :: split_lines b.
Proof. intros H. apply split_clean_app; [exact H|reflexivity]. Qed.
Lemma lines_clean a : clean a -> lines a = match a with EmptyString => [] | _ => [a] end.
Proof.
  induction a as [|c a IH]; [reflexivity|]. intros [[H1 H2] H3]. cbn [lines].
  apply is_neq in H1, H2. rewrite H1, H2, (IH H3). destruct a; reflexivity.
Qed.
Lemma lines_clean_app a b p : clean a -> lines b = "" :: p -> lines (a ++ b) = a :: p.
Proof.
  induction a as [|c a IH]; [auto|]. intros [[H1 H2] H3] Hb. rewrite app_cons'. cbn [lines].
  apply is_neq in H1, H2. rewrite H1, H2, (IH H3 Hb). reflexivity.
Qed.
Lemma lines_lf a b : clean a -> lines (a ++ String lf b) = a :: lines b.
Proof. intros H. apply lines_clean_app; [exact H|reflexivity]. Qed.
Lemma lines_crlf a b : clean a -> lines (a ++ String cr (String lf b)) = a :: lines b.
Proof. intros H. apply lines_clean_app; [exact H|reflexivity]. Qed.

(** * Unescaping *)
Lemma starts_quotes s : starts_with quote3 s = true -> exists t, s = (quote3 ++ t)%string.
Proof.
  destruct s as [|a [|b [|c s]]]; cbn [starts_with quote3]; try discriminate; try (rewrite ?andb_false_r; discriminate).
  intros H. apply andb_true_iff in H as [A H]. apply andb_true_iff in H as [B H]. apply andb_true_iff in H as [C _].
  apply Ascii.eqb_eq in A, B, C. subst. exists s. reflexivity.
Qed.
Lemma U_yes s : U (String bslash (quote3 ++ s)) = (quote3 ++ U s)%string.
Proof. reflexivity. Qed.
Lemma U_step c s : c <> bslash \/ starts_with quote3 s = false -> U (String c s) = String c (U s).
Proof.
  intros H. cbn [unescape_block]. destruct s as [|d [|e [|f s]]]; try reflexivity.
  destruct (is bslash c && is dquote d && is dquote e && is dquote f)%bool eqn:E; [|reflexivity].
  rewrite !andb_true_iff in E. destruct E as [[[E1 E2] E3] E4]. apply is_eq in E1, E2, E3, E4. subst.
  destruct H as [H|H]; [congruence|discriminate H].
Qed.
Lemma unescapes_U r s : unescapes r s -> s = U r.
Proof.
  induction 1 as [|r s H IH|c r s Hc H IH]; [reflexivity| |].
  - rewrite IH. reflexivity.
  - rewrite U_step; [rewrite IH; reflexivity|]. destruct (ascii_dec c bslash) as [->|N]; [|left; exact N].
    right. destruct (starts_with quote3 r) eqn:E; [|reflexivity]. apply starts_quotes in E as [t ->]. exfalso. apply (Hc t). reflexivity.
Qed.
Lemma starts_sep a x b : x <> dquote -> starts_with quote3 (a ++ String x b) = starts_with quote3 a.
Proof.
  intros N. assert (F : forall s, (Ascii.eqb dquote x && s)%bool = false).
  { intros s. assert (E : Ascii.eqb dquote x = false) by (apply Ascii.eqb_neq; congruence). rewrite E. reflexivity. }
  change quote3 with (String dquote (String dquote (String dquote ""))).
  destruct a as [|c [|d [|e a]]]; cbn [String.append starts_with]; rewrite ?F, ?andb_false_r; reflexivity.
Qed.
Lemma U_sep x b : x <> dquote -> x <> bslash -> forall n a, String.length a <= n -> U (a ++ String x b) = (U a ++ String x (U b))%string.
Proof.
  intros N1 N2. induction n as [|n IH]; intros a Hn.
  { destruct a; [|cbn in Hn; lia]. apply U_step. left. exact N2. }
  destruct a as [|c a]; [apply U_step; left; exact N2|]. rewrite app_cons'. cbn [String.length] in Hn.
  destruct (ascii_dec c bslash) as [->|N].
  - destruct (starts_with quote3 a) eqn:E.
    + apply starts_quotes in E as [t ->]. rewrite string_app_assoc. rewrite !U_yes, string_app_assoc. f_equal. apply IH.
      cbn [quote3 String.append String.length] in Hn. lia.
    + rewrite !U_step; [|right; exact E|right; rewrite starts_sep; assumption]. rewrite app_cons'. f_equal. apply IH. lia.
  - rewrite !U_step by (left; exact N). rewrite app_cons'. f_equal. apply IH. lia.
Qed.
Lemma U_each P : forall n a, String.length a <= n -> each_char P a -> each_char P (U a).
Proof.
  induction n as [|n IH]; intros a Hn H; (destruct a as [|c a]; [exact I|]); cbn [String.length] in Hn; [lia|].
  destruct H as [Hc H]. destruct (ascii_dec c bslash) as [->|N].
  - destruct (starts_with quote3 a) eqn:E.
    + apply starts_quotes in E as [t ->]. rewrite U_yes. cbn [quote3 String.append each_char] in *. destruct H as (A & B & C & H).
      repeat split; try assumption. apply IH; [cbn in Hn; lia|exact H].
    + rewrite U_step by (right; exact E). split; [exact Hc|]. apply IH; [lia|exact H].
  - rewrite U_step by (left; exact N). split; [exact Hc|]. apply IH; [lia|exact H].
Qed.
Lemma split_U : forall n s, String.length s <= n -> no_lone_cr s -> split_lines (U s) = map U (split_lines s).
Proof.
  induction n as [|n IH]; intros s Hn H.
  { destruct s; [reflexivity|cbn in Hn; lia]. }
  destruct (line_cases s H) as [K|(a & b & Ka & [->| ->])].
  - rewrite (split_clean s K). apply split_clean. apply (U_each _ _ _ (le_n _)). exact K.
  - assert (Hb : no_lone_cr b) by (apply (lone_tail (a ++ String lf "")); rewrite string_app_assoc; exact H).
    rewrite (U_sep lf b) with (n := String.length a); [|discriminate|discriminate|lia].
    rewrite split_lf by (apply (U_each _ _ _ (le_n _)); exact Ka). rewrite split_lf by exact Ka. cbn [map]. f_equal. apply IH; [|exact Hb].
    rewrite length_app in Hn. cbn [String.length] in Hn. lia.
  - assert (Hb : no_lone_cr b) by (apply (lone_tail (a ++ String cr (String lf ""))); rewrite string_app_assoc; exact H).
    rewrite (U_sep cr (String lf b)) with (n := String.length a); [|discriminate|discriminate|lia].
    rewrite (U_step lf b) by (left; discriminate).
    rewrite split_crlf by (apply (U_each _ _ _ (le_n _)); exact Ka). rewrite split_crlf by exact Ka. cbn [map]. f_equal. apply IH; [|exact Hb].
    rewrite length_app in Hn. cbn [String.length] in Hn. lia.
Qed.

(** * White space *)
Lemma white_cases c : white c = true <-> c = " "%char \/ c = tab.
Proof.
  unfold white. destruct (ascii_dec c " ") as [->|N]; [split; auto|]. destruct (ascii_dec c "009") as [->|M]; [split; auto|].
  split; [discriminate|]. intros [H|H]; contradiction.
Qed.
Lemma white_step c s : white c = true -> U (String c s) = String c (U s).
Proof. intros H. apply U_step. left. apply white_cases in H. destruct H as [->| ->]; discriminate. Qed.
Lemma U_dark c s : white c = false -> exists d t, U (String c s) = String d t /\ white d = false.
Proof.
  intros H. destruct (ascii_dec c bslash) as [->|N].
  - destruct (starts_with quote3 s) eqn:E.
    + apply starts_quotes in E as [t ->]. exists dquote, (String dquote (String dquote (U t))). split; reflexivity.
    + rewrite U_step by (right; exact E). eauto.
  - rewrite U_step by (left; exact N). eauto.
Qed.
Lemma U_indent l : indent (U l) = indent l.
Proof.
  induction l as [|c l IH]; [reflexivity|]. cbn [indent]. destruct (white c) eqn:E.
  - rewrite (white_step c l E). cbn [indent]. rewrite E, IH. reflexivity.
  - destruct (U_dark c l E) as (d & t & -> & Hd). cbn [indent]. rewrite Hd. reflexivity.
Qed.
Lemma U_blank l : blank (U l) = blank l.
Proof.
  induction l as [|c l IH]; [reflexivity|]. cbn [blank]. destruct (white c) eqn:E.
  - rewrite (white_step c l E). cbn [blank]. rewrite E, IH. reflexivity.
  - destruct (U_dark c l E) as (d & t & -> & Hd). cbn [blank]. rewrite Hd. reflexivity.
Qed.
Lemma U_without k : forall l, k <= indent l -> without k (U l) = U (without k l).
Proof.
  induction k as [|k IH]; intros l H; [destruct l; cbn; try reflexivity; destruct (unescape_block _); reflexivity|].
  destruct l as [|c l]; [reflexivity|]. cbn [indent] in H. destruct (white c) eqn:E; [|lia].
  rewrite (white_step c l E). cbn [without]. apply IH. lia.
Qed.
Lemma U_blank_id l : blank l = true -> U l = l.
Proof.
  induction l as [|c l IH]; [reflexivity|]. cbn [blank]. destruct (white c) eqn:E; [|discriminate]. intros H.
  rewrite (white_step c l E), (IH H). reflexivity.
Qed.
Lemma indent_length l : indent l <= String.length l.
Proof. induction l as [|c l IH]; cbn; [lia|]. destruct (white c); lia. Qed.
Lemma blank_indent l : blank l = Nat.eqb (indent l) (String.length l).
Proof.
  induction l as [|c l IH]; [reflexivity|]. cbn [blank indent String.length]. destruct (white c); [exact IH|reflexivity].
Qed.
Lemma without_blank k : forall l, blank l = true -> blank (without k l) = true.
Proof.
  induction k as [|k IH]; intros l H; [destruct l; exact H|]. destruct l as [|c l]; [reflexivity|]. cbn [blank without] in *.
  destruct (white c); [apply IH; exact H|discriminate].
Qed.
Lemma without_dark k : forall l, k <= indent l -> blank (without k l) = blank l.
Proof.
  induction k as [|k IH]; intros l H; [destruct l; reflexivity|]. destruct l as [|c l]; [reflexivity|]. cbn [indent blank without] in *.
  destruct (white c); [apply IH; lia|lia].
Qed.
Lemma drop_without k : forall l, drop_str k l = without k l.
Proof. induction k as [|k IH]; intros l; destruct l; cbn; auto. Qed.

Definition good (l : string) : Prop := utf8_ok l = true /\ leading_ws l = indent l.
Lemma part_spaces a b c : plain_spaces (a ++ b ++ c) -> plain_spaces b.
Proof.
  intros H n Hn (u & v & ->). apply (H n Hn). exists (a ++ u)%string, (v ++ c)%string. rewrite !string_app_assoc. reflexivity.
Qed.
Lemma plain_leading : forall l, clean l -> plain_spaces l -> leading_ws l = indent l.
Proof.
  induction l as [|a s IH]; intros Hc Hp; [reflexivity|]. destruct Hc as [[N1 N2] Hc].
  assert (Hp' : plain_spaces s) by (apply (part_spaces (String a "") s ""); rewrite string_app_nil_r; exact Hp).
  cbn [leading_ws indent]. destruct (white a) eqn:W.
  - replace (ws1 a) with true; [rewrite (IH Hc Hp'); reflexivity|]. apply white_cases in W. destruct W as [->| ->]; reflexivity.
  - assert (F : ws1 a = false).
    { destruct (ws1 a) eqn:E; [|reflexivity]. exfalso.
      assert (K : (white a || is lf a || is cr a || is "011" a || is "012" a)%bool = true).
      { revert E. apply (implied_class ws1 (fun a => (white a || is lf a || is cr a || is "011" a || is "012" a)%bool)). vm_compute. reflexivity. }
      rewrite W in K. apply is_neq in N1, N2. rewrite N1, N2 in K. cbn [orb] in K. apply orb_true_iff in K as [K|K]; apply is_eq in K as ->.
      - apply (Hp 11%N); [left; reflexivity|]. exists "", s. reflexivity.
      - apply (Hp 12%N); [right; left; reflexivity|]. exists "", s. reflexivity. }
    rewrite F. destruct s as [|b s2]; [reflexivity|].
    assert (F2 : ws2 a b = false).
    { destruct (ws2 a b) eqn:E; [|reflexivity]. exfalso. unfold ws2 in E. apply andb_true_iff in E as [E1 E2]. apply is_eq in E1 as ->.
      apply orb_true_iff in E2 as [E2|E2]; apply is_eq in E2 as ->.
      - apply (Hp 133%N); [unfold other_space; cbn [In]; tauto|]. exists "", s2. reflexivity.
      - apply (Hp 160%N); [unfold other_space; cbn [In]; tauto|]. exists "", s2. reflexivity. }
    rewrite F2. destruct s2 as [|c s3]; [reflexivity|].
    assert (F3 : ws3 a b c = false).
    { destruct (ws3 a b c) eqn:E; [|reflexivity]. exfalso.
      assert (K : exists n, other_space n /\ utf8 n = String a (String b (String c ""))).
      { unfold ws3 in E. rewrite !orb_true_iff, !andb_true_iff, !orb_true_iff, !is_eq in E.
        assert (R : between "128" "138" c = true -> exists n, other_space n /\ utf8 n = String "226" (String "128" (String c ""))).
        { intros B. assert (C : existsb (fun n => String.eqb (utf8 n) (String "226" (String "128" (String c "")))) [8192; 8193; 8194; 8195; 8196; 8197; 8198; 8199; 8200; 8201; 8202]%N = true).
          { revert B. apply (implied_class (between "128" "138") (fun c => existsb (fun n => String.eqb (utf8 n) (String "226" (String "128" (String c "")))) [8192; 8193; 8194; 8195; 8196; 8197; 8198; 8199; 8200; 8201; 8202]%N)).
            vm_compute. reflexivity. }
          apply existsb_exists in C as (n & Hn & C). apply String.eqb_eq in C. exists n. split; [|exact C].
          unfold other_space. cbn [In] in *. tauto. }
        destruct E as [[[E|E]|E]|E].
        - destruct E as [[-> ->] ->]. exists 5760%N. split; [unfold other_space; cbn [In]; tauto|reflexivity].
        - destruct E as [[-> ->] E]. destruct E as [[[E|E]|E]|E].
          + exact (R E).
          + subst c. exists 8232%N. split; [unfold other_space; cbn [In]; tauto|reflexivity].
          + subst c. exists 8233%N. split; [unfold other_space; cbn [In]; tauto|reflexivity].
          + subst c. exists 8239%N. split; [unfold other_space; cbn [In]; tauto|reflexivity].
        - destruct E as [[-> ->] ->]. exists 8287%N. split; [unfold other_space; cbn [In]; tauto|reflexivity].
        - destruct E as [[-> ->] ->]. exists 12288%N. split; [unfold other_space; cbn [In]; tauto|reflexivity]. }
      destruct K as (n & Hn & K). apply (Hp n Hn). exists "", s3. rewrite K. reflexivity. }
    rewrite F3. reflexivity.
Qed.
Lemma utf8_cut x b : byte_in 0 127 x = true -> forall a, utf8_ok (a ++ String x b) = true -> utf8_ok a = true /\ utf8_ok b = true.
Proof.
  intros Hx. assert (NC : forall lo hi, (128 <= lo)%N -> byte_in lo hi x = false).
  { intros lo hi Hlo. unfold byte_in in *. apply andb_true_iff in Hx as [_ Hx]. apply N.leb_le in Hx. apply andb_false_iff. left. apply N.leb_gt. lia. }
  induction a as [a IH] using utf8_strong. destruct a as [|c r].
  { cbn [String.append]. rewrite (utf8_ascii x b Hx). auto. }
  cbn [String.append utf8_ok]. destruct (byte_in 0 127 c). { apply IH. cbn; lia. }
  destruct (byte_in 194 223 c).
  { destruct r as [|c1 r]; cbn [String.append]; intros H.
    - unfold is_cont in H. rewrite (NC 128%N 191%N) in H by lia. discriminate H.
    - apply andb_true_iff in H as [H1 H2]. rewrite H1. cbn [andb]. apply IH; [cbn; lia|exact H2]. }
  destruct (byte_in 224 239 c).
  { destruct r as [|c1 [|c2 r]]; cbn [String.append]; intros H.
    - destruct b as [|b1 b]; [discriminate|]. rewrite !(NC _ _) in H by lia. unfold is_cont in H. rewrite (NC 128%N 191%N) in H by lia.
      destruct (byte_in 224 224 c), (byte_in 237 237 c); discriminate H.
    - unfold is_cont at 2 in H. rewrite (NC 128%N 191%N) in H by lia. rewrite andb_false_r in H. discriminate H.
    - apply andb_true_iff in H as [H1 H2]. rewrite H1. cbn [andb]. apply IH; [cbn; lia|exact H2]. }
  destruct (byte_in 240 244 c); [|discriminate].
  destruct r as [|c1 [|c2 [|c3 r]]]; cbn [String.append]; intros H.
  - destruct b as [|b1 [|b2 b]]; try discriminate. unfold is_cont in H. rewrite !(NC _ _) in H by lia.
    destruct (byte_in 240 240 c), (byte_in 244 244 c); discriminate H.
  - destruct b as [|b1 b]; [discriminate|]. unfold is_cont at 2 in H. rewrite (NC 128%N 191%N) in H by lia. rewrite andb_false_r in H. discriminate H.
  - unfold is_cont at 3 in H. rewrite (NC 128%N 191%N) in H by lia. rewrite andb_false_r in H. discriminate H.
  - apply andb_true_iff in H as [H1 H2]. rewrite H1. cbn [andb]. apply IH; [cbn; lia|exact H2].
Qed.
Lemma lines_split : forall n s, String.length s <= n -> utf8_ok s = true -> plain_spaces s -> no_lone_cr s ->
  Forall good (lines s) /\ (split_lines s = lines s \/ split_lines s = lines s ++ [""]).
Proof.
  induction n as [|n IH]; intros s Hn Hu Hp H.
  { destruct s; [|cbn in Hn; lia]. split; [constructor|right; reflexivity]. }
  destruct (line_cases s H) as [K|(a & b & Ka & Es)].
  - rewrite (split_clean s K), (lines_clean s K). destruct s as [|c s]; [split; [constructor|right; reflexivity]|].
    split; [|left; reflexivity]. constructor; [|constructor]. split; [exact Hu|]. apply plain_leading; assumption.
  - assert (G : exists r, s = (a ++ r ++ b)%string /\ split_lines s = a :: split_lines b /\ lines s = a :: lines b /\ utf8_ok a = true /\ utf8_ok b = true /\ String.length b <= n).
    { destruct Es as [->| ->].
      - exists (String lf ""). rewrite split_lf, lines_lf by exact Ka. rewrite length_app in Hn. cbn [String.length] in Hn.
        apply utf8_cut in Hu; [|reflexivity]. destruct Hu as [U1 U2]. repeat split; try assumption. lia.
      - exists (String cr (String lf "")). rewrite split_crlf, lines_crlf by exact Ka. rewrite length_app in Hn. cbn [String.length] in Hn.
        apply utf8_cut in Hu; [|reflexivity]. destruct Hu as [U1 U2]. repeat split; try assumption. lia. }
    destruct G as (r & Er & -> & -> & Ua & Ub & Hb).
    destruct (IH b Hb Ub) as [G1 G2].
    { apply (part_spaces (a ++ r) b ""). rewrite string_app_nil_r, string_app_assoc. rewrite <- Er. exact Hp. }
    { apply (lone_tail (a ++ r)). rewrite string_app_assoc, <- Er. exact H. }
    split.
    + constructor; [|exact G1]. split; [exact Ua|]. apply plain_leading; [exact Ka|]. apply (part_spaces "" a (r ++ b)). cbn [String.append]. rewrite <- Er. exact Hp.
    + destruct G2 as [->| ->]; [left|right]; reflexivity.
Qed.

(** * Lists of lines *)
Lemma strip_back_map f l : Forall (fun x => blank (f x) = blank x) l -> strip_back (map f l) = map f (strip_back l).
Proof.
  induction 1 as [|x l H Hl IH]; [reflexivity|]. cbn [map strip_back]. rewrite IH, H. destruct (strip_back l); [|reflexivity].
  cbn [map]. destruct (blank x); reflexivity.
Qed.
Lemma strip_front_map f l : Forall (fun x => blank (f x) = blank x) l -> strip_front (map f l) = map f (strip_front l).
Proof.
  induction 1 as [|x l H Hl IH]; [reflexivity|]. cbn [map strip_front]. rewrite IH, H. destruct (blank x); reflexivity.
Qed.
Lemma strip_back_blank l : strip_back (l ++ [""]) = strip_back l.
Proof. induction l as [|x l IH]; [reflexivity|]. cbn [app strip_back]. rewrite IH. reflexivity. Qed.
Lemma strip_front_incl l : exists p, l = p ++ strip_front l /\ Forall (fun x => blank x = true) p.
Proof.
  induction l as [|x l IH]; [exists []; split; [reflexivity|constructor]|]. cbn [strip_front]. destruct (blank x) eqn:E.
  - destruct IH as (p & Ep & Hp). exists (x :: p). cbn [app]. rewrite <- Ep. auto.
  - exists []. split; [reflexivity|constructor].
Qed.
Lemma strip_front_app l : strip_back (strip_front (l ++ [""])) = strip_back (strip_front l).
Proof.
  induction l as [|x l IH]; [reflexivity|]. cbn [app strip_front]. destruct (blank x); [exact IH|].
  apply (strip_back_blank (x :: l)).
Qed.
Lemma strip_front_head l x r : strip_front l = x :: r -> blank x = false.
Proof.
  induction l as [|y l IH]; [discriminate|]. cbn [strip_front]. destruct (blank y) eqn:E; [exact IH|].
  intros H. injection H as <- _. exact E.
Qed.
Lemma strip_back_prefix l : firstn (length (strip_back l)) l = strip_back l.
Proof.
  induction l as [|x l IH]; [reflexivity|]. cbn [strip_back]. destruct (strip_back l) as [|y r] eqn:E.
  - destruct (blank x); reflexivity.
  - cbn [length firstn]. f_equal. exact IH.
Qed.
Lemma strip_back_dark x r : blank x = false -> strip_back (x :: r) = x :: strip_back r.
Proof. intros H. cbn [strip_back]. rewrite H. destruct (strip_back r); reflexivity. Qed.
Lemma strip_back_inner l x : In x (strip_back l) -> blank x = true -> exists a b y, l = a ++ x :: b /\ In y b /\ blank y = false.
Proof.
  assert (G : forall l, strip_back l <> [] -> exists y, In y l /\ blank y = false).
  { induction l0 as [|z l0 IH]; [intros X; exfalso; apply X; reflexivity|]. cbn [strip_back]. destruct (strip_back l0) as [|w r] eqn:E.
    - destruct (blank z) eqn:Z; [intros X; exfalso; apply X; reflexivity|]. intros _. exists z. split; [left; reflexivity|exact Z].
    - intros _. destruct (IH ltac:(discriminate)) as (y & Hy & By). exists y. split; [right; exact Hy|exact By]. }
  induction l as [|z l IH]; cbn [strip_back]; [intros []|]. intros H B. destruct (strip_back l) as [|w r] eqn:E.
  - destruct (blank z) eqn:Z; [destruct H|]. destruct H as [->|[]]. congruence.
  - destruct H as [->|H].
    + destruct (G l) as (y & Hy & By); [rewrite E; discriminate|]. exists [], l, y. auto.
    + destruct (IH H B) as (a & b & y & -> & Hy & By). exists (z :: a), b, y. auto.
Qed.
Lemma common_some ls l : In l ls -> blank l = false -> common_indent ls <> None.
Proof.
  intros Hin B. induction ls as [|z ls IH]; [destruct Hin|]. cbn [common_indent]. destruct Hin as [->|Hz].
  - rewrite B. destruct (common_indent ls); discriminate.
  - destruct (blank z); [apply IH; exact Hz|]. destruct (common_indent ls); discriminate.
Qed.
Lemma common_le ls l k : common_indent ls = Some k -> In l ls -> blank l = false -> k <= indent l.
Proof.
  revert k. induction ls as [|x ls IH]; intros k H Hin B; [destruct Hin|]. cbn [common_indent] in H. destruct Hin as [->|Hin].
  - rewrite B in H. destruct (common_indent ls) as [k'|]; injection H as <-; lia.
  - destruct (blank x); [apply IH; assumption|]. pose proof (common_some ls l Hin B) as N. destruct (common_indent ls) as [k'|]; [|congruence].
    injection H as <-. specialize (IH k' eq_refl Hin B). lia.
Qed.
Lemma common_map f ls : Forall (fun x => blank (f x) = blank x /\ indent (f x) = indent x) ls -> common_indent (map f ls) = common_indent ls.
Proof.
  induction 1 as [|x l [H1 H2] Hl IH]; [reflexivity|]. cbn [map common_indent]. rewrite IH, H1, H2. reflexivity.
Qed.
Lemma common_app ls : common_indent (ls ++ [""]) = common_indent ls.
Proof. induction ls as [|x l IH]; [reflexivity|]. cbn [app common_indent]. rewrite IH. reflexivity. Qed.

(** * The survey *)
Definition least (m k : option nat) : option nat :=
  match m, k with Some a, Some b => Some (Nat.min a b) | None, _ => k | _, None => m end.
Lemma survey_some : forall ls idx cm f la, Forall good ls -> 1 <= idx ->
  survey idx ls (cm, Some f, la) =
  (least cm (common_indent ls), Some f, match strip_back ls with [] => la | r => idx + length r - 1 end).
Proof.
  induction ls as [|l ls IH]; intros idx cm f la Hg Hi; [destruct cm; reflexivity|]. inversion Hg as [|? ? [_ Hl] Hg']; subst.
  cbn [survey common_indent strip_back]. rewrite Hl, <- blank_indent. destruct (blank l).
  - rewrite IH by (assumption || lia). f_equal. destruct (strip_back ls); [reflexivity|]. cbn [length]. lia.
  - replace (Nat.eqb idx 0) with false by (symmetry; apply Nat.eqb_neq; lia). rewrite IH by (assumption || lia).
    assert (E : least (min_indent cm (indent l)) (common_indent ls)
      = least cm (match common_indent ls with Some k => Some (Nat.min (indent l) k) | None => Some (indent l) end)).
    { destruct cm as [m|], (common_indent ls) as [k|]; cbn [min_indent least]; try reflexivity. f_equal. lia. }
    rewrite E. destruct (strip_back ls); cbn [length]; (f_equal; [f_equal; f_equal; lia|lia] || (f_equal; lia)).
Qed.
Lemma survey_none : forall ls idx cm, Forall good ls -> 1 <= idx ->
  match strip_front ls with
  | [] => survey idx ls (cm, None, 0) = (cm, None, 0)
  | x :: r => exists f, survey idx ls (cm, None, 0) = (least cm (common_indent ls), Some (idx + f), idx + f + length (strip_back (x :: r)) - 1)
      /\ skipn f ls = x :: r
  end.
Proof.
  induction ls as [|l ls IH]; intros idx cm Hg Hi; [reflexivity|]. inversion Hg as [|? ? [_ Hl] Hg']; subst.
  cbn [strip_front survey common_indent]. rewrite Hl, <- blank_indent. destruct (blank l) eqn:B.
  - specialize (IH (S idx) cm Hg' ltac:(lia)). destruct (strip_front ls) as [|x r]; [exact IH|].
    destruct IH as (f & E & Sk). exists (S f). rewrite E. split; [|exact Sk]. (f_equal; [f_equal; f_equal; lia|lia] || (f_equal; lia)).
  - exists 0. split; [|reflexivity]. replace (Nat.eqb idx 0) with false by (symmetry; apply Nat.eqb_neq; lia).
    rewrite survey_some by (assumption || lia). rewrite (strip_back_dark l ls B).
    assert (E : least (min_indent cm (indent l)) (common_indent ls)
      = least cm (match common_indent ls with Some k => Some (Nat.min (indent l) k) | None => Some (indent l) end)).
    { destruct cm as [m|], (common_indent ls) as [k|]; cbn [min_indent least]; try reflexivity. f_equal. lia. }
    rewrite E. destruct (strip_back ls); cbn [length]; (f_equal; [f_equal; f_equal; lia|lia] || (f_equal; lia)).
Qed.
Lemma cut_ok k l : good l -> (k <= indent l \/ l = "" \/ (blank l = true /\ k <= String.length l)) ->
  forall idx, 1 <= idx -> cut_line (Some k) idx l = POk (U (without k l)).
Proof.
  intros [Hu _] H idx Hi. cbn [cut_line]. replace (Nat.eqb idx 0) with false by (symmetry; apply Nat.eqb_neq; lia). cbn [negb andb].
  assert (K : k <= indent l \/ l = "").
  { destruct H as [H|[H|[B H]]]; [auto|auto|]. left. rewrite blank_indent in B. apply Nat.eqb_eq in B. lia. }
  destruct K as [K| ->]; [|destruct (Nat.leb k (String.length "")); [rewrite drop_without; destruct k; reflexivity|destruct k; reflexivity]].
  replace (Nat.leb k (String.length l)) with true by (symmetry; apply Nat.leb_le; pose proof (indent_length l); lia).
  unfold boundary. rewrite drop_without.
  assert (V : utf8_ok (without k l) = true).
  { clear H. revert l Hu K. induction k as [|k IH]; intros l Hu K; [destruct l; exact Hu|]. destruct l as [|c l]; [reflexivity|].
    cbn [indent without] in *. destruct (white c) eqn:W; [|lia]. apply IH; [|lia]. rewrite utf8_ascii in Hu; [exact Hu|].
    apply white_cases in W. destruct W as [->| ->]; reflexivity. }
  destruct (without k l) as [|c w]; [reflexivity|]. replace (between "128" "191" c) with false; [reflexivity|]. symmetry.
  destruct (between "128" "191" c) eqn:B; [|reflexivity]. exfalso. cbn [utf8_ok] in V.
  assert (X : (negb (byte_in 0 127 c) && negb (byte_in 194 223 c) && negb (byte_in 224 239 c) && negb (byte_in 240 244 c))%bool = true).
  { revert B. apply (implied_class (between "128" "191") (fun c => (negb (byte_in 0 127 c) && negb (byte_in 194 223 c) && negb (byte_in 224 239 c) && negb (byte_in 240 244 c))%bool)). vm_compute. reflexivity. }
  rewrite !andb_true_iff, !negb_true_iff in X. destruct X as [[[X1 X2] X3] X4]. rewrite X1, X2, X3, X4 in V. discriminate V.
Qed.
Definition cut_by (k : option nat) (l : string) : string := match k with Some k => without k l | None => l end.
Lemma cut_lines_ok k ls : forall idx, 1 <= idx -> Forall good ls ->
  Forall (fun l => match k with Some k => k <= indent l \/ l = "" \/ (blank l = true /\ k <= String.length l) | None => True end) ls ->
  cut_lines k idx ls = POk (map U (map (cut_by k) ls)).
Proof.
  induction ls as [|l ls IH]; intros idx Hi Hg Hk; [reflexivity|]. inversion Hg; subst. inversion Hk; subst. cbn [cut_lines map].
  assert (E : cut_line k idx l = POk (U (cut_by k l))) by (destruct k as [k|]; [apply cut_ok; assumption|reflexivity]).
  rewrite E, IH by (assumption || lia). reflexivity.
Qed.

(** * The value *)
Definition trimmed (ls : list string) : list string := strip_back (strip_front ls).
Lemma trimmed_map f ls : Forall (fun x => blank (f x) = blank x) ls -> trimmed (map f ls) = map f (trimmed ls).
Proof.
  intros H. unfold trimmed. rewrite strip_front_map by exact H. apply strip_back_map.
  destruct (strip_front_incl ls) as (p & E & _). rewrite E in H. apply Forall_app in H. apply H.
Qed.
Lemma cut_blank r k : common_indent r = k -> Forall (fun x => blank (cut_by k x) = blank x) r.
Proof.
  intros <-. apply Forall_forall. intros x Hx. destruct (common_indent r) as [k|] eqn:E; [|reflexivity]. cbn [cut_by].
  destruct (blank x) eqn:B; [apply without_blank; exact B|]. rewrite <- B. apply without_dark. apply (common_le r x k E Hx B).
Qed.
Lemma dedent_cut l r : dedent (l :: r) = l :: map (cut_by (common_indent r)) r.
Proof. cbn [dedent]. destruct (common_indent r) as [k|]; [reflexivity|]. cbn [cut_by]. rewrite map_id. reflexivity. Qed.
Lemma dedent_U ls : dedent (map U ls) = map U (dedent ls).
Proof.
  destruct ls as [|l r]; [reflexivity|]. cbn [map]. rewrite !dedent_cut. cbn [map]. f_equal.
  rewrite (common_map U r) by (apply Forall_forall; intros x _; split; [apply U_blank|apply U_indent]).
  rewrite !map_map. apply map_ext_in. intros x Hx. destruct (common_indent r) as [k|] eqn:E; [|reflexivity]. cbn [cut_by].
  destruct (blank x) eqn:B.
  - rewrite (U_blank_id x B). symmetry. apply U_blank_id. apply without_blank. exact B.
  - apply U_without. apply (common_le r x k E Hx B).
Qed.
Lemma trimmed_app ls : trimmed (dedent (ls ++ [""])) = trimmed (dedent ls).
Proof.
  destruct ls as [|l r]; [reflexivity|]. cbn [app]. rewrite !dedent_cut, common_app, map_app.
  assert (E : map (cut_by (common_indent r)) [""] = [""]) by (destruct (common_indent r) as [[|k]|]; reflexivity).
  rewrite E. apply (strip_front_app (l :: map (cut_by (common_indent r)) r)).
Qed.
Lemma block_lines ls : Forall good ls ->
  (forall a l b x y k, ls = a ++ l :: b -> In x a -> blank x = false -> In y b -> blank y = false -> blank l = true ->
    common_indent (tl ls) = Some k -> l = "" \/ k <= String.length l) ->
  match survey 0 ls (None, None, 0) with
  | (_, None, _) => trimmed (dedent ls) = []
  | (common, Some first, last) => cut_lines common first (firstn (last - first + 1) (skipn first ls)) = POk (map U (trimmed (dedent ls)))
  end.
Proof.
  intros Hg Hin. destruct ls as [|l r]; [reflexivity|]. inversion Hg as [|? ? [Hu Hl] Hg']; subst. rewrite dedent_cut. cbn [tl] in Hin.
  (* the lines of the window *)
  assert (Win : forall p x w, l :: r = p ++ x :: w -> blank x = false -> forall idx, 1 <= idx -> forall ws,
    (forall z, In z ws -> In z (strip_back (x :: w))) -> (forall z, In z ws -> In z r) ->
    cut_lines (common_indent r) idx ws = POk (map U (map (cut_by (common_indent r)) ws))).
  { intros p x w Ep Bx idx Hi ws Hws Hr. apply cut_lines_ok; [exact Hi| |].
    - apply Forall_forall. intros z Hz. rewrite Forall_forall in Hg'. apply Hg'. apply Hr. exact Hz.
    - apply Forall_forall. intros z Hz. destruct (common_indent r) as [k|] eqn:Ek; [|exact I]. destruct (blank z) eqn:Bz.
      + destruct (strip_back_inner (x :: w) z (Hws z Hz) Bz) as (a & b & y & Ew & Hy & By).
        destruct a as [|a0 a]; [injection Ew as -> _; congruence|]. injection Ew as -> ->.
        destruct (Hin (p ++ a0 :: a) z b a0 y k) as [->|Hk]; auto.
        { rewrite <- app_assoc. exact Ep. }
        { apply in_or_app. right. left. reflexivity. }
      + left. apply (common_le r z k Ek); [apply Hr; exact Hz|exact Bz]. }
  cbn [survey]. rewrite Hl, <- blank_indent. destruct (blank l) eqn:B.
  - pose proof (survey_none r 1 None Hg' (le_n _)) as Sv. unfold trimmed. cbn [strip_front]. rewrite B.
    rewrite (strip_front_map _ r (cut_blank r _ eq_refl)).
    destruct (strip_front r) as [|x w] eqn:Ef.
    + rewrite Sv. reflexivity.
    + destruct Sv as (f & -> & Sk). cbn [least]. change (skipn (1 + f) (l :: r)) with (skipn f r). rewrite Sk.
      pose proof (strip_front_head r x w Ef) as Bx.
      assert (L1 : 1 <= length (strip_back (x :: w))) by (rewrite (strip_back_dark x w Bx); cbn; lia).
      replace (1 + f + length (strip_back (x :: w)) - 1 - (1 + f) + 1) with (length (strip_back (x :: w))) by lia.
      rewrite strip_back_prefix. destruct (strip_front_incl r) as (p & Ep & _). rewrite Ef in Ep.
      assert (Inc : forall z, In z (strip_back (x :: w)) -> In z (x :: w)).
      { intros z Hz. rewrite <- strip_back_prefix in Hz. rewrite <- (firstn_skipn (length (strip_back (x :: w))) (x :: w)). apply in_or_app. left. exact Hz. }
      rewrite (strip_back_map (cut_by (common_indent r)) (x :: w)).
      * apply (Win (l :: p) x w); [cbn [app]; rewrite <- Ep; reflexivity|exact Bx|lia|auto|].
        intros z Hz. rewrite Ep. apply in_or_app. right. apply Inc. exact Hz.
      * pose proof (cut_blank r _ eq_refl) as Cb. rewrite Forall_forall in *. intros z Hz. apply Cb. rewrite Ep. apply in_or_app. right. exact Hz.
  - cbn [Nat.eqb]. rewrite survey_some by (assumption || lia). cbn [least]. unfold trimmed. cbn [strip_front]. rewrite B.
    rewrite (strip_back_dark _ _ B). rewrite (strip_back_map _ r (cut_blank r _ eq_refl)).
    assert (E : firstn ((match strip_back r with [] => 0 | r0 => 1 + length r0 - 1 end) - 0 + 1) (skipn 0 (l :: r)) = l :: strip_back r).
    { cbn [skipn]. replace ((match strip_back r with [] => 0 | r0 => 1 + length r0 - 1 end) - 0 + 1) with (S (length (strip_back r))).
      - cbn [firstn]. rewrite strip_back_prefix. reflexivity.
      - destruct (strip_back r); cbn [length]; lia. }
    rewrite E. cbn [cut_lines map].
    assert (E0 : cut_line (common_indent r) 0 l = POk (U l)) by (destruct (common_indent r); reflexivity). rewrite E0.
    assert (Inc : forall z, In z (strip_back r) -> In z r).
    { intros z Hz. rewrite <- strip_back_prefix in Hz. rewrite <- (firstn_skipn (length (strip_back r)) r). apply in_or_app. left. exact Hz. }
    rewrite (Win [] l r eq_refl B 1 (le_n _) (strip_back r)); [reflexivity| |exact Inc].
    intros z Hz. rewrite (strip_back_dark l r B). right. exact Hz.
Qed.
Theorem block_read raw s : plain_block raw -> unescapes raw s -> unquote_block raw = POk (block_value s).
Proof.
  intros (Hu & Hp & Hc & Hin) Hs. apply unescapes_U in Hs as ->.
  destruct (lines_split _ raw (le_n _) Hu Hp Hc) as [Hg Hsp]. unfold block_value. rewrite (split_U _ raw (le_n _) Hc), dedent_U.
  fold (trimmed (map U (dedent (split_lines raw)))). rewrite trimmed_map by (apply Forall_forall; intros x _; apply U_blank).
  assert (Et : trimmed (dedent (split_lines raw)) = trimmed (dedent (lines raw))).
  { destruct Hsp as [->| ->]; [reflexivity|apply trimmed_app]. }
  rewrite Et. unfold unquote_block.
  assert (In' : forall a l b x y k, lines raw = a ++ l :: b -> In x a -> blank x = false -> In y b -> blank y = false -> blank l = true ->
    common_indent (tl (lines raw)) = Some k -> l = "" \/ k <= String.length l).
  { intros a l b x y k E Hx Bx Hy By Bl Hk. destruct Hsp as [Es|Es].
    - apply (Hin a l b x y k); auto; rewrite Es; assumption.
    - apply (Hin a l (b ++ [""]) x y k); auto.
      + rewrite Es, E, <- app_assoc. reflexivity.
      + apply in_or_app. left. exact Hy.
      + rewrite Es. destruct (lines raw) as [|l0 r0]; [destruct a; discriminate E|]. cbn [app tl] in *. rewrite common_app. exact Hk. }
  pose proof (block_lines (lines raw) Hg In') as K. destruct (survey 0 (lines raw) (None, None, 0)) as [[common [first|]] last].
  - rewrite K. reflexivity.
  - rewrite K. reflexivity.
Qed.

(** * Where a block string ends *)
Lemma starts3 c d e s : (is dquote c && is dquote d && is dquote e)%bool = true -> String c (String d (String e s)) = (quote3 ++ s)%string.
Proof. rewrite !andb_true_iff, !is_eq. intros [[-> ->] ->]. reflexivity. Qed.
Lemma scan_skip c s e : (forall u, String c s <> (quote3 ++ u)%string) ->
  scan_block e (String c s) = match scan_block (is bslash c) s with Some (a, b) => Some (String c a, b) | None => None end.
Proof.
  intros H. cbn [scan_block]. destruct s as [|d [|f s]]; try reflexivity.
  destruct (is dquote c && is dquote d && is dquote f)%bool eqn:E; [|reflexivity]. exfalso. apply (H s). apply starts3. exact E.
Qed.
Lemma closed_long t r : block_closed t r -> 3 <= String.length t.
Proof. induction 1; cbn [quote3 bs String.append String.length] in *; lia. Qed.
Lemma prefix_ext p c t rest : String.length p <= S (String.length t) -> forall u, String c (t ++ rest)%string = (p ++ u)%string ->
  exists u', String c t = (p ++ u')%string.
Proof.
  intros Hl u H. change (String c (t ++ rest)) with ((String c t) ++ rest)%string in H. 
  assert (G : forall (p x : string), String.length p <= String.length x -> (x ++ rest)%string = (p ++ u)%string -> exists u', x = (p ++ u')%string).
  { clear. induction p as [|a p IH]; intros x Hl H; [exists x; reflexivity|]. destruct x as [|b x]; [cbn in Hl; lia|].
    cbn [String.append] in H. injection H as -> H. destruct (IH x) as [u' ->]; [cbn in Hl; lia|exact H|]. exists u'. reflexivity. }
  apply (G p (String c t)); [exact Hl|exact H].
Qed.
Lemma closed_scan t r rest : block_closed t r -> scan_block false (t ++ rest) = Some (t, rest).
Proof.
  assert (G : forall n t r, String.length t <= n -> block_closed t r -> forall e, (e = true -> forall u, t <> (quote3 ++ u)%string) ->
    scan_block e (t ++ rest) = Some (t, rest)).
  2: { intros H. apply (G _ t r (le_n _) H). discriminate. }
  induction n as [|n IH]; intros t0 r0 Hn H; inversion H as [|t1 r1 H1|c t1 r1 Hq He H1]; subst; intros e Ne.
  - cbn in Hn. lia.
  - cbn in Hn. lia.
  - cbn in Hn. lia.
  - destruct e; [exfalso; apply (Ne eq_refl ""); reflexivity|reflexivity].
  - assert (E : scan_block e ((bs ++ quote3 ++ t1) ++ rest) = match scan_block true (quote3 ++ (t1 ++ rest)) with Some (a, b) => Some (String bslash a, b) | None => None end).
    { rewrite !string_app_assoc. change (bs ++ quote3 ++ t1 ++ rest)%string with (String bslash (quote3 ++ (t1 ++ rest))). rewrite scan_skip; [reflexivity|].
      intros u. discriminate. }
    rewrite E. change (scan_block true (quote3 ++ t1 ++ rest)) with
      (match scan_block false (t1 ++ rest) with Some (a, b) => Some (quote3 ++ a, b)%string | None => None end).
    rewrite (IH t1 r1); [reflexivity|cbn in Hn; lia|exact H1|discriminate].
  - rewrite app_cons'. rewrite scan_skip.
    + rewrite (IH t1 r1); [reflexivity|cbn in Hn; lia|exact H1|]. intros Eb u ->. apply is_eq in Eb. subst c. apply (He u). reflexivity.
    + intros u Eu. apply prefix_ext in Eu as [u' Eu]; [apply (Hq u' Eu)|]. pose proof (closed_long _ _ H1). cbn [quote3 String.length]. lia.
Qed.
Lemma scan_pieces : forall n s e a b, String.length s <= n -> scan_block e s = Some (a, b) -> s = (a ++ b)%string.
Proof.
  induction n as [|n IH]; intros s e a b Hn H; (destruct s as [|c s1]; [discriminate|]); cbn [String.length] in Hn; [lia|].
  assert (Sk : match scan_block (is bslash c) s1 with Some (a, b) => Some (String c a, b) | None => None end = Some (a, b) -> String c s1 = (a ++ b)%string).
  { destruct (scan_block (is bslash c) s1) as [[x y]|] eqn:E; [|discriminate]. intros K. injection K as <- <-. apply IH in E; [|lia]. rewrite E. reflexivity. }
  cbn [scan_block] in H. destruct s1 as [|d [|f s3]]; [exact (Sk H)|exact (Sk H)|]. destruct (_ && _ && _)%bool; [|exact (Sk H)].
  destruct e.
  - destruct (scan_block false s3) as [[x y]|] eqn:E; [|discriminate]. injection H as <- <-. apply IH in E; [|cbn in Hn; lia]. rewrite E. reflexivity.
  - injection H as <- <-. reflexivity.
Qed.
Lemma scan_closed : forall n s e a rest, String.length s <= n -> scan_block e s = Some (a, rest) ->
  exists r, if e then block_closed (bs ++ a) (bs ++ r) else block_closed a r.
Proof.
  induction n as [|n IH]; intros s e a rest Hn H; (destruct s as [|c s1]; [discriminate|]); cbn [String.length] in Hn; [lia|].
  assert (Sk : (forall u, String c s1 <> (quote3 ++ u)%string) ->
    exists r, if e then block_closed (bs ++ a) (bs ++ r) else block_closed a r).
  { intros Nq. rewrite (scan_skip c s1 e Nq) in H. destruct (scan_block (is bslash c) s1) as [[a1 b1]|] eqn:E1; [|discriminate].
    injection H as <- <-. 
    assert (Es : s1 = (a1 ++ b1)%string /\ 3 <= String.length a1).
    { destruct (IH s1 _ a1 b1 ltac:(lia) E1) as [r Hr]. split.
      - apply (scan_pieces _ _ _ _ _ (le_n _) E1).
      - destruct (is bslash c); [|apply (closed_long _ _ Hr)].
        inversion Hr as [Hx|t1 r1 H1 Hx|c1 t1 r1 Hq He H1 Hx]; subst.
        + apply closed_long in H1. cbn [quote3 String.append String.length]. lia.
        + apply (closed_long _ _ H1). }
    destruct Es as [Es L3].
    assert (Nq' : forall u, String c a1 <> (quote3 ++ u)%string).
    { intros u Eu. apply (Nq (u ++ b1)%string). rewrite Es. change (String c (a1 ++ b1)) with ((String c a1) ++ b1)%string. rewrite Eu. reflexivity. }
    assert (R : exists r, block_closed (String c a1) r).
    { destruct (IH s1 _ a1 b1 ltac:(lia) E1) as [r Hr]. destruct (is bslash c) eqn:Eb.
      - apply is_eq in Eb. subst c. exists (bs ++ r)%string. exact Hr.
      - exists (String c r). apply block_char; [exact Nq'| |exact Hr]. intros u Eu. injection Eu as Ec _. apply is_neq in Eb. apply Eb. exact Ec. }
    destruct R as [r R]. exists r. destruct e; [|exact R]. apply (block_char bslash); [| |exact R].
    - intros u. discriminate.
    - intros u Eu. apply (Nq' u). change (bs ++ quote3 ++ u)%string with (String bslash (quote3 ++ u)) in Eu. congruence. }
  destruct s1 as [|d [|f s3]].
  - apply Sk. intros u. discriminate.
  - apply Sk. intros u. discriminate.
  - destruct (is dquote c && is dquote d && is dquote f)%bool eqn:E.
    + pose proof (starts3 c d f s3 E) as Eq. cbn [scan_block] in H. rewrite E in H. destruct e.
      * destruct (scan_block false s3) as [[x y]|] eqn:E1; [|discriminate]. injection H as <- <-.
        destruct (IH s3 false x y ltac:(cbn in Hn; lia) E1) as [r Hr]. exists (quote3 ++ r)%string.
        rewrite !andb_true_iff, !is_eq in E. destruct E as [[-> ->] ->]. exact (block_escape x r Hr).
      * injection H as <- <-. rewrite !andb_true_iff, !is_eq in E. destruct E as [[-> ->] ->]. exists "". exact block_end.
    + apply Sk. intros u Eu. cbn [quote3 String.append] in Eu. injection Eu as -> -> -> _. discriminate E.
Qed.
Lemma closed_raw t r : block_closed t r -> t = (r ++ quote3)%string.
Proof.
  induction 1 as [|t r H IH|c t r Hq He H IH]; [reflexivity| |].
  - rewrite IH, !string_app_assoc. reflexivity.
  - rewrite IH. reflexivity.
Qed.
Lemma U_unescapes : forall n r, String.length r <= n -> unescapes r (U r).
Proof.
  induction n as [|n IH]; intros r Hn; (destruct r as [|c r]; [constructor|]); cbn [String.length] in Hn; [lia|].
  destruct (ascii_dec c bslash) as [->|N].
  - destruct (starts_with quote3 r) eqn:E.
    + apply starts_quotes in E as [t ->]. rewrite U_yes. change (String bslash (quote3 ++ t)) with (bs ++ quote3 ++ t)%string. constructor.
      apply IH. cbn [quote3 String.append String.length] in Hn. lia.
    + rewrite U_step by (right; exact E). constructor; [|apply IH; lia]. intros t Et. injection Et as ->. discriminate E.
  - rewrite U_step by (left; exact N). constructor; [|apply IH; lia]. intros t Et. injection Et as Ec _. apply N. exact Ec.
Qed.
Lemma closed_decode t r : block_closed t r -> unquote_block_string (quote3 ++ t) = unquote_block r.
Proof.
  intros H. rewrite (closed_raw t r H). unfold unquote_block_string. f_equal.
  assert (E : String.length (quote3 ++ r ++ quote3) - 6 = String.length r) by (rewrite !length_app; cbn; lia).
  rewrite E. change (drop_str 3 (quote3 ++ r ++ quote3)) with (r ++ quote3)%string. apply take_app.
Qed.
