(** Strings are read back. *)
From Coq Require Import String Ascii List NArith ZArith Bool Arith Lia.
From Verif Require Import StrUtil Utf8 JsonText JsonWriterModel Ast CondModel NormModel ProjModel GqlModel GqlSpec GqlChars GqlBlockProofs MinifyModel MinifySpec.
Import ListNotations.
Local Open Scope string_scope.
Local Open Scope list_scope.

(** * One line *)
Lemma code_eq c m : N_of_ascii c = m -> c = ascii_of_N m.
Proof. intros <-. symmetry. apply ascii_N_embedding. Qed.
Lemma some_none p s : each_char (fun c => p c = false) s -> some_char p s = false.
Proof. induction s as [|c s IH]; [reflexivity|]. intros [H1 H2]. cbn [some_char]. rewrite H1. apply IH. exact H2. Qed.
Lemma each_impl (P Q : ascii -> Prop) s : (forall c, P c -> Q c) -> each_char P s -> each_char Q s.
Proof. intros H. induction s as [|c s IH]; [auto|]. intros [H1 H2]. split; auto. Qed.
Lemma no_lines s : each_char not_newline s -> some_char newline s = false.
Proof.
  intros H. apply some_none. eapply each_impl; [|exact H]. intros c Hc. apply is_neq. intros ->. apply Hc. reflexivity.
Qed.
Lemma harmless_chars s : each_char harmless s -> chars_with simple_escape s s.
Proof.
  induction s as [|c s IH]; [constructor|]. intros [[H1 H2] H]. apply chars_plain; [| | |apply IH; exact H].
  - intros ->. apply H2. cbn. auto.
  - intros ->. apply H2. cbn. auto.
  - intros [E|E]; rewrite E in H1; lia.
Qed.
Lemma quoted_step c s : is cr c = false -> is lf c = false -> is tab c = false -> (is dquote c || is bslash c)%bool = false ->
  N.ltb (N_of_ascii c) 32 = false -> N.ltb (N_of_ascii c) 240 = true -> quoted_chars (String c s) = String c (quoted_chars s).
Proof. intros H1 H2 H3 H4 H5 H6. cbn [quoted_chars]. rewrite H1, H2, H3, H4, H5, H6. reflexivity. Qed.
Lemma low_escape c : (N_of_ascii c < 9)%N -> exists a b d e, unicode_escape (N_of_ascii c) = (bs ++ String "u" (String a (String b (String d (String e "")))))%string
   /\ hex4 a b d e = Some (N_of_ascii c).
Proof.
  intros H. assert (E : In (N_of_ascii c) [0; 1; 2; 3; 4; 5; 6; 7; 8]%N).
  { cbn [In]. lia. }
  set (n := N_of_ascii c) in *. clearbody n. clear H. cbn [In] in E.
  repeat match type of E with _ \/ _ => destruct E as [<-|E] end; try contradiction; do 4 eexists; (split; [reflexivity|reflexivity]).
Qed.
Lemma escapable_chars s : each_char not_newline s -> each_char escapable s -> chars_with simple_escape (quoted_chars s) s.
Proof.
  induction s as [|c s IH]; [constructor|]. intros [N0 N] [E0 E]. specialize (IH N E).
  assert (K : forall e, escaped_as e (String c "") -> e <> "b" -> String.length e <= 5 -> chars_with simple_escape (bs ++ e ++ quoted_chars s)%string (String c s)).
  { intros e He Hb Hl. change (String c s) with (String c "" ++ s)%string. apply chars_escape; [|exact IH]. split; [exact He|split; assumption]. }
  destruct (is cr c) eqn:E1. { apply is_eq in E1. subst c. apply (K "r"); [constructor|discriminate|cbn; lia]. }
  destruct (is lf c) eqn:E2. { apply is_eq in E2. subst c. exfalso. apply N0. reflexivity. }
  destruct (is tab c) eqn:E3. { apply is_eq in E3. subst c. apply (K "t"); [constructor|discriminate|cbn; lia]. }
  destruct (is dquote c) eqn:E4. { apply is_eq in E4. subst c. apply (K (String dquote "")); [constructor|discriminate|cbn; lia]. }
  destruct (is bslash c) eqn:E5. { apply is_eq in E5. subst c. apply (K bs); [constructor|discriminate|cbn; lia]. }
  apply is_neq in E1, E2, E3, E4, E5.
  assert (C : (N_of_ascii c < 9 \/ 32 <= N_of_ascii c < 240)%N).
  { destruct E0 as [E0|[E0|E0]]; [|exfalso; apply E1; apply code_eq in E0; exact E0|right; exact E0].
    destruct (N.eq_dec (N_of_ascii c) 9) as [X|X]; [exfalso; apply E3; apply code_eq in X; exact X|]. left. lia. }
  destruct C as [C|C].
  - destruct (low_escape c C) as (a & b & d & e & U & V). cbn [quoted_chars].
    apply is_neq in E1, E2, E3, E4, E5. rewrite E1, E2, E3, E4, E5. assert (X : (N_of_ascii c <? 32)%N = true) by (apply N.ltb_lt; lia). rewrite X.
    cbn [orb]. rewrite U, string_app_assoc. apply K; [|discriminate|cbn; lia].
    assert (W : String c "" = utf8 (N_of_ascii c)).
    { unfold utf8. assert (Y : (N_of_ascii c <? 128)%N = true) by (apply N.ltb_lt; lia). rewrite Y, ascii_N_embedding. reflexivity. }
    rewrite W. apply esc_u; [exact V|left; lia].
  - rewrite quoted_step.
    + apply chars_plain; [exact E4|exact E5| |exact IH]. intros [X|X]; rewrite X in C; lia.
    + apply is_neq. exact E1.
    + apply is_neq. exact E2.
    + apply is_neq. exact E3.
    + apply is_neq in E4, E5. rewrite E4, E5. reflexivity.
    + apply N.ltb_ge. lia.
    + apply N.ltb_lt. lia.
Qed.
Lemma escaping_not c : escaping c = false -> harmless c.
Proof.
  unfold escaping. rewrite !orb_false_iff, !is_neq. intros (((H1 & H2) & H3) & H4). split; [apply N.ltb_ge in H3; exact H3|].
  intros [X|[X|[X|[]]]]; symmetry in X; apply code_eq in X; [apply H1|apply H2|apply H4]; exact X.
Qed.
Lemma some_not p s : some_char p s = false -> each_char (fun c => p c = false) s.
Proof. induction s as [|c s IH]; [intros; exact I|]. cbn [some_char]. rewrite orb_false_iff. intros [H1 H2]. split; auto. Qed.
Lemma harmless_not c : harmless c -> escaping c = false.
Proof.
  intros [H1 H2]. unfold escaping. rewrite !orb_false_iff, !is_neq.
  repeat split; try (intros ->; apply H2; cbn; tauto). apply N.ltb_ge. exact H1.
Qed.
Theorem line_written s : line_fit s -> some_char newline s = false /\
  exists r, quoted_text s = (quote1 ++ r ++ quote1)%string /\ chars_with simple_escape r s.
Proof.
  intros [L H]. pose proof (no_lines s L) as NL. split; [exact NL|]. unfold quoted_text. rewrite NL. cbn [negb].
  destruct (some_char (fun c => negb (newline c) && escaping c)%bool s) eqn:E; cbn [negb].
  - exists (quoted_chars s). split; [reflexivity|]. apply escapable_chars; [exact L|]. destruct H as [H|H]; [|exact H]. exfalso.
    rewrite some_none in E; [discriminate|]. eapply each_impl; [|exact H]. intros c Hc. rewrite (harmless_not c Hc), andb_false_r. reflexivity.
  - exists s. split; [reflexivity|]. apply harmless_chars. apply some_not in E. apply some_not in NL. clear -E NL.
    induction s as [|c s IH]; [exact I|]. destruct E as [E1 E2], NL as [N1 N2]. split; [|auto]. apply escaping_not.
    apply andb_false_iff in E1. destruct E1 as [E1|E1]; [|exact E1]. rewrite N1 in E1. discriminate.
Qed.

(** * More lines *)
Lemma prefix_sep x b a : forall p v, each_char (fun c => c <> x) p -> (a ++ String x b)%string = (p ++ v)%string -> exists w, a = (p ++ w)%string.
Proof.
  induction a as [|c a IH]; intros p v P E.
  - destruct p as [|e p]; [exists ""; reflexivity|]. cbn in E. injection E as <- _. destruct P as [P _]. congruence.
  - destruct p as [|e p]; [eexists; reflexivity|]. cbn in E. injection E as <- E. destruct P as [_ P]. destruct (IH p v P E) as [w Hw].
    exists w. cbn in *. rewrite Hw. reflexivity.
Qed.
Lemma contains_sep p x a b : each_char (fun c => c <> x) p -> contains p (a ++ String x b) -> contains p a \/ contains p b.
Proof.
  intros P (u & v & E). revert u E. induction a as [|c a IH]; intros u E.
  - cbn [String.append] in E. destruct u as [|d u].
    + destruct p as [|e p]; [left; exists "", ""; reflexivity|]. cbn in E. injection E as <- _. destruct P as [P _]. congruence.
    + cbn in E. injection E as _ ->. right. exists u, v. reflexivity.
  - destruct u as [|d u].
    + left. exists "". exact (prefix_sep x b (String c a) p v P E).
    + cbn in E. injection E as <- E. destruct (IH u E) as [(u' & v' & ->)|H]; [left; exists (String c u'), v'; reflexivity|right; exact H].
Qed.
Lemma contains_space p a : each_char (fun c => c <> " "%char) p -> p <> "" -> contains p (String " " a) -> contains p a.
Proof.
  intros P N H. destruct (contains_sep p " " "" a P H) as [(u & v & E)|K]; [|exact K]. destruct u; [destruct p; [congruence|discriminate]|discriminate].
Qed.
Lemma split_joined s : each_char (fun c => c <> cr) s -> s = String.concat (String lf "") (split_lines s) /\ Forall clean (split_lines s).
Proof.
  induction s as [|c s IH]; intros H; [split; [reflexivity|repeat constructor]|]. destruct H as [H1 H2]. destruct (IH H2) as [I1 I2]. cbn [split_lines].
  assert (NE : split_lines s <> []).
  { clear. destruct s as [|d s]; [discriminate|]. cbn [split_lines]. destruct (ascii_dec d "010"); [discriminate|].
    destruct (ascii_dec d "013"); [destruct s as [|d2 s]; [discriminate|destruct (ascii_dec d2 "010"); discriminate]|].
    destruct (split_lines s); discriminate. }
  destruct (ascii_dec c "010") as [->|N1].
  - split; [|constructor; [exact I|exact I2]]. destruct (split_lines s) as [|l r]; [congruence|]. rewrite I1 at 1. reflexivity.
  - destruct (ascii_dec c "013") as [->|N2]; [exfalso; apply H1; reflexivity|]. destruct (split_lines s) as [|l r]; [congruence|]. cbn [add_char].
    pose proof (Forall_inv I2). pose proof (Forall_inv_tail I2). split; [|constructor; [split; [split; assumption|assumption]|assumption]]. rewrite I1 at 1. destruct r; reflexivity.
Qed.
Lemma concat_part sep (ls : list string) l : In l ls -> exists a b, String.concat sep ls = (a ++ l ++ b)%string.
Proof.
  induction ls as [|x ls IH]; [intros []|]. intros [->|H].
  - destruct ls as [|y ls]; [exists "", ""; cbn; rewrite string_app_nil_r; reflexivity|]. exists "". eexists. reflexivity.
  - destruct ls as [|y ls]; [destruct H|]. destruct (IH H) as (a & b & E). exists (x ++ sep ++ a)%string, b.
    change (String.concat sep (x :: y :: ls)) with (x ++ sep ++ String.concat sep (y :: ls))%string. rewrite E, !string_app_assoc. reflexivity.
Qed.
Lemma concat_empty x (r : list string) : String.concat "" (x :: r) = (x ++ String.concat "" r)%string.
Proof. destruct r; [cbn; rewrite string_app_nil_r; reflexivity|reflexivity]. Qed.

Definition padded (l : string) : string := if blank l then "" else ("    " ++ l)%string.
Definition body (ls : list string) : string := String.concat "" (map (fun l => padded l ++ String lf "")%string ls).
Definition contents (ls : list string) : string := String lf (body ls ++ "  ").
Lemma body_cons l ls : body (l :: ls) = (padded l ++ String lf (body ls))%string.
Proof. unfold body. cbn [map]. rewrite concat_empty, string_app_assoc. reflexivity. Qed.
Lemma body_sep l ls t : (body (l :: ls) ++ t)%string = (padded l ++ String lf (body ls ++ t))%string.
Proof. rewrite body_cons, string_app_assoc. reflexivity. Qed.
Lemma padded_clean l : clean l -> clean (padded l).
Proof. unfold padded. destruct (blank l); [intros; exact I|]. intros H. cbn. unfold clean_char. repeat (split; [split; discriminate|]). exact H. Qed.
Lemma body_lines ls : Forall clean ls -> split_lines (body ls ++ "  ") = map padded ls ++ ["  "].
Proof.
  induction 1 as [|l ls H Hl IH]; [reflexivity|]. rewrite body_sep, split_lf by (apply padded_clean; exact H). rewrite IH. reflexivity.
Qed.
Lemma padded_without p l : each_char (fun c => c <> " "%char) p -> p <> "" -> ~ contains p l -> ~ contains p (padded l).
Proof.
  intros P N H. unfold padded. destruct (blank l).
  - intros (u & v & E). destruct u; [destruct p; [congruence|discriminate]|discriminate].
  - intros K. apply H. do 4 apply (contains_space p _ P N) in K. exact K.
Qed.
Lemma body_without p ls : each_char (fun c => c <> " "%char) p -> each_char (fun c => c <> lf) p -> p <> "" -> Forall (fun l => ~ contains p l) ls ->
  ~ contains p (body ls ++ "  ").
Proof.
  intros P Q N. assert (E0 : ~ contains p "").
  { intros (u & v & E). destruct u; [destruct p; [congruence|discriminate]|discriminate]. }
  induction 1 as [|l ls H Hl IH]; intros K.
  - apply E0. do 2 apply (contains_space p _ P N) in K. exact K.
  - rewrite body_sep in K. destruct (contains_sep p lf _ _ Q K) as [K'|K']; [|exact (IH K')]. exact (padded_without p l P N H K').
Qed.
Lemma contents_without p ls : each_char (fun c => c <> " "%char) p -> each_char (fun c => c <> lf) p -> p <> "" -> Forall (fun l => ~ contains p l) ls ->
  ~ contains p (contents ls).
Proof.
  intros P Q N H K. destruct (contains_sep p lf "" _ Q K) as [(u & v & E)|K'].
  - destruct u; [destruct p; [congruence|discriminate]|discriminate].
  - exact (body_without p ls P Q N H K').
Qed.
Lemma other_chars n : other_space n -> each_char (fun c => c <> " "%char) (utf8 n) /\ each_char (fun c => c <> lf) (utf8 n) /\ utf8 n <> "".
Proof.
  intros H. unfold other_space in H. cbn [In] in H. repeat match type of H with _ \/ _ => destruct H as [<-|H] end; try contradiction;
    vm_compute; repeat split; discriminate.
Qed.
Lemma body_utf8 ls : Forall (fun l => utf8_ok l = true) ls -> utf8_ok (body ls ++ "  ") = true.
Proof.
  induction 1 as [|l ls H Hl IH]; [reflexivity|]. rewrite body_sep, utf8_app; [exact IH|]. unfold padded. destruct (blank l); [reflexivity|exact H].
Qed.
Lemma closed_plain w : ~ contains quote3 w -> block_closed (w ++ String " " quote3) (w ++ " ").
Proof.
  induction w as [|c w IH]; intros H.
  - cbn [String.append]. apply block_char; [intros u E; discriminate|intros u E; discriminate|constructor].
  - assert (H' : ~ contains quote3 w) by (intros (u & v & ->); apply H; exists (String c u), v; reflexivity).
    cbn [String.append]. apply block_char; [| |apply IH; exact H'].
    + intros u E. apply H. destruct w as [|x [|y w]]; cbn in E; try discriminate E. injection E as -> -> -> E. exists "", w. reflexivity.
    + intros u E. apply H'. destruct w as [|x [|y [|z w]]]; cbn in E; try discriminate E. injection E as _ -> -> -> E. exists "", w. reflexivity.
Qed.
Lemma unescapes_plain w : ~ contains quote3 w -> unescapes w w.
Proof.
  induction w as [|c w IH]; intros H; [constructor|].
  assert (H' : ~ contains quote3 w) by (intros (u & v & ->); apply H; exists (String c u), v; reflexivity).
  apply unesc_char; [|apply IH; exact H']. intros t E. apply H'. destruct w as [|x [|y [|z w]]]; cbn in E; try discriminate E.
  injection E as _ -> -> -> E. exists "", w. reflexivity.
Qed.
Lemma padded_blank l : blank (padded l) = blank l.
Proof. unfold padded. destruct (blank l) eqn:E; [reflexivity|]. exact E. Qed.
Lemma common_ge k0 ls : Forall (fun l => blank l = false -> k0 <= indent l) ls -> forall k, common_indent ls = Some k -> k0 <= k.
Proof.
  induction 1 as [|l ls H Hl IH]; intros k; [discriminate|]. cbn [common_indent]. destruct (blank l); [apply IH|].
  specialize (H eq_refl). destruct (common_indent ls) as [k'|]; intros E; injection E as <-; [|exact H]. specialize (IH k' eq_refl). lia.
Qed.
Lemma strip_back_last m y : blank y = false -> strip_back (m ++ [y]) = m ++ [y].
Proof.
  intros H. induction m as [|x m IH]; cbn [app strip_back]; [rewrite H; reflexivity|]. rewrite IH. destruct (m ++ [y]) eqn:E; [|reflexivity].
  destruct m; discriminate.
Qed.
Lemma contents_value ls x y m : Forall clean ls -> Forall (fun l => blank l = true -> l = "") ls -> ls = x :: m ++ [y] -> blank x = false -> blank y = false ->
  (exists l, In l ls /\ blank l = false /\ indent l = 0) -> block_value (contents ls) = String.concat (String lf "") ls.
Proof.
  intros C B E Bx By (l0 & Hin & Bl & Il). unfold block_value. f_equal.
  change (contents ls) with ("" ++ String lf (body ls ++ "  "))%string. rewrite split_lf by exact I. rewrite (body_lines ls C). cbn [dedent].
  assert (CI : common_indent (map padded ls ++ ["  "]) = Some 4).
  { assert (CA : forall l, common_indent (l ++ ["  "]) = common_indent l).
    { induction l as [|z l IH]; [reflexivity|]. cbn [app common_indent]. rewrite IH. reflexivity. }
    rewrite CA. destruct (common_indent (map padded ls)) as [k|] eqn:Ek.
    - f_equal. apply Nat.le_antisymm.
      + pose proof (common_le _ (padded l0) k Ek (in_map _ _ _ Hin)) as L. rewrite padded_blank in L. specialize (L Bl). unfold padded in L. rewrite Bl in L.
        change (indent ("    " ++ l0)) with (4 + indent l0) in L. lia.
      + refine (common_ge 4 _ _ k Ek). apply Forall_map, Forall_forall. intros l _ Hb. rewrite padded_blank in Hb. unfold padded. rewrite Hb.
        change (indent ("    " ++ l)) with (4 + indent l). lia.
    - exfalso. apply (common_some (map padded ls) (padded l0)); [apply in_map; exact Hin|rewrite padded_blank; exact Bl|exact Ek]. }
  rewrite CI, map_app, map_map.
  assert (M : map (fun l => without 4 (padded l)) ls = ls).
  { clear -B. induction B as [|l ls H Hl IH]; [reflexivity|]. cbn [map]. rewrite IH. f_equal. unfold padded. destruct (blank l) eqn:E; [|reflexivity].
    rewrite (H eq_refl). reflexivity. }
  rewrite M. change (map (without 4) ["  "]) with [""]. rewrite E. cbn [app strip_front blank]. rewrite Bx.
  change (x :: (m ++ [y]) ++ [""]) with ((x :: m ++ [y]) ++ [""]). rewrite strip_back_blank.
  change (x :: m ++ [y]) with ((x :: m) ++ [y]). apply strip_back_last. exact By.
Qed.
Lemma contents_plain ls : Forall clean ls -> Forall (fun l => utf8_ok l = true) ls -> Forall plain_spaces ls -> plain_block (contents ls).
Proof.
  intros C U P. split; [|split; [|split]].
  - unfold contents. rewrite utf8_ascii by reflexivity. apply body_utf8. exact U.
  - intros n Hn. destruct (other_chars n Hn) as (O1 & O2 & O3). apply contents_without; try assumption.
    eapply Forall_impl; [|exact P]. intros l Hl. apply Hl. exact Hn.
  - intros a b E. exfalso.
    assert (K : ~ contains (String "013" "") (contents ls)).
    { apply contents_without; [split; [discriminate|exact I]|split; [discriminate|exact I]|discriminate|].
      eapply Forall_impl; [|exact C]. intros l Hl (u & v & ->). clear -Hl. induction u as [|c u IH]; [destruct Hl as [[_ H] _]; apply H; reflexivity|].
      apply IH. apply Hl. }
    apply K. exists a, b. exact E.
  - intros a l b x y k E Hx Bx Hy By Bl _. left.
    change (contents ls) with ("" ++ String lf (body ls ++ "  "))%string in E. rewrite split_lf in E by exact I. rewrite (body_lines ls C) in E.
    assert (Q : forall p q r z w, p ++ [z : string] = q ++ w :: r -> In y r -> In w p).
    { clear. intros p. induction p as [|p0 p IH]; intros q r z w E Hr.
      - destruct q as [|q0 q]; injection E; intros; subst; [destruct Hr|destruct q; discriminate].
      - destruct q as [|q0 q]; injection E; intros; subst; [left; reflexivity|]. right. eapply IH; eassumption. }
    assert (G : In l ("" :: map padded ls)) by (apply (Q _ a b "  " l); [exact E|exact Hy]).
    destruct G as [<-|G]; [reflexivity|]. apply in_map_iff in G as (l' & <- & _). rewrite padded_blank in Bl. unfold padded. rewrite Bl. reflexivity.
Qed.
Lemma block_line_same : forall n l, String.length l <= n -> ~ contains quote3 l -> block_line l = l.
Proof.
  induction n as [|n IH]; intros l Hn H; [destruct l; [reflexivity|cbn in Hn; lia]|].
  destruct l as [|c l]; [reflexivity|]. cbn [String.length] in Hn.
  assert (E : block_line l = l). { apply IH; [lia|]. intros (u & v & ->). apply H. exists (String c u), v. reflexivity. }
  cbn [block_line]. destruct l as [|d [|e l]]; [reflexivity|cbn; reflexivity|].
  destruct (is dquote c && is dquote d && is dquote e)%bool eqn:K; [|rewrite E; reflexivity].
  exfalso. apply H. exists "", l. apply starts3. exact K.
Qed.
Theorem block_written s : block_fit s -> some_char newline s = true /\
  exists r, quoted_text s = (quote3 ++ r ++ quote3)%string /\ block_closed (r ++ quote3) r /\ plain_block r /\ unescapes r r /\ block_value r = s.
Proof.
  intros (U & P & R & Q & B & (x & y & m & E & Bx & By) & L).
  assert (R' : each_char (fun c => c <> cr) s).
  { clear -R. induction s as [|c s IH]; [exact I|]. split.
    - intros ->. apply R. exists "", s. reflexivity.
    - apply IH. intros (u & v & ->). apply R. exists (String c u), v. reflexivity. }
  assert (NL : no_lone_cr s) by (intros a b ->; exfalso; apply R; exists a, b; reflexivity).
  destruct (split_joined s R') as [J C].
  assert (S : some_char newline s = true).
  { destruct (line_cases s NL) as [K|(a & b & _ & [->| ->])].
    - rewrite (split_clean s K) in E. destruct m; discriminate E.
    - clear. induction a as [|c a IH]; [reflexivity|]. cbn [String.append some_char]. rewrite IH. apply orb_true_r.
    - exfalso. apply R. exists a, (String lf b). reflexivity. }
  split; [exact S|].
  assert (GL : GqlModel.lines s = split_lines s /\ Forall good (GqlModel.lines s)).
  { destruct (lines_split (String.length s) s (le_n _) U P NL) as [G [K|K]]; [auto|]. exfalso. rewrite E in K.
    change (x :: m ++ [y]) with ((x :: m) ++ [y]) in K. apply app_inj_tail in K as [_ ->]. discriminate By. }
  destruct GL as [GL G]. rewrite GL in G.
  assert (PS : Forall plain_spaces (split_lines s) /\ Forall (fun l => ~ contains quote3 l) (split_lines s)).
  { split; apply Forall_forall; intros l Hl; destruct (concat_part (String lf "") _ _ Hl) as (a & b & K); rewrite <- J in K; rewrite K in *.
    - apply (part_spaces a l b). exact P.
    - intros (u & v & ->). apply Q. exists (a ++ u)%string, (v ++ b)%string. rewrite !string_app_assoc. reflexivity. }
  destruct PS as [PS QS]. exists (contents (split_lines s)).
  assert (W : contents (split_lines s) = (String lf (body (split_lines s) ++ " ") ++ " ")%string).
  { unfold contents. cbn [String.append]. rewrite string_app_assoc. reflexivity. }
  assert (NQ : ~ contains quote3 (contents (split_lines s))).
  { apply contents_without; [cbn; repeat split; discriminate|cbn; repeat split; discriminate|discriminate|exact QS]. }
  split; [|split; [|split; [|split]]].
  - unfold quoted_text. rewrite S. cbn [negb]. unfold block_text, contents. rewrite GL.
    assert (BE : map (fun l => ((if Nat.eqb (leading_ws l) (String.length l) then "" else "    " ++ block_line l) ++ String lf "")%string) (split_lines s)
      = map (fun l => (padded l ++ String lf "")%string) (split_lines s)).
    { apply map_ext_in. intros l Hl. rewrite Forall_forall in G, QS. destruct (G l Hl) as [_ ->]. rewrite <- blank_indent. unfold padded.
      rewrite (block_line_same _ l (le_n _) (QS l Hl)). destruct (blank l); reflexivity. }
    rewrite BE. fold (body (split_lines s)). change three_quotes with quote3. cbn [String.append]. rewrite string_app_assoc. reflexivity.
  - rewrite W. rewrite string_app_assoc. apply (closed_plain (String lf (body (split_lines s) ++ " "))).
    intros (u & v & K). apply NQ. rewrite W, K. exists u, (v ++ " ")%string. rewrite !string_app_assoc. reflexivity.
  - apply contents_plain; [exact C| |exact PS]. eapply Forall_impl; [|exact G]. intros l [Hl _]. exact Hl.
  - apply unescapes_plain. exact NQ.
  - rewrite (contents_value _ x y m C B E Bx By L). symmetry. exact J.
Qed.
