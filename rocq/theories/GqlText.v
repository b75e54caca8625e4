(** Texts and documents: the parser against the GraphQL specification. *)
From Coq Require Import String Ascii List NArith ZArith Bool Arith Lia.
From Verif Require Import StrUtil Ast CondModel NormModel NormProofs JsonWriterModel JsonWriterProofs GqlModel GqlSpec GqlChars GqlLex GqlScan
  GqlGrammar GqlComplete GqlSafe GqlBlockProofs.
Import ListNotations.
Local Open Scope string_scope.
Local Open Scope list_scope.

(** * Nesting *)
Definition dopens (d : dtok) : bool := match d with DPunct (String c _) => one_of ["("; "["; "{"]%char c | _ => false end.
Definition dcloses (d : dtok) : bool := match d with DPunct (String c _) => one_of [")"; "]"; "}"]%char c | _ => false end.
Fixpoint dwithin (d : N) (ts : list dtok) : Prop :=
  match ts with
  | [] => True
  | t :: r => if dopens t then d <> 0%N /\ dwithin (N.pred d) r else if dcloses t then dwithin (N.succ d) r else dwithin d r
  end.
Lemma reads_opener f t d : reads f t d -> opener t = dopens d /\ closer t = dcloses d.
Proof.
  unfold reads, decode, opener, closer. destruct t as [k v]. cbn [tok_kind tok_text].
  destruct k.
  - intros H. injection H as <-. split; destruct v; reflexivity.
  - intros H. injection H as <-. split; reflexivity.
  - destruct (parse_i64 v); [|discriminate]. intros H. injection H as <-. split; reflexivity.
  - destruct (f v); [|discriminate]. intros H. injection H as <-. split; reflexivity.
  - destruct (unquote_string v); try discriminate. intros H. injection H as <-. split; reflexivity.
  - destruct (unquote_block_string v); try discriminate. intros H. injection H as <-. split; reflexivity.
Qed.
Lemma within_reads f ts ds : Forall2 (reads f) ts ds -> forall d, within d ts <-> dwithin d ds.
Proof.
  induction 1 as [|t x ts ds H1 H2 IH]; intros d; cbn; [tauto|]. destruct (reads_opener _ _ _ H1) as [-> ->].
  destruct (dopens x); [rewrite IH; tauto|]. destruct (dcloses x); apply IH.
Qed.

(** [dp x] brackets deep *)
Definition Deep (ts : list dtok) (k : nat) : Prop :=
  forall d rest, dwithin d (ts ++ rest) <-> (N.of_nat k <= d)%N /\ dwithin d rest.
Lemma deep_nil : Deep [] 0.
Proof. intros d rest. cbn. split; [intros H; split; [lia|exact H]|tauto]. Qed.
Lemma deep_app a b i j : Deep a i -> Deep b j -> Deep (a ++ b) (Nat.max i j).
Proof. intros A B d rest. rewrite <- app_assoc, (A d), (B d). split; intros; intuition lia. Qed.
Lemma deep_plain t a j : dopens t = false -> dcloses t = false -> Deep a j -> Deep (t :: a) j.
Proof. intros H1 H2 A d rest. cbn. rewrite H1, H2. apply A. Qed.
Lemma deep_framed o c a j : dopens (DPunct o) = true -> dopens (DPunct c) = false -> dcloses (DPunct c) = true ->
  Deep a j -> Deep (framed o c a) (S j).
Proof.
  intros H1 H2 H3 A d rest. unfold framed. cbn [app dwithin]. rewrite H1. rewrite <- app_assoc, (A (N.pred d)). cbn [app dwithin]. rewrite H2, H3.
  split.
  - intros (Hd & Hj & Hr). rewrite N.succ_pred in Hr by exact Hd. split; [lia|exact Hr].
  - intros [Hj Hr]. split; [lia|]. split; [lia|]. rewrite N.succ_pred by lia. exact Hr.
Qed.
Lemma deep_flat {A} (f : A -> list dtok) (g : A -> nat) l : Forall (fun x => Deep (f x) (g x)) l -> Deep (flat_map f l) (deepest (map g l)).
Proof. induction 1 as [|x l H1 H2 IH]; cbn; [apply deep_nil|]. apply deep_app; assumption. Qed.
Lemma deep_value v : Deep (value_tokens v) (value_depth v).
Proof.
  induction v as [nm|z|b|s|b| |s|l IH|o IH] using gvalue_ind'; cbn [value_tokens value_depth].
  - do 2 (apply deep_plain; [reflexivity..|]). apply deep_nil.
  - apply deep_plain; [reflexivity..|apply deep_nil].
  - apply deep_plain; [reflexivity..|apply deep_nil].
  - apply deep_plain; [reflexivity..|apply deep_nil].
  - apply deep_plain; [reflexivity..|apply deep_nil].
  - apply deep_plain; [reflexivity..|apply deep_nil].
  - apply deep_plain; [reflexivity..|apply deep_nil].
  - apply deep_framed; [reflexivity..|]. apply deep_flat. exact IH.
  - apply deep_framed; [reflexivity..|]. apply deep_flat. clear -IH. induction IH as [|[k v] o H1 H2 IH]; constructor; [|exact IH].
    apply deep_plain; [reflexivity..|]. apply deep_plain; [reflexivity..|]. exact H1.
Qed.
Lemma deep_type t : Deep (type_tokens t) (type_depth t).
Proof.
  induction t as [n|t IH|t IH]; cbn [type_tokens type_depth].
  - apply deep_plain; [reflexivity..|apply deep_nil].
  - apply deep_framed; [reflexivity..|exact IH].
  - rewrite <- (Nat.max_0_r (type_depth t)). apply deep_app; [exact IH|]. apply deep_plain; [reflexivity..|apply deep_nil].
Qed.
Lemma deep_args args : Deep (argument_tokens args) (args_depth args).
Proof.
  unfold argument_tokens, args_depth. destruct args as [|a l]; [apply deep_nil|]. apply deep_framed; [reflexivity..|]. apply deep_flat.
  apply Forall_forall. intros [k v] _. apply deep_plain; [reflexivity..|]. apply deep_plain; [reflexivity..|]. apply deep_value.
Qed.
Lemma deep_dirs ds : Deep (directive_tokens ds) (dirs_depth ds).
Proof.
  apply deep_flat. apply Forall_forall. intros d _. apply deep_plain; [reflexivity..|]. apply deep_plain; [reflexivity..|]. apply deep_args.
Qed.
Lemma deep_selection x : Deep (selection_tokens x) (selection_depth x).
Proof.
  induction x as [al n args ds sub IH|n ds|tc ds sub IH] using nsel_ind'; cbn [selection_tokens selection_depth].
  - change (Nat.max (args_depth args) (Nat.max (dirs_depth ds) match sub with [] => 0 | _ => S (deepest (map selection_depth sub)) end))
      with (Nat.max 0 (Nat.max (args_depth args) (Nat.max (dirs_depth ds) match sub with [] => 0 | _ => S (deepest (map selection_depth sub)) end))).
    apply deep_app.
    + destruct al; [|apply deep_nil]. cbn. do 2 (apply deep_plain; [reflexivity..|]). apply deep_nil.
    + apply deep_plain; [reflexivity..|]. apply deep_app; [apply deep_args|]. apply deep_app; [apply deep_dirs|].
      destruct sub as [|x sub]; [apply deep_nil|]. apply deep_framed; [reflexivity..|]. apply deep_flat. exact IH.
  - do 2 (apply deep_plain; [reflexivity..|]). apply deep_dirs.
  - apply deep_plain; [reflexivity..|].
    change (Nat.max (dirs_depth ds) (S (deepest (map selection_depth sub)))) with (Nat.max 0 (Nat.max (dirs_depth ds) (S (deepest (map selection_depth sub))))).
    apply deep_app.
    + destruct tc; [|apply deep_nil]. cbn. do 2 (apply deep_plain; [reflexivity..|]). apply deep_nil.
    + apply deep_app; [apply deep_dirs|]. apply deep_framed; [reflexivity..|]. apply deep_flat. exact IH.
Qed.
Lemma deep_set l : Deep (set_tokens l) (set_depth l).
Proof. apply deep_framed; [reflexivity..|]. apply deep_flat. apply Forall_forall. intros x _. apply deep_selection. Qed.
Lemma deep_vardef v : Deep (vardef_tokens v) (vardef_depth v).
Proof.
  unfold vardef_tokens, vardef_depth. do 3 (apply deep_plain; [reflexivity..|]). apply deep_app; [apply deep_type|].
  destruct (vd_default v); [|apply deep_nil]. apply deep_plain; [reflexivity..|]. apply deep_value.
Qed.
Lemma deep_definition d : Deep (definition_tokens d) (definition_depth d).
Proof.
  destruct d as [l|k n vs ds l|n tc ds l]; cbn [definition_tokens definition_depth].
  - apply deep_set.
  - apply deep_plain; [destruct k; reflexivity..|]. rewrite <- (Nat.max_0_l (Nat.max _ (Nat.max _ _))). apply deep_app.
    + destruct n; [|apply deep_nil]. apply deep_plain; [reflexivity..|apply deep_nil].
    + apply deep_app; [|apply deep_app; [apply deep_dirs|apply deep_set]].
      unfold vardefs_tokens. destruct vs as [|v vs]; [apply deep_nil|]. apply deep_framed; [reflexivity..|]. apply deep_flat.
      apply Forall_forall. intros x _. apply deep_vardef.
  - do 4 (apply deep_plain; [reflexivity..|]). apply deep_app; [apply deep_dirs|apply deep_set].
Qed.
Lemma document_within d ds : dwithin d (document_tokens ds) <-> (N.of_nat (document_depth ds) <= d)%N.
Proof.
  assert (D : Deep (document_tokens ds) (document_depth ds)).
  { apply deep_flat. apply Forall_forall. intros x _. apply deep_definition. }
  specialize (D d []). rewrite app_nil_r in D. rewrite D. cbn. tauto.
Qed.

(** * Tokens and what they say *)
Section Text.
  Variable f64 : string -> option N.

  Lemma reads_means t d : reads f64 t d -> plain_token t -> lexeme (tok_kind t) (tok_text t) -> means f64 t d.
  Proof.
    destruct t as [k v]. unfold reads, decode, plain_token. cbn [tok_kind tok_text]. intros H P L. inversion L; subst.
    - injection H as <-. constructor.
    - injection H as <-. constructor.
    - destruct (parse_i64 v) as [z|] eqn:E; [|discriminate]. injection H as <-. apply i64_value in E as [E ->]; [|assumption]. constructor. exact E.
    - destruct (f64 v) as [z|] eqn:E; [|discriminate]. injection H as <-. constructor. exact E.
    - rewrite quoted_inner in H. destruct (unquote r) as [x| | | |] eqn:E; try discriminate. injection H as <-. constructor.
      destruct P as (P1 & P2 & P3). apply (unquote_chars (String.length r)); [lia| |exact E| | |].
      + eapply chars_inside. eassumption.
      + intros K. apply P1. apply contains_app. exact K.
      + intros K. apply P2. apply contains_app. exact K.
      + intros K. apply P3. apply contains_app. exact K.
    - match goal with B : block_closed _ _ |- _ => rename B into Hb end. rewrite (closed_decode _ _ Hb) in H.
      rewrite (block_read _ _ (P _ _ eq_refl Hb) (U_unescapes _ _ (le_n _))) in H. injection H as <-.
      apply (means_block f64 _ _ _ Hb). apply (U_unescapes _ _ (le_n _)).
  Qed.
  Lemma means_reads t d : means f64 t d -> plain_lexeme (tok_kind t) (tok_text t) -> reads f64 t d.
  Proof.
    intros M L. unfold reads, decode. destruct M as [v|v|v H|v b H|r s H|t r v H Hv]; cbn [tok_kind tok_text] in *.
    - reflexivity.
    - reflexivity.
    - inversion L as [| |v' Hi| | |]; subst. pose proof (proj2 (i64_value v Hi (int_value v)) (conj H eq_refl)) as E. rewrite E. reflexivity.
    - rewrite H. reflexivity.
    - inversion L as [| | | |r' s' Hc K E|]. apply app_same_r in E. subst r'.
      rewrite quoted_inner, (simple_unquote _ _ Hc). cbn. f_equal. f_equal. eapply chars_one; [apply simple_chars; exact Hc|exact H].
    - inversion L as [| | | | |t' r' Hc Hp K E]. subst t'.
      assert (Er : r' = r).
      { pose proof (closed_raw _ _ Hc) as E1. rewrite (closed_raw _ _ H) in E1. apply app_same_r in E1. symmetry. exact E1. }
      subst r'. rewrite (closed_decode _ _ H), (block_read _ _ Hp Hv). reflexivity.
  Qed.
  Lemma plain_is_lexeme k v : plain_lexeme k v -> lexeme k v.
  Proof. intros H. destruct H; try (constructor; assumption).
    - econstructor. apply simple_chars. eassumption.
    - econstructor. eassumption.
  Qed.
  Lemma plain_ends_ends k v rest : plain_ends k v rest -> ends k v rest.
  Proof.
    assert (G : first_not (fun c => ~ (among " ,#!$&():=@[]{}|" c \/ c = "009"%char \/ LineTerminator c)) rest ->
      first_not (fun c => NameContinue c \/ c = "."%char) rest).
    { destruct rest as [|c rest]; cbn [first_not]; [tauto|]. intros H K. apply H. intros J.
      assert (B : (existsb (Ascii.eqb c) (list_ascii_of_string " ,#!$&():=@[]{}|") || is tab c || is lf c || is cr c)%bool = true).
      { rewrite !orb_true_iff, !is_spec. rewrite among_spec, terminator_spec in J. tauto. }
      assert (B' : (name_continue c || is "." c)%bool = true).
      { rewrite orb_true_iff, is_spec, name_continue_spec. exact K. }
      assert (Z : (negb (existsb (Ascii.eqb c) (list_ascii_of_string " ,#!$&():=@[]{}|") || is tab c || is lf c || is cr c))%bool = true).
      { revert B'. apply (implied_class (fun c => (name_continue c || is "." c)%bool)
          (fun c => (negb (existsb (Ascii.eqb c) (list_ascii_of_string " ,#!$&():=@[]{}|") || is tab c || is lf c || is cr c))%bool)).
        vm_compute. reflexivity. }
      rewrite B in Z. discriminate Z. }
    destruct k; cbn; auto.
  Qed.
  Lemma plainly_lexes s ts : plainly s ts -> lexes s ts.
  Proof.
    induction 1 as [|i s ts Hi H IH|k v s ts Hk He H IH]; [constructor| |].
    - apply lexes_ignored; assumption.
    - apply lexes_token; [apply plain_is_lexeme; exact Hk|apply plain_ends_ends; exact He|exact IH].
  Qed.
  Lemma plainly_each s ts : plainly s ts -> Forall (fun t => plain_lexeme (tok_kind t) (tok_text t)) ts.
  Proof. induction 1; [constructor|assumption|]. constructor; assumption. Qed.
  Lemma lexes_each s ts : lexes s ts -> Forall (fun t => lexeme (tok_kind t) (tok_text t)) ts.
  Proof. induction 1; [constructor|assumption|]. constructor; assumption. Qed.

  Lemma parse_query_ok depth limit s ds : parse_query f64 depth limit s = POk ds ->
    exists ts, tokens depth limit s = LexOk ts /\ (ds <> [] /\ Forall def_ok ds) /\ Forall2 (reads f64) ts (document_tokens ds).
  Proof.
    unfold parse_query. destruct (tokens depth limit s) as [ts|ts|] eqn:E; [|destruct (parse_tokens f64 ts); discriminate|discriminate].
    intros H. apply parse_exact in H as [H1 H2]. eauto.
  Qed.
  Lemma sound depth limit s ts ds : (forall v g, among "+-" g -> f64 (v ++ String g "")%string = None) -> tokens depth limit s = LexOk ts -> Forall plain_token ts -> Forall not_on ds ->
    parse_query f64 depth limit s = POk ds -> denotes f64 s ds.
  Proof.
    intros f64_sign Ht Hp Hn H. apply parse_query_ok in H as (ts' & Ht' & [Hne Hok] & Hr). rewrite Ht in Ht'. injection Ht' as <-.
    assert (L : lexes s ts).
    { unfold tokens in Ht. apply (skipped_ignored _ _ (String.length s)); [lia|].
      apply (lexed_lexes f64 f64_sign _ _ _ _ _ _ Ht Hp). clear -Hr. remember (document_tokens ds) as l eqn:E. clear E.
      induction Hr as [|t d ts ds' H1 H2 IH]; constructor; [|exact IH]. unfold reads, decode in H1. split; intros K; rewrite K in H1.
      - destruct (unquote_string (tok_text t)); try discriminate. eauto.
      - destruct (f64 (tok_text t)); discriminate. }
    exists ts. split; [exact L|]. split.
    - split; [exact Hne|]. clear -Hok Hn. induction Hok as [|d ds H1 H2 IH]; constructor; [|apply IH; inversion Hn; assumption].
      inversion Hn; subst. destruct d; cbn in *; tauto.
    - apply lexes_each in L. clear -Hr Hp L. revert Hp L. induction Hr as [|t d ts ds' H1 H2 IH]; intros P L; constructor.
      + inversion P; inversion L; subst. apply reads_means; assumption.
      + inversion P; inversion L; subst. apply IH; assumption.
  Qed.
  Lemma complete depth limit s ts ds : plainly s ts -> document_ok ds -> Forall2 (means f64) ts (document_tokens ds) ->
    (N.of_nat (document_depth ds) <= depth)%N -> (match limit with Some l => N.of_nat (weight ts) < l | None => True end)%N ->
    parse_query f64 depth limit s = POk ds.
  Proof.
    intros P [Hne Hok] M D L.
    assert (R : Forall2 (reads f64) ts (document_tokens ds)).
    { apply plainly_each in P. clear -P M. induction M as [|t d ts ds' H1 H2 IH]; constructor; inversion P; subst; [apply means_reads; assumption|auto]. }
    unfold parse_query, tokens. rewrite (plainly_lexed _ _ P); [|lia| |exact L].
    - apply parse_exact. split; [|exact R]. split; [exact Hne|]. eapply Forall_impl; [|exact Hok]. intros [|? ? ? ? ?|? ? ? ?]; cbn; tauto.
    - apply (within_reads f64 _ _ R). apply document_within. exact D.
  Qed.
  Lemma depth_bounded depth limit s ds : parse_query f64 depth limit s = POk ds -> (N.of_nat (document_depth ds) <= depth)%N.
  Proof.
    intros H. apply parse_query_ok in H as (ts & Ht & _ & Hr). apply document_within. apply (within_reads f64 _ _ Hr).
    eapply lexed_within. exact Ht.
  Qed.
  Lemma weight_reads ts ds : Forall2 (reads f64) ts ds -> weight ts = length (filter counted ds).
  Proof.
    unfold weight. induction 1 as [|t d ts ds H1 H2 IH]; [reflexivity|]. cbn [filter].
    replace (counted d) with (match tok_kind t with KPunct | KName | KInt => true | _ => false end).
    { destruct (match tok_kind t with KPunct | KName | KInt => true | _ => false end); cbn; congruence. }
    unfold reads, decode in H1. destruct (tok_kind t).
    - injection H1 as <-. reflexivity.
    - injection H1 as <-. reflexivity.
    - destruct (parse_i64 _); [|discriminate]. injection H1 as <-. reflexivity.
    - destruct (f64 _); [|discriminate]. injection H1 as <-. reflexivity.
    - destruct (unquote_string _); try discriminate. injection H1 as <-. reflexivity.
    - destruct (unquote_block_string _); try discriminate. injection H1 as <-. reflexivity.
  Qed.
  Lemma tokens_bounded depth l s ds : parse_query f64 depth (Some l) s = POk ds ->
    (N.of_nat (length (filter counted (document_tokens ds))) <= l)%N.
  Proof.
    intros H. apply parse_query_ok in H as (ts & Ht & _ & Hr). rewrite <- (weight_reads _ _ Hr).
    apply lexed_weight in Ht. lia.
  Qed.

  (** * It ends *)
  Lemma parse_ends depth limit s : parse_query f64 depth limit s <> PFuel.
  Proof.
    unfold parse_query, tokens. pose proof (lex_ends (S (String.length s)) depth limit 0 (skip_ws false s)) as H.
    destruct (lex _ _ _ _ _) as [ts|ts|].
    - apply parse_safe.
    - destruct (parse_safe f64 ts) as [K _]. destruct (parse_tokens f64 ts); congruence.
    - exfalso. apply H; [|reflexivity]. pose proof (skip_length (String.length s) false s (le_n _)). lia.
  Qed.

  (** * It panics only in block strings *)
  Definition from_text (s : string) (t : token) : Prop :=
    (exists a b, s = (a ++ tok_text t ++ b)%string) /\ (tok_kind t = KString -> exists r, tok_text t = (quote1 ++ r ++ quote1)%string /\ inside false r)
    /\ (tok_kind t = KBlock -> contains quote3 s).
  Lemma from_text_app s a t : from_text s t -> from_text (a ++ s)%string t.
  Proof.
    intros ((x & y & ->) & H2 & H3). split; [exists (a ++ x)%string, y; rewrite string_app_assoc; reflexivity|]. split; [exact H2|].
    intros K. destruct (H3 K) as (p & q & E). exists (a ++ p)%string, q. rewrite E, string_app_assoc. reflexivity.
  Qed.
  Definition lexed_tokens (l : lexed) : list token := match l with LexOk ts | LexErr ts => ts | LexFuel => [] end.
  Lemma skip_suffix : forall n b s, String.length s <= n -> exists a, s = (a ++ skip_ws b s)%string.
  Proof.
    induction n as [|n IH]; intros b [|c s] Hn; cbn in Hn; try lia; [exists ""; reflexivity..|]. cbn [skip_ws].
    assert (G : forall b', exists a, String c s = (a ++ skip_ws b' s)%string).
    { intros b'. destruct (IH b' s) as [a E]; [lia|]. exists (String c a). cbn. congruence. }
    destruct b; [apply G|]. destruct (_ || _ || _ || _ || _)%bool; [apply G|]. destruct (is "#" c); [apply G|].
    destruct s as [|d [|e s]]; [exists ""; reflexivity..|]. destruct (_ && _ && _)%bool; [|exists ""; reflexivity].
    destruct (IH false s) as [a E]; [cbn in Hn; lia|]. exists (String c (String d (String e a))). cbn. congruence.
  Qed.
  Lemma scanned_from s k v r n : scan_token s = Some (k, v, r, n) -> from_text s (mktok k v).
  Proof.
    intros H. destruct (scan_split _ _ _ _ _ H) as (E & _). split; [exists "", r; exact E|]. cbn [tok_kind tok_text]. split.
    - intros ->. clear E. destruct s as [|c s]; [discriminate|]. revert H. unfold scan_token.
      destruct (one_of _ c); [discriminate|]. destruct (is "." c).
      { destruct s as [|d [|e s]]; try discriminate. destruct (_ && _)%bool; discriminate. }
      destruct (name_start c). { destruct (span name_continue s) as [a b]. discriminate. }
      destruct (_ || _)%bool.
      { destruct (span _ s) as [a b]. destruct (last_index _ (String c a)), (last_index _ (String c a));
          try (destruct (check_float _ _ _); discriminate). destruct (check_int _); discriminate. }
      destruct (is dquote c) eqn:Eq; [|discriminate]. apply is_spec in Eq as ->. destruct (starts_with _ s).
      + destruct (scan_block _ _) as [[a b]|]; discriminate.
      + destruct (scan_string _ _) as [[a b]|] eqn:E; [|discriminate]. intros H. injection H as <- <- <-.
        apply scan_inside in E as (q & -> & -> & I). exists q. split; [reflexivity|exact I].
    - intros ->. clear E. destruct s as [|c s]; [discriminate|]. revert H. unfold scan_token.
      destruct (one_of _ c); [discriminate|]. destruct (is "." c).
      { destruct s as [|d [|e s]]; try discriminate. destruct (_ && _)%bool; discriminate. }
      destruct (name_start c). { destruct (span name_continue s) as [a b]. discriminate. }
      destruct (_ || _)%bool.
      { destruct (span _ s) as [a b]. destruct (last_index _ (String c a)), (last_index _ (String c a));
          try (destruct (check_float _ _ _); discriminate). destruct (check_int _); discriminate. }
      destruct (is dquote c) eqn:Eq; [|discriminate]. apply is_spec in Eq as ->. destruct (starts_with _ s) eqn:Es.
      + intros _. destruct s as [|x [|y s2]]; try discriminate Es; [cbn [starts_with] in Es; rewrite andb_false_r in Es; discriminate Es|].
        cbn [starts_with] in Es. rewrite !andb_true_iff in Es. destruct Es as [E1 [E2 _]]. apply Ascii.eqb_eq in E1, E2. subst x y.
        exists "", s2. reflexivity.
      + destruct (scan_string _ _) as [[a b]|] eqn:E; discriminate.
  Qed.
  Lemma lexed_from : forall fuel depth limit count s, Forall (from_text s) (lexed_tokens (lex fuel depth limit count s)).
  Proof.
    induction fuel as [|fuel IH]; intros depth limit count s; [constructor|].
    destruct (lex (S fuel) depth limit count s) as [ts|ts|] eqn:H; [| |constructor].
    - destruct (lex_step _ _ _ _ _ _ H) as [[E _]|[E|(k & v & r & n & t & d' & c' & Es & Ev & -> & _ & _ & _ & _ & E)]]; try discriminate.
      + injection E as ->. constructor.
      + specialize (IH d' limit c' (skip_ws false r)). destruct (lex fuel d' limit c' (skip_ws false r)); try discriminate E.
        injection E as ->. cbn in *. constructor; [eapply scanned_from; exact Es|].
        destruct (skip_suffix (String.length r) false r (le_n _)) as [a Ea]. eapply Forall_impl; [|exact IH]. intros t Ht.
        rewrite Ev, Ea, <- string_app_assoc. apply from_text_app. exact Ht.
    - destruct (lex_step _ _ _ _ _ _ H) as [[E _]|[E|(k & v & r & n & t & d' & c' & Es & Ev & -> & _ & _ & _ & _ & E)]]; try discriminate.
      + injection E as ->. constructor.
      + specialize (IH d' limit c' (skip_ws false r)). destruct (lex fuel d' limit c' (skip_ws false r)); try discriminate E.
        injection E as ->. cbn in *. constructor; [eapply scanned_from; exact Es|].
        destruct (skip_suffix (String.length r) false r (le_n _)) as [a Ea]. eapply Forall_impl; [|exact IH]. intros t Ht.
        rewrite Ev, Ea, <- string_app_assoc. apply from_text_app. exact Ht.
  Qed.
  Lemma inside_no_panic : forall n r, String.length r <= n -> inside false r -> unquote r <> PPanic.
  Proof.
    induction n as [|n IH]; intros [|c r] Hn I; cbn in Hn; try lia; try discriminate. cbn [unquote].
    cbn in I. destruct I as (I1 & I2 & I3). destruct (is bslash c) eqn:B.
    - cbn in I3. destruct r as [|e r]; [discriminate I3|]. cbn in I3. destruct I3 as (_ & _ & I3). cbn in Hn.
      assert (P : forall (k : string -> string), pmap k (unquote r) <> PPanic).
      { intros k. specialize (IH r). destruct (unquote r); cbn; try congruence. exfalso. apply IH; [lia|exact I3|reflexivity]. }
      destruct (_ || _ || _)%bool; [apply P|]. do 5 (destruct (is _ e); [apply P|]). destruct (is "u" e); [|discriminate].
      destruct r as [|h1 [|h2 [|h3 [|h4 r]]]]; try discriminate. destruct (from_str_radix16 h1 h2 h3 h4) as [k|] eqn:Hx; [|discriminate].
      destruct (surrogate k); [discriminate|].
      assert (J : inside false r).
      { assert (W : forall c r, (is bslash c = false) -> inside false (String c r) -> inside false r).
        { intros x y F K. cbn in K. rewrite F in K. tauto. }
        assert (H : is bslash h1 = false /\ is bslash h2 = false /\ is bslash h3 = false /\ is bslash h4 = false).
        { clear -Hx. assert (V : forall c, hex_digit_value c <> None -> is bslash c = false) by (intros c H; apply is_not; intros ->; apply H; reflexivity).
          unfold from_str_radix16 in Hx. destruct (is "+" h1) eqn:Pl.
          - cbn [radix16] in Hx. apply is_spec in Pl as ->. split; [reflexivity|].
            destruct (hex_digit_value h2) eqn:E2; [|discriminate]. destruct (hex_digit_value h3) eqn:E3; [|discriminate].
            destruct (hex_digit_value h4) eqn:E4; [|discriminate]. repeat split; apply V; congruence.
          - cbn [radix16] in Hx. destruct (hex_digit_value h1) eqn:E1; [|discriminate].
            destruct (hex_digit_value h2) eqn:E2; [|discriminate]. destruct (hex_digit_value h3) eqn:E3; [|discriminate].
            destruct (hex_digit_value h4) eqn:E4; [|discriminate]. repeat split; apply V; congruence. }
        destruct H as (B1 & B2 & B3 & B4). apply (W h1) in I3; [|exact B1]. apply (W h2) in I3; [|exact B2]. apply (W h3) in I3; [|exact B3]. apply (W h4) in I3; [|exact B4]. exact I3. }
      cbn in Hn. specialize (IH r). destruct (unquote r); cbn; try congruence. exfalso. apply IH; [lia|exact J|reflexivity].
    - cbn in I3. specialize (IH r). destruct (unquote r); cbn; try congruence. exfalso. apply IH; [lia|exact I3|reflexivity].
  Qed.
  Lemma wide_app a s b : wide s -> wide (a ++ s ++ b)%string.
  Proof.
    intros (x & c & y & -> & H). exists (a ++ x)%string, c, (y ++ b)%string. split; [|exact H].
    rewrite !string_app_assoc. reflexivity.
  Qed.
  Lemma lines_wide : forall n s l, String.length s <= n -> In l (lines s) -> wide l -> wide s.
  Proof.
    induction n as [|n IH]; intros [|c s] l Hn Hl W; cbn in Hn; try lia; try contradiction. cbn [lines] in Hl.
    assert (T : forall a t, wide t -> wide (String a t)) by (intros a t Ht; rewrite <- (string_app_nil_r t); apply (wide_app (String a "") t ""); exact Ht).
    assert (E : ~ wide "") by (intros (a & x & b & K & _); destruct a; discriminate K).
    assert (More : In l (match lines s with [] => [String c ""] | p :: ps => String c p :: ps end) -> wide (String c s)).
    { intros H. destruct (lines s) as [|p ps] eqn:El.
      - destruct H as [<-|[]]. destruct W as (a & x & b & K & Hx). destruct a as [|? a]; [|destruct a; discriminate K].
        injection K as -> _. exists "", x, s. auto.
      - destruct H as [<-|H].
        + destruct W as (a & x & b & K & Hx). destruct a as [|y a].
          * injection K as -> _. exists "", x, s. auto.
          * injection K as -> K. apply T. apply (IH s p); [lia|rewrite El; left; reflexivity|]. exists a, x, b. auto.
        + apply T. apply (IH s l); [lia|rewrite El; right; exact H|exact W]. }
    destruct (is lf c).
    - destruct Hl as [<-|Hl]; [contradiction|]. apply T. apply (IH s l); [lia|exact Hl|exact W].
    - destruct (is cr c); [|exact (More Hl)]. destruct s as [|d s]; [exact (More Hl)|]. destruct (is lf d); [|exact (More Hl)].
      destruct Hl as [<-|Hl]; [contradiction|]. apply T, T. cbn in Hn. apply (IH s l); [lia|exact Hl|exact W].
  Qed.
  Lemma block_panic_wide s : unquote_block s = PPanic -> wide s.
  Proof.
    unfold unquote_block. destruct (survey 0 (lines s) (None, None, 0)) as [[o [f|]] l]; [|discriminate].
    assert (G : forall o i ls, cut_lines o i ls = PPanic -> exists x, In x ls /\ wide x).
    { clear. intros o i ls. revert i. induction ls as [|x ls IH]; intros i; cbn [cut_lines]; [discriminate|].
      assert (N : cut_line o i x = PPanic -> wide x).
      { unfold cut_line. destruct o as [k|]; [|discriminate]. destruct (_ && _)%bool; [|discriminate]. destruct (boundary k x) eqn:B; [discriminate|].
        intros _. unfold boundary in B. destruct (drop_str k x) as [|c y] eqn:E; [discriminate|]. apply negb_false_iff in B.
        exists (take_str k x), c, y. split; [rewrite <- E; symmetry; apply take_drop|].
        unfold between in B. apply andb_true_iff in B as [B _]. apply N.leb_le in B. exact B. }
      destruct (cut_line o i x) eqn:C; try discriminate.
      - intros H. specialize (IH (S i)). destruct (cut_lines o (S i) ls); try discriminate. destruct (IH eq_refl) as (y & H1 & H2). exists y. split; [right; exact H1|exact H2].
      - intros _. exists x. split; [left; reflexivity|apply N; reflexivity]. }
    specialize (G o f (firstn (l - f + 1) (skipn f (lines s)))). intros H.
    destruct (cut_lines o f _); try discriminate. destruct (G eq_refl) as (x & H1 & H2).
    assert (In1 : In x (lines s)).
    { assert (I1 : In x (skipn f (lines s))) by (rewrite <- (firstn_skipn (l - f + 1)); apply in_or_app; left; exact H1).
      rewrite <- (firstn_skipn f). apply in_or_app. right. exact I1. }
    apply (lines_wide (String.length s) s x); [lia|exact In1|exact H2].
  Qed.
  Lemma parse_panics depth limit s : parse_query f64 depth limit s = PPanic -> contains quote3 s /\ wide s.
  Proof.
    intros H. assert (B : exists t, bad f64 t /\ from_text s t).
    { unfold parse_query, tokens in H. pose proof (lexed_from (S (String.length s)) depth limit 0 (skip_ws false s)) as F.
      assert (X : Exists (bad f64) (lexed_tokens (lex (S (String.length s)) depth limit 0 (skip_ws false s)))).
      { destruct (lex _ _ _ _ _) as [ts|ts|]; cbn; [| |discriminate].
        - apply parse_safe. exact H.
        - apply parse_safe. destruct (parse_tokens f64 ts); congruence. }
      apply Exists_exists in X as (t & Ht & Hb). exists t. split; [exact Hb|]. rewrite Forall_forall in F. specialize (F t Ht).
      destruct (skip_suffix (String.length s) false s (le_n _)) as [a Ea]. rewrite Ea. apply from_text_app. exact F. }
    destruct B as (t & Hb & (a & b & Es) & Hs & Hk). unfold bad, decode in Hb. destruct (tok_kind t).
    - discriminate.
    - discriminate.
    - destruct (parse_i64 _); discriminate.
    - destruct (f64 _); discriminate.
    - exfalso. destruct (Hs eq_refl) as (r & E & I). rewrite E, quoted_inner in Hb.
      apply (inside_no_panic (String.length r) r (le_n _) I). destruct (unquote r); try discriminate. reflexivity.
    - split; [apply Hk; reflexivity|]. rewrite Es. apply wide_app. destruct (unquote_block_string (tok_text t)) eqn:E; try discriminate.
      apply block_panic_wide in E. destruct E as (x & c & y & E & Hc).
      assert (T : wide (drop_str 3 (tok_text t))).
      { rewrite <- (take_drop (String.length (tok_text t) - 6)), E. exists x, c, (y ++ drop_str (String.length (tok_text t) - 6) (drop_str 3 (tok_text t)))%string.
        split; [|exact Hc]. rewrite string_app_assoc. reflexivity. }
      rewrite <- (take_drop 3 (tok_text t)). rewrite <- (string_app_nil_r (drop_str 3 (tok_text t))). apply wide_app. exact T.
  Qed.
End Text.
