(** Reading a document always ends, and panics only on a literal that cannot be decoded. *)
From Coq Require Import String Ascii List NArith ZArith Bool Arith Lia.
From Verif Require Import Ast CondModel NormModel NormProofs GqlModel GqlSpec GqlGrammar GqlComplete.
Import ListNotations.
Local Open Scope string_scope.
Local Open Scope list_scope.

Section Safe.
  Variable parse_f64 : string -> option N.
  Definition bad (t : token) : Prop := decode parse_f64 t = PPanic.
  Definition safe {A} (r : pres A) (ts : list token) : Prop := r <> PFuel /\ (r = PPanic -> Exists bad ts).
  Definition takes (ts r : list token) : Prop := exists c, ts = c ++ r.
  Definition takes1 (ts r : list token) : Prop := exists t c, ts = t :: c ++ r.

  Lemma takes_refl ts : takes ts ts.
  Proof. exists []. reflexivity. Qed.
  Lemma takes_trans a b c : takes a b -> takes b c -> takes a c.
  Proof. intros [x ->] [y ->]. exists (x ++ y). apply app_assoc. Qed.
  Lemma takes1_takes a b : takes1 a b -> takes a b.
  Proof. intros (t & c & ->). exists (t :: c). reflexivity. Qed.
  Lemma takes_length a b : takes a b -> length b <= length a.
  Proof. intros [c ->]. rewrite app_length. lia. Qed.
  Lemma takes1_length a b : takes1 a b -> length b < length a.
  Proof. intros (t & c & ->). cbn. rewrite app_length. lia. Qed.
  Lemma eats_takes ts r x : eats parse_f64 ts r x -> takes ts r.
  Proof. intros (c & -> & _). exists c. reflexivity. Qed.
  Lemma eats_takes1 ts r x : x <> [] -> eats parse_f64 ts r x -> takes1 ts r.
  Proof. intros Hx (c & -> & H). destruct H as [|t d c x']; [congruence|]. exists t, c. reflexivity. Qed.
  Lemma bad_suffix ts r : takes ts r -> Exists bad r -> Exists bad ts.
  Proof. intros [c ->] H. apply Exists_app. right. exact H. Qed.
  Lemma safe_suffix {A} (x : pres A) ts r : takes ts r -> safe x r -> safe x ts.
  Proof. intros T [H1 H2]. split; [exact H1|]. intros E. eapply bad_suffix; eauto. Qed.
  Lemma safe_pmap {A B} (k : A -> B) x ts : safe x ts -> safe (pmap k x) ts.
  Proof. intros [H1 H2]. destruct x; cbn; split; try congruence. intros _. apply H2. reflexivity. Qed.
  Lemma safe_committed {A} (x : pres A) ts : safe x ts -> safe (committed x) ts.
  Proof. intros [H1 H2]. destruct x; cbn; split; try congruence. intros _. apply H2. reflexivity. Qed.
  Lemma safe_then {A B} (x : parse_result A) (k : A -> list token -> parse_result B) ts :
    safe x ts -> (forall a m, x = POk (a, m) -> safe (k a m) ts) -> safe (then_ x k) ts.
  Proof.
    intros [H1 H2] H. destruct x as [[a m]| | | |]; cbn; try (split; congruence).
    - apply safe_committed. apply H. reflexivity.
    - split; [congruence|]. intros _. apply H2. reflexivity.
  Qed.
  Lemma safe_ok {A} (a : A) ts : safe (POk a) ts.
  Proof. split; congruence. Qed.
  Lemma safe_word k v ts : safe (word k v ts) ts.
  Proof. unfold word. destruct ts as [|t r]; [split; discriminate|]. destruct (_ && _)%bool; split; discriminate. Qed.
  Lemma safe_punct v ts : safe (punct v ts) ts.
  Proof. apply safe_word. Qed.
  Lemma safe_ident v ts : safe (ident v ts) ts.
  Proof. apply safe_word. Qed.
  Lemma safe_name ts : safe (name ts) ts.
  Proof. unfold name. destruct ts as [|t r]; [split; discriminate|]. destruct (kind_eqb _ _); split; discriminate. Qed.
  Lemma punct_takes v ts u r : punct v ts = POk (u, r) -> takes1 ts r.
  Proof. intros H. apply punct_ok in H as ->. exists (mktok KPunct v), []. reflexivity. Qed.
  Lemma ident_takes v ts u r : ident v ts = POk (u, r) -> takes1 ts r.
  Proof. intros H. apply ident_ok in H as ->. exists (mktok KName v), []. reflexivity. Qed.
  Lemma name_takes ts u r : name ts = POk (u, r) -> takes1 ts r.
  Proof. intros H. apply name_ok in H as ->. exists (mktok KName u), []. reflexivity. Qed.
  Lemma safe_optional {A} (p : list token -> parse_result A) ts : safe (p ts) ts -> safe (optional p ts) ts.
  Proof.
    unfold optional. intros [H1 H2]. destruct (p ts) as [[a r]| | | |]; split; try congruence.
    intros _. apply H2. reflexivity.
  Qed.
  Lemma safe_many {A} n (p : list token -> parse_result A) :
    (forall ts, length ts <= n -> safe (p ts) ts) -> (forall ts a r, p ts = POk (a, r) -> takes1 ts r) ->
    forall fuel ts, length ts <= n -> length ts < fuel -> safe (many fuel p ts) ts.
  Proof.
    intros Hp Ht. induction fuel as [|fuel IH]; intros ts Hn Hf; [lia|]. cbn.
    specialize (Hp ts Hn). destruct (p ts) as [[a r]| | | |] eqn:E; try (split; congruence).
    - apply safe_pmap. pose proof (Ht _ _ _ E) as T. pose proof (takes1_length _ _ T).
      eapply safe_suffix; [apply takes1_takes; exact T|]. apply IH; lia.
    - destruct Hp as [_ H]. split; [congruence|]. intros _. apply H. reflexivity.
    - destruct Hp as [H _]. congruence.
  Qed.
  Lemma safe_many1 {A} n (p : list token -> parse_result A) :
    (forall ts, length ts <= n -> safe (p ts) ts) -> (forall ts a r, p ts = POk (a, r) -> takes1 ts r) ->
    forall fuel ts, length ts <= n -> length ts < fuel -> safe (many1 fuel p ts) ts.
  Proof.
    intros Hp Ht fuel ts Hn Hf. unfold many1. apply safe_then; [apply Hp; exact Hn|]. intros a m E. apply safe_pmap.
    pose proof (Ht _ _ _ E) as T. pose proof (takes1_length _ _ T).
    eapply safe_suffix; [apply takes1_takes; exact T|]. apply (safe_many n); [exact Hp|exact Ht|lia|lia].
  Qed.

  Lemma safe_plain ts : safe (plain_value parse_f64 ts) ts.
  Proof.
    unfold plain_value. destruct ts as [|[k s] r]; [split; discriminate|]. cbn [tok_kind tok_text].
    assert (D : forall (x : pres string) (K : x = PPanic -> bad (mktok k s)), x <> PFuel ->
      safe (committed (pmap (fun s => (GStr s, r)) x)) (mktok k s :: r)).
    { intros x K F. destruct x; cbn; split; try congruence. intros _. constructor. apply K. reflexivity. }
    assert (U : forall s, unquote s <> PFuel).
    { fix U 1. intros [|c s1]; [discriminate|]. cbn. destruct (is bslash c).
      - destruct s1 as [|e s2]; [discriminate|].
        assert (P : forall (A : Type) (k0 : string -> A), pmap k0 (unquote s2) <> PFuel).
        { intros A k0. specialize (U s2). destruct (unquote s2); cbn; congruence. }
        destruct (_ || _ || _)%bool; [apply P|]. repeat (destruct (is _ e); [try apply P|]); try discriminate.
        destruct s2 as [|h1 [|h2 [|h3 [|h4 s6]]]]; try discriminate.
        destruct (from_str_radix16 h1 h2 h3 h4); [|discriminate]. destruct (surrogate n); [discriminate|].
        specialize (U s6). destruct (unquote s6); cbn; congruence.
      - specialize (U s1). destruct (unquote s1); cbn; congruence. }
    assert (C : forall o i ls, cut_lines o i ls <> PFuel).
    { intros o i ls. revert i. induction ls as [|l ls IH]; intros i; cbn; [discriminate|].
      unfold cut_line. destruct o as [q|].
      - destruct (_ && _)%bool; [destruct (boundary q l)|]; try discriminate;
          specialize (IH (S i)); destruct (cut_lines (Some q) (S i) ls); cbn; congruence.
      - specialize (IH (S i)). destruct (cut_lines None (S i) ls); cbn; congruence. }
    assert (V : forall s, unquote_block s <> PFuel).
    { intros x. unfold unquote_block. destruct (survey _ _ _) as [[o [f|]] l]; [|discriminate].
      specialize (C o f (firstn (l - f + 1) (skipn f (lines x)))). destruct (cut_lines _ _ _); cbn; congruence. }
    destruct k; try (split; discriminate).
    - repeat (destruct (String.eqb _ _); [split; discriminate|]). split; discriminate.
    - destruct (parse_i64 s); split; discriminate.
    - destruct (parse_f64 s); split; discriminate.
    - apply D; [|apply U]. intros E. unfold bad, decode. cbn [tok_kind tok_text]. rewrite E. reflexivity.
    - apply D; [|apply V]. intros E. unfold bad, decode. cbn [tok_kind tok_text]. rewrite E. reflexivity.
  Qed.
  Lemma value_takes fuel const ts v r : value parse_f64 fuel const ts = POk (v, r) -> takes1 ts r.
  Proof. intros H. apply snd_value in H as [H _]. eapply eats_takes1; [|exact H]. apply value_tokens_ne. Qed.
  Lemma entry_takes {A} (p : list token -> parse_result A) : (forall ts v r, p ts = POk (v, r) -> takes1 ts r) ->
    forall ts v r, entry p ts = POk (v, r) -> takes1 ts r.
  Proof.
    intros Hp ts v r H. unfold entry in H. apply then_ok in H as (k & m & B & H). apply name_ok in B as ->.
    apply then_ok in H as (u & m' & B & H). apply punct_ok in B as ->. apply pmap_ok in H as ([x r'] & H & K). injection K as -> ->.
    apply Hp in H as (t & c & ->). exists (mktok KName k), (mktok KPunct ":" :: t :: c). reflexivity.
  Qed.
  Lemma safe_entry {A} n (p : list token -> parse_result A) :
    (forall ts, length ts <= n -> safe (p ts) ts) -> forall ts, length ts <= n -> safe (entry p ts) ts.
  Proof.
    intros Hp ts Hn. unfold entry. apply safe_then; [apply safe_name|]. intros k m B. apply name_ok in B as ->. cbn in Hn.
    apply safe_suffix with (r := m); [exists [mktok KName k]; reflexivity|].
    apply safe_then; [apply safe_punct|]. intros u m' B. apply punct_ok in B as ->. cbn in Hn.
    apply safe_suffix with (r := m'); [exists [mktok KPunct ":"]; reflexivity|]. apply safe_pmap. apply Hp. lia.
  Qed.
  Lemma safe_value fuel const : forall ts, length ts < fuel -> safe (value parse_f64 fuel const ts) ts.
  Proof.
    induction fuel as [|f IH]; intros ts Hf; [lia|]. cbn [value].
    pose proof (safe_plain ts) as Sp. destruct (plain_value parse_f64 ts) as [[v r]| | | |] eqn:E; try exact Sp.
    assert (W : forall v, (exists r, punct v ts = POk (tt, r) /\ ts = mktok KPunct v :: r) \/ punct v ts = PPeek).
    { intros v. unfold punct, word. destruct ts as [|[k s] r]; [right; reflexivity|]. cbn.
      destruct (kind_eqb k KPunct) eqn:Ek; cbn; [|right; reflexivity]. destruct (String.eqb_spec s v) as [->|]; [|right; reflexivity].
      left. exists r. split; [reflexivity|]. destruct k; try discriminate Ek. reflexivity. }
    assert (V : forall ts', length ts' < f -> safe (value parse_f64 f const ts') ts') by exact IH.
    destruct (W "[") as [(r & B & ->)|B]; [|destruct (W "{") as [(r & C & ->)|C]].
    - replace (if const then PPeek else punct "$" (mktok KPunct "[" :: r)) with (@PPeek (unit * list token)) by (destruct const; reflexivity).
      rewrite B. cbn in Hf. apply safe_suffix with (r := r); [exists [mktok KPunct "["]; reflexivity|].
      apply safe_then.
      + apply safe_committed. apply (safe_many (length r)); [|intros ts' v r'; apply value_takes|lia|lia].
        intros ts' Hts'. apply V. lia.
      + intros l m Hm. apply committed_inv in Hm. apply safe_suffix with (r := m).
        * eapply eats_takes. eapply (snd_many parse_f64 _ _ _ _ (snd_value parse_f64 f const)). exact Hm.
        * apply safe_pmap. apply safe_punct.
    - replace (if const then PPeek else punct "$" (mktok KPunct "{" :: r)) with (@PPeek (unit * list token)) by (destruct const; reflexivity).
      rewrite B. rewrite C. cbn [then_]. apply safe_committed. cbn in Hf. apply safe_suffix with (r := r); [exists [mktok KPunct "{"]; reflexivity|].
      apply safe_then.
      + apply safe_committed. apply (safe_many (length r)); [|intros ts' v r'; apply entry_takes; intros ? ? ?; apply value_takes|lia|lia].
        intros ts' Hts'. apply (safe_entry (length r)); [|exact Hts']. intros ts'' H''. apply V. lia.
      + intros l m Hm. apply committed_inv in Hm. apply safe_suffix with (r := m).
        * eapply eats_takes. eapply (snd_many parse_f64 _ _ _ _ (snd_entry parse_f64 _ _ _ (snd_value parse_f64 f const))). exact Hm.
        * apply safe_pmap. apply safe_punct.
    - rewrite B, C. cbn [then_]. destruct const.
      + split; discriminate.
      + destruct (W "$") as [(r & D & ->)|D]; rewrite D; [|split; discriminate].
        apply safe_suffix with (r := r); [exists [mktok KPunct "$"]; reflexivity|]. apply safe_committed, safe_pmap, safe_name.
  Qed.
  Lemma safe_arguments fuel ts : length ts < fuel -> safe (arguments parse_f64 fuel ts) ts.
  Proof.
    intros Hf. unfold arguments. apply safe_pmap. apply safe_optional. apply safe_then; [apply safe_punct|].
    intros u m B. apply punct_ok in B as ->. cbn in Hf. apply safe_suffix with (r := m); [eexists [_]; reflexivity|].
    apply safe_then.
    - apply safe_committed. apply (safe_many1 (length m)); [|intros ts' v r'; apply entry_takes; intros ? ? ?; apply value_takes|lia|lia].
      intros ts' Hts'. apply (safe_entry (length m)); [|exact Hts']. intros ts'' H''. apply safe_value. lia.
    - intros l m' Hm. apply committed_inv in Hm. apply safe_suffix with (r := m').
      + eapply eats_takes. eapply (snd_many1 parse_f64 _ _ _ _ (snd_entry parse_f64 _ _ _ (snd_value parse_f64 fuel false))). exact Hm.
      + apply safe_pmap. apply safe_punct.
  Qed.
  Lemma safe_directives fuel ts : length ts < fuel -> safe (directives parse_f64 fuel ts) ts.
  Proof.
    intros Hf. unfold directives. apply (safe_many (length ts)); [| |lia|lia].
    - intros ts' Hts'. apply safe_then; [apply safe_punct|].
      intros u m B. apply punct_ok in B as ->. cbn in Hts'. apply safe_suffix with (r := m); [eexists [_]; reflexivity|].
      apply safe_then; [apply safe_name|]. intros n m' B. apply name_ok in B as ->. cbn in Hts'.
      apply safe_suffix with (r := m'); [eexists [_]; reflexivity|]. apply safe_pmap. apply safe_arguments. lia.
    - intros ts' d r H. apply then_ok in H as (u & m & B & H). apply punct_ok in B as ->.
      apply then_ok in H as (n & m' & B & H). apply name_ok in B as ->. apply pmap_ok in H as ([a r'] & H & K). injection K as -> ->.
      apply snd_arguments in H as [H _]. apply eats_takes in H as [c ->]. exists (mktok KPunct "@"), (mktok KName n :: c). reflexivity.
  Qed.
  Lemma safe_type fuel : forall ts, length ts < fuel -> safe (parse_type fuel ts) ts.
  Proof.
    induction fuel as [|f IH]; intros ts Hf; [lia|]. cbn [parse_type]. apply safe_then.
    - pose proof (safe_name ts) as Sn. destruct (name ts) as [[n r]| | | |]; [apply safe_ok| | | |];
        (apply safe_then; [apply safe_punct|]; intros u m B; apply punct_ok in B as ->; cbn in Hf;
         apply safe_suffix with (r := m); [eexists [_]; reflexivity|];
         apply safe_then; [apply IH; lia|]; intros t m' B; apply (snd_type parse_f64) in B as [B _]; apply eats_takes in B;
         eapply safe_suffix; [exact B|]; apply safe_pmap, safe_punct).
    - intros t m B. apply safe_pmap. eapply safe_suffix; [|apply safe_optional, safe_punct].
      destruct (name ts) as [[n r]| | | |] eqn:En.
      + injection B as <- <-. apply takes1_takes. eapply name_takes. exact En.
      + apply then_ok in B as (u & q & B & B1). apply punct_ok in B as ->.
        apply then_ok in B1 as (t1 & q' & B1 & B2). apply pmap_ok in B2 as ([u' q''] & B2 & K). injection K as -> ->.
        apply punct_ok in B2 as ->. apply (snd_type parse_f64) in B1 as [B1 _]. apply eats_takes in B1 as [c ->].
        exists (mktok KPunct "[" :: c ++ [mktok KPunct "]"]). cbn. rewrite <- app_assoc. reflexivity.
      + unfold name in En. destruct ts; [discriminate En|]. destruct (kind_eqb _ _) in En; discriminate En.
      + unfold name in En. destruct ts; [discriminate En|]. destruct (kind_eqb _ _) in En; discriminate En.
      + unfold name in En. destruct ts; [discriminate En|]. destruct (kind_eqb _ _) in En; discriminate En.
  Qed.
  Lemma safe_set fuel p ts : (forall ts', length ts' < length ts -> safe (p ts') ts') ->
    Snd parse_f64 p selection_tokens selection_ok -> length ts <= fuel -> safe (selection_set fuel p ts) ts.
  Proof.
    intros Hp Sp Hf. unfold selection_set. apply safe_then; [apply safe_punct|]. intros u m B. apply punct_ok in B as ->.
    cbn in Hp, Hf. apply safe_suffix with (r := m); [eexists [_]; reflexivity|]. apply safe_then.
    - apply safe_committed. apply (safe_many1 (length m)); [|intros ts' x r H|lia|lia].
      + intros ts' Hts'. apply Hp. lia.
      + apply Sp in H as [H _]. eapply eats_takes1; [apply selection_tokens_ne|exact H].
    - intros l m' Hm. apply committed_inv in Hm. apply safe_suffix with (r := m').
      + eapply eats_takes. eapply (snd_many1 parse_f64 _ _ _ _ Sp). exact Hm.
      + apply safe_pmap. apply safe_punct.
  Qed.
  Lemma safe_field fuel p ts : (forall ts', length ts' < length ts -> safe (p ts') ts') ->
    Snd parse_f64 p selection_tokens selection_ok -> length ts <= fuel -> safe (field parse_f64 fuel p ts) ts.
  Proof.
    intros Hp Sp Hf. unfold field. apply safe_then; [apply safe_name|]. intros n m B. apply name_ok in B as ->.
    cbn in Hp, Hf. apply safe_suffix with (r := m); [eexists [_]; reflexivity|]. apply safe_then.
    { apply safe_optional. apply safe_then; [apply safe_punct|]. intros u q B. eapply safe_suffix; [apply takes1_takes; eapply punct_takes; exact B|apply safe_name]. }
    intros o m1 B. apply optional_ok in B.
    assert (T1 : takes m m1).
    { destruct o; [|destruct B as [_ ->]; apply takes_refl]. apply then_ok in B as (u & q & B & B').
      eapply takes_trans; [apply takes1_takes; eapply punct_takes; exact B|apply takes1_takes; eapply name_takes; exact B']. }
    pose proof (takes_length _ _ T1) as L1. eapply safe_suffix; [exact T1|].
    apply safe_then; [apply safe_arguments; lia|]. intros args m2 A. apply snd_arguments in A as [A _]. apply eats_takes in A.
    pose proof (takes_length _ _ A) as L2. eapply safe_suffix; [exact A|].
    apply safe_then; [apply safe_directives; lia|]. intros ds m3 D. apply snd_directives in D as [D _]. apply eats_takes in D.
    pose proof (takes_length _ _ D) as L3. eapply safe_suffix; [exact D|].
    apply safe_pmap, safe_optional, safe_set; [|exact Sp|lia]. intros ts' H'. apply Hp. lia.
  Qed.
  Lemma safe_inline fuel p ts : (forall ts', length ts' < length ts -> safe (p ts') ts') ->
    Snd parse_f64 p selection_tokens selection_ok -> length ts < fuel -> safe (inline_fragment parse_f64 fuel p ts) ts.
  Proof.
    intros Hp Sp Hf. unfold inline_fragment.
    assert (O : safe (optional (fun ts => then_ (ident "on" ts) (fun _ r => name r)) ts) ts).
    { apply safe_optional. apply safe_then; [apply safe_ident|]. intros u q B. eapply safe_suffix; [apply takes1_takes; eapply ident_takes; exact B|apply safe_name]. }
    destruct (optional _ ts) as [[tc m]| | | |] eqn:E; try (destruct O; split; congruence).
    - apply optional_ok in E.
      assert (T1 : takes ts m).
      { destruct tc; [|destruct E as [_ ->]; apply takes_refl]. apply then_ok in E as (u & q & B & B').
        eapply takes_trans; [apply takes1_takes; eapply ident_takes; exact B|apply takes1_takes; eapply name_takes; exact B']. }
      pose proof (takes_length _ _ T1) as L1. eapply safe_suffix; [exact T1|].
      assert (D : safe (directives parse_f64 fuel m) m) by (apply safe_directives; lia).
      destruct (directives parse_f64 fuel m) as [[ds m']| | | |] eqn:F; try (destruct D; split; congruence).
      + apply snd_directives in F as [F _]. apply eats_takes in F. pose proof (takes_length _ _ F) as L2. eapply safe_suffix; [exact F|].
        assert (G : safe (pmap (fun '(l, r'') => (NInline tc ds l, r'')) (selection_set fuel p m')) m').
        { apply safe_pmap, safe_set; [|exact Sp|lia]. intros ts' H'. apply Hp. lia. }
        destruct tc, ds; try exact G; apply safe_committed; exact G.
      + destruct D as [_ D]. split; [congruence|]. intros _. apply D. reflexivity.
    - destruct O as [_ O]. split; [congruence|]. intros _. apply O. reflexivity.
  Qed.
  Lemma safe_selection fuel : forall ts, length ts < fuel -> safe (selection parse_f64 fuel ts) ts.
  Proof.
    induction fuel as [|f IH]; intros ts Hf; [lia|]. cbn [selection].
    assert (F : safe (field parse_f64 f (selection parse_f64 f) ts) ts).
    { apply safe_field; [|apply snd_selection|lia]. intros ts' H'. apply IH. lia. }
    destruct (field parse_f64 f (selection parse_f64 f) ts) as [[s r]| | | |]; try exact F.
    apply safe_then; [apply safe_punct|]. intros u m B. apply punct_ok in B as ->. cbn in Hf.
    apply safe_suffix with (r := m); [eexists [_]; reflexivity|].
    assert (G : safe (inline_fragment parse_f64 f (selection parse_f64 f) m) m).
    { apply safe_inline; [|apply snd_selection|lia]. intros ts' H'. apply IH. lia. }
    destruct (inline_fragment parse_f64 f (selection parse_f64 f) m) as [[s r]| | | |]; try exact G.
    unfold fragment_spread. apply safe_then; [apply safe_name|]. intros n m' B. apply name_ok in B as ->. cbn in Hf.
    apply safe_suffix with (r := m'); [eexists [_]; reflexivity|]. apply safe_pmap, safe_directives. lia.
  Qed.
  Lemma safe_whole_set fuel ts : length ts <= fuel -> safe (selection_set fuel (selection parse_f64 fuel) ts) ts.
  Proof. intros H. apply safe_set; [|apply snd_selection|exact H]. intros ts' H'. apply safe_selection. lia. Qed.
  Lemma safe_vardef fuel ts : length ts < fuel -> safe (variable_definition parse_f64 fuel ts) ts.
  Proof.
    intros Hf. unfold variable_definition. apply safe_then; [apply safe_punct|]. intros u m B. apply punct_ok in B as ->. cbn in Hf.
    apply safe_suffix with (r := m); [eexists [_]; reflexivity|].
    apply safe_then; [apply safe_name|]. intros n m1 B. apply name_ok in B as ->. cbn in Hf.
    apply safe_suffix with (r := m1); [eexists [_]; reflexivity|].
    apply safe_then; [apply safe_punct|]. intros u' m2 B. apply punct_ok in B as ->. cbn in Hf.
    apply safe_suffix with (r := m2); [eexists [_]; reflexivity|].
    apply safe_then; [apply safe_type; lia|]. intros t m3 B. apply (snd_type parse_f64) in B as [B _]. apply eats_takes in B.
    pose proof (takes_length _ _ B) as L. eapply safe_suffix; [exact B|]. apply safe_pmap, safe_optional.
    apply safe_then; [apply safe_punct|]. intros u2 m4 C. apply punct_ok in C as ->. cbn in L.
    apply safe_suffix with (r := m4); [eexists [_]; reflexivity|]. apply safe_value. lia.
  Qed.
  Lemma vardef_takes fuel ts v r : variable_definition parse_f64 fuel ts = POk (v, r) -> takes1 ts r.
  Proof.
    intros H. unfold variable_definition in H.
    apply then_ok in H as (u & m & B & H). apply punct_ok in B as ->.
    apply then_ok in H as (n & m' & B & H). apply name_ok in B as ->.
    apply then_ok in H as (u' & m1 & B & H). apply punct_ok in B as ->.
    apply then_ok in H as (t & m2 & T & H). apply (snd_type parse_f64) in T as [T _]. apply eats_takes in T as [c ->].
    apply pmap_ok in H as ([d r'] & H & K). injection K as -> ->. apply optional_ok in H.
    assert (G : takes m2 r').
    { destruct d as [d|]; [|destruct H as [_ ->]; apply takes_refl]. apply then_ok in H as (u2 & q & B & H).
      eapply takes_trans; [apply takes1_takes; eapply punct_takes; exact B|apply takes1_takes; eapply value_takes; exact H]. }
    destruct G as [g ->]. exists (mktok KPunct "$"), (mktok KName n :: mktok KPunct ":" :: c ++ g). cbn. rewrite app_assoc. reflexivity.
  Qed.
  Lemma safe_vardefs fuel ts : length ts < fuel -> safe (variable_definitions parse_f64 fuel ts) ts.
  Proof.
    intros Hf. unfold variable_definitions. apply safe_pmap, safe_optional. apply safe_then; [apply safe_punct|].
    intros u m B. apply punct_ok in B as ->. cbn in Hf. apply safe_suffix with (r := m); [eexists [_]; reflexivity|].
    apply safe_then.
    - apply safe_committed. apply (safe_many1 (length m)); [|apply vardef_takes|lia|lia].
      intros ts' Hts'. apply safe_vardef. lia.
    - intros l m' Hm. apply committed_inv in Hm. unfold many1 in Hm.
      assert (T : takes m m').
      { apply then_ok in Hm as (a & q & H1 & H2). apply pmap_ok in H2 as ([l' r'] & H2 & K). injection K as -> ->.
        apply vardef_takes in H1. eapply takes_trans; [apply takes1_takes; exact H1|]. clear H1. revert q l' r' H2.
        generalize (fuel) at 1. intros g. induction g as [|g IH]; intros q l' r' H; cbn in H; [discriminate|].
        destruct (variable_definition parse_f64 fuel q) as [[x y]| | | |] eqn:E; try discriminate.
        - apply pmap_ok in H as ([l2 r2] & H & K). injection K as -> ->. apply vardef_takes in E.
          eapply takes_trans; [apply takes1_takes; exact E|]. eapply IH. exact H.
        - injection H as <- <-. apply takes_refl. }
      eapply safe_suffix; [exact T|]. apply safe_pmap, safe_punct.
  Qed.
  Lemma safe_common fuel k ts : length ts < fuel -> safe (operation_common parse_f64 fuel k ts) ts.
  Proof.
    intros Hf. unfold operation_common. apply safe_then; [apply safe_optional, safe_name|]. intros n m B. apply optional_ok in B.
    assert (T : takes ts m) by (destruct n; [apply takes1_takes; eapply name_takes; exact B|destruct B as [_ ->]; apply takes_refl]).
    pose proof (takes_length _ _ T) as L. eapply safe_suffix; [exact T|].
    apply safe_then; [apply safe_vardefs; lia|]. intros vs m1 V. apply snd_vardefs in V as [V _]. apply eats_takes in V.
    pose proof (takes_length _ _ V) as L1. eapply safe_suffix; [exact V|].
    apply safe_then; [apply safe_directives; lia|]. intros ds m2 D. apply snd_directives in D as [D _]. apply eats_takes in D.
    pose proof (takes_length _ _ D) as L2. eapply safe_suffix; [exact D|]. apply safe_pmap, safe_whole_set. lia.
  Qed.
  Lemma safe_or {A} (p q : list token -> parse_result A) ts : safe (p ts) ts -> safe (q ts) ts -> safe (or p q ts) ts.
  Proof. unfold or. intros Hp Hq. destruct (p ts); assumption. Qed.
  Lemma safe_definition fuel ts : length ts < fuel -> safe (definition parse_f64 fuel ts) ts.
  Proof.
    intros Hf.
    assert (O : forall v k, safe (then_ (ident v ts) (fun _ r => operation_common parse_f64 fuel k r)) ts).
    { intros v k. apply safe_then; [apply safe_ident|]. intros u m B. apply ident_ok in B as ->. cbn in Hf.
      apply safe_suffix with (r := m); [eexists [_]; reflexivity|]. apply safe_common. lia. }
    unfold definition. apply safe_or; [apply safe_pmap, safe_whole_set; lia|].
    apply safe_or; [apply O|]. apply safe_or; [apply O|]. apply safe_or; [apply O|].
    unfold fragment_definition. apply safe_then; [apply safe_ident|]. intros u m B. apply ident_ok in B as ->. cbn in Hf.
    apply safe_suffix with (r := m); [eexists [_]; reflexivity|].
    apply safe_then; [apply safe_name|]. intros n m1 B. apply name_ok in B as ->. cbn in Hf.
    apply safe_suffix with (r := m1); [eexists [_]; reflexivity|].
    apply safe_then; [apply safe_ident|]. intros u1 m2 B. apply ident_ok in B as ->. cbn in Hf.
    apply safe_suffix with (r := m2); [eexists [_]; reflexivity|].
    apply safe_then; [apply safe_name|]. intros tc m3 B. apply name_ok in B as ->. cbn in Hf.
    apply safe_suffix with (r := m3); [eexists [_]; reflexivity|].
    apply safe_then; [apply safe_directives; lia|]. intros ds m4 D. apply snd_directives in D as [D _]. apply eats_takes in D.
    pose proof (takes_length _ _ D) as L2. eapply safe_suffix; [exact D|]. apply safe_pmap, safe_whole_set. lia.
  Qed.
  Lemma definition_takes fuel ts d r : definition parse_f64 fuel ts = POk (d, r) -> takes1 ts r.
  Proof. intros H. apply snd_definition in H as [H _]. eapply eats_takes1; [|exact H]. destruct d; discriminate. Qed.
  Theorem parse_safe ts : safe (parse_tokens parse_f64 ts) ts.
  Proof.
    unfold parse_tokens.
    assert (M : safe (many1 (S (length ts)) (definition parse_f64 (S (length ts))) ts) ts).
    { apply (safe_many1 (length ts)); [|apply definition_takes|lia|lia]. intros ts' H'. apply safe_definition. lia. }
    destruct (many1 _ _ ts) as [[l [|t r]]| | | |]; try (split; discriminate).
    - destruct M as [_ M]. split; [discriminate|]. intros _. apply M. reflexivity.
    - destruct M as [M _]. congruence.
  Qed.
End Safe.
