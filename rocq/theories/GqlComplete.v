(** Every document is read back from its tokens, and reading always ends. *)
From Coq Require Import String Ascii List NArith ZArith Bool Arith Lia.
From Verif Require Import Ast CondModel NormModel NormProofs GqlModel GqlSpec GqlGrammar.
Import ListNotations.
Local Open Scope string_scope.
Local Open Scope list_scope.

Definition no (v : string) (r : list token) : Prop := punct v r = PPeek.
Lemma no_name v n r : no v (mktok KName n :: r).
Proof. reflexivity. Qed.
Lemma no_punct v w r : v <> w -> no v (mktok KPunct w :: r).
Proof. intros H. unfold no, punct, word. cbn. destruct (String.eqb_spec w v); [congruence|reflexivity]. Qed.
Lemma no_nil v : no v [].
Proof. reflexivity. Qed.
Lemma then_intro {A B} (r : parse_result A) a ts (k : A -> list token -> parse_result B) b :
  r = POk (a, ts) -> k a ts = POk b -> then_ r k = POk b.
Proof. intros -> H. cbn. rewrite H. reflexivity. Qed.
Lemma pmap_intro {A B} (k : A -> B) r a b : r = POk a -> k a = b -> pmap k r = POk b.
Proof. intros -> <-. reflexivity. Qed.
Lemma committed_intro {A} (r : pres A) a : r = POk a -> committed r = POk a.
Proof. intros ->. reflexivity. Qed.
Lemma punct_intro v r : punct v (mktok KPunct v :: r) = POk (tt, r).
Proof. apply punct_ok. reflexivity. Qed.
Lemma ident_intro v r : ident v (mktok KName v :: r) = POk (tt, r).
Proof. apply ident_ok. reflexivity. Qed.
Lemma name_intro v r : name (mktok KName v :: r) = POk (v, r).
Proof. apply name_ok. reflexivity. Qed.
Lemma optional_none {A} (p : list token -> parse_result A) ts : p ts = PPeek -> optional p ts = POk (None, ts).
Proof. unfold optional. intros ->. reflexivity. Qed.
Lemma optional_some {A} (p : list token -> parse_result A) ts a r : p ts = POk (a, r) -> optional p ts = POk (Some a, r).
Proof. unfold optional. intros ->. reflexivity. Qed.
Lemma then_peek {A B} (r : parse_result A) (k : A -> list token -> parse_result B) : r = PPeek -> then_ r k = PPeek.
Proof. intros ->. reflexivity. Qed.

Section Complete.
  Variable parse_f64 : string -> option N.
  Notation eats := (eats parse_f64).
  Notation reads := (reads parse_f64).

  Lemma eats_punct_inv ts r v y : eats ts r (DPunct v :: y) -> exists m, ts = mktok KPunct v :: m /\ eats m r y.
  Proof. intros H. apply eats_cons_inv in H as (t & b & -> & H & K). apply reads_punct in H as ->. eauto. Qed.
  Lemma eats_name_inv ts r v y : eats ts r (DName v :: y) -> exists m, ts = mktok KName v :: m /\ eats m r y.
  Proof. intros H. apply eats_cons_inv in H as (t & b & -> & H & K). apply reads_name in H as ->. eauto. Qed.
  Lemma eats_framed_inv o c ts r x : eats ts r (framed o c x) ->
    exists m, ts = mktok KPunct o :: m /\ eats m (mktok KPunct c :: r) x.
  Proof.
    intros H. apply eats_punct_inv in H as (m & -> & H). exists m. split; [reflexivity|].
    apply eats_app_inv in H as (b & H & K). apply eats_punct_inv in K as (m' & -> & K). apply eats_nil_inv in K as ->. exact H.
  Qed.
  Lemma eats_le ts r x : eats ts r x -> length r <= length ts.
  Proof. intros H. apply eats_length in H. lia. Qed.
  Lemma eats_lt ts r d x : eats ts r (d :: x) -> length r < length ts.
  Proof. intros H. apply eats_length in H. cbn in H. lia. Qed.

  (** [a] is read from any list that starts with its tokens, is no longer than [n] and goes on with [follow]. *)
  Definition Cpl {A} (n : nat) (p : list token -> parse_result A) (f : A -> list dtok) (follow : list token -> Prop) (a : A) : Prop :=
    forall ts r, eats ts r (f a) -> length ts <= n -> follow r -> p ts = POk (a, r).
  Lemma cpl_many {A} n (p : list token -> parse_result A) (f : A -> list dtok) follow l ts r fuel :
    Forall (Cpl n p f follow) l -> Forall (fun a => f a <> []) l ->
    (forall a ts r, In a l -> eats ts r (f a) -> follow ts) ->
    eats ts r (flat_map f l) -> length ts <= n -> length ts - length r < fuel -> follow r -> p r = PPeek ->
    many fuel p ts = POk (l, r).
  Proof.
    revert ts fuel. induction l as [|a l IH]; intros ts fuel Hl Hn Hs He Hlen Hfuel Hf Hp.
    - apply eats_nil_inv in He as ->. destruct fuel; [lia|]. cbn. rewrite Hp. reflexivity.
    - cbn in He. apply eats_app_inv in He as (m & He & Hm).
      inversion Hl as [|a' l' Ha Hl']; subst. inversion Hn as [|a' l' Hna Hn']; subst.
      destruct fuel as [|fuel]; [lia|]. cbn.
      assert (Lm : length m < length ts).
      { destruct (f a) eqn:E; [congruence|]. eapply eats_lt. exact He. }
      rewrite (Ha ts m He Hlen).
      + eapply pmap_intro; [apply IH; try assumption|reflexivity].
        * intros a' ts' r' Hin. apply Hs. right. exact Hin.
        * lia.
        * apply eats_le in Hm. lia.
      + destruct l as [|b l].
        * apply eats_nil_inv in Hm as ->. exact Hf.
        * cbn in Hm. apply eats_app_inv in Hm as (q & Hb & _). eapply (Hs b); [right; left; reflexivity|exact Hb].
  Qed.
  Lemma cpl_many1 {A} n (p : list token -> parse_result A) (f : A -> list dtok) follow l ts r fuel :
    l <> [] -> Forall (Cpl n p f follow) l -> Forall (fun a => f a <> []) l ->
    (forall a ts r, In a l -> eats ts r (f a) -> follow ts) ->
    eats ts r (flat_map f l) -> length ts <= n -> length ts - length r < fuel -> follow r -> p r = PPeek ->
    many1 fuel p ts = POk (l, r).
  Proof.
    intros Hne Hl Hn Hs He Hlen Hfuel Hf Hp. destruct l as [|a l]; [congruence|].
    cbn in He. apply eats_app_inv in He as (m & He & Hm).
    inversion Hl as [|a' l' Ha Hl']; subst. inversion Hn as [|a' l' Hna Hn']; subst.
    assert (Lm : length m < length ts).
    { destruct (f a) eqn:E; [congruence|]. eapply eats_lt. exact He. }
    unfold many1. eapply then_intro.
    - apply (Ha ts m He Hlen). destruct l as [|b l].
      + apply eats_nil_inv in Hm as ->. exact Hf.
      + cbn in Hm. apply eats_app_inv in Hm as (q & Hb & _). eapply (Hs b); [right; left; reflexivity|exact Hb].
    - eapply pmap_intro; [eapply cpl_many; try eassumption|reflexivity].
      + intros a' ts' r' Hin. apply Hs. right. exact Hin.
      + lia.
      + apply eats_le in Hm. lia.
  Qed.

  Definition any (r : list token) : Prop := True.
  Lemma value_tokens_ne v : value_tokens v <> [].
  Proof. destruct v; discriminate. Qed.
  Lemma cpl_entry {A} n (p : list token -> parse_result A) f follow kv :
    Cpl n p f follow (snd kv) -> Cpl n (entry p) (fun kv => keyed (fst kv) (f (snd kv))) follow kv.
  Proof.
    destruct kv as [k v]. intros H ts r He Hlen Hf. cbn in He. unfold keyed in He.
    apply eats_name_inv in He as (m & -> & He). apply eats_punct_inv in He as (m' & -> & He). cbn in Hlen.
    unfold entry. eapply then_intro; [apply name_intro|]. eapply then_intro; [apply punct_intro|].
    eapply pmap_intro; [apply H; [exact He|lia|exact Hf]|reflexivity].
  Qed.
  Lemma entry_peek {A} (p : list token -> parse_result A) v r : entry p (mktok KPunct v :: r) = PPeek.
  Proof. reflexivity. Qed.
  Lemma value_close fuel const v r : v <> "$" -> v <> "[" -> v <> "{" ->
    value parse_f64 (S fuel) const (mktok KPunct v :: r) = PPeek.
  Proof.
    intros N1 N2 N3. cbn [value plain_value tok_kind].
    assert (P : forall w, w <> v -> punct w (mktok KPunct v :: r) = PPeek) by (intros w Hw; apply no_punct; exact Hw).
    rewrite !P by congruence. destruct const; reflexivity.
  Qed.
  Lemma cpl_value v : forall n fuel const, n < fuel -> value_ok const v -> Cpl n (value parse_f64 fuel const) value_tokens any v.
  Proof.
    induction v as [nm|z|b|s|b| |s|l IH|o IH] using gvalue_ind'; intros n fuel const Hn W ts r He Hlen _;
      (destruct fuel as [|f]; [lia|]); cbn [value].
    - cbn in He. apply eats_punct_inv in He as (m & -> & He). apply eats_name_inv in He as (m' & -> & He). apply eats_nil_inv in He as ->.
      cbn in W. subst const. reflexivity.
    - apply eats_cons_inv in He as ([k t] & m & -> & He & K). apply eats_nil_inv in K as ->.
      unfold GqlGrammar.reads, decode in He. cbn [tok_kind tok_text] in He. destruct k; try discriminate He.
      + destruct (parse_i64 t) eqn:E; [|discriminate He]. injection He as ->. cbn [plain_value tok_kind tok_text]. rewrite E. reflexivity.
      + destruct (parse_f64 t); discriminate He.
      + destruct (unquote_string t); discriminate He.
      + destruct (unquote_block_string t); discriminate He.
    - apply eats_cons_inv in He as ([k t] & m & -> & He & K). apply eats_nil_inv in K as ->.
      unfold GqlGrammar.reads, decode in He. cbn [tok_kind tok_text] in He. destruct k; try discriminate He.
      + destruct (parse_i64 t); discriminate He.
      + destruct (parse_f64 t) eqn:E; [|discriminate He]. injection He as ->. cbn [plain_value tok_kind tok_text]. rewrite E. reflexivity.
      + destruct (unquote_string t); discriminate He.
      + destruct (unquote_block_string t); discriminate He.
    - apply eats_cons_inv in He as ([k t] & m & -> & He & K). apply eats_nil_inv in K as ->.
      unfold GqlGrammar.reads, decode in He. cbn [tok_kind tok_text] in He. destruct k; try discriminate He.
      + destruct (parse_i64 t); discriminate He.
      + destruct (parse_f64 t); discriminate He.
      + destruct (unquote_string t) eqn:E; try discriminate He. injection He as ->. cbn [plain_value tok_kind tok_text]. rewrite E. reflexivity.
      + destruct (unquote_block_string t) eqn:E; try discriminate He. injection He as ->. cbn [plain_value tok_kind tok_text]. rewrite E. reflexivity.
    - apply eats_name_inv in He as (m' & -> & He). apply eats_nil_inv in He as ->. destruct b; reflexivity.
    - apply eats_name_inv in He as (m' & -> & He). apply eats_nil_inv in He as ->. reflexivity.
    - apply eats_name_inv in He as (m' & -> & He). apply eats_nil_inv in He as ->.
      destruct W as (W1 & W2 & W3). cbn [plain_value tok_kind tok_text].
      apply String.eqb_neq in W1, W2, W3. rewrite W1, W2, W3. reflexivity.
    - cbn in He. apply eats_framed_inv in He as (m & -> & He). cbn in Hlen. cbn in W. apply go_forall in W.
      assert (P : punct "$" (mktok KPunct "[" :: m) = PPeek) by reflexivity.
      cbn [plain_value tok_kind]. rewrite P. rewrite punct_intro.
      assert (M : many f (value parse_f64 f const) m = POk (l, mktok KPunct "]" :: r)).
      { pose proof (eats_le _ _ _ He) as Hle. cbn in Hle.
        eapply (cpl_many (length m) _ value_tokens any).
        - rewrite Forall_forall in *. intros x Hx. apply IH; [exact Hx|lia|apply W; exact Hx].
        - rewrite Forall_forall. intros x _. apply value_tokens_ne.
        - intros; exact I.
        - exact He.
        - lia.
        - cbn [length]. lia.
        - exact I.
        - destruct f; [lia|]. apply value_close; discriminate. }
      rewrite M. destruct const; reflexivity.
    - cbn in He. apply eats_framed_inv in He as (m & -> & He). cbn in Hlen. cbn in W. apply go_forall_snd in W.
      assert (P : punct "$" (mktok KPunct "{" :: m) = PPeek) by reflexivity.
      assert (Q : punct "[" (mktok KPunct "{" :: m) = PPeek) by reflexivity.
      cbn [plain_value tok_kind]. rewrite P, Q. rewrite punct_intro.
      assert (M : many f (entry (value parse_f64 f const)) m = POk (o, mktok KPunct "}" :: r)).
      { pose proof (eats_le _ _ _ He) as Hle. cbn in Hle.
        eapply (cpl_many (length m) _ (fun kv => keyed (fst kv) (value_tokens (snd kv))) any).
        - rewrite Forall_forall in *. intros x Hx. apply cpl_entry. apply IH; [exact Hx|lia|apply W; exact Hx].
        - rewrite Forall_forall. intros x _. discriminate.
        - intros; exact I.
        - exact He.
        - lia.
        - cbn [length]. lia.
        - exact I.
        - reflexivity. }
      cbn [then_]. rewrite M. destruct const; reflexivity.
  Qed.
  Lemma cpl_arguments args n fuel : n < fuel -> args_ok args -> Cpl n (arguments parse_f64 fuel) argument_tokens (no "(") args.
  Proof.
    intros Hn W ts r He Hlen Hf. unfold arguments. destruct args as [|a args].
    - apply eats_nil_inv in He as ->. eapply pmap_intro; [apply optional_none; apply then_peek; exact Hf|reflexivity].
    - cbn [argument_tokens] in He. apply eats_framed_inv in He as (m & -> & He). cbn in Hlen.
      pose proof (eats_le _ _ _ He) as Hle. cbn in Hle.
      eapply pmap_intro; [apply optional_some|reflexivity].
      eapply then_intro; [apply punct_intro|]. eapply then_intro.
      + apply committed_intro. eapply (cpl_many1 (length m) _ (fun kv => keyed (fst kv) (value_tokens (snd kv))) any (a :: args)).
        * discriminate.
        * unfold args_ok in W. rewrite Forall_forall in *. intros x Hx. apply cpl_entry. apply cpl_value; [lia|apply W; exact Hx].
        * rewrite Forall_forall. intros x _. discriminate.
        * intros; exact I.
        * exact He.
        * lia.
        * cbn [length]. lia.
        * exact I.
        * reflexivity.
      + eapply pmap_intro; [apply punct_intro|reflexivity].
  Qed.
  Lemma cpl_directives ds n fuel : n < fuel -> dirs_ok ds ->
    Cpl n (directives parse_f64 fuel) directive_tokens (fun r => no "(" r /\ no "@" r) ds.
  Proof.
    intros Hn W ts r He Hlen [Hf1 Hf2]. unfold directives.
    eapply (cpl_many n _ (fun d => DPunct "@" :: DName (d_name d) :: argument_tokens (d_args d)) (no "(")).
    - unfold dirs_ok in W. rewrite Forall_forall in *. intros d Hd ts' r' He' Hlen' Hf'.
      apply eats_punct_inv in He' as (m & -> & He'). apply eats_name_inv in He' as (m' & -> & He'). cbn in Hlen'.
      eapply then_intro; [apply punct_intro|]. eapply then_intro; [apply name_intro|].
      eapply pmap_intro; [apply (cpl_arguments (d_args d) n); [lia|apply W; exact Hd|exact He'|lia|exact Hf']|destruct d; reflexivity].
    - rewrite Forall_forall. intros x _. discriminate.
    - intros a ts' r' _ He'. apply eats_punct_inv in He' as (m & -> & He'). apply no_punct. discriminate.
    - exact He.
    - exact Hlen.
    - lia.
    - exact Hf1.
    - apply then_peek. exact Hf2.
  Qed.
  Lemma cpl_type t : type_ok t ->
    (match t with TNonNull _ => False | _ => True end -> forall fuel ts r o r', eats ts r (type_tokens t) ->
       length ts < fuel -> optional (punct "!") r = POk (o, r') ->
       parse_type fuel ts = POk (match o with Some _ => TNonNull t | None => t end, r')) /\
    (forall fuel ts r, eats ts r (type_tokens t) -> length ts < fuel -> no "!" r -> parse_type fuel ts = POk (t, r)).
  Proof.
    assert (G : forall t,
      (forall fuel ts r o r', eats ts r (type_tokens t) ->
       length ts < fuel -> optional (punct "!") r = POk (o, r') ->
       parse_type fuel ts = POk (match o with Some _ => TNonNull t | None => t end, r')) ->
      forall fuel ts r, eats ts r (type_tokens t) -> length ts < fuel -> no "!" r -> parse_type fuel ts = POk (t, r)).
    { intros t0 H fuel ts r He Hn Hf. apply (H fuel ts r None r He Hn). apply optional_none. exact Hf. }
    induction t as [nm|t IH|t IH]; intros W.
    - split; [intros _|apply G]; intros fuel ts r o r' He Hn Ho; cbn in He;
        apply eats_name_inv in He as (m & -> & He); apply eats_nil_inv in He as ->;
        (destruct fuel as [|f]; [lia|]); cbn [parse_type]; rewrite name_intro;
        (eapply then_intro; [reflexivity|]; eapply pmap_intro; [exact Ho|reflexivity]).
    - destruct (IH W) as [_ IH2]. split; [intros _|apply G]; intros fuel ts r o r' He Hn Ho; cbn in He;
        apply eats_framed_inv in He as (m & -> & He); cbn in Hn;
        (destruct fuel as [|f]; [lia|]); cbn [parse_type name kind_eqb tok_kind];
        (eapply then_intro; [|eapply pmap_intro; [exact Ho|reflexivity]]);
        (eapply then_intro; [apply punct_intro|]);
        (eapply then_intro; [apply (IH2 f m _ He); [lia|apply no_punct; discriminate]|]);
        (eapply pmap_intro; [apply punct_intro|reflexivity]).
    - destruct W as [W1 W2]. destruct (IH W1) as [IH1 _]. split; [contradiction|].
      intros fuel ts r He Hn Hf. cbn in He. apply eats_app_inv in He as (m & He & K).
      apply eats_punct_inv in K as (m' & -> & K). apply eats_nil_inv in K as ->.
      apply (IH1 W2 fuel ts _ (Some tt) r He Hn). apply optional_some. apply punct_intro.
  Qed.

  (** ** Selections *)
  Definition quiet (r : list token) : Prop := no ":" r /\ no "(" r /\ no "@" r /\ no "{" r.
  Lemma quiet_name n r : quiet (mktok KName n :: r).
  Proof. repeat split. Qed.
  Lemma selection_starts x ts r : eats ts r (selection_tokens x) ->
    (exists n m, ts = mktok KName n :: m) \/ (exists m, ts = mktok KPunct "..." :: m).
  Proof.
    destruct x as [[a|] n args ds sub|n ds|tc ds sub]; cbn; intros H;
      try (apply eats_name_inv in H as (m & -> & _); left; eauto);
      apply eats_punct_inv in H as (m & -> & _); right; eauto.
  Qed.
  Lemma selection_quiet x ts r : eats ts r (selection_tokens x) -> quiet ts.
  Proof.
    intros H. apply selection_starts in H as [(n & m & ->)|(m & ->)]; [apply quiet_name|].
    repeat split; apply no_punct; discriminate.
  Qed.
  Lemma selection_tokens_ne x : selection_tokens x <> [].
  Proof. destruct x as [[a|] n args ds sub|n ds|tc ds sub]; discriminate. Qed.
  Lemma selection_close f r : selection parse_f64 (S f) (mktok KPunct "}" :: r) = PPeek.
  Proof. reflexivity. Qed.
  Lemma quiet_close r : quiet (mktok KPunct "}" :: r).
  Proof. repeat split; apply no_punct; discriminate. Qed.
  Lemma set_cpl l fuel f ts r :
    l <> [] -> Forall (Cpl f (selection parse_f64 (S f)) selection_tokens quiet) l ->
    eats ts r (set_tokens l) -> length ts <= S f -> length ts <= fuel -> selection_set fuel (selection parse_f64 (S f)) ts = POk (l, r).
  Proof.
    intros Hne Hl He Hlen Hf. unfold set_tokens in He. apply eats_framed_inv in He as (m & -> & He). cbn in Hlen, Hf.
    pose proof (eats_le _ _ _ He) as Hle. cbn in Hle.
    unfold selection_set. eapply then_intro; [apply punct_intro|]. eapply then_intro.
    - apply committed_intro. eapply (cpl_many1 (length m) _ selection_tokens quiet l).
      + exact Hne.
      + rewrite Forall_forall in *. intros x Hx ts' r' He' Hlen' Hq. apply Hl; [exact Hx|exact He'|lia|exact Hq].
      + rewrite Forall_forall. intros x _. apply selection_tokens_ne.
      + intros a ts' r' _ He'. eapply selection_quiet. exact He'.
      + exact He.
      + lia.
      + cbn [length]. lia.
      + apply quiet_close.
      + apply selection_close.
    - eapply pmap_intro; [apply punct_intro|reflexivity].
  Qed.
  Lemma set_peek fuel p r : no "{" r -> selection_set fuel p r = PPeek.
  Proof. intros H. apply then_peek. exact H. Qed.
  Lemma brace_follow m : no "(" (mktok KPunct "{" :: m) /\ no "@" (mktok KPunct "{" :: m).
  Proof. split; apply no_punct; discriminate. Qed.
  Lemma dirs_follow ds ts m (x : list token -> Prop) : eats ts m (directive_tokens ds) -> (ds = [] -> x ts) ->
    (forall t, x (mktok KPunct "@" :: t)) -> x ts.
  Proof.
    destruct ds as [|d ds]; [intros _ H _; apply H; reflexivity|]. cbn. intros H _ K.
    apply eats_punct_inv in H as (m' & -> & _). apply K.
  Qed.
  Lemma cpl_selection x : selection_ok x -> forall f, Cpl f (selection parse_f64 (S f)) selection_tokens quiet x.
  Proof.
    induction x as [al n args ds sub IH|n ds|tc ds sub IH] using nsel_ind'; intros W f ts r He Hlen (Q1 & Q2 & Q3 & Q4).
    - destruct W as (Wa & Wd & Ws). apply go_forall_sel in Ws.
      assert (S0 : Forall (fun x => forall f, Cpl f (selection parse_f64 (S f)) selection_tokens quiet x) sub).
      { rewrite Forall_forall in *. intros x Hx. apply IH; [exact Hx|apply Ws; exact Hx]. }
      clear IH Ws. cbn [selection_tokens] in He. apply eats_app_inv in He as (m0 & Ha & He).
      apply eats_name_inv in He as (m1 & -> & He). apply eats_app_inv in He as (m2 & Hargs & He).
      apply eats_app_inv in He as (m3 & Hds & Hsub).
      assert (L1 := eats_le _ _ _ Ha). assert (L2 := eats_le _ _ _ Hargs). assert (L3 := eats_le _ _ _ Hds). cbn in L1.
      (* the pieces *)
      assert (F3 : no "(" m3 /\ no "@" m3).
      { destruct sub; [apply eats_nil_inv in Hsub as ->; auto|]. apply eats_framed_inv in Hsub as (q & -> & _). apply brace_follow. }
      assert (F2 : no "(" m2).
      { apply (dirs_follow _ _ _ (no "(") Hds); [|intros t; apply no_punct; discriminate].
        intros ->. apply eats_nil_inv in Hds as ->. apply F3. }
      assert (F1 : no ":" m1).
      { destruct args as [|a args].
        - apply eats_nil_inv in Hargs as ->. apply (dirs_follow _ _ _ (no ":") Hds); [|intros t; apply no_punct; discriminate].
          intros ->. apply eats_nil_inv in Hds as ->. destruct sub; [apply eats_nil_inv in Hsub as ->; exact Q1|].
          apply eats_framed_inv in Hsub as (q & -> & _). apply no_punct. discriminate.
        - cbn [argument_tokens] in Hargs. apply eats_framed_inv in Hargs as (q & -> & _). apply no_punct. discriminate. }
      assert (Fld : field parse_f64 f (selection parse_f64 f) ts = POk (NField al n args ds sub, r)).
      { unfold field.
        assert (B : exists first rest o, ts = mktok KName first :: rest /\
                  optional (fun ts => then_ (punct ":" ts) (fun _ r => name r)) rest = POk (o, m1) /\
                  match o with Some m => (m, Some first) | None => (first, None) end = (n, al)).
        { destruct al as [a|]; cbn in Ha.
          - apply eats_name_inv in Ha as (q & -> & Ha). apply eats_punct_inv in Ha as (q' & -> & Ha). apply eats_nil_inv in Ha as ->.
            exists a, (mktok KPunct ":" :: mktok KName n :: m1), (Some n). split; [reflexivity|]. split; reflexivity.
          - apply eats_nil_inv in Ha as ->. exists n, m1, None. split; [reflexivity|]. split; [|reflexivity].
            apply optional_none. apply then_peek. exact F1. }
        destruct B as (first & rest & o & -> & Bo & Bn). cbn in Hlen, L1.
        assert (L0 : length m1 <= length rest).
        { apply optional_ok in Bo. destruct o; [|destruct Bo as [_ ->]; lia].
          apply then_ok in Bo as (u & q & B1 & B2). apply punct_ok in B1 as ->. apply name_ok in B2 as ->. cbn. lia. }
        eapply then_intro; [apply name_intro|]. eapply then_intro; [exact Bo|].
        eapply then_intro; [apply (cpl_arguments args (length m1)); [lia|exact Wa|exact Hargs|lia|exact F2]|].
        eapply then_intro; [apply (cpl_directives ds (length m2)); [lia|exact Wd|exact Hds|lia|exact F3]|].
        destruct sub as [|x sub].
        - apply eats_nil_inv in Hsub as ->. eapply pmap_intro; [apply optional_none; apply set_peek; exact Q4|].
          cbn. rewrite Bn. reflexivity.
        - destruct f as [|f]; [lia|].
          eapply pmap_intro; [apply optional_some; apply (set_cpl (x :: sub) (S f) f)|].
          + discriminate.
          + rewrite Forall_forall in *. intros y Hy. apply S0. exact Hy.
          + exact Hsub.
          + lia.
          + lia.
          + cbn. rewrite Bn. reflexivity. }
      cbn [selection]. rewrite Fld. reflexivity.
    - destruct W as [W1 W2]. cbn in He. apply eats_punct_inv in He as (m & -> & He). apply eats_name_inv in He as (m' & -> & He).
      cbn in Hlen. assert (L := eats_le _ _ _ He). cbn [selection].
      assert (F : field parse_f64 f (selection parse_f64 f) (mktok KPunct "..." :: mktok KName n :: m') = PPeek) by reflexivity.
      rewrite F. rewrite punct_intro. cbn [then_].
      assert (Il : inline_fragment parse_f64 f (selection parse_f64 f) (mktok KName n :: m') = PPeek).
      { unfold inline_fragment. rewrite optional_none.
        - destruct f as [|f]; [lia|]. unfold directives at 1. cbn [many]. cbn [punct word kind_eqb tok_kind andb then_].
          rewrite set_peek by apply no_name. reflexivity.
        - apply then_peek. unfold ident, word. cbn. apply String.eqb_neq in W1. rewrite W1. reflexivity. }
      rewrite Il. unfold fragment_spread.
      apply committed_intro. eapply then_intro; [apply name_intro|].
      eapply pmap_intro; [apply (cpl_directives ds (length m')); [lia|exact W2|exact He|lia|split; assumption]|reflexivity].
    - destruct W as (W1 & W2 & W3). apply go_forall_sel in W3.
      assert (S0 : Forall (fun x => forall f, Cpl f (selection parse_f64 (S f)) selection_tokens quiet x) sub).
      { rewrite Forall_forall in *. intros x Hx. apply IH; [exact Hx|apply W3; exact Hx]. }
      clear IH W3. cbn in He. apply eats_punct_inv in He as (m & -> & He). cbn in Hlen.
      apply eats_app_inv in He as (m1 & Ht & He). apply eats_app_inv in He as (m2 & Hds & Hsub).
      assert (L1 := eats_le _ _ _ Ht). assert (L2 := eats_le _ _ _ Hds). assert (L3 := eats_le _ _ _ Hsub).
      cbn [selection].
      assert (F : field parse_f64 f (selection parse_f64 f) (mktok KPunct "..." :: m) = PPeek) by reflexivity.
      rewrite F. rewrite punct_intro. cbn [then_].
      destruct f as [|f]; [apply eats_framed_inv in Hsub as (q & -> & _); cbn in *; lia|].
      assert (Il : inline_fragment parse_f64 (S f) (selection parse_f64 (S f)) m = POk (NInline tc ds sub, r)).
      { apply inline_ok. exists tc, m1, ds, m2, sub. split; [|split; [|split; [|reflexivity]]].
        - destruct tc as [t|]; cbn in Ht.
          + apply eats_name_inv in Ht as (q & -> & Ht). apply eats_name_inv in Ht as (q' & -> & Ht). apply eats_nil_inv in Ht as ->.
            apply optional_some. eapply then_intro; [apply ident_intro|apply name_intro].
          + apply eats_nil_inv in Ht as ->. apply optional_none. apply then_peek.
            destruct ds as [|d ds]; [apply eats_nil_inv in Hds as ->; apply eats_framed_inv in Hsub as (q & -> & _); reflexivity|].
            cbn in Hds. apply eats_punct_inv in Hds as (q & -> & _). reflexivity.
        - apply (cpl_directives ds (length m1)); [lia|exact W1|exact Hds|lia|].
          apply eats_framed_inv in Hsub as (q & -> & _). apply brace_follow.
        - apply (set_cpl sub (S f) f); [exact W2| |exact Hsub|lia|lia].
          rewrite Forall_forall in *. intros y Hy. apply S0. exact Hy. }
      rewrite Il. reflexivity.
  Qed.
  Lemma cpl_set l fuel ts r : set_ok l -> eats ts r (set_tokens l) -> length ts <= fuel ->
    selection_set fuel (selection parse_f64 fuel) ts = POk (l, r).
  Proof.
    intros [H1 H2] He Hlen. destruct fuel as [|f].
    - unfold set_tokens in He. apply eats_framed_inv in He as (q & -> & _). cbn in Hlen. lia.
    - apply set_cpl; [exact H1| |exact He|exact Hlen|exact Hlen].
      rewrite Forall_forall in *. intros x Hx. apply cpl_selection. apply H2. exact Hx.
  Qed.
  Lemma cpl_vardefs vs fuel ts r : Forall vardef_ok vs -> eats ts r (vardefs_tokens vs) -> length ts < fuel -> no "(" r ->
    variable_definitions parse_f64 fuel ts = POk (vs, r).
  Proof.
    intros W He Hlen Hf. unfold variable_definitions. destruct vs as [|v vs].
    - apply eats_nil_inv in He as ->. eapply pmap_intro; [apply optional_none; apply then_peek; exact Hf|reflexivity].
    - cbn [vardefs_tokens] in He. apply eats_framed_inv in He as (m & -> & He). cbn in Hlen.
      pose proof (eats_le _ _ _ He) as Hle. cbn in Hle.
      eapply pmap_intro; [apply optional_some|reflexivity].
      eapply then_intro; [apply punct_intro|]. eapply then_intro.
      + apply committed_intro. eapply (cpl_many1 (length m) _ vardef_tokens (fun r => no "!" r /\ no "=" r) (v :: vs)).
        * discriminate.
        * rewrite Forall_forall in *. intros x Hx ts' r' He' Hlen' [Hf1 Hf2]. destruct (W x Hx) as [W1 W2].
          unfold vardef_tokens in He'. apply eats_punct_inv in He' as (q & -> & He'). apply eats_name_inv in He' as (q1 & -> & He').
          apply eats_punct_inv in He' as (q2 & -> & He'). apply eats_app_inv in He' as (q3 & Ht & Hd). cbn in Hlen'.
          pose proof (eats_le _ _ _ Ht) as Lt.
          unfold variable_definition. eapply then_intro; [apply punct_intro|]. eapply then_intro; [apply name_intro|].
          eapply then_intro; [apply punct_intro|]. eapply then_intro.
          -- apply (proj2 (cpl_type _ W1) fuel _ q3 Ht); [lia|]. destruct (vd_default x); [|apply eats_nil_inv in Hd as ->; exact Hf1].
             apply eats_punct_inv in Hd as (q4 & -> & _). apply no_punct. discriminate.
          -- destruct x as [vn vt [d|]]; cbn in *.
             ++ apply eats_punct_inv in Hd as (q4 & -> & Hd). cbn in Lt.
                eapply pmap_intro; [apply optional_some; eapply then_intro; [apply punct_intro|]|reflexivity].
                apply (cpl_value d (length q4)); [lia|exact W2|exact Hd|lia|exact I].
             ++ apply eats_nil_inv in Hd as ->. eapply pmap_intro; [apply optional_none; apply then_peek; exact Hf2|reflexivity].
        * rewrite Forall_forall. intros x _. discriminate.
        * intros a ts' r' _ He'. unfold vardef_tokens in He'. apply eats_punct_inv in He' as (q & -> & _).
          split; apply no_punct; discriminate.
        * exact He.
        * lia.
        * cbn [length]. lia.
        * split; apply no_punct; discriminate.
        * reflexivity.
      + eapply pmap_intro; [apply punct_intro|reflexivity].
  Qed.
  Lemma cpl_operation k n vs ds l fuel ts r : def_ok (POperation k n vs ds l) ->
    eats ts r (definition_tokens (POperation k n vs ds l)) -> length ts <= fuel ->
    then_ (ident (keyword k) ts) (fun _ r => operation_common parse_f64 fuel k r) = POk (POperation k n vs ds l, r).
  Proof.
    intros (W1 & W2 & W3) He Hlen. cbn [definition_tokens] in He. apply eats_name_inv in He as (m & -> & He). cbn in Hlen.
    apply eats_app_inv in He as (m1 & Hn & He). apply eats_app_inv in He as (m2 & Hv & He). apply eats_app_inv in He as (m3 & Hd & He).
    assert (L1 := eats_le _ _ _ Hn). assert (L2 := eats_le _ _ _ Hv). assert (L3 := eats_le _ _ _ Hd). assert (L4 := eats_le _ _ _ He).
    assert (F3 : exists q, m3 = mktok KPunct "{" :: q) by (unfold set_tokens in He; apply eats_framed_inv in He as (q & -> & _); eauto).
    assert (F2 : no "(" m2).
    { apply (dirs_follow _ _ _ (no "(") Hd); [|intros t; apply no_punct; discriminate].
      intros ->. apply eats_nil_inv in Hd as ->. destruct F3 as [q ->]. apply no_punct. discriminate. }
    eapply then_intro; [apply ident_intro|]. unfold operation_common. eapply then_intro with (a := n) (ts := m1).
    - destruct n as [n|]; [apply eats_name_inv in Hn as (q & -> & Hn)|]; apply eats_nil_inv in Hn as ->.
      + apply optional_some. apply name_intro.
      + apply optional_none. destruct vs as [|v vs].
        * apply eats_nil_inv in Hv as ->. destruct ds as [|d ds].
          -- apply eats_nil_inv in Hd as ->. destruct F3 as [q ->]. reflexivity.
          -- cbn in Hd. apply eats_punct_inv in Hd as (q & -> & _). reflexivity.
        * cbn [vardefs_tokens] in Hv. apply eats_framed_inv in Hv as (q & -> & _). reflexivity.
    - eapply then_intro; [apply cpl_vardefs; [exact W1|exact Hv|lia|exact F2]|].
      eapply then_intro; [apply (cpl_directives ds (length m2)); [lia|exact W2|exact Hd|lia|destruct F3 as [q ->]; apply brace_follow]|].
      eapply pmap_intro; [apply cpl_set; [exact W3|exact He|lia]|reflexivity].
  Qed.
  Lemma cpl_definition d fuel : def_ok d -> Cpl fuel (definition parse_f64 fuel) definition_tokens any d.
  Proof.
    intros W ts r He Hlen _. unfold definition, or.
    destruct d as [l|k n vs ds l|n tc ds l].
    - eapply cpl_set in He; [|exact W|exact Hlen]. rewrite He. reflexivity.
    - assert (O := cpl_operation k n vs ds l fuel ts r W He Hlen).
      cbn [definition_tokens] in He. apply eats_name_inv in He as (m & -> & He).
      rewrite set_peek by apply no_name. cbn [pmap].
      destruct k; cbn [keyword] in *.
      + rewrite O. reflexivity.
      + replace (ident "query" (mktok KName "mutation" :: m)) with (@PPeek (unit * list token)) by reflexivity. cbn [then_]. rewrite O. reflexivity.
      + replace (ident "query" (mktok KName "subscription" :: m)) with (@PPeek (unit * list token)) by reflexivity.
        replace (ident "mutation" (mktok KName "subscription" :: m)) with (@PPeek (unit * list token)) by reflexivity.
        cbn [then_]. rewrite O. reflexivity.
    - destruct W as [W1 W2]. cbn [definition_tokens] in He. apply eats_name_inv in He as (m & -> & He).
      apply eats_name_inv in He as (m1 & -> & He). apply eats_name_inv in He as (m2 & -> & He). apply eats_name_inv in He as (m3 & -> & He).
      apply eats_app_inv in He as (m4 & Hd & He). cbn in Hlen.
      assert (L3 := eats_le _ _ _ Hd). assert (L4 := eats_le _ _ _ He).
      rewrite set_peek by apply no_name. cbn [pmap].
      set (q := mktok KName n :: mktok KName "on" :: mktok KName tc :: m3).
      replace (ident "query" (mktok KName "fragment" :: q)) with (@PPeek (unit * list token)) by reflexivity.
      replace (ident "mutation" (mktok KName "fragment" :: q)) with (@PPeek (unit * list token)) by reflexivity.
      replace (ident "subscription" (mktok KName "fragment" :: q)) with (@PPeek (unit * list token)) by reflexivity.
      cbn [then_]. unfold fragment_definition, q.
      eapply then_intro; [apply ident_intro|]. eapply then_intro; [apply name_intro|].
      eapply then_intro; [apply ident_intro|]. eapply then_intro; [apply name_intro|].
      eapply then_intro; [apply (cpl_directives ds (length m3)); [lia|exact W1|exact Hd|lia|]|].
      + unfold set_tokens in He. apply eats_framed_inv in He as (q' & -> & _). apply brace_follow.
      + eapply pmap_intro; [apply cpl_set; [exact W2|exact He|lia]|reflexivity].
  Qed.
  Lemma definition_end fuel : definition parse_f64 fuel [] = PPeek.
  Proof. reflexivity. Qed.
  Lemma parse_complete ts ds : ds <> [] -> Forall def_ok ds -> Forall2 reads ts (document_tokens ds) ->
    parse_tokens parse_f64 ts = POk ds.
  Proof.
    intros Hne W H. unfold parse_tokens.
    assert (M : many1 (S (length ts)) (definition parse_f64 (S (length ts))) ts = POk (ds, [])).
    { eapply (cpl_many1 (length ts) _ definition_tokens any ds).
      - exact Hne.
      - rewrite Forall_forall in *. intros d Hd ts' r He Hlen _. eapply cpl_definition; [apply W; exact Hd|exact He|lia|exact I].
      - rewrite Forall_forall. intros [l|k n vs ds' l|n tc ds' l] _; discriminate.
      - intros; exact I.
      - exists ts. split; [symmetry; apply app_nil_r|exact H].
      - lia.
      - cbn. lia.
      - exact I.
      - reflexivity. }
    rewrite M. reflexivity.
  Qed.
  Theorem parse_exact ts ds : parse_tokens parse_f64 ts = POk ds <->
    (ds <> [] /\ Forall def_ok ds) /\ Forall2 reads ts (document_tokens ds).
  Proof.
    split; [apply parse_sound|]. intros [[H1 H2] H3]. apply parse_complete; assumption.
  Qed.
End Complete.
