(** A minified text has the tokens of the text. *)
From Coq Require Import String Ascii List NArith ZArith Bool Arith Lia.
From Verif Require Import StrUtil Ast CondModel NormModel NormProofs GqlModel GqlSpec GqlChars GqlLex GqlScan GqlGrammar GqlComplete MinifyModel.
Import ListNotations.
Local Open Scope string_scope.
Local Open Scope list_scope.

(** The token can be the next of a text. *)
Definition scanned (t : token) : Prop :=
  exists r n, scan_token (tok_text t ++ r) = Some (tok_kind t, tok_text t, r, n).
Definition number (t : token) : bool := match tok_kind t with KInt | KFloat => true | _ => false end.

Lemma lexed_scanned : forall fuel depth limit count s ts, lex fuel depth limit count s = LexOk ts -> Forall scanned ts.
Proof.
  induction fuel as [|fuel IH]; intros depth limit count s ts H; [discriminate|].
  destruct (lex_step _ _ _ _ _ _ H) as [[E ->]|[E|(k & v & r & n & t & d' & c' & Es & -> & -> & _ & _ & Ho & _ & E)]]; try discriminate.
  - injection E as ->. constructor.
  - symmetry in E. apply lcons_ok in E as (ts' & E & ->). constructor; [|apply (IH _ _ _ _ _ E)].
    exists r, n. exact Es.
Qed.
Lemma lex_unlimited : forall fuel depth limit count s ts, lex fuel depth limit count s = LexOk ts ->
  forall count', lex fuel depth None count' s = LexOk ts.
Proof.
  induction fuel as [|fuel IH]; intros depth limit count s ts H count'; [discriminate|].
  cbn [lex] in *. destruct (match limit with Some l => N.leb l count | None => false end); [discriminate|].
  destruct s as [|c s]; [exact H|]. destruct (scan_token (String c s)) as [[[[k v] r] n]|]; [|discriminate].
  destruct (one_of _ c); [|destruct (one_of _ c)].
  - destruct (N.eqb depth 0); [discriminate|]. apply lcons_ok in H as (ts' & H & ->). rewrite (IH _ _ _ _ _ H). reflexivity.
  - apply lcons_ok in H as (ts' & H & ->). rewrite (IH _ _ _ _ _ H). reflexivity.
  - apply lcons_ok in H as (ts' & H & ->). rewrite (IH _ _ _ _ _ H). reflexivity.
Qed.

(** * The same token before another rest *)
Lemma block_long s : forall e a r, scan_block e s = Some (a, r) -> 3 <= String.length a.
Proof.
  assert (G : forall n s e a r, String.length s <= n -> scan_block e s = Some (a, r) -> 3 <= String.length a).
  { induction n as [|n IH]; intros s0 e a r Hn H; (destruct s0 as [|c s1]; [discriminate|]); cbn [String.length] in Hn; [lia|].
    assert (Sk : match scan_block (is bslash c) s1 with Some (a, b) => Some (String c a, b) | None => None end = Some (a, r) -> 3 <= String.length a).
    { intros K. destruct (scan_block (is bslash c) s1) as [[a1 b1]|] eqn:E1; [|discriminate]. injection K as <- <-.
      apply IH in E1; [cbn; lia|lia]. }
    cbn [scan_block] in H. destruct s1 as [|d [|f s3]]; [exact (Sk H)|exact (Sk H)|].
    destruct (is dquote c && is dquote d && is dquote f)%bool; [|exact (Sk H)].
    destruct e.
    - destruct (scan_block false s3) as [[a1 b1]|] eqn:E1; [|discriminate]. injection H as <- <-. cbn. lia.
    - injection H as <- <-. cbn. lia. }
  intros e a r. apply (G (String.length s)). lia.
Qed.
Lemma block_stable s : forall e a r r', scan_block e s = Some (a, r) -> scan_block e (a ++ r') = Some (a, r').
Proof.
  assert (G : forall n s e a r r', String.length s <= n -> scan_block e s = Some (a, r) -> scan_block e (a ++ r') = Some (a, r')).
  { induction n as [|n IH]; intros s0 e a r r' Hn H; (destruct s0 as [|c s1]; [discriminate|]); cbn [String.length] in Hn; [lia|].
    destruct s1 as [|d [|f s3]].
    - cbn in H. discriminate.
    - cbn in H. discriminate.
    - destruct (is dquote c && is dquote d && is dquote f)%bool eqn:Q.
      + cbn [scan_block] in H. rewrite Q in H. destruct e.
        * destruct (scan_block false s3) as [[a1 b1]|] eqn:E1; [|discriminate]. injection H as <- <-.
          rewrite !app_cons. cbn [scan_block]. rewrite Q. rewrite (IH s3 false a1 b1 r'); [reflexivity|cbn in Hn; lia|exact E1].
        * injection H as <- <-. cbn [String.append scan_block]. rewrite Q. reflexivity.
      + assert (Sk : scan_block e (String c (String d (String f s3))) =
          match scan_block (is bslash c) (String d (String f s3)) with Some (a, b) => Some (String c a, b) | None => None end).
        { cbn [scan_block]. rewrite Q. reflexivity. }
        rewrite Sk in H. destruct (scan_block (is bslash c) (String d (String f s3))) as [[a1 b1]|] eqn:E1; [|discriminate].
        injection H as <- <-. pose proof (block_long _ _ _ _ E1) as Len. destruct (block_scan _ _ _ _ E1) as [Ea _].
        pose proof (IH _ _ _ _ r' ltac:(exact (le_S_n _ _ Hn)) E1) as K.
        destruct a1 as [|d1 [|f1 a1]]; cbn in Len; try lia. rewrite !app_cons in Ea. injection Ea as <- <- _.
        rewrite !app_cons in *.
        assert (Sk' : scan_block e (String c (String d (String f (a1 ++ r')))) =
          match scan_block (is bslash c) (String d (String f (a1 ++ r'))) with Some (a, b) => Some (String c a, b) | None => None end).
        { cbn [scan_block]. rewrite Q. reflexivity. }
        rewrite Sk', K. reflexivity. }
  intros e a r r'. apply (G (String.length s)). lia.
Qed.
Lemma string_stable s : forall e a r r', scan_string e s = Some (a, r) -> scan_string e (a ++ r') = Some (a, r').
Proof.
  induction s as [|c s IH]; intros e a r r' H; [discriminate|]. cbn [scan_string] in H.
  destruct (is dquote c && negb e)%bool eqn:Q.
  - injection H as <- <-. cbn [String.append scan_string]. rewrite Q. reflexivity.
  - destruct (is lf c) eqn:Lf; [discriminate|].
    destruct (scan_string (negb e && is bslash c)%bool s) as [[a1 b1]|] eqn:E1; [|discriminate]. injection H as <- <-.
    rewrite app_cons. cbn [scan_string]. rewrite Q, Lf, (IH _ _ _ r' E1). reflexivity.
Qed.

(** What comes after a token that is no punctuator *)
Definition stops (t : token) (r : string) : Prop :=
  match r with
  | EmptyString => True
  | String c _ => c = " "%char \/ puncts c = true \/ (c = "."%char /\ number t = false)
  end.
Lemma rescan t r' : scanned t -> (tok_kind t <> KPunct -> stops t r') ->
  exists n, scan_token (tok_text t ++ r') = Some (tok_kind t, tok_text t, r', n).
Proof.
  destruct t as [k v]. intros (r & n & H) St. cbn [tok_kind tok_text] in *. unfold stops, number in St. cbn [tok_kind] in St.
  destruct (scan_split _ _ _ _ _ H) as (_ & Hne & _). destruct v as [|c v]; [congruence|]. rewrite app_cons in *.
  unfold scan_token in *.
  destruct (one_of ["("; "["; "{"; ")"; "]"; "}"; "!"; "$"; ":"; "="; "@"; "|"; "&"]%char c) eqn:Ep.
  { injection H as <- <- Hr Hn. eexists. reflexivity. }
  destruct (is "." c) eqn:Ed.
  { destruct (v ++ r)%string as [|d [|e s3]] eqn:Ev; try discriminate.
    destruct (is "." d && is "." e)%bool; [|discriminate]. injection H as <- <- <- Hr Hn. eexists. reflexivity. }
  destruct (name_start c) eqn:En.
  { destruct (span name_continue (v ++ r)) as [a b] eqn:Es. injection H as <- -> -> Hn.
    apply span_split in Es as (_ & Ha & _). rewrite (span_app _ _ _ Ha); [eexists; reflexivity|].
    destruct r' as [|x r']; [exact I|]. specialize (St ltac:(discriminate)).
    destruct St as [->|[Hp|[-> _]]]; [reflexivity| |reflexivity].
    revert Hp. intros Hp. apply negb_true_iff. revert Hp. apply (implied_class puncts (fun c => negb (name_continue c))). vm_compute. reflexivity. }
  destruct (is "-" c || digit c)%bool eqn:Ei.
  { destruct (span (fun d => negb (number_end d)) (v ++ r)) as [a b] eqn:Es. apply span_split in Es as (_ & Ha & _).
    assert (Rest : a = v -> (k = KInt \/ k = KFloat) -> span (fun d => negb (number_end d)) (v ++ r') = (v, r')).
    { intros -> Hk. apply span_app; [exact Ha|]. destruct r' as [|x r']; [exact I|].
      assert (Hk' : k <> KPunct) by (destruct Hk as [->| ->]; discriminate). specialize (St Hk').
      destruct St as [->|[Hp|[_ Hc]]]; [reflexivity| |destruct Hk as [->| ->]; discriminate].
      apply negb_false_iff. revert Hp. apply (implied_class puncts number_end). vm_compute. reflexivity. }
    destruct (last_index (one_of ["e"; "E"]%char) (String c a)) as [e|] eqn:Ee; destruct (last_index (is ".") (String c a)) as [d|] eqn:Edd.
    1-3: match type of H with (if ?b then _ else _) = _ => destruct b eqn:Ck; [|discriminate] end;
      injection H as <- -> -> Hn; rewrite (Rest eq_refl (or_intror eq_refl)), Ee, Edd, Ck; eexists; reflexivity.
    destruct (check_int (String c a)) eqn:Ck; [|discriminate]. injection H as <- -> -> Hn.
    rewrite (Rest eq_refl (or_introl eq_refl)), Ee, Edd, Ck. eexists. reflexivity. }
  destruct (is dquote c) eqn:Eq; [|discriminate].
  destruct (starts_with (String dquote (String dquote "")) (v ++ r)) eqn:Sw.
  - destruct (scan_block false (tail (tail (v ++ r)))) as [[a b]|] eqn:Es; [|discriminate]. injection H as <- <- -> Hn.
    apply is_spec in Eq. subst c.
    replace (starts_with (String dquote (String dquote "")) (String dquote (String dquote a) ++ r')) with true by reflexivity.
    cbn [String.append tail]. rewrite (block_stable _ _ _ _ r' Es). eexists. reflexivity.
  - destruct (scan_string false (v ++ r)) as [[a b]|] eqn:Es; [|discriminate]. injection H as <- -> -> Hn.
    rewrite (string_stable _ _ _ _ r' Es).
    assert (Sw' : starts_with (String dquote (String dquote "")) (v ++ r') = false).
    { destruct v as [|d v]; [cbn in Es; destruct (scan_inside _ _ _ _ Es) as (w & Hw & _); destruct w; discriminate Hw|].
      destruct v as [|f v].
      - destruct (scan_inside _ _ _ _ Es) as (w & Hw & _). destruct w as [|w0 w]; [|destruct w; discriminate Hw]. injection Hw as ->.
        destruct r' as [|x r']; [reflexivity|]. specialize (St ltac:(discriminate)). rewrite app_cons. cbn [String.append starts_with].
        replace (Ascii.eqb dquote x) with false; [reflexivity|]. symmetry.
        destruct St as [->|[Hp|[-> _]]]; [reflexivity| |reflexivity]. apply negb_true_iff. revert Hp.
        apply (implied_class puncts (fun x => negb (Ascii.eqb dquote x))). vm_compute. reflexivity.
      - rewrite !app_cons in *. cbn [starts_with] in *. exact Sw. }
    rewrite Sw'. eexists. reflexivity.
Qed.
Lemma scanned_starts t : scanned t -> exists c v, tok_text t = String c v /\ starter c = true.
Proof.
  intros (r & n & H). destruct (scan_split _ _ _ _ _ H) as (_ & Hne & _). destruct t as [k [|c v]]; cbn [tok_text tok_kind] in *; [congruence|].
  exists c, v. split; [reflexivity|]. rewrite app_cons in H. unfold scan_token in H. unfold starter.
  change (one_of ["("; "["; "{"; ")"; "]"; "}"; "!"; "$"; ":"; "="; "@"; "|"; "&"]%char c) with (puncts c) in H.
  destruct (puncts c); [reflexivity|]. destruct (is "." c); [reflexivity|]. destruct (name_start c); [reflexivity|].
  destruct (is "-" c || digit c)%bool eqn:E; [cbn; rewrite E; reflexivity|]. destruct (is dquote c); [|discriminate].
  rewrite orb_true_r. reflexivity.
Qed.
Lemma punct_first t : scanned t -> tok_kind t = KPunct ->
  tok_text t = "..." \/ exists c, tok_text t = String c "" /\ puncts c = true.
Proof.
  intros (r & n & H) Hk. rewrite Hk in H. destruct (scan_split _ _ _ _ _ H) as (_ & Hne & _).
  destruct t as [k [|c v]]; cbn [tok_text tok_kind] in *; [congruence|]. rewrite app_cons in H. unfold scan_token in H.
  destruct (one_of ["("; "["; "{"; ")"; "]"; "}"; "!"; "$"; ":"; "="; "@"; "|"; "&"]%char c) eqn:Ep.
  { injection H as <- _ _. right. exists c. auto. }
  destruct (is "." c).
  { destruct (v ++ r)%string as [|d [|e s3]]; try discriminate. destruct (_ && _)%bool; [|discriminate]. injection H as -> -> _ _. left. reflexivity. }
  destruct (name_start c); [destruct (span _ _); discriminate|].
  destruct (is "-" c || digit c)%bool.
  { destruct (span _ _) as [a b]. destruct (last_index _ _), (last_index _ _); match type of H with (if ?b then _ else _) = _ => destruct b end; discriminate. }
  destruct (is dquote c); [|discriminate]. destruct (starts_with _ _); [destruct (scan_block _ _) as [[? ?]|]|destruct (scan_string _ _) as [[? ?]|]]; discriminate.
Qed.

(** No number stands right before three dots. *)
Fixpoint calm (ts : list token) : Prop :=
  match ts with
  | [] => True
  | t :: r => match r with u :: _ => number t = true -> tok_text u <> "..." | [] => True end /\ calm r
  end.
Lemma join_skipped after ts : Forall scanned ts -> skip_ws false (join_tokens after ts) = join_tokens false ts.
Proof.
  intros H. destruct ts as [|t ts]; [reflexivity|]. inversion H as [|? ? Ht _]; subst.
  destruct (scanned_starts t Ht) as (c & v & E & Sc). cbn [join_tokens]. rewrite E.
  destruct (after && non_punctuator t)%bool; cbn [andb String.append]; [change (skip_ws false (String " " (String c (v ++ join_tokens (non_punctuator t) ts))) ) with (skip_ws false (String c (v ++ join_tokens (non_punctuator t) ts)))|];
    apply starter_kept; exact Sc.
Qed.
Lemma join_stops t ts : Forall scanned ts -> calm (t :: ts) -> tok_kind t <> KPunct -> stops t (join_tokens (non_punctuator t) ts).
Proof.
  intros H [Hc _] Hk. destruct ts as [|u ts]; [exact I|]. inversion H as [|? ? Hu _]; subst. cbn [join_tokens].
  assert (Ht : non_punctuator t = true) by (unfold non_punctuator; destruct (tok_kind t); [congruence|..]; reflexivity).
  rewrite Ht. destruct (non_punctuator u) eqn:Nu; cbn [andb].
  - left. reflexivity.
  - assert (Ku : tok_kind u = KPunct) by (unfold non_punctuator in Nu; destruct (tok_kind u); [reflexivity|discriminate..]).
    destruct (punct_first u Hu Ku) as [E|(c & E & Hp)]; rewrite E in *.
    + right. right. split; [reflexivity|]. destruct (number t); [|reflexivity]. exfalso. apply Hc; reflexivity.
    + right. left. exact Hp.
Qed.
Lemma join_lexed : forall ts fuel depth count, Forall scanned ts -> calm ts -> within depth ts ->
  String.length (join_tokens false ts) < fuel -> lex fuel depth None count (join_tokens false ts) = LexOk ts.
Proof.
  induction ts as [|t ts IH]; intros fuel depth count Hs Hc Hw Hf; (destruct fuel as [|fuel]; [cbn in Hf; lia|]); [reflexivity|].
  inversion Hs as [|? ? Ht Hs']; subst. pose proof (join_stops t ts Hs' Hc) as St.
  destruct (rescan t _ Ht St) as [n Hn].
  assert (Ej : join_tokens false (t :: ts) = (tok_text t ++ join_tokens (non_punctuator t) ts)%string) by (cbn [join_tokens andb]; reflexivity).
  rewrite Ej in *. destruct (scan_split _ _ _ _ _ Hn) as (_ & Hne & _ & Ho). destruct t as [k v]. cbn [tok_kind tok_text] in *.
  destruct v as [|c v]; [congruence|]. rewrite app_cons in *. cbn [String.length] in Hf. rewrite length_app in Hf. cbn [lex].
  destruct Ho as [Ho Hcl]. rewrite Hn, Ho, Hcl. cbn [within] in Hw. destruct Hc as [_ Hc].
  pose proof (join_skipped (non_punctuator (mktok k (String c v))) ts Hs') as Sk.
  pose proof (skip_length _ false (join_tokens (non_punctuator (mktok k (String c v))) ts) (le_n _)) as Ln. rewrite Sk in *.
  destruct (opener _).
  - destruct Hw as [Hz Hw]. apply N.eqb_neq in Hz. rewrite Hz. rewrite IH; [reflexivity|assumption..|lia].
  - destruct (closer _); (rewrite IH; [reflexivity|assumption..|lia]).
Qed.
Lemma join_tokens_back depth ts : Forall scanned ts -> calm ts -> within depth ts ->
  tokens depth None (join_tokens false ts) = LexOk ts.
Proof.
  intros Hs Hc Hw. unfold tokens. rewrite (join_skipped false ts Hs). apply join_lexed; auto.
Qed.

(** * Documents are calm. *)
Definition dnumber (d : dtok) : bool := match d with DInt _ | DFloat _ => true | _ => false end.
Definition ddots (d : dtok) : bool := match d with DPunct v => String.eqb v "..." | _ => false end.
(** Whether the last was a number; [None] when dots come after one *)
Fixpoint pace (b : bool) (l : list dtok) : option bool :=
  match l with
  | [] => Some b
  | d :: l' => if (b && ddots d)%bool then None else pace (dnumber d) l'
  end.
Lemma pace_app l l' : forall b, pace b (l ++ l') = match pace b l with Some b' => pace b' l' | None => None end.
Proof.
  induction l as [|d l IH]; intros b; [reflexivity|]. cbn. destruct (b && ddots d)%bool; [reflexivity|]. apply IH.
Qed.
Definition nodots (l : list dtok) : Prop := Forall (fun d => ddots d = false) l.
Lemma pace_nodots l : nodots l -> forall b, exists b', pace b l = Some b'.
Proof.
  induction 1 as [|d l H Hl IH]; intros b; [eexists; reflexivity|]. cbn. rewrite H, andb_false_r. apply IH.
Qed.
Lemma nodots_app a b : nodots a -> nodots b -> nodots (a ++ b).
Proof. intros. apply Forall_app. auto. Qed.
Lemma nodots_flat {A} (f : A -> list dtok) l : Forall (fun x => nodots (f x)) l -> nodots (flat_map f l).
Proof. induction 1; [constructor|]. cbn. apply nodots_app; assumption. Qed.
Lemma nodots_framed o c l : ddots (DPunct o) = false -> ddots (DPunct c) = false -> nodots l -> nodots (framed o c l).
Proof. intros. constructor; [assumption|]. apply nodots_app; [assumption|]. constructor; [assumption|constructor]. Qed.
Lemma pace_closed b o c l : ddots (DPunct o) = false -> ddots (DPunct c) = false -> nodots l -> pace b (framed o c l) = Some false.
Proof.
  intros Ho Hc Hl. unfold framed. cbn [pace]. rewrite Ho, andb_false_r. cbn [dnumber]. rewrite pace_app.
  destruct (pace_nodots l Hl false) as [b' ->]. cbn [pace]. rewrite Hc, andb_false_r. reflexivity.
Qed.
Lemma value_nodots v : nodots (value_tokens v).
Proof.
  induction v as [nm|z|b|s|b| |s|l IH|o IH] using gvalue_ind'; cbn [value_tokens]; try (solve [repeat constructor]).
  - apply nodots_framed; [reflexivity|reflexivity|]. apply nodots_flat. exact IH.
  - apply nodots_framed; [reflexivity|reflexivity|]. apply nodots_flat. eapply Forall_impl; [|exact IH]. intros [k v] H.
    constructor; [reflexivity|]. constructor; [reflexivity|]. exact H.
Qed.
Lemma entries_nodots (l : list (string * gvalue)) : nodots (flat_map (fun kv => keyed (fst kv) (value_tokens (snd kv))) l).
Proof.
  apply nodots_flat. apply Forall_forall. intros [k v] _. constructor; [reflexivity|]. constructor; [reflexivity|]. apply value_nodots.
Qed.
Lemma pace_args args : pace false (argument_tokens args) = Some false.
Proof. destruct args; [reflexivity|]. apply pace_closed; [reflexivity|reflexivity|apply entries_nodots]. Qed.
Lemma pace_flat {A} (f : A -> list dtok) l : Forall (fun x => pace false (f x) = Some false) l -> pace false (flat_map f l) = Some false.
Proof. induction 1 as [|x l H Hl IH]; [reflexivity|]. cbn. rewrite pace_app, H. exact IH. Qed.
Lemma pace_dirs ds : pace false (directive_tokens ds) = Some false.
Proof. apply pace_flat. apply Forall_forall. intros d _. cbn [pace andb ddots dnumber]. apply pace_args. Qed.
Lemma pace_framed o c l : pace false l = Some false -> pace false (framed o c l) = Some false.
Proof. intros H. unfold framed. cbn [pace andb dnumber]. rewrite pace_app, H. reflexivity. Qed.
Lemma pace_selection x : pace false (selection_tokens x) = Some false.
Proof.
  induction x as [al n args ds sub IH|n ds|tc ds sub IH] using nsel_ind'; cbn [selection_tokens].
  - rewrite pace_app. assert (Ha : pace false (alias_tokens al) = Some false) by (destruct al; reflexivity). rewrite Ha.
    cbn [pace andb dnumber]. rewrite pace_app, pace_args, pace_app, pace_dirs. destruct sub; [reflexivity|].
    apply pace_framed. apply pace_flat. exact IH.
  - cbn [pace andb dnumber]. apply pace_dirs.
  - cbn [pace andb dnumber]. rewrite pace_app. assert (Ht : pace false (on_tokens tc) = Some false) by (destruct tc; reflexivity).
    rewrite Ht, pace_app, pace_dirs. apply pace_framed. apply pace_flat. exact IH.
Qed.
Lemma pace_set l : pace false (set_tokens l) = Some false.
Proof. apply pace_framed. apply pace_flat. apply Forall_forall. intros x _. apply pace_selection. Qed.
Lemma type_nodots t : nodots (type_tokens t).
Proof.
  induction t; cbn [type_tokens]; [repeat constructor| |].
  - apply nodots_framed; [reflexivity|reflexivity|assumption].
  - apply nodots_app; [assumption|]. repeat constructor.
Qed.
Lemma pace_vars vs : pace false (vardefs_tokens vs) = Some false.
Proof.
  destruct vs; [reflexivity|]. apply pace_closed; [reflexivity|reflexivity|]. apply nodots_flat. apply Forall_forall.
  intros x _. unfold vardef_tokens. repeat (constructor; [reflexivity|]). apply nodots_app; [apply type_nodots|].
  destruct (vd_default x); [|constructor]. constructor; [reflexivity|]. apply value_nodots.
Qed.
Lemma pace_document ds : pace false (document_tokens ds) = Some false.
Proof.
  apply pace_flat. apply Forall_forall. intros d _. destruct d as [l|k n vs dirs l|n tc dirs l]; cbn [definition_tokens].
  - apply pace_set.
  - cbn [pace andb dnumber]. rewrite pace_app. assert (Hn : pace false (match n with Some n => [DName n] | None => [] end) = Some false) by (destruct n; reflexivity).
    rewrite Hn, pace_app, pace_vars, pace_app, pace_dirs. apply pace_set.
  - cbn [pace andb dnumber]. rewrite pace_app, pace_dirs. apply pace_set.
Qed.

Section Reads.
  Variable f64 : string -> option N.
  Lemma reads_number t d : reads f64 t d -> number t = dnumber d.
  Proof.
    destruct t as [k v]. unfold reads, decode, number. cbn [tok_kind tok_text]. destruct k; intros H.
    - injection H as <-. reflexivity.
    - injection H as <-. reflexivity.
    - destruct (parse_i64 v); [|discriminate]. injection H as <-. reflexivity.
    - destruct (f64 v); [|discriminate]. injection H as <-. reflexivity.
    - apply pmap_ok in H as (a & _ & ->). reflexivity.
    - apply pmap_ok in H as (a & _ & ->). reflexivity.
  Qed.
  Lemma pace_calm ts : forall ds, Forall2 (reads f64) ts ds -> Forall scanned ts -> forall b, pace b ds <> None ->
    calm ts /\ match ts with u :: _ => b = true -> tok_text u <> "..." | [] => True end.
  Proof.
    intros ds H. induction H as [|t d ts ds Ht H IH]; intros Hs b Hp; [cbn; auto|]. inversion Hs as [|? ? Hst Hss]; subst.
    cbn [pace] in Hp. destruct (b && ddots d)%bool eqn:E; [congruence|]. destruct (IH Hss _ Hp) as [Hc Hd]. split.
    - cbn [calm]. split; [|exact Hc]. destruct ts as [|u ts]; [exact I|]. rewrite (reads_number t d Ht). exact Hd.
    - intros -> Eu. cbn [andb] in E. destruct t as [k v]. cbn [tok_text] in Eu. subst v.
      destruct Hst as (r & n & Hsc). cbn [tok_kind tok_text] in Hsc. cbn in Hsc. assert (Ek : k = KPunct) by congruence. subst k.
      unfold reads, decode in Ht. cbn in Ht. injection Ht as <-. discriminate E.
  Qed.
End Reads.

(** * minify_query *)
Section Query.
  Variable f64 : string -> option N.
  Lemma parsed_lexed depth limit s ds : parse_query f64 depth limit s = POk ds ->
    exists ts, tokens depth limit s = LexOk ts /\ parse_tokens f64 ts = POk ds.
  Proof.
    unfold parse_query. destruct (tokens depth limit s) as [ts|ts|]; intros H.
    - eauto.
    - destruct (parse_tokens f64 ts); discriminate.
    - discriminate.
  Qed.
  Lemma minified_tokens limit s ds : parse_query f64 50 limit s = POk ds ->
    exists ts, tokens 50 limit s = LexOk ts /\ minify_query s = Some (join_tokens false ts) /\
      tokens 50 None (join_tokens false ts) = LexOk ts /\ parse_tokens f64 ts = POk ds.
  Proof.
    intros H. apply parsed_lexed in H as (ts & Hl & Hp). exists ts. split; [exact Hl|]. unfold tokens in Hl.
    pose proof (lex_unlimited _ _ _ _ _ _ Hl 0%N) as Hu. pose proof (lexed_scanned _ _ _ _ _ _ Hl) as Hs.
    pose proof (lexed_within _ _ _ _ _ _ Hl) as Hw.
    unfold minify_query, tokens at 1. rewrite Hu. split; [reflexivity|]. split; [|exact Hp].
    apply join_tokens_back; [exact Hs| |exact Hw].
    apply parse_exact in Hp as [_ Hr]. apply (pace_calm f64 ts _ Hr Hs false). rewrite pace_document. discriminate.
  Qed.
  Theorem minified_parses limit s ds : parse_query f64 50 limit s = POk ds ->
    exists m, minify_query s = Some m /\ parse_query f64 50 None m = POk ds.
  Proof.
    intros H. destruct (minified_tokens limit s ds H) as (ts & _ & Hm & Ht & Hp). exists (join_tokens false ts). split; [exact Hm|].
    unfold parse_query. rewrite Ht. exact Hp.
  Qed.
  Theorem minified_again limit s ds m : parse_query f64 50 limit s = POk ds -> minify_query s = Some m -> minify_query m = Some m.
  Proof.
    intros H Hm. destruct (minified_tokens limit s ds H) as (ts & _ & Hm' & Ht & _). rewrite Hm in Hm'. injection Hm' as ->.
    unfold minify_query. rewrite Ht. reflexivity.
  Qed.
  Theorem minified_same limit s limit' s' ds ds' : parse_query f64 50 limit s = POk ds -> parse_query f64 50 limit' s' = POk ds' ->
    (minify_query s = minify_query s' <-> exists ts, tokens 50 None s = LexOk ts /\ tokens 50 None s' = LexOk ts).
  Proof.
    intros H H'. destruct (minified_tokens limit s ds H) as (ts & Hl & Hm & Ht & _).
    destruct (minified_tokens limit' s' ds' H') as (ts' & Hl' & Hm' & Ht' & _). unfold tokens in Hl, Hl'.
    pose proof (lex_unlimited _ _ _ _ _ _ Hl 0%N) as Hu. pose proof (lex_unlimited _ _ _ _ _ _ Hl' 0%N) as Hu'.
    rewrite Hm, Hm'. split.
    - intros E. injection E as E. rewrite E in Ht. rewrite Ht' in Ht. injection Ht as ->. exists ts. split; assumption.
    - intros (us & E & E'). unfold tokens in E, E'. rewrite Hu in E. rewrite Hu' in E'. congruence.
  Qed.
End Query.
