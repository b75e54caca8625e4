(** The grammar reads exactly the token lists documents are written with. *)
From Coq Require Import String Ascii List NArith ZArith Bool Arith Lia.
From Verif Require Import Ast CondModel NormModel NormProofs GqlModel GqlSpec.
Import ListNotations.
Local Open Scope string_scope.
Local Open Scope list_scope.

Lemma pmap_ok {A B} (k : A -> B) r b : pmap k r = POk b <-> exists a, r = POk a /\ b = k a.
Proof.
  destruct r; cbn; split; try discriminate; try (intros (a' & H & _); discriminate H).
  - intros H; injection H as <-; eauto.
  - intros (a' & H & ->); injection H as <-; reflexivity.
Qed.
Lemma committed_ok {A} (r : pres A) a : committed r = POk a <-> r = POk a.
Proof. destruct r; cbn; split; congruence. Qed.
Lemma committed_inv {A} (r : pres A) a : committed r = POk a -> r = POk a.
Proof. apply committed_ok. Qed.
Lemma then_ok {A B} (r : parse_result A) (k : A -> list token -> parse_result B) b :
  then_ r k = POk b <-> exists a ts, r = POk (a, ts) /\ k a ts = POk b.
Proof.
  destruct r as [[a ts]| | | |]; cbn; split; try discriminate; try (intros (a' & ts' & H & _); discriminate H).
  - intros H. apply committed_inv in H. exists a, ts. split; [reflexivity|exact H].
  - intros (a' & ts' & H & K). injection H as <- <-. apply committed_ok. exact K.
Qed.
Lemma optional_ok {A} (p : list token -> parse_result A) ts o r :
  optional p ts = POk (o, r) <->
  match o with Some a => p ts = POk (a, r) | None => p ts = PPeek /\ r = ts end.
Proof.
  unfold optional. destruct (p ts) as [[a r']| | | |] eqn:E; split; try discriminate;
    try (destruct o; [discriminate|intros [H _]; discriminate H]).
  - intros H. injection H as <- <-. reflexivity.
  - destruct o; [intros H; injection H as -> ->; reflexivity|intros [H _]; discriminate H].
  - intros H. injection H as <- <-. auto.
  - destruct o; [discriminate|]. intros [_ ->]. reflexivity.
Qed.

Section Grammar.
  Variable parse_f64 : string -> option N.

  Definition decode (t : token) : pres dtok :=
    match tok_kind t with
    | KPunct => POk (DPunct (tok_text t))
    | KName => POk (DName (tok_text t))
    | KInt => match parse_i64 (tok_text t) with Some z => POk (DInt z) | None => PErr end
    | KFloat => match parse_f64 (tok_text t) with Some b => POk (DFloat b) | None => PErr end
    | KString => pmap DStr (unquote_string (tok_text t))
    | KBlock => pmap DStr (unquote_block_string (tok_text t))
    end.
  Definition reads (t : token) (d : dtok) : Prop := decode t = POk d.
  (** Going from [ts] to [r], the tokens [ds] were read. *)
  Definition eats (ts r : list token) (ds : list dtok) : Prop := exists c, ts = c ++ r /\ Forall2 reads c ds.

  Lemma eats_nil ts : eats ts ts [].
  Proof. exists []. split; [reflexivity|constructor]. Qed.
  Lemma eats_nil_inv ts r : eats ts r [] -> ts = r.
  Proof. intros (c & -> & H). inversion H. reflexivity. Qed.
  Lemma eats_app a b c x y : eats a b x -> eats b c y -> eats a c (x ++ y).
  Proof.
    intros (u & -> & Hu) (v & -> & Hv). exists (u ++ v). split; [apply app_assoc|].
    apply Forall2_app; assumption.
  Qed.
  Lemma eats_cons t a c d y : reads t d -> eats a c y -> eats (t :: a) c (d :: y).
  Proof. intros H (v & -> & Hv). exists (t :: v). split; [reflexivity|]. constructor; assumption. Qed.
  Lemma eats_one t a d : reads t d -> eats (t :: a) a [d].
  Proof. intros H. apply eats_cons; [exact H|apply eats_nil]. Qed.
  Lemma eats_app_inv a c x y : eats a c (x ++ y) -> exists b, eats a b x /\ eats b c y.
  Proof.
    intros (u & -> & H). apply Forall2_app_inv_r in H as (u1 & u2 & H1 & H2 & ->).
    exists (u2 ++ c). split; [exists u1; split; [symmetry; apply app_assoc|exact H1]|exists u2; split; [reflexivity|exact H2]].
  Qed.
  Lemma eats_cons_inv a c d y : eats a c (d :: y) -> exists t b, a = t :: b /\ reads t d /\ eats b c y.
  Proof. intros (u & -> & H). inversion H as [|t d' u' y' Ht Hu]; subst. exists t, (u' ++ c). split; [reflexivity|]. split; [exact Ht|]. exists u'. auto. Qed.
  Lemma eats_length a c x : eats a c x -> length a = length x + length c.
  Proof. intros (u & -> & H). rewrite app_length. f_equal. clear -H. induction H; cbn; congruence. Qed.

  Lemma reads_punct t v : reads t (DPunct v) <-> t = mktok KPunct v.
  Proof.
    destruct t as [k s]. unfold reads, decode. cbn [tok_kind tok_text]. split.
    - destruct k; try discriminate.
      + intros H. injection H as ->. reflexivity.
      + destruct (parse_i64 s); discriminate.
      + destruct (parse_f64 s); discriminate.
      + destruct (unquote_string s); discriminate.
      + destruct (unquote_block_string s); discriminate.
    - intros H. injection H as -> ->. reflexivity.
  Qed.
  Lemma reads_name t v : reads t (DName v) <-> t = mktok KName v.
  Proof.
    destruct t as [k s]. unfold reads, decode. cbn [tok_kind tok_text]. split.
    - destruct k; try discriminate.
      + intros H. injection H as ->. reflexivity.
      + destruct (parse_i64 s); discriminate.
      + destruct (parse_f64 s); discriminate.
      + destruct (unquote_string s); discriminate.
      + destruct (unquote_block_string s); discriminate.
    - intros H. injection H as -> ->. reflexivity.
  Qed.
  Lemma punct_ok v ts u r : punct v ts = POk (u, r) <-> ts = mktok KPunct v :: r.
  Proof.
    destruct u. unfold punct, word. destruct ts as [|[k s] ts']; [split; discriminate|]. cbn.
    destruct k; cbn; try (split; [discriminate|intros H; injection H as ? ? ?; discriminate]).
    destruct (String.eqb_spec s v) as [->|Hn]; split; try discriminate.
    - intros H. injection H as <-. reflexivity.
    - intros H. injection H as <-. reflexivity.
    - intros H. injection H as ? ?. congruence.
  Qed.
  Lemma ident_ok v ts u r : ident v ts = POk (u, r) <-> ts = mktok KName v :: r.
  Proof.
    destruct u. unfold ident, word. destruct ts as [|[k s] ts']; [split; discriminate|]. cbn.
    destruct k; cbn; try (split; [discriminate|intros H; injection H as ? ? ?; discriminate]).
    destruct (String.eqb_spec s v) as [->|Hn]; split; try discriminate.
    - intros H. injection H as <-. reflexivity.
    - intros H. injection H as <-. reflexivity.
    - intros H. injection H as ? ?. congruence.
  Qed.
  Lemma name_ok ts n r : name ts = POk (n, r) <-> ts = mktok KName n :: r.
  Proof.
    unfold name. destruct ts as [|[k s] ts']; [split; discriminate|]. cbn.
    destruct k; cbn; try (split; [discriminate|intros H; injection H as ? ? ?; discriminate]).
    split; intros H; injection H as <- <-; reflexivity.
  Qed.

  Definition Snd {A} (p : list token -> parse_result A) (f : A -> list dtok) (W : A -> Prop) : Prop :=
    forall ts a r, p ts = POk (a, r) -> eats ts r (f a) /\ W a.
  Lemma snd_many {A} n (p : list token -> parse_result A) f W : Snd p f W -> Snd (many n p) (flat_map f) (Forall W).
  Proof.
    intros Hp. induction n as [|n IH]; intros ts l r; cbn; [discriminate|].
    destruct (p ts) as [[a m]| | | |] eqn:E; try discriminate.
    - intros H. apply pmap_ok in H as ([l' r'] & H & K). injection K as -> ->.
      destruct (Hp _ _ _ E) as [H1 W1]. destruct (IH _ _ _ H) as [H2 W2]. split.
      + cbn. eapply eats_app; eassumption.
      + constructor; assumption.
    - intros H. injection H as <- <-. split; [apply eats_nil|constructor].
  Qed.
  Lemma snd_many1 {A} n (p : list token -> parse_result A) f W :
    Snd p f W -> Snd (many1 n p) (flat_map f) (fun l => l <> [] /\ Forall W l).
  Proof.
    intros Hp ts l r H. unfold many1 in H. apply then_ok in H as (a & m & E & H).
    apply pmap_ok in H as ([l' r'] & H & K). injection K as -> ->.
    destruct (Hp _ _ _ E) as [H1 W1]. destruct (snd_many n p f W Hp _ _ _ H) as [H2 W2]. split.
    - cbn. eapply eats_app; eassumption.
    - split; [discriminate|constructor; assumption].
  Qed.

  Lemma go_forall (P : gvalue -> Prop) l :
    (fix go l := match l with [] => True | x :: l' => P x /\ go l' end) l <-> Forall P l.
  Proof.
    induction l as [|x l IH]; [split; constructor|]. split.
    - intros [H K]. constructor; [exact H|]. apply IH. exact K.
    - intros H. inversion H; subst. split; [assumption|]. apply IH. assumption.
  Qed.
  Lemma go_forall_snd (P : gvalue -> Prop) (l : list (string * gvalue)) :
    (fix go l := match l with [] => True | x :: l' => P (snd x) /\ go l' end) l <-> Forall (fun kv => P (snd kv)) l.
  Proof.
    induction l as [|x l IH]; [split; constructor|]. split.
    - intros [H K]. constructor; [exact H|]. apply IH. exact K.
    - intros H. inversion H; subst. split; [assumption|]. apply IH. assumption.
  Qed.
  Lemma go_forall_sel (P : nsel -> Prop) l :
    (fix go l := match l with [] => True | x :: l' => P x /\ go l' end) l <-> Forall P l.
  Proof.
    induction l as [|x l IH]; [split; constructor|]. split.
    - intros [H K]. constructor; [exact H|]. apply IH. exact K.
    - intros H. inversion H; subst. split; [assumption|]. apply IH. assumption.
  Qed.

  (** ** What is read is what was written *)
  Lemma snd_plain const : Snd (plain_value parse_f64) value_tokens (value_ok const).
  Proof.
    intros ts v r. unfold plain_value. destruct ts as [|[k s] ts']; [discriminate|]. cbn.
    destruct k; try discriminate.
    - destruct (String.eqb_spec s "true") as [->|N1]; [|destruct (String.eqb_spec s "false") as [->|N2];
        [|destruct (String.eqb_spec s "null") as [->|N3]]]; intros H; injection H as <- <-;
        (split; [apply eats_one; reflexivity|]); try exact I. split; [exact N1|]. split; assumption.
    - destruct (parse_i64 s) eqn:E; [|discriminate]. intros H; injection H as <- <-. split; [|exact I].
      apply eats_one. unfold reads, decode. cbn. rewrite E. reflexivity.
    - destruct (parse_f64 s) eqn:E; [|discriminate]. intros H; injection H as <- <-. split; [|exact I].
      apply eats_one. unfold reads, decode. cbn. rewrite E. reflexivity.
    - intros H. apply committed_inv, pmap_ok in H as (x & H & K). injection K as -> ->. split; [|exact I].
      apply eats_one. unfold reads, decode. cbn. rewrite H. reflexivity.
    - intros H. apply committed_inv, pmap_ok in H as (x & H & K). injection K as -> ->. split; [|exact I].
      apply eats_one. unfold reads, decode. cbn. rewrite H. reflexivity.
  Qed.
  Lemma snd_entry {A} (p : list token -> parse_result A) f W :
    Snd p f W -> Snd (entry p) (fun kv => keyed (fst kv) (f (snd kv))) (fun kv => W (snd kv)).
  Proof.
    intros Hp ts [k v] r H. unfold entry in H. apply then_ok in H as (k' & m & Hk & H). apply name_ok in Hk as ->.
    apply then_ok in H as (u & m' & Hc & H). apply punct_ok in Hc as ->.
    apply pmap_ok in H as ([v' r'] & H & K). injection K as -> -> ->.
    destruct (Hp _ _ _ H) as [H1 H2]. split; [|exact H2]. cbn. unfold keyed.
    apply eats_cons; [reflexivity|]. apply eats_cons; [reflexivity|]. exact H1.
  Qed.
  Lemma eats_framed o c ts r m x : ts = mktok KPunct o :: m -> eats m (mktok KPunct c :: r) x -> eats ts r (framed o c x).
  Proof.
    intros -> H. unfold framed. apply eats_cons; [reflexivity|]. eapply eats_app; [exact H|]. apply eats_one. reflexivity.
  Qed.
  Lemma snd_value fuel const : Snd (value parse_f64 fuel const) value_tokens (value_ok const).
  Proof.
    induction fuel as [|f IH]; intros ts v r; cbn [value]; [discriminate|].
    destruct (plain_value parse_f64 ts) as [[v' r']| | | |] eqn:E; try discriminate.
    - intros H. injection H as -> ->. exact (snd_plain const _ _ _ E).
    - destruct (if const then PPeek else punct "$" ts) as [[u m]| | | |] eqn:D.
      + destruct const; [discriminate|]. apply punct_ok in D as ->. intros H.
        apply committed_inv, pmap_ok in H as ([n r'] & H & K). injection K as -> ->. apply name_ok in H as ->.
        split; [|reflexivity]. cbn. apply eats_cons; [reflexivity|]. apply eats_one. reflexivity.
      + clear D. destruct (punct "[" ts) as [[u m]| | | |] eqn:B; try (cbn; discriminate).
        * apply punct_ok in B. intros H. apply then_ok in H as (l & m' & H & K). apply committed_inv in H.
          apply pmap_ok in K as ([u' r'] & K & K'). injection K' as -> ->. apply punct_ok in K as ->.
          destruct (snd_many _ _ _ _ IH _ _ _ H) as [H1 H2]. split; [|cbn; apply go_forall; exact H2].
          cbn. eapply eats_framed; eassumption.
        * intros H. apply then_ok in H as (u & m & B' & H). apply punct_ok in B'.
          apply then_ok in H as (l & m' & H & K). apply committed_inv in H.
          apply pmap_ok in K as ([u' r'] & K & K'). injection K' as -> ->. apply punct_ok in K as ->.
          destruct (snd_many _ _ _ _ (snd_entry _ _ _ IH) _ _ _ H) as [H1 H2]. split; [|cbn; apply go_forall_snd; exact H2].
          cbn. eapply eats_framed; eassumption.
        * unfold punct, word in B. destruct ts; [discriminate B|]. destruct (_ && _)%bool in B; discriminate B.
        * unfold punct, word in B. destruct ts; [discriminate B|]. destruct (_ && _)%bool in B; discriminate B.
        * unfold punct, word in B. destruct ts; [discriminate B|]. destruct (_ && _)%bool in B; discriminate B.
      + destruct const; [discriminate D|]. unfold punct, word in D. destruct ts; [discriminate D|]. destruct (_ && _)%bool in D; discriminate D.
      + destruct const; [discriminate D|]. unfold punct, word in D. destruct ts; [discriminate D|]. destruct (_ && _)%bool in D; discriminate D.
      + destruct const; [discriminate D|]. unfold punct, word in D. destruct ts; [discriminate D|]. destruct (_ && _)%bool in D; discriminate D.
  Qed.
  Lemma snd_arguments fuel : Snd (arguments parse_f64 fuel) argument_tokens args_ok.
  Proof.
    intros ts l r H. unfold arguments in H. apply pmap_ok in H as ([o r'] & H & K). injection K as -> ->.
    apply optional_ok in H. destruct o as [l|].
    - apply then_ok in H as (u & m & B & H). apply punct_ok in B.
      apply then_ok in H as (l' & m' & H & K). apply committed_inv in H.
      apply pmap_ok in K as ([u' r''] & K & K'). injection K' as -> ->. apply punct_ok in K as ->.
      destruct (snd_many1 _ _ _ _ (snd_entry _ _ _ (snd_value fuel false)) _ _ _ H) as [H1 [H2 H3]].
      split; [|exact H3]. unfold argument_tokens. destruct l'; [congruence|]. eapply eats_framed; eassumption.
    - destruct H as [_ ->]. split; [apply eats_nil|constructor].
  Qed.
  Lemma snd_directives fuel : Snd (directives parse_f64 fuel) directive_tokens dirs_ok.
  Proof.
    unfold directives. apply snd_many. intros ts d r H.
    apply then_ok in H as (u & m & B & H). apply punct_ok in B as ->.
    apply then_ok in H as (n & m' & B & H). apply name_ok in B as ->.
    apply pmap_ok in H as ([a r'] & H & K). injection K as -> ->. cbn.
    destruct (snd_arguments _ _ _ _ H) as [H1 H2]. split; [|exact H2].
    apply eats_cons; [reflexivity|]. apply eats_cons; [reflexivity|exact H1].
  Qed.
  Lemma snd_type fuel : Snd (parse_type fuel) type_tokens type_ok.
  Proof.
    induction fuel as [|f IH]; intros ts t r; cbn [parse_type]; [discriminate|]. intros H.
    apply then_ok in H as (t0 & m & B & H). apply pmap_ok in H as ([o r'] & H & K). injection K as -> ->.
    assert (G : eats ts m (type_tokens t0) /\ type_ok t0 /\ match t0 with TNonNull _ => False | _ => True end).
    { destruct (name ts) as [[n q]| | | |] eqn:En.
      - injection B as <- <-. apply name_ok in En as ->. split; [apply eats_one; reflexivity|]. split; exact I.
      - apply then_ok in B as (u & q & B & B1). apply punct_ok in B.
        apply then_ok in B1 as (t1 & q' & B1 & B2). apply pmap_ok in B2 as ([u' q''] & B2 & K). injection K as -> ->.
        apply punct_ok in B2 as ->. destruct (IH _ _ _ B1) as [H1 H2]. split; [|split; [exact H2|exact I]].
        cbn. eapply eats_framed; eassumption.
      - unfold name in En. destruct ts; [discriminate En|]. destruct (kind_eqb _ _) in En; discriminate En.
      - unfold name in En. destruct ts; [discriminate En|]. destruct (kind_eqb _ _) in En; discriminate En.
      - unfold name in En. destruct ts; [discriminate En|]. destruct (kind_eqb _ _) in En; discriminate En. }
    destruct G as (G1 & G2 & G3). apply optional_ok in H. destruct o as [u|].
    - apply punct_ok in H. subst m. split; [|split; assumption].
      cbn. eapply eats_app; [exact G1|]. apply eats_one. reflexivity.
    - destruct H as [_ ->]. split; assumption.
  Qed.

  Lemma snd_set fuel p W : Snd p selection_tokens W -> Snd (selection_set fuel p) set_tokens (fun l => l <> [] /\ Forall W l).
  Proof.
    intros Hp ts l r H. unfold selection_set in H. apply then_ok in H as (u & m & B & H). apply punct_ok in B.
    apply then_ok in H as (l' & m' & H & K). apply committed_inv in H.
    apply pmap_ok in K as ([u' r'] & K & K'). injection K' as -> ->. apply punct_ok in K as ->.
    destruct (snd_many1 _ _ _ _ Hp _ _ _ H) as [H1 H2]. split; [|exact H2]. eapply eats_framed; eassumption.
  Qed.
  Lemma snd_field fuel p : Snd p selection_tokens selection_ok -> Snd (field parse_f64 fuel p) selection_tokens selection_ok.
  Proof.
    intros Hp ts s r H. unfold field in H.
    apply then_ok in H as (n & m & B & H). apply name_ok in B as ->.
    apply then_ok in H as (o & m1 & B & H). apply optional_ok in B.
    apply then_ok in H as (args & m2 & A & H). destruct (snd_arguments _ _ _ _ A) as [A1 A2].
    apply then_ok in H as (ds & m3 & D & H). destruct (snd_directives _ _ _ _ D) as [D1 D2].
    apply pmap_ok in H as ([sub r'] & H & K). apply optional_ok in H.
    assert (G : eats m3 r' (match match sub with Some l => l | None => [] end with
                           | [] => [] | _ :: _ => framed "{" "}" (flat_map selection_tokens (match sub with Some l => l | None => [] end)) end)
               /\ Forall selection_ok (match sub with Some l => l | None => [] end)).
    { destruct sub as [l|].
      - destruct (snd_set _ _ _ Hp _ _ _ H) as [H1 [H2 H3]]. split; [|exact H3]. destruct l; [congruence|exact H1].
      - destruct H as [_ ->]. split; [apply eats_nil|constructor]. }
    destruct G as [G1 G2]. destruct o as [o|].
    - apply then_ok in B as (u & q & B & B'). apply punct_ok in B as ->. apply name_ok in B' as ->.
      injection K as -> ->. split.
      + cbn. apply eats_cons; [reflexivity|]. apply eats_cons; [reflexivity|]. apply eats_cons; [reflexivity|].
        eapply eats_app; [exact A1|]. eapply eats_app; [exact D1|]. exact G1.
      + cbn. split; [exact A2|]. split; [exact D2|]. apply go_forall_sel. exact G2.
    - destruct B as [_ ->]. injection K as -> ->. split.
      + cbn. apply eats_cons; [reflexivity|].
        eapply eats_app; [exact A1|]. eapply eats_app; [exact D1|]. exact G1.
      + cbn. split; [exact A2|]. split; [exact D2|]. apply go_forall_sel. exact G2.
  Qed.
  Lemma inline_ok fuel p ts s r :
    inline_fragment parse_f64 fuel p ts = POk (s, r) <->
    exists tc m ds m' l, optional (fun ts => then_ (ident "on" ts) (fun _ r => name r)) ts = POk (tc, m) /\
      directives parse_f64 fuel m = POk (ds, m') /\ selection_set fuel p m' = POk (l, r) /\ s = NInline tc ds l.
  Proof.
    unfold inline_fragment. destruct (optional _ ts) as [[tc m]| | | |]; split; try discriminate;
      try (intros (tc' & m0 & ds & m' & l & H & _); discriminate H).
    - destruct (directives parse_f64 fuel m) as [[ds m']| | | |] eqn:D; try discriminate. intros H.
      assert (G : pmap (fun '(l, r'') => (NInline tc ds l, r'')) (selection_set fuel p m') = POk (s, r)).
      { destruct tc, ds; try exact H; apply committed_inv in H; exact H. }
      apply pmap_ok in G as ([l r'] & G & K). injection K as -> ->.
      exists tc, m, ds, m', l. auto.
    - intros (tc' & m0 & ds & m' & l & H & D & S0 & ->). injection H as <- <-. rewrite D, S0. cbn.
      destruct tc, ds; reflexivity.
  Qed.
  Lemma snd_selection fuel : Snd (selection parse_f64 fuel) selection_tokens selection_ok.
  Proof.
    induction fuel as [|f IH]; intros ts s r; cbn [selection]; [discriminate|].
    destruct (field parse_f64 f (selection parse_f64 f) ts) as [[s' r']| | | |] eqn:E; try discriminate.
    - intros H. injection H as -> ->. exact (snd_field _ _ IH _ _ _ E).
    - intros H. apply then_ok in H as (u & m & B & H). apply punct_ok in B as ->.
      destruct (inline_fragment parse_f64 f (selection parse_f64 f) m) as [[s' r']| | | |] eqn:F; try discriminate.
      + injection H as -> ->. apply inline_ok in F as (tc & m1 & ds & m2 & l & O & D & S0 & ->).
        destruct (snd_directives _ _ _ _ D) as [D1 D2]. destruct (snd_set _ _ _ IH _ _ _ S0) as [S1 [S2 S3]].
        split; [|cbn; split; [exact D2|]; split; [exact S2|apply go_forall_sel; exact S3]].
        cbn. apply eats_cons; [reflexivity|].
        eapply eats_app; [|eapply eats_app; [exact D1|exact S1]].
        apply optional_ok in O. destruct tc as [t|].
        * apply then_ok in O as (u' & q & O & O'). apply ident_ok in O as ->. apply name_ok in O' as ->.
          apply eats_cons; [reflexivity|]. apply eats_one. reflexivity.
        * destruct O as [_ ->]. apply eats_nil.
      + unfold fragment_spread in H. apply then_ok in H as (n & m' & B & H). apply name_ok in B as ->.
        apply pmap_ok in H as ([ds r'] & H & K). injection K as -> ->.
        destruct (snd_directives _ _ _ _ H) as [D1 D2]. split.
        * cbn. apply eats_cons; [reflexivity|]. apply eats_cons; [reflexivity|]. exact D1.
        * cbn. split; [|exact D2]. intros ->. unfold inline_fragment in F. cbn in F.
          destruct m' as [|[k v] m'']; [cbn in F; discriminate F|]. cbn in F.
          destruct k; cbn in F; try discriminate F.
          destruct (directives parse_f64 f m'') as [[d q]| | | |] eqn:E'; try discriminate F.
          -- destruct (selection_set f (selection parse_f64 f) q) as [[? ?]| | | |]; discriminate F.
          -- unfold directives in E'. clear -E'. revert m'' E'. generalize (fun ts => then_ (punct "@" ts) (fun _ r => then_ (name r) (fun n r' =>
               pmap (fun '(a, r'') => ({| d_name := n; d_args := a |}, r'')) (arguments parse_f64 f r')))).
             intros q. generalize f. intros g. induction g as [|g IH]; intros ts; cbn; [discriminate|].
             destruct (q ts) as [[? ?]| | | |]; try discriminate. specialize (IH l). destruct (many g q l); try discriminate.
             intros _. apply IH. reflexivity.
  Qed.
  Lemma snd_vardefs fuel : Snd (variable_definitions parse_f64 fuel) vardefs_tokens (Forall vardef_ok).
  Proof.
    assert (V : Snd (variable_definition parse_f64 fuel) vardef_tokens vardef_ok).
    { intros ts v r H. unfold variable_definition in H.
      apply then_ok in H as (u & m & B & H). apply punct_ok in B as ->.
      apply then_ok in H as (n & m' & B & H). apply name_ok in B as ->.
      apply then_ok in H as (u' & m1 & B & H). apply punct_ok in B as ->.
      apply then_ok in H as (t & m2 & T & H). destruct (snd_type _ _ _ _ T) as [T1 T2].
      apply pmap_ok in H as ([d r'] & H & K). injection K as -> ->. apply optional_ok in H.
      assert (G : eats m2 r' (match d with Some d => DPunct "=" :: value_tokens d | None => [] end)
                  /\ match d with Some d => value_ok true d | None => True end).
      { destruct d as [d|].
        - apply then_ok in H as (u2 & q & B & H). apply punct_ok in B as ->. destruct (snd_value _ _ _ _ _ H) as [H1 H2].
          split; [|exact H2]. apply eats_cons; [reflexivity|exact H1].
        - destruct H as [_ ->]. split; [apply eats_nil|exact I]. }
      destruct G as [G1 G2]. split; [|split; assumption]. unfold vardef_tokens. cbn.
      apply eats_cons; [reflexivity|]. apply eats_cons; [reflexivity|]. apply eats_cons; [reflexivity|].
      eapply eats_app; [exact T1|exact G1]. }
    intros ts l r H. unfold variable_definitions in H. apply pmap_ok in H as ([o r'] & H & K). injection K as -> ->.
    apply optional_ok in H. destruct o as [l|].
    - apply then_ok in H as (u & m & B & H). apply punct_ok in B.
      apply then_ok in H as (l' & m' & H & K). apply committed_inv in H.
      apply pmap_ok in K as ([u' r''] & K & K'). injection K' as -> ->. apply punct_ok in K as ->.
      destruct (snd_many1 _ _ _ _ V _ _ _ H) as [H1 [H2 H3]].
      split; [|exact H3]. unfold vardefs_tokens. destruct l'; [congruence|]. eapply eats_framed; eassumption.
    - destruct H as [_ ->]. split; [apply eats_nil|constructor].
  Qed.

  (** The parser takes a fragment named "on". *)
  Definition def_ok (d : pdef) : Prop :=
    match d with PFragment _ _ ds l => dirs_ok ds /\ set_ok l | d => definition_ok d end.
  Lemma snd_operation fuel k ts d r :
    then_ (ident (keyword k) ts) (fun _ r => operation_common parse_f64 fuel k r) = POk (d, r) ->
    eats ts r (definition_tokens d) /\ def_ok d.
  Proof.
    intros H. apply then_ok in H as (u & m & B & H). apply ident_ok in B as ->. unfold operation_common in H.
    apply then_ok in H as (n & m1 & N0 & H). apply optional_ok in N0.
    apply then_ok in H as (vs & m2 & V & H). destruct (snd_vardefs _ _ _ _ V) as [V1 V2].
    apply then_ok in H as (ds & m3 & D & H). destruct (snd_directives _ _ _ _ D) as [D1 D2].
    apply pmap_ok in H as ([l r'] & H & K). injection K as -> ->.
    destruct (snd_set _ _ _ (snd_selection fuel) _ _ _ H) as [S1 S2].
    split; [|cbn; split; [exact V2|]; split; [exact D2|exact S2]].
    cbn. apply eats_cons; [reflexivity|]. eapply eats_app; [|eapply eats_app; [exact V1|eapply eats_app; [exact D1|exact S1]]].
    destruct n as [n|]; [apply name_ok in N0 as ->; apply eats_one; reflexivity|destruct N0 as [_ ->]; apply eats_nil].
  Qed.
  Lemma or_ok {A} (p q : list token -> parse_result A) ts a : or p q ts = POk a -> p ts = POk a \/ (p ts = PPeek /\ q ts = POk a).
  Proof. unfold or. destruct (p ts); try discriminate; auto. Qed.
  Lemma snd_definition fuel : Snd (definition parse_f64 fuel) definition_tokens def_ok.
  Proof.
    intros ts d r H. unfold definition in H. apply or_ok in H as [H|[_ H]].
    { apply pmap_ok in H as ([l r'] & H & K). injection K as -> ->.
      exact (snd_set _ _ _ (snd_selection fuel) _ _ _ H). }
    apply or_ok in H as [H|[_ H]]; [exact (snd_operation fuel KQuery _ _ _ H)|].
    apply or_ok in H as [H|[_ H]]; [exact (snd_operation fuel KMutation _ _ _ H)|].
    apply or_ok in H as [H|[_ H]]; [exact (snd_operation fuel KSubscription _ _ _ H)|].
    unfold fragment_definition in H. apply then_ok in H as (u & m & B & H). apply ident_ok in B as ->.
    apply then_ok in H as (n & m1 & B & H). apply name_ok in B as ->.
    apply then_ok in H as (u' & m2 & B & H). apply ident_ok in B as ->.
    apply then_ok in H as (tc & m3 & B & H). apply name_ok in B as ->.
    apply then_ok in H as (ds & m4 & D & H). destruct (snd_directives _ _ _ _ D) as [D1 D2].
    apply pmap_ok in H as ([l r'] & H & K). injection K as -> ->.
    destruct (snd_set _ _ _ (snd_selection fuel) _ _ _ H) as [S1 S2].
    split; [|split; assumption]. cbn. do 4 (apply eats_cons; [reflexivity|]). eapply eats_app; [exact D1|exact S1].
  Qed.
  Lemma parse_sound ts ds : parse_tokens parse_f64 ts = POk ds ->
    (ds <> [] /\ Forall def_ok ds) /\ Forall2 reads ts (document_tokens ds).
  Proof.
    unfold parse_tokens. destruct (many1 _ _ ts) as [[l [|t r]]| | | |] eqn:E; try discriminate.
    intros H. injection H as ->. destruct (snd_many1 _ _ _ _ (snd_definition _) _ _ _ E) as [(c & -> & H) W].
    split; [exact W|]. rewrite app_nil_r. exact H.
  Qed.
End Grammar.
