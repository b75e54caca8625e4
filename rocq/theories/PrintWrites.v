(** Texts made of pieces, each lexed into its tokens. *)
From Coq Require Import String Ascii List NArith ZArith Bool Lia.
From Verif Require Import StrOrd StrUtil Ast CondModel NormModel NormProofs ProjModel GqlModel GqlSpec GqlChars PrintModel PrintSpec.
Import ListNotations.
Local Open Scope string_scope.
Local Open Scope list_scope.

(** What may come after a word *)
Definition parts (c : ascii) : Prop := among " ,!$&():=@[]{}|" c \/ c = "010"%char.
Definition starts (s : string) : Prop := match s with EmptyString => False | String c _ => parts c end.
Definition parted (s : string) : Prop := s = "" \/ starts s.

Lemma starts_app a b : starts a -> starts (a ++ b)%string.
Proof. destruct a; [intros []|exact (fun H => H)]. Qed.
Lemma parted_app a b : starts a -> parted (a ++ b)%string.
Proof. right. apply starts_app. assumption. Qed.

Section Writes.
  Variable f64_of : string -> option N.
  Variable show : N -> string.
  Variable string_ok : string -> Prop.
  Variable L : tkind -> string -> Prop.
  Variable E : tkind -> string -> string -> Prop.
  Hypothesis L_punct : forall v, Punctuator v -> L KPunct v.
  Hypothesis E_punct : forall v r, E KPunct v r.
  Hypothesis L_name : forall v, Name v -> L KName v.
  Hypothesis L_int : forall v, IntegerPart v -> L KInt v.
  Hypothesis L_float : forall v, FloatText v -> plain_exponent v -> L KFloat v.
  Hypothesis L_string : forall s, string_ok s -> L KString (string_literal s).
  Hypothesis E_parted : forall k v r, k <> KPunct -> parted r -> E k v r.
  Hypothesis string_means : forall s, string_ok s -> means f64_of (mktok KString (string_literal s)) (DStr s).

  (** [q]: what is next has to part *)
  Definition writes (q : bool) (p : string) (ds : list dtok) : Prop :=
    forall rest ts, (q = true -> parted rest) -> lexes_with L E rest ts ->
    exists ts', lexes_with L E (p ++ rest)%string (ts' ++ ts) /\ Forall2 (means f64_of) ts' ds.

  Lemma writes_more q p ds : writes false p ds -> writes q p ds.
  Proof. intros H rest ts _ R. apply H; [discriminate|exact R]. Qed.
  Lemma writes_nil q : writes q "" [].
  Proof. intros rest ts _ R. exists []. split; [exact R|constructor]. Qed.
  Lemma writes_cat q q' a da b db : writes q a da -> (q = true -> starts b) -> writes q' b db -> writes q' (a ++ b) (da ++ db).
  Proof.
    intros A S B rest ts P R. destruct (B rest ts P R) as (tb & B1 & B2).
    destruct (A (b ++ rest)%string (tb ++ ts)) as (ta & A1 & A2); [intros Q; apply parted_app; auto|exact B1|].
    exists (ta ++ tb). rewrite string_app_assoc, <- app_assoc. split; [exact A1|apply Forall2_app; assumption].
  Qed.
  Lemma writes_punct v : Punctuator v -> writes false v [DPunct v].
  Proof.
    intros H rest ts _ R. exists [mktok KPunct v]. split; [|constructor; constructor].
    apply (lexes_token _ _ KPunct v); [apply L_punct; exact H|apply E_punct|exact R].
  Qed.
  Lemma writes_word k v d : k <> KPunct -> L k v -> means f64_of (mktok k v) d -> writes true v [d].
  Proof.
    intros K H M rest ts P R. exists [mktok k v]. split; [|constructor; [exact M|constructor]].
    apply (lexes_token _ _ k v); [exact H|apply E_parted; auto|exact R].
  Qed.
  Lemma writes_name v : Name v -> writes true v [DName v].
  Proof. intros H. apply (writes_word KName); [discriminate|apply L_name; exact H|constructor]. Qed.
  Lemma writes_blank c : c = " "%char \/ c = ","%char \/ c = "010"%char -> writes false (String c "") [].
  Proof.
    intros H rest ts _ R. exists []. split; [|constructor]. apply (lexes_ignored _ _ (String c "")); [|exact R]. constructor.
    destruct H as [->|[->| ->]]; [left; cbn; tauto|left; cbn; tauto|right; right; left; reflexivity].
  Qed.
  Lemma writes_space : writes false " " []. Proof. apply writes_blank. auto. Qed.
  Lemma writes_comma : writes false ", " [].
  Proof. change ", "%string with ("," ++ " ")%string. apply (writes_cat false false "," [] " " []); [apply writes_blank; auto|discriminate|apply writes_space]. Qed.
  Lemma writes_newline : writes false nl []. Proof. apply writes_blank. auto. Qed.

  (** An opening bracket, an inside, a closing bracket *)
  Lemma writes_framed q o c p ds : Punctuator o -> Punctuator c -> starts c -> writes q p ds ->
    writes false (o ++ p ++ c)%string (framed o c ds).
  Proof.
    intros Ho Hc Sc H. unfold framed. apply (writes_cat false false o [DPunct o]); [apply writes_punct; exact Ho|discriminate|].
    apply (writes_cat q); [exact H|auto|apply writes_punct; exact Hc].
  Qed.
  (** Pieces with something ignored between *)
  Lemma writes_join {A} (f : A -> string) (g : A -> list dtok) sep l : starts sep -> writes false sep [] ->
    Forall (fun x => writes true (f x) (g x)) l -> writes true (join sep (map f l)) (flat_map g l).
  Proof.
    intros S W. induction 1 as [|x l H1 H2 IH]; [apply writes_nil|]. destruct l as [|y l].
    - cbn [map join flat_map]. rewrite app_nil_r. exact H1.
    - change (join sep (map f (x :: y :: l))) with (f x ++ sep ++ join sep (map f (y :: l)))%string.
      change (flat_map g (x :: y :: l)) with (g x ++ [] ++ flat_map g (y :: l)).
      apply (writes_cat true); [exact H1|intros _; apply starts_app; exact S|]. apply (writes_cat false); [exact W|discriminate|exact IH].
  Qed.
  Lemma writes_keyed k p ds : Name k -> writes true p ds -> writes true (pair_text (k, p)) (keyed k ds).
  Proof.
    intros K H. unfold pair_text, keyed. cbn [fst snd]. change (k ++ ": " ++ p)%string with (k ++ ":" ++ " " ++ p)%string.
    apply (writes_cat true true k [DName k]); [apply writes_name; exact K|intros _; left; cbn; tauto|].
    apply (writes_cat false true ":" [DPunct ":"]); [apply writes_punct; cbn; tauto|discriminate|].
    apply (writes_cat false true " " []); [apply writes_space|discriminate|exact H].
  Qed.
  Ltac punct := cbn; tauto.
  Ltac opens := left; cbn; tauto.
  Ltac is_name := repeat match goal with |- Name _ => split | |- each_char _ (String _ _) => split | |- each_char _ EmptyString => exact I
    | |- NameContinue _ => left | |- NameStart _ => cbn; tauto end.

  Lemma name_true : Name "true". Proof. is_name. Qed.
  Lemma name_false : Name "false". Proof. is_name. Qed.
  Lemma name_null : Name "null". Proof. is_name. Qed.
  Hypothesis int_part : forall z, IntegerPart (i64_text z).
  Hypothesis int_says : forall z, int_value (i64_text z) = z.

  Notation fit := (value_fit f64_of show string_ok).
  Lemma value_writes const v : fit const v -> writes true (value_text show v) (value_tokens v).
  Proof.
    induction v as [nm|z|b|s|b| |s|l IH|o IH] using gvalue_ind'; intros F; inversion F; subst; cbn [value_text value_tokens].
    - apply (writes_cat false true "$" [DPunct "$"]); [apply writes_punct; punct|discriminate|apply writes_name; assumption].
    - apply (writes_word KInt); [discriminate|apply L_int, int_part|]. rewrite <- (int_says z) at 2. constructor. rewrite int_says. assumption.
    - match goal with H : float_fit _ _ _ |- _ => destruct H as (F1 & F2 & F3) end.
      apply (writes_word KFloat); [discriminate|apply L_float; assumption|constructor; assumption].
    - apply (writes_word KString); [discriminate|auto|auto].
    - destruct b; apply writes_name; [exact name_true|exact name_false].
    - apply writes_name, name_null.
    - apply writes_name. assumption.
    - apply writes_more, (writes_framed true "[" "]"); [punct|punct|opens|].
      apply writes_join; [opens|apply writes_comma|]. match goal with H : Forall (fit const) l |- _ => clear F; induction H end; inversion IH; subst; constructor; auto.
    - apply writes_more, (writes_framed true "{" "}"); [punct|punct|opens|].
      apply (writes_join (fun kv => pair_text (fst kv, value_text show (snd kv))) (fun kv => keyed (fst kv) (value_tokens (snd kv))));
        [opens|apply writes_comma|].
      match goal with H : Forall _ o |- _ => clear F; induction H as [|kv o [H1 H2] H3 IHo] end; inversion IH; subst; constructor; auto.
      apply writes_keyed; auto.
  Qed.
  Lemma args_writes args : args <> [] -> args_fit f64_of show string_ok args ->
    writes false ("(" ++ arguments_text show args ++ ")") (argument_tokens args).
  Proof.
    intros Hne H. destruct args as [|a args]; [congruence|]. unfold argument_tokens.
    apply (writes_framed true "(" ")"); [punct|punct|opens|]. unfold arguments_text.
    apply (writes_join (fun kv => pair_text (fst kv, value_text show (snd kv))) (fun kv => keyed (fst kv) (value_tokens (snd kv))));
      [opens|apply writes_comma|]. eapply Forall_impl; [|exact H]. intros kv [K V]. apply writes_keyed; [exact K|].
    apply value_writes with (const := false). exact V.
  Qed.

  Lemma name_skip : Name "skip". Proof. is_name. Qed.
  Lemma name_include : Name "include". Proof. is_name. Qed.
  Lemma name_if : Name "if". Proof. is_name. Qed.
  Lemma name_on : Name "on". Proof. is_name. Qed.
  Lemma name_fragment : Name "fragment". Proof. is_name. Qed.
  Lemma name_kind k : Name (opkind_text k). Proof. destruct k; is_name. Qed.

  Lemma condition_writes d v : Name d -> Name v ->
    writes false (" @" ++ d ++ "(if: $" ++ v ++ ")") (directive_tokens (condition d (Some v))).
  Proof.
    intros D V. change (" @" ++ d ++ "(if: $" ++ v ++ ")")%string with (" " ++ "@" ++ d ++ "(" ++ pair_text ("if", "$" ++ v) ++ ")")%string.
    cbn [condition directive_tokens flat_map d_name d_args argument_tokens fst snd value_tokens app]. rewrite !app_nil_r.
    apply (writes_cat false false " " []); [apply writes_space|discriminate|].
    apply (writes_cat false false "@" [DPunct "@"]); [apply writes_punct; punct|discriminate|].
    apply (writes_cat true false d [DName d]); [apply writes_name; exact D|intros _; opens|].
    apply (writes_framed true "(" ")"); [punct|punct|opens|]. apply writes_keyed; [exact name_if|].
    apply (writes_cat false true "$" [DPunct "$"]); [apply writes_punct; punct|discriminate|apply writes_name; exact V].
  Qed.
  Lemma skip_writes v : name_fit v -> writes false (skip_text v) (directive_tokens (condition "skip" v)).
  Proof. destruct v as [v|]; intros H; [apply (condition_writes "skip"); [exact name_skip|exact H]|apply writes_nil]. Qed.
  Lemma include_writes v : name_fit v -> writes false (include_text v) (directive_tokens (condition "include" v)).
  Proof. destruct v as [v|]; intros H; [apply (condition_writes "include"); [exact name_include|exact H]|apply writes_nil]. Qed.
  Lemma conditions_write s i : name_fit s -> name_fit i -> writes false (skip_text s ++ include_text i) (directive_tokens (conditions s i)).
  Proof.
    intros Hs Hi. unfold conditions, directive_tokens. rewrite flat_map_app.
    apply (writes_cat false); [apply skip_writes; exact Hs|discriminate|apply include_writes; exact Hi].
  Qed.
  Lemma condition_starts s i : s <> None \/ i <> None -> starts (skip_text s ++ include_text i)%string.
  Proof. destruct s; [intros _; opens|]. destruct i; [intros _; opens|]. intros [H|H]; congruence. Qed.

  Lemma braced_writes (l : list sel) : l <> [] -> Forall (fun x => writes true (sel_text show x) (selection_tokens (shown_sel x))) l ->
    writes false (set_text show l) (set_tokens (map shown_sel l)).
  Proof.
    intros Hne H. unfold set_text, braced, set_tokens. destruct l as [|x l]; [congruence|].
    change (writes false ("{" ++ join " " (map (sel_text show) (x :: l)) ++ "}") (framed "{" "}" (flat_map selection_tokens (map shown_sel (x :: l))))).
    apply (writes_framed true "{" "}"); [punct|punct|opens|].
    assert (Q : flat_map selection_tokens (map shown_sel (x :: l)) = flat_map (fun y => selection_tokens (shown_sel y)) (x :: l)).
    { generalize (x :: l). clear. intros l. induction l as [|x l IH]; cbn; [reflexivity|]. rewrite IH. reflexivity. }
    rewrite Q. apply writes_join; [opens|apply writes_space|exact H].
  Qed.
  (** A name, and what can follow it without a space: something that parts, or nothing *)
  Lemma writes_tail q a da b db : writes true a da -> b = "" /\ db = [] \/ starts b /\ writes q b db -> writes true (a ++ b) (da ++ db).
  Proof.
    intros A [[-> ->]|[S B]].
    - rewrite string_app_nil_r, app_nil_r. exact A.
    - intros rest ts P R. apply (writes_cat true true a da b db A (fun _ => S)); [|exact P|exact R].
      intros rest' ts' P' R'. apply (B rest' ts'); auto.
  Qed.
  Lemma tail_cat a da b db : a = "" /\ da = [] \/ starts a /\ writes false a da -> b = "" /\ db = [] \/ starts b /\ writes false b db ->
    (a ++ b)%string = "" /\ da ++ db = [] \/ starts (a ++ b)%string /\ writes false (a ++ b) (da ++ db).
  Proof.
    intros [[-> ->]|[Sa A]] HB; [exact HB|]. right. split; [apply starts_app; exact Sa|]. destruct HB as [[-> ->]|[Sb B]].
    - rewrite string_app_nil_r, app_nil_r. exact A.
    - apply (writes_cat false); [exact A|discriminate|exact B].
  Qed.

  Lemma sel_writes x : sel_fit f64_of show string_ok x -> writes true (sel_text show x) (selection_tokens (shown_sel x)).
  Proof.
    induction x as [n a args inc skip om sub IH|t inc skip sub IH|n] using sel_ind'; intros F; inversion F; subst.
    - assert (Hsub : Forall (fun x => writes true (sel_text show x) (selection_tokens (shown_sel x))) sub).
      { match goal with H : Forall (sel_fit _ _ _) sub |- _ => clear -H IH; induction H end; inversion IH; subst; constructor; auto. }
      cbn [sel_text shown_sel selection_tokens].
      assert (Hal : writes false (match a with Some a => a ++ ": " | None => "" end) (alias_tokens a)).
      { destruct a as [a|]; [|apply writes_nil]. change (a ++ ": ")%string with (a ++ ":" ++ " ")%string.
        apply (writes_cat true false a [DName a]); [apply writes_name; assumption|intros _; opens|].
        apply (writes_cat false false ":" [DPunct ":"] " " []); [apply writes_punct; punct|discriminate|apply writes_space]. }
      apply (writes_cat false); [exact Hal|discriminate|]. rewrite app_comm_cons. change (DName n :: argument_tokens (listed args)) with ([DName n] ++ argument_tokens (listed args)).
      rewrite <- app_assoc. apply (writes_tail false); [apply writes_name; assumption|].
      apply tail_cat; [|rewrite <- string_app_assoc; apply tail_cat].
      + destruct args as [[|kv args]|]; [left; auto| |left; auto]. right. split; [opens|]. apply args_writes; [discriminate|assumption].
      + destruct skip as [skip|], inc as [inc|]; cbn [conditions condition app]; [right..|left; auto];
          (split; [opens|]); try (apply (conditions_write (Some skip) (Some inc)); assumption);
          [apply (conditions_write (Some skip) None); assumption|apply (conditions_write None (Some inc)); assumption].
      + destruct sub as [|x sub]; [left; auto|]. right. split; [opens|].
        apply (braced_writes (x :: sub)); [discriminate|exact Hsub].
    - assert (Hsub : Forall (fun x => writes true (sel_text show x) (selection_tokens (shown_sel x))) sub).
      { match goal with H : Forall (sel_fit _ _ _) sub |- _ => clear -H IH; induction H end; inversion IH; subst; constructor; auto. }
      cbn [sel_text shown_sel selection_tokens on_tokens app].
      change ("...on " ++ t ++ skip_text skip ++ include_text inc ++ braced (map (sel_text show) sub))%string
        with ("..." ++ "on" ++ " " ++ t ++ skip_text skip ++ include_text inc ++ set_text show sub)%string.
      change (framed "{" "}" (flat_map selection_tokens (map shown_sel sub))) with (set_tokens (map shown_sel sub)).
      apply (writes_cat false true "..." [DPunct "..."]); [apply writes_punct; punct|discriminate|].
      apply (writes_cat true true "on" [DName "on"]); [apply writes_name, name_on|intros _; opens|].
      apply (writes_cat false true " " []); [apply writes_space|discriminate|].
      apply (writes_tail false t [DName t]); [apply writes_name; assumption|]. rewrite <- string_app_assoc. apply tail_cat.
      + destruct skip as [skip|], inc as [inc|]; cbn [conditions condition app]; [right..|left; auto];
          (split; [opens|]); try (apply (conditions_write (Some skip) (Some inc)); assumption);
          [apply (conditions_write (Some skip) None); assumption|apply (conditions_write None (Some inc)); assumption].
      + right. split; [|apply braced_writes; assumption]. destruct sub; [congruence|opens].
    - cbn [sel_text shown_sel selection_tokens directive_tokens flat_map].
      apply (writes_cat false true "..." [DPunct "..."]); [apply writes_punct; punct|discriminate|apply writes_name; assumption].
  Qed.
  Lemma set_writes l : set_fit f64_of show string_ok l -> writes false (set_text show l) (set_tokens (map shown_sel l)).
  Proof. intros [Hne H]. apply braced_writes; [exact Hne|]. eapply Forall_impl; [|exact H]. intros x. apply sel_writes. Qed.
  Lemma set_starts l : set_fit f64_of show string_ok l -> starts (set_text show l).
  Proof. intros [Hne _]. destruct l; [congruence|opens]. Qed.

  Lemma type_writes t : type_fit t -> writes true (type_text t) (type_tokens t).
  Proof.
    induction t as [n|t IH|t IH]; cbn [type_fit type_text type_tokens].
    - apply writes_name.
    - intros H. apply writes_more, (writes_framed true "[" "]"); [punct|punct|opens|auto].
    - intros [H _]. apply (writes_cat true); [auto|intros _; opens|]. apply writes_more, writes_punct. punct.
  Qed.
  Lemma vardef_writes v : vardef_fit f64_of show string_ok v -> writes true (vardef_text show v) (vardef_tokens v).
  Proof.
    intros (N1 & T & D). unfold vardef_text, vardef_tokens.
    apply (writes_cat false true "$" [DPunct "$"]); [apply writes_punct; punct|discriminate|].
    apply (writes_cat true true (vd_name v) [DName (vd_name v)]); [apply writes_name; exact N1|intros _; opens|].
    apply (writes_cat false true ":" [DPunct ":"]); [apply writes_punct; punct|discriminate|].
    apply (writes_tail true); [apply type_writes; exact T|]. destruct (vd_default v) as [d|]; [right|left; auto]. split; [opens|].
    apply (writes_cat false true "=" [DPunct "="]); [apply writes_punct; punct|discriminate|apply value_writes with (const := true); exact D].
  Qed.
  (** What comes after the kind and the name *)
  Definition vars_part (vs : list vardef) : string :=
    match vs with [] => "" | _ => "(" ++ join ", " (map (vardef_text show) vs) ++ ")" end.
  Lemma vars_write vs : Forall (vardef_fit f64_of show string_ok) vs -> writes false (vars_part vs) (vardefs_tokens vs).
  Proof.
    intros H. destruct vs as [|v vs]; [apply writes_nil|]. unfold vars_part, vardefs_tokens.
    apply (writes_framed true "(" ")"); [punct|punct|opens|]. apply writes_join; [opens|apply writes_comma|].
    eapply Forall_impl; [|exact H]. intros x. apply vardef_writes.
  Qed.
  Lemma body_writes vs l : Forall (vardef_fit f64_of show string_ok) vs -> set_fit f64_of show string_ok l ->
    writes false (vars_part vs ++ set_text show l) (vardefs_tokens vs ++ set_tokens (map shown_sel l)).
  Proof. intros V S. apply (writes_cat false); [apply vars_write; exact V|discriminate|apply set_writes; exact S]. Qed.
  Lemma body_starts vs l : set_fit f64_of show string_ok l -> starts (vars_part vs ++ set_text show l)%string.
  Proof. intros S. destruct vs; [apply set_starts; exact S|opens]. Qed.

  Lemma op_writes o : op_fit f64_of show string_ok o -> writes false (operation_text show o) (definition_tokens (shown_op o)).
  Proof.
    intros (Hn & Hv & Hs & Hk). unfold operation_text, shown_op, short_form.
    assert (B := body_writes _ _ Hv Hs). assert (St := body_starts (listed (op_vars o)) _ Hs).
    assert (V : (match op_vars o with Some (v :: vs) => ("(" ++ join ", " (map (vardef_text show) (v :: vs)) ++ ")")%string | _ => "" end)
      = vars_part (listed (op_vars o))) by (destruct (op_vars o) as [[|v vs]|]; reflexivity).
    rewrite V.
    assert (G : forall k, op_kind o = Some k ->
      writes false ((opkind_text k) ++ (match op_name o with Some n => " " ++ n ++ " " | None => "" end)
                    ++ vars_part (listed (op_vars o)) ++ set_text show (op_sels o))
        (definition_tokens (POperation k (name_of o) (listed (op_vars o)) [] (map shown_sel (op_sels o))))).
    { intros k Ek. cbn [definition_tokens directive_tokens flat_map app]. change (keyword k) with (opkind_text k).
      apply (writes_cat true false (opkind_text k) [DName (opkind_text k)]); [apply writes_name, name_kind| |].
      - intros _. destruct (op_name o); [opens|exact St].
      - apply (writes_cat false); [|discriminate|exact B]. unfold name_of in *. destruct (op_name o) as [n|]; [|apply writes_nil].
        apply (writes_cat false false " " []); [apply writes_space|discriminate|].
        destruct (string_dec n "") as [->|Hne]; [apply writes_space|].
        apply (writes_cat true false n [DName n] " " []); [apply writes_name; exact Hn|intros _; opens|apply writes_space]. }
    unfold kind_of in *. unfold name_of in G, Hk |- *. destruct (op_kind o) as [k|].
    - specialize (G k eq_refl). destruct k; cbn [andb].
      + destruct (op_name o) as [[|c n]|].
        * change (if string_dec "" "" then None else Some "") with (@None string) in *.
          destruct (op_vars o) as [[|v vs]|]; cbn [andb listed] in *; [apply set_writes; exact Hs|exact G|apply set_writes; exact Hs].
        * cbn [andb]. destruct (string_dec (String c n) ""); [discriminate|]. exact G.
        * destruct (op_vars o) as [[|v vs]|]; cbn [andb listed] in *; [apply set_writes; exact Hs|exact G|apply set_writes; exact Hs].
      + exact G.
      + exact G.
    - destruct (Hk eq_refl) as [H1 H2]. rewrite H1, H2.
      assert (N1 : (match op_name o with None | Some "" => true | _ => false end) = true).
      { destruct (op_name o) as [[|c n]|]; [reflexivity| |reflexivity]. destruct (string_dec (String c n) ""); discriminate. }
      assert (N2 : (match op_vars o with None | Some [] => true | _ => false end) = true).
      { destruct (op_vars o) as [[|v vs]|]; [reflexivity|discriminate H2|reflexivity]. }
      rewrite N1, N2. cbn [andb]. apply set_writes. exact Hs.
  Qed.
  Lemma frag_writes f : frag_fit f64_of show string_ok f -> writes false (fragment_text show f) (definition_tokens (shown_frag f)).
  Proof.
    intros (N1 & _ & N2 & S). unfold fragment_text, shown_frag. cbn [definition_tokens directive_tokens flat_map app].
    change ("fragment " ++ fr_name f ++ " on " ++ fr_on f ++ " " ++ set_text show (fr_sels f))%string
      with ("fragment" ++ " " ++ fr_name f ++ " " ++ "on" ++ " " ++ fr_on f ++ " " ++ set_text show (fr_sels f))%string.
    apply (writes_cat true false "fragment" [DName "fragment"]); [apply writes_name, name_fragment|intros _; opens|].
    apply (writes_cat false false " " []); [apply writes_space|discriminate|].
    apply (writes_cat true false (fr_name f) [DName (fr_name f)]); [apply writes_name, N1|intros _; opens|].
    apply (writes_cat false false " " []); [apply writes_space|discriminate|].
    apply (writes_cat true false "on" [DName "on"]); [apply writes_name, name_on|intros _; opens|].
    apply (writes_cat false false " " []); [apply writes_space|discriminate|].
    apply (writes_cat true false (fr_on f) [DName (fr_on f)]); [apply writes_name, N2|intros _; opens|].
    apply (writes_cat false false " " []); [apply writes_space|discriminate|]. apply set_writes. exact S.
  Qed.
  Definition frags_part (l : list fragment) : string :=
    match l with [] => "" | l => (nl ++ nl ++ lines (map (fragment_text show) l))%string end.
  Lemma lines_write l : Forall (frag_fit f64_of show string_ok) l ->
    writes false (lines (map (fragment_text show) l)) (flat_map definition_tokens (map shown_frag l)).
  Proof.
    induction 1 as [|f l H1 H2 IH]; [apply writes_nil|]. cbn [map lines flat_map].
    apply (writes_cat false); [apply frag_writes; exact H1|discriminate|].
    apply (writes_cat false false nl []); [apply writes_newline|discriminate|exact IH].
  Qed.
  Lemma frags_write l : Forall (frag_fit f64_of show string_ok) l -> writes false (frags_part l) (flat_map definition_tokens (map shown_frag l)).
  Proof.
    intros H. assert (W := lines_write l H). destruct l as [|f l]; [apply writes_nil|]. unfold frags_part.
    apply (writes_cat false false nl []); [apply writes_newline|discriminate|].
    apply (writes_cat false false nl []); [apply writes_newline|discriminate|exact W].
  Qed.
  Lemma doc_parts d : document_text show d = (operation_text show (doc_op d) ++ frags_part (doc_frags d))%string.
  Proof. unfold document_text. destruct (doc_frags d); reflexivity. Qed.
  Lemma doc_writes d : doc_fit f64_of show string_ok d -> writes false (document_text show d) (document_tokens (shown d)).
  Proof.
    intros [Ho Hf]. rewrite doc_parts. unfold document_tokens, shown. cbn [flat_map].
    apply (writes_cat false); [apply op_writes; exact Ho|discriminate|apply frags_write; exact Hf].
  Qed.
  Definition blank_if (b : bool) : string := if b then " " else "".
  Lemma named_writes name k b vs l fs : Name name -> Forall (vardef_fit f64_of show string_ok) vs -> set_fit f64_of show string_ok l ->
    Forall (frag_fit f64_of show string_ok) fs ->
    writes false (opkind_text k ++ " " ++ name ++ blank_if b ++ vars_part vs ++ set_text show l ++ frags_part fs)
      (definition_tokens (POperation k (Some name) vs [] (map shown_sel l)) ++ flat_map definition_tokens (map shown_frag fs)).
  Proof.
    intros Hn Hv Hs Hf. cbn [definition_tokens directive_tokens flat_map app]. change (keyword k) with (opkind_text k).
    apply (writes_cat true false (opkind_text k) [DName (opkind_text k)]); [apply writes_name, name_kind|intros _; opens|].
    apply (writes_cat false false " " []); [apply writes_space|discriminate|].
    apply (writes_cat true false name [DName name]); [apply writes_name, Hn| |].
    - intros _. destruct b; [opens|]. cbn [blank_if append]. destruct vs; [|opens]. cbn [vars_part append]. apply starts_app, set_starts, Hs.
    - apply (writes_cat false false (blank_if b) []); [destruct b; [apply writes_space|apply writes_nil]|discriminate|].
      rewrite <- string_app_assoc. apply (writes_cat false); [apply body_writes; assumption|discriminate|apply frags_write; exact Hf].
  Qed.
  Lemma writes_all p ds : writes false p ds -> exists ts, lexes_with L E p ts /\ Forall2 (means f64_of) ts ds.
  Proof.
    intros W. destruct (W "" [] ltac:(discriminate) (lexes_end _ _)) as (ts & H1 & H2). rewrite string_app_nil_r, app_nil_r in H1. eauto.
  Qed.
End Writes.
