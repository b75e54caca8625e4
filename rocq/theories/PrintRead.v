(** Reading the text of an operation back, and the text with a name put in. *)
From Coq Require Import String Ascii List NArith ZArith Bool Lia Sorted.
From Verif Require Import StrOrd StrUtil Ast CondModel NormModel NormProofs JsonWriterModel ProjModel RequestModel RequestProofs
  GqlModel GqlSpec GqlChars GqlText PrintModel PrintSpec PrintWrites PrintProofs.
Import ListNotations.
Local Open Scope string_scope.
Local Open Scope list_scope.

(** * The document is one of the grammar. *)
Section Ok.
  Variable f64_of : string -> option N.
  Variable show : N -> string.
  Variable string_ok : string -> Prop.
  Lemma value_fit_ok c v : value_fit f64_of show string_ok c v -> value_ok c v.
  Proof.
    induction v as [nm|z|b|s|b| |s|l IH|o IH] using gvalue_ind'; intros F; inversion F; subst; cbn; auto.
    - match goal with H : Forall _ l |- _ => clear F; induction H end; [exact I|]. inversion IH; subst. split; [auto|]. match goal with K : Forall _ _ -> _ |- _ => apply K; assumption end.
    - match goal with H : Forall _ o |- _ => clear F; induction H as [|kv o [H1 H2] H3 IHo] end; [exact I|]. inversion IH; subst. split; [auto|]. match goal with K : Forall _ _ -> _ |- _ => apply K; assumption end.
  Qed.
  Lemma conditions_ok s i : dirs_ok (conditions s i).
  Proof. unfold dirs_ok, conditions. destruct s, i; repeat (constructor; try reflexivity). Qed.
  Lemma sel_fit_ok x : sel_fit f64_of show string_ok x -> selection_ok (shown_sel x).
  Proof.
    induction x as [n a args inc skip om sub IH|t inc skip sub IH|n] using sel_ind'; intros F; inversion F; subst; cbn [shown_sel selection_ok].
    - split; [|split; [apply conditions_ok|]].
      + match goal with H : args_fit _ _ _ _ |- _ => eapply Forall_impl; [|exact H] end. intros kv [_ V]. eapply value_fit_ok; exact V.
      + match goal with H : Forall _ sub |- _ => clear F; induction H end; [exact I|]. inversion IH; subst. split; [auto|]. match goal with K : Forall _ _ -> _ |- _ => apply K; assumption end.
    - split; [apply conditions_ok|]. split; [destruct sub; [congruence|discriminate]|].
      match goal with H : Forall _ sub |- _ => clear -H IH; induction H end; [exact I|]. inversion IH; subst. split; [auto|]. match goal with K : Forall _ _ -> _ |- _ => apply K; assumption end.
    - split; [assumption|constructor].
  Qed.
  Lemma set_fit_ok l : set_fit f64_of show string_ok l -> set_ok (map shown_sel l).
  Proof.
    intros [Hne H]. split; [destruct l; [congruence|discriminate]|]. apply Forall_map. eapply Forall_impl; [|exact H]. exact sel_fit_ok.
  Qed.
  Lemma type_fit_ok t : type_fit t -> type_ok t.
  Proof. induction t as [n|t IH|t IH]; cbn; [auto|auto|]. intros [H1 H2]. split; auto. Qed.
  Lemma vardef_fit_ok v : vardef_fit f64_of show string_ok v -> vardef_ok v.
  Proof.
    intros (_ & T & D). split; [apply type_fit_ok; exact T|]. destruct (vd_default v); [|exact I]. eapply value_fit_ok; exact D.
  Qed.
  Lemma op_fit_ok o : op_fit f64_of show string_ok o -> definition_ok (shown_op o).
  Proof.
    intros (_ & V & S & _). unfold shown_op.
    assert (G : forall k n vs, vs = listed (op_vars o) -> definition_ok (POperation k n vs [] (map shown_sel (op_sels o)))).
    { intros k n vs ->. split; [|split; [constructor|apply set_fit_ok; exact S]]. eapply Forall_impl; [|exact V]. exact vardef_fit_ok. }
    destruct (kind_of o), (name_of o), (listed (op_vars o)) eqn:E; try (apply G; reflexivity). apply set_fit_ok. exact S.
  Qed.
  Lemma doc_fit_ok d : doc_fit f64_of show string_ok d -> document_ok (shown d).
  Proof.
    intros [H1 H2]. split; [discriminate|]. constructor; [apply op_fit_ok; exact H1|]. apply Forall_map. eapply Forall_impl; [|exact H2].
    intros f (_ & N1 & _ & S). split; [exact N1|]. split; [constructor|apply set_fit_ok; exact S].
  Qed.
End Ok.

Theorem text_denotes f64_of show d : doc_fit f64_of show any_string d -> denotes f64_of (document_text show d) (shown d).
Proof.
  intros H. destruct (writes_all f64_of lexeme ends _ _ (spec_writes f64_of show d H)) as (ts & H1 & H2).
  exists ts. split; [exact H1|]. split; [eapply doc_fit_ok; exact H|exact H2].
Qed.
Theorem text_parses f64_of show depth d : doc_fit f64_of show no_backspace d -> (N.of_nat (document_depth (shown d)) <= depth)%N ->
  parse_query f64_of depth None (document_text show d) = POk (shown d).
Proof.
  intros H D. destruct (writes_all f64_of _ _ _ _ (plain_writes f64_of show d H)) as (ts & H1 & H2).
  apply (complete f64_of depth None _ ts); [exact H1|eapply doc_fit_ok; exact H|exact H2|exact D|exact I].
Qed.

(** * Back to the planner's tree *)
Lemma ginsert_last k v m : Forall (fun k' => str_lt k' k) (map fst m) -> ginsert k v m = m ++ [(k, v)].
Proof.
  induction m as [|[k' v'] m IH]; intros H; [reflexivity|]. inversion H; subst. cbn [ginsert app].
  assert (C : String.compare k k' = Gt) by (apply str_lt_gt; assumption). rewrite C, IH by assumption. reflexivity.
Qed.
Lemma gcollect_from m l : StronglySorted str_lt (map fst (m ++ l)) ->
  fold_left (fun m kv => ginsert (fst kv) (snd kv) m) l m = m ++ l.
Proof.
  revert m. induction l as [|[k v] l IH]; intros m H; cbn [fold_left]; [rewrite app_nil_r; reflexivity|].
  cbn [fst snd]. rewrite ginsert_last.
  - rewrite IH by (rewrite <- app_assoc; exact H). rewrite <- app_assoc. reflexivity.
  - clear IH. induction m as [|[k' v'] m IHm]; [constructor|]. cbn [app map fst] in H |- *. apply StronglySorted_inv in H. destruct H as [H1 H2].
    constructor; [|apply IHm; exact H1]. rewrite Forall_forall in H2. apply H2. rewrite map_app. apply in_or_app. right. left. reflexivity.
Qed.
Lemma gcollect_sorted l : keys_sorted l -> gcollect l = l.
Proof. intros H. exact (gcollect_from [] l H). Qed.
Lemma entries_same (l : list (string * gvalue)) : Forall (fun kv => of_value (snd kv) = snd kv) l ->
  map (fun kv => (fst kv, of_value (snd kv))) l = l.
Proof. induction 1 as [|[k v] l H1 H2 IH]; [reflexivity|]. cbn [map fst snd] in *. rewrite H1, IH. reflexivity. Qed.
Lemma of_value_same v : value_ordered v -> of_value v = v.
Proof.
  induction v as [nm|z|b|s|b| |s|l IH|o IH] using gvalue_ind'; intros F; try reflexivity; inversion F; subst; try contradiction; cbn [of_value].
  - f_equal. match goal with H : Forall _ l |- _ => clear F; induction H end; [reflexivity|]. inversion IH; subst. cbn [map]. f_equal; auto.
  - f_equal. rewrite entries_same; [apply gcollect_sorted; assumption|].
    match goal with H : Forall (fun kv => value_ordered (snd kv)) o |- _ => clear -H IH; induction H end; constructor; inversion IH; subst; auto.
Qed.
Lemma of_arguments_same args : args_ordered args -> of_arguments args = args.
Proof.
  intros [H1 H2]. unfold of_arguments. rewrite entries_same; [apply gcollect_sorted; exact H1|].
  eapply Forall_impl; [|exact H2]. intros kv. apply of_value_same.
Qed.
Lemma conditions_back s i : conditions_pair (conditions s i) = (s, i).
Proof. destruct s, i; reflexivity. Qed.
Lemma each_back {A B C} (k : B -> option C) (f : A -> B) (g : A -> C) l :
  Forall (fun x => k (f x) = Some (g x)) l -> of_each k (map f l) = Some (map g l).
Proof. induction 1 as [|x l H1 H2 IH]; [reflexivity|]. cbn [map of_each]. rewrite H1. change (of_each k (map f l)) with (of_each k (map f l)) in *. rewrite IH. reflexivity. Qed.
Lemma sel_back x : sel_ordered x -> of_selection (shown_sel x) = Some (kept_sel x).
Proof.
  induction x as [n a args inc skip om sub IH|t inc skip sub IH|n] using sel_ind'; intros F; inversion F; subst;
    cbn [shown_sel of_selection kept_sel]; [| |reflexivity].
  - rewrite conditions_back. cbn [fst snd]. rewrite (each_back of_selection shown_sel kept_sel).
    + cbn [option_map]. do 2 f_equal. destruct args as [[|kv args]|]; [reflexivity| |reflexivity]. cbn [listed present].
      rewrite of_arguments_same by assumption. reflexivity.
    + match goal with H : Forall sel_ordered sub |- _ => clear -H IH; induction H end; constructor; inversion IH; subst; auto.
  - rewrite conditions_back. cbn [fst snd]. rewrite (each_back of_selection shown_sel kept_sel); [reflexivity|].
    match goal with H : Forall sel_ordered sub |- _ => clear -H IH; induction H end; constructor; inversion IH; subst; auto.
Qed.
Lemma set_back l : Forall sel_ordered l -> of_each of_selection (map shown_sel l) = Some (map kept_sel l).
Proof. intros H. apply each_back. eapply Forall_impl; [|exact H]. exact sel_back. Qed.
Lemma vardefs_back vs : Forall (fun v => match vd_default v with Some d => value_ordered d | None => True end) vs -> map of_vardef vs = vs.
Proof.
  induction 1 as [|[n t d] vs H1 H2 IH]; [reflexivity|]. cbn [map]. rewrite IH. f_equal. unfold of_vardef. cbn in *. f_equal.
  destruct d as [d|]; [|reflexivity]. cbn. rewrite of_value_same by exact H1. reflexivity.
Qed.
Lemma op_back o : Forall sel_ordered (op_sels o) ->
  Forall (fun v => match vd_default v with Some d => value_ordered d | None => True end) (listed (op_vars o)) ->
  of_definition (shown_op o) = Some (inl (kept_op o)).
Proof.
  intros S V. unfold shown_op, kept_op.
  assert (P : (match listed (op_vars o) with [] => None | _ => Some (map of_vardef (listed (op_vars o))) end) = present (op_vars o)).
  { rewrite vardefs_back by exact V. destruct (op_vars o) as [[|v vs]|]; reflexivity. }
  assert (G : forall k n vs, vs = listed (op_vars o) -> of_definition (POperation k n vs [] (map shown_sel (op_sels o)))
    = Some (inl (mkop n (Some k) (map kept_sel (op_sels o)) (present (op_vars o))))).
  { intros k n vs ->. cbn [of_definition]. rewrite set_back by exact S. cbn [option_map]. rewrite <- P. reflexivity. }
  destruct (kind_of o), (name_of o), (listed (op_vars o)) eqn:E; try (apply G; reflexivity).
  cbn [of_definition]. rewrite set_back by exact S. rewrite <- P. reflexivity.
Qed.
Lemma gather_frags op l fs : gather (Some op) fs (map inr l) = Some (mkdoc op (rev fs ++ l)).
Proof.
  revert fs. induction l as [|f l IH]; intros fs; cbn [map gather]; [rewrite app_nil_r; reflexivity|].
  rewrite IH. cbn [rev]. rewrite <- app_assoc. reflexivity.
Qed.
Theorem document_back d : doc_ordered d -> of_document (shown d) = Some (kept d).
Proof.
  intros (S & V & F). unfold of_document, shown. cbn [of_each]. rewrite op_back by assumption.
  rewrite (each_back of_definition shown_frag (fun f => inr (mkfragment (fr_name f) (fr_on f) (map kept_sel (fr_sels f))))).
  - cbn [option_map gather]. rewrite <- (map_map (fun f => mkfragment (fr_name f) (fr_on f) (map kept_sel (fr_sels f))) inr).
    rewrite gather_frags. reflexivity.
  - eapply Forall_impl; [|exact F]. intros f H. cbn [shown_frag of_definition]. rewrite set_back by exact H. reflexivity.
Qed.
Theorem text_injective f64_of show d d' :
  doc_fit f64_of show no_backspace d -> doc_ordered d -> doc_fit f64_of show no_backspace d' -> doc_ordered d' ->
  document_text show d = document_text show d' -> kept d = kept d'.
Proof.
  intros F O F' O' E.
  set (m := (N.of_nat (document_depth (shown d)) + N.of_nat (document_depth (shown d')))%N).
  assert (P : parse_query f64_of m None (document_text show d) = POk (shown d)) by (apply text_parses; [exact F|lia]).
  assert (P' : parse_query f64_of m None (document_text show d') = POk (shown d')) by (apply text_parses; [exact F'|lia]).
  rewrite <- E, P in P'. assert (Q : shown d = shown d') by congruence. pose proof (document_back d O) as B. rewrite Q, document_back in B by exact O'. congruence.
Qed.

(** * With a name put in *)
Lemma prefix_same p s : strip_prefix p (p ++ s)%string = Some s.
Proof. induction p as [|c p IH]; cbn; [reflexivity|]. rewrite Ascii.eqb_refl. exact IH. Qed.
Lemma cut_take a b : take_str (String.length a) (a ++ b)%string = a.
Proof. apply take_app. Qed.
Definition opens_body (r : string) : Prop := exists c r', r = String c r' /\ (c = "("%char \/ c = "{"%char).
Lemma position_of k r : opens_body r -> name_write_position (opkind_text k ++ r)%string = String.length (opkind_text k).
Proof.
  intros (c & r' & -> & [-> | ->]); destruct k; reflexivity.
Qed.
Lemma position_brace r : name_write_position (String "{" r) = 0. Proof. reflexivity. Qed.
Section Named.
  Variable f64_of : string -> option N.
  Variable show : N -> string.
  Variable string_ok : string -> Prop.
  Lemma set_brace l : set_fit f64_of show string_ok l -> exists r, set_text show l = String "{" r.
  Proof. intros [H _]. destruct l; [congruence|]. eexists. reflexivity. Qed.
  Lemma named_form name d : doc_fit f64_of show string_ok d -> op_name (doc_op d) = None ->
    exists b, named_text show name d =
      Some (opkind_text (kind_of (doc_op d)) ++ " " ++ name ++ blank_if b ++ vars_part show (listed (op_vars (doc_op d)))
            ++ set_text show (op_sels (doc_op d)) ++ frags_part show (doc_frags d))%string.
  Proof.
    intros [(_ & _ & S & K) _] Nn. unfold named_text. rewrite doc_parts. unfold operation_text, short_form, kind_of. rewrite Nn.
    destruct (set_brace _ S) as [r Er].
    assert (V : (match op_vars (doc_op d) with Some (v :: vs) => ("(" ++ join ", " (map (vardef_text show) (v :: vs)) ++ ")")%string | _ => "" end)
      = vars_part show (listed (op_vars (doc_op d)))) by (destruct (op_vars (doc_op d)) as [[|v vs]|]; reflexivity).
    rewrite V.
    assert (G : forall k, (let t := ((opkind_text k ++ "" ++ vars_part show (listed (op_vars (doc_op d))) ++ set_text show (op_sels (doc_op d)))
        ++ frags_part show (doc_frags d))%string in exists b, ws_query name (name_write_position t) t =
        Some (opkind_text k ++ " " ++ name ++ blank_if b ++ vars_part show (listed (op_vars (doc_op d)))
            ++ set_text show (op_sels (doc_op d)) ++ frags_part show (doc_frags d)))%string).
    { intros k t. exists false. unfold t. cbn [append blank_if]. rewrite !string_app_assoc.
      set (body := (vars_part show (listed (op_vars (doc_op d))) ++ set_text show (op_sels (doc_op d)) ++ frags_part show (doc_frags d))%string).
      assert (O : opens_body body).
      { unfold body. destruct (listed (op_vars (doc_op d))); [rewrite Er; cbn [vars_part append]|]; eexists _, _; (split; [reflexivity|auto]). }
      rewrite (position_of k body O). unfold ws_query. rewrite take_app, drop_app.
      assert (Z : Nat.eqb (String.length (opkind_text k)) 0 = false) by (destruct k; reflexivity). rewrite Z. cbn [andb].
      assert (Y : Nat.ltb (String.length (opkind_text k ++ body)) (String.length (opkind_text k)) = false).
      { apply Nat.ltb_ge. rewrite length_app. lia. }
      rewrite Y. reflexivity. }
    assert (B : listed (op_vars (doc_op d)) = [] -> exists b,
      ws_query name (name_write_position (set_text show (op_sels (doc_op d)) ++ frags_part show (doc_frags d)))
         (set_text show (op_sels (doc_op d)) ++ frags_part show (doc_frags d))%string =
      Some (opkind_text Ast.KQuery ++ " " ++ name ++ blank_if b ++ vars_part show (listed (op_vars (doc_op d)))
            ++ set_text show (op_sels (doc_op d)) ++ frags_part show (doc_frags d))%string).
    { intros Hv. exists true. rewrite Hv, Er. cbn [append vars_part blank_if]. rewrite position_brace. reflexivity. }
    destruct (op_kind (doc_op d)) as [k|].
    - destruct k; cbn [andb]; [|apply G|apply G].
      destruct (op_vars (doc_op d)) as [[|v vs]|]; cbn [listed] in *; [apply B; reflexivity|apply (G Ast.KQuery)|apply B; reflexivity].
    - destruct (K eq_refl) as [_ K2]. rewrite K2 in *. cbn [andb].
      assert (N2 : (match op_vars (doc_op d) with None | Some [] => true | _ => false end) = true).
      { destruct (op_vars (doc_op d)) as [[|v vs]|]; [reflexivity|discriminate K2|reflexivity]. }
      rewrite N2. cbv iota. apply B. reflexivity.
  Qed.
End Named.

Lemma named_shown name d : Name name -> definition_tokens (shown_op (doc_op (with_name name d))) =
    definition_tokens (POperation (kind_of (doc_op d)) (Some name) (listed (op_vars (doc_op d))) [] (map shown_sel (op_sels (doc_op d)))).
Proof.
  intros Hn. unfold shown_op, name_of, with_name, kind_of. cbn [doc_op op_name op_kind op_vars op_sels].
  destruct (string_dec name "") as [->|_]; [destruct Hn|]. destruct (op_kind (doc_op d)) as [[]|]; reflexivity.
Qed.
Lemma named_ok f64_of show string_ok name d : Name name -> doc_fit f64_of show string_ok d -> document_ok (shown (with_name name d)).
Proof.
  intros Hn [(N1 & V & S & K) F].
  assert (H : doc_fit f64_of show string_ok (mkdoc (mkop (Some name) (Some (kind_of (doc_op d))) (op_sels (doc_op d)) (op_vars (doc_op d))) (doc_frags d))).
  { split; [|exact F]. split; [|split; [exact V|split; [exact S|discriminate]]].
    unfold name_of. cbn. destruct (string_dec name ""); [exact I|exact Hn]. }
  apply doc_fit_ok in H. unfold shown, shown_op, with_name, kind_of in *. cbn [doc_op op_name op_kind op_vars op_sels doc_frags name_of] in *.
  destruct (op_kind (doc_op d)); exact H.
Qed.
Theorem named_denotes f64_of show name d : Name name -> doc_fit f64_of show any_string d -> op_name (doc_op d) = None ->
  exists t, named_text show name d = Some t /\ denotes f64_of t (shown (with_name name d)).
Proof.
  intros Hn H Ha. destruct (named_form f64_of show any_string name d H Ha) as [b ->]. eexists. split; [reflexivity|].
  destruct (writes_all f64_of lexeme ends _ _ (spec_named f64_of show name b d Hn H)) as (ts & H1 & H2).
  exists ts. split; [exact H1|]. split; [eapply named_ok; [exact Hn|exact H]|]. unfold document_tokens, shown. cbn [flat_map].
  rewrite named_shown by exact Hn. exact H2.
Qed.
Theorem named_parses f64_of show depth name d : Name name -> doc_fit f64_of show no_backspace d -> op_name (doc_op d) = None ->
  (N.of_nat (document_depth (shown (with_name name d))) <= depth)%N ->
  exists t, named_text show name d = Some t /\ parse_query f64_of depth None t = POk (shown (with_name name d)).
Proof.
  intros Hn H Ha D. destruct (named_form f64_of show no_backspace name d H Ha) as [b ->]. eexists. split; [reflexivity|].
  destruct (writes_all f64_of plain_lexeme plain_ends _ _ (plain_named f64_of show name b d Hn H)) as (ts & H1 & H2).
  apply (complete f64_of depth None _ ts); [exact H1|eapply named_ok; [exact Hn|exact H]| |exact D|exact I].
  unfold document_tokens, shown. cbn [flat_map]. rewrite named_shown by exact Hn. exact H2.
Qed.
