(** Proofs about introspection: every field is answered as the specification says. *)
From Coq Require Import String List Bool Permutation.
From Verif Require Import Ast JsonModel CoerceModel ConsumerModel ConsumerSpec ConsumerParts IntroModel IntroSpec IntroProofs.
Import ListNotations.
Local Open Scope string_scope.
Local Open Scope list_scope.

(** * Root types *)
Definition model_root (schema : list definition) (k : opkind) : option string :=
  match k with KQuery => query_type_name schema | KMutation => mutation_type_name schema | KSubscription => subscription_type_name schema end.
Lemma model_root_is schema k : model_root schema k = ConsumerModel.root_name (default_root k) (IntroSpec.root_name k) None schema.
Proof. destruct k; reflexivity. Qed.
Lemma root_nothing default pick l : (forall ds a b c, In (SchemaDef ds a b c) l -> pick a b c = None) ->
  (forall d im ds fs, ~ In (TypeDef (Object default d im ds fs)) l) -> ConsumerModel.root_name default pick None l = None.
Proof.
  induction l as [|d l IH]; intros Hn Ho; [reflexivity|].
  assert (IH' : ConsumerModel.root_name default pick None l = None) by (apply IH; [intros; eapply Hn; right; eassumption|intros d0 im ds fs Hi; eapply Ho; right; exact Hi]).
  destruct d as [ds a b c|t|x|x de i r ls]; cbn [ConsumerModel.root_name]; try exact IH'.
  - rewrite (Hn ds a b c (or_introl eq_refl)). exact IH'.
  - destruct t; try exact IH'. destruct (String.eqb_spec name default) as [->|]; [|exact IH']. edestruct Ho. left. reflexivity.
Qed.
Lemma schema_def_dec (l : list definition) : (exists ds q m s, In (SchemaDef ds q m s) l) \/ (forall ds q m s, ~ In (SchemaDef ds q m s) l).
Proof.
  induction l as [|d l [[ds [q [m [s H]]]]|H]].
  - right. intros ds q m s [].
  - left. exists ds, q, m, s. now right.
  - destruct d as [ds a b c|t|x|x de i r ls]; [left; exists ds, a, b, c; now left| | |];
      (right; intros ds' q m s [E|Hi]; [discriminate|now apply (H ds' q m s)]).
Qed.
Lemma object_dec n (l : list definition) : (exists d im ds fs, In (TypeDef (Object n d im ds fs)) l) \/ (forall d im ds fs, ~ In (TypeDef (Object n d im ds fs)) l).
Proof.
  induction l as [|x l [[d [im [ds [fs H]]]]|H]].
  - right. intros d im ds fs [].
  - left. exists d, im, ds, fs. now right.
  - assert (Other : (forall d im ds fs, x <> TypeDef (Object n d im ds fs)) ->
      (exists d im ds fs, In (TypeDef (Object n d im ds fs)) (x :: l)) \/ (forall d im ds fs, ~ In (TypeDef (Object n d im ds fs)) (x :: l))).
    { intros Hx. right. intros d im ds fs [E|Hi]; [now apply (Hx d im ds fs)|now apply (H d im ds fs)]. }
    destruct x as [ds a b c|t|y|y de i r ls]; try (apply Other; discriminate). destruct t; try (apply Other; discriminate).
    destruct (string_dec name n) as [->|Hne]; [left; exists desc, impls, dirs, fields; now left|apply Other; congruence].
Qed.
Lemma root_exists schema k : exists r, root_is schema k r.
Proof.
  destruct (schema_def_dec schema) as [[ds [q [m [s H]]]]|H].
  - eexists. eapply root_given. exact H.
  - destruct (object_dec (default_root k) schema) as [[d [im [ds [fs Ho]]]]|Ho].
    + eexists. eapply root_default; [exact H|exact Ho].
    + eexists. apply root_none; [exact H|exact Ho].
Qed.

Section Fields.
  Variable schema : list definition.
  Variable vars : list (string * value).
  Variable shuffle_names : list string -> list string.
  Variable shuffle_types : list typedef -> list typedef.
  Variable show : gvalue -> string.
  Hypothesis Hshuffle_names : forall l, Permutation l (shuffle_names l).
  Hypothesis Hshuffle_types : forall l, Permutation l (shuffle_types l).
  Hypothesis Hsound : sound schema.
  Hypothesis Hvars : NoDup (map fst vars).

  Lemma root_some k n : root_is schema k (Some n) -> model_root schema k = Some n.
  Proof.
    intros H. rewrite model_root_is. inversion H as [ds q m s Hi E|d im ds fs Hno Hd E|]; subst.
    - rewrite E. apply root_schema.
      + intros ds' a b c x Hi' Hp. pose proof (sound_schema _ Hsound _ _ _ _ _ _ _ _ Hi Hi') as E'. injection E' as _ <- <- <-. congruence.
      + exists ds, q, m, s. split; [exact Hi|exact E].
    - apply ConsumerParts.root_default; [|now left|right; now exists d, im, ds, fs]. intros ds' a b c Hi. now apply Hno in Hi.
  Qed.
  Lemma root_no k : no_stray_root schema -> root_is schema k None -> model_root schema k = None.
  Proof.
    intros Hs H. rewrite model_root_is. inversion H as [ds q m s Hi E|d im ds fs Hno Hd E|Hno Hd]; subst.
    - rewrite E. apply root_nothing.
      + intros ds' a b c Hi'. pose proof (sound_schema _ Hsound _ _ _ _ _ _ _ _ Hi Hi') as E'. now injection E' as _ <- <- <-.
      + intros d im ds0 fs. eapply Hs; eassumption.
    - apply root_nothing; [|exact Hd]. intros ds' a b c Hi. now apply Hno in Hi.
  Qed.

  (** * Subjects and things *)
  Definition knows (t : tnode) : Prop := known schema (base_type t).
  Definition field_there (f : field) : Prop :=
    exists n d im ds fs, In f fs /\ (defined schema (Object n d im ds fs) \/ defined schema (Interface n d im ds fs)).
  Definition input_there (v : input_value) : Prop :=
    (exists f, field_there f /\ In v (f_args f))
    \/ (exists n d ds fs, defined schema (InputObject n d ds fs) /\ In v fs)
    \/ (exists n de args r ls, In (DirectiveDef n de args r ls) schema /\ In v args).
  Inductive rel : subject -> thing -> Prop :=
  | rel_root r : String.prefix "__" r = false -> rel (OnRoot r) (TheRoot r)
  | rel_schema : rel OnSchema TheSchema
  | rel_def t : defined schema t -> rel (OnDef t) (the t)
  | rel_list t : knows t -> rel (OnWrapper "LIST" t) (TheType (TList t))
  | rel_non_null t : knows t -> rel (OnWrapper "NON_NULL" t) (TheType (TNonNull t))
  | rel_field f : field_there f -> rel (OnField f) (TheField f)
  | rel_input v : input_there v -> rel (OnInput v) (TheInput v)
  | rel_value n d ds vs v : defined schema (Enum n d ds vs) -> In v vs -> rel (OnEnumValue v) (TheValue v)
  | rel_directive n de args r ls : In (DirectiveDef n de args r ls) schema -> rel (OnDirective n de args r ls) (TheDirective n de args r ls).

  Lemma field_says f : field_there f -> exists n, says schema (EField n (f_name f) (f_type f) (f_desc f)) (f_dirs f).
  Proof.
    intros [n [d [im [ds [fs [Hi [Hd|Hd]]]]]]]; exists n; eexists _, _; (split; [exact Hd|]).
    - now apply part_object_field.
    - now apply part_interface_field.
  Qed.
  Lemma field_knows f : field_there f -> knows (f_type f).
  Proof. intros H. destruct (field_says f H) as [n Hs]. eapply refers_known; [exact Hsound|exact Hs|reflexivity]. Qed.
  Lemma input_says v : input_there v ->
    (exists t f, says schema (EArg t f (iv_name v) (iv_type v) (iv_default v) (iv_desc v)) (iv_dirs v))
    \/ (exists t, says schema (EInput t (iv_name v) (iv_type v) (iv_default v) (iv_desc v)) (iv_dirs v))
    \/ (exists n, says schema (EDirectiveArg n (iv_name v) (iv_type v) (iv_default v) (iv_desc v)) (iv_dirs v)).
  Proof.
    intros [[f [[n [d [im [ds [fs [Hi Hd]]]]]] Hv]]|[[n [d [ds [fs [Hd Hv]]]]]|[n [de [args [r [ls [Hd Hv]]]]]]]].
    - left. exists n, (f_name f). destruct Hd as [Hd|Hd]; eexists _, _; (split; [exact Hd|]); [eapply part_object_arg|eapply part_interface_arg]; eassumption.
    - right; left. exists n. eexists _, _. split; [exact Hd|]. now apply part_input_field.
    - right; right. exists n. eexists _, _. split; [exact Hd|]. now apply part_directive_arg.
  Qed.
  Lemma input_knows v : input_there v -> knows (iv_type v).
  Proof.
    intros H. destruct (input_says v H) as [[t [f Hs]]|[[t Hs]|[n Hs]]]; (eapply refers_known; [exact Hsound|exact Hs|reflexivity]).
  Qed.
  Lemma input_stands v : input_there v -> stands schema (iv_dirs v).
  Proof. intros H. destruct (input_says v H) as [[t [f Hs]]|[[t Hs]|[n Hs]]]; eexists; exact Hs. Qed.
  Lemma input_current v : inputs_current schema -> input_there v -> ~ deprecated (iv_dirs v).
  Proof.
    intros Hc H. apply Hc. destruct (input_says v H) as [[t [f Hs]]|[[t Hs]|[n Hs]]].
    - left. eexists t, f, _, _, _, _. exact Hs.
    - right; left. eexists t, _, _, _, _. exact Hs.
    - right; right. eexists n, _, _, _, _. exact Hs.
  Qed.
  Lemma field_stands f : field_there f -> stands schema (f_dirs f).
  Proof. intros H. destruct (field_says f H) as [n Hs]. eexists. exact Hs. Qed.
  Lemma value_stands n d ds vs v : defined schema (Enum n d ds vs) -> In v vs -> stands schema (ev_dirs v).
  Proof. intros Hd Hv. eexists. eexists _, _. split; [exact Hd|]. apply part_value. exact Hv. Qed.

  (** * Directives *)
  Lemma reason_given ds : reasons_given schema -> stands schema ds ->
    exists ans, deprecation ds ans /\ (forall sub, fits schema vars show ans sub (or_null (deprecation_reason ds))).
  Proof.
    intros Hr Hst. unfold deprecation_reason. destruct (find_dir "deprecated" ds) as [d|] eqn:E.
    - apply find_dir_some in E. destruct E as [Hi Hn]. destruct (Hr ds d Hst Hi Hn) as [s Hs]. exists (Leaf (VStr s)).
      split; [eapply deprecation_given; eassumption|]. intros sub. cbn [string_arg]. rewrite (in_kget' "reason" (d_args d) (GStr s)); [apply fits_leaf| |exact Hs].
      apply (sound_dir_args _ Hsound ds d Hst Hi). rewrite Hn. now left.
    - exists Nothing. split; [|intros sub; apply fits_nothing]. apply deprecation_none. intros [d [Hi Hn]]. now apply (find_dir_none _ _ _ E Hi).
  Qed.
  Lemma url_given ds : stands schema ds -> exists ans, specified ds ans /\ (forall sub, fits schema vars show ans sub (or_null (specified_by ds))).
  Proof.
    intros Hst. unfold specified_by. destruct (find_dir "specifiedBy" ds) as [d|] eqn:E.
    - apply find_dir_some in E. destruct E as [Hi Hn]. destruct (sound_url _ Hsound ds d Hst Hi Hn) as [s Hs]. exists (Leaf (VStr s)).
      split; [eapply specified_given; eassumption|]. intros sub. cbn [string_arg]. rewrite (in_kget' "url" (d_args d) (GStr s)); [apply fits_leaf| |exact Hs].
      apply (sound_dir_args _ Hsound ds d Hst Hi). rewrite Hn. right. now left.
    - exists Nothing. split; [|intros sub; apply fits_nothing]. apply specified_none. intros d Hi. now apply (find_dir_none _ _ _ E Hi).
  Qed.
  Lemma text_ok o sub : exists ans, text o ans /\ fits schema vars show ans sub (or_null o).
  Proof. destruct o as [s|]; eexists; (split; constructor). Qed.
  Lemma included f args : good_args vars f (args_of args) -> with_deprecated vars (args_of args) (include_deprecated vars args).
  Proof.
    intros [Hn [Hb _]]. unfold include_deprecated. destruct args as [a|]; cbn [args_of] in *; [|apply with_absent; intros v []].
    destruct (kget "includeDeprecated" a) as [v|] eqn:E.
    - apply kget_in' in E. destruct (Hb v E) as [[b ->]|[->|[n [-> Hv]]]].
      + now apply with_literal.
      + now apply with_null.
      + unfold bool_var. destruct (kget n vars) as [w|] eqn:Ew.
        * apply kget_in' in Ew. destruct (Hv w Ew) as [->|[b ->]].
          -- eapply with_null_variable; eassumption.
          -- eapply with_variable; eassumption.
        * eapply with_no_variable; [exact E|]. now apply kget_none.
    - apply with_absent. now apply kget_none.
  Qed.

  (** * Answers *)
  Section Sub.
    Variable sub : list sel.
    Variable k : subject -> option value.
    Notation gives' := (gives schema vars show).
    Notation fits' := (fits schema vars show).
    Notation meta' := (meta schema vars show).
    Definition good_for (c : string) : Prop := forall s x, rel s x -> metatype x = c -> exists v, k s = Some v /\ gives' x sub v.
    Definition done (x : thing) (f : string) (args : option (list (string * gvalue))) (o : option value) : Prop :=
      exists v ans, o = Some v /\ meta' x f (args_of args) ans /\ fits' ans sub v.

    Lemma all_good c (l : list subject) (xs : list thing) : good_for c -> Forall2 (fun s x => rel s x /\ metatype x = c) l xs ->
      exists vs, all_some (map k l) = Some vs /\ fits_all schema vars show xs sub vs.
    Proof.
      intros Hk H. induction H as [|s x l xs [Hr Hm] H IH]; cbn [map all_some].
      - exists []. split; [reflexivity|constructor].
      - destruct IH as [vs [-> Hf]]. destruct (Hk s x Hr Hm) as [v [-> Hv]]. exists (v :: vs). split; [reflexivity|now constructor].
    Qed.
    Lemma each_good c l xs : good_for c -> Forall2 (fun s x => rel s x /\ metatype x = c) l xs ->
      exists vs, each k l = Some (VArr vs) /\ fits_all schema vars show xs sub vs.
    Proof. intros Hk H. unfold each. destruct (all_good c l xs Hk H) as [vs [-> Hf]]. exists vs. now split. Qed.
    Lemma type_good t : good_for "__Type" -> knows t -> exists v, type_value schema k t = Some v /\ gives' (TheType t) sub v.
    Proof.
      intros Hk Ht. destruct t as [n|t|t]; cbn [type_value].
      - destruct (known_by_name schema Hsound n Ht) as [t [-> [Hd <-]]]. apply Hk; [now apply rel_def|reflexivity].
      - apply Hk; [now apply rel_list|reflexivity].
      - apply Hk; [now apply rel_non_null|reflexivity].
    Qed.
    Lemma inputs_good l args f : good_for "__InputValue" -> good_args vars f (args_of args) -> inputs_current schema -> Forall input_there l ->
      exists vs, each k (map OnInput l) = Some (VArr vs) /\ listed vars iv_dirs (args_of args) l l /\ fits' (Many (map TheInput l)) sub (VArr vs).
    Proof.
      intros Hk Ha Hc Hl. destruct (each_good "__InputValue" (map OnInput l) (map TheInput l) Hk) as [vs [-> Hf]].
      - induction Hl as [|v l Hv Hl IH]; cbn [map]; constructor; [|exact IH]. split; [now apply rel_input|reflexivity].
      - exists vs. split; [reflexivity|]. split; [|now apply fits_many].
        exists (include_deprecated vars args). split; [eapply included; exact Ha|]. apply those_all. intros v Hv. right.
        apply input_current; [exact Hc|]. rewrite Forall_forall in Hl. now apply Hl.
    Qed.
    Lemma names_good l : good_for "__Type" -> Forall (known schema) l ->
      exists vs, each k (map OnDef (named_types schema l)) = Some (VArr vs) /\ fits_all schema vars show (map (fun i => TheType (TNamed i)) l) sub vs.
    Proof.
      intros Hk Hl. apply (each_good "__Type"); [exact Hk|]. induction Hl as [|n l Hn Hl IH]; cbn [map named_types flat_map]; [constructor|].
      destruct (known_by_name schema Hsound n Hn) as [t [-> [Hd <-]]]. cbn [app map]. constructor; [|exact IH]. split; [now apply rel_def|reflexivity].
    Qed.

    Definition limits (f : string) : Prop :=
      (f = "deprecationReason" -> reasons_given schema) /\ (f = "interfaces" -> interfaceless schema)
      /\ (f = "possibleTypes" -> interfaces_flat schema) /\ (f = "args" \/ f = "inputFields" -> inputs_current schema)
      /\ (f = "mutationType" \/ f = "subscriptionType" -> no_stray_root schema).

    (** * Field by field *)
    Lemma field_ok fd f args c : field_there fd -> In ("__Field", f, c) meta_fields -> good_args vars f (args_of args) -> limits f ->
      (forall c', c = Some c' -> good_for c') -> done (TheField fd) f args (field_field schema k fd f).
    Proof.
      intros Ht Hin Ha [Hl1 [_ [_ [Hl2 _]]]] Hk. cbn [meta_fields In] in Hin.
      repeat (destruct Hin as [Hin|Hin]; [try discriminate Hin; injection Hin as <- <-|]); [..|destruct Hin].
      - exists (VStr (f_name fd)). eexists. split; [reflexivity|]. split; [apply meta_field_name|apply fits_leaf].
      - destruct (text_ok (f_desc fd) sub) as [ans [H1 H2]]. eexists _, ans. split; [reflexivity|]. split; [now apply meta_field_description|exact H2].
      - destruct (inputs_good (f_args fd) args "args" (Hk _ eq_refl) Ha) as [vs [E [H1 H2]]]; [apply Hl2; now left| |].
        { apply Forall_forall. intros v Hv. left. now exists fd. }
        eexists _, _. split; [exact E|]. split; [apply meta_field_args; exact H1|exact H2].
      - destruct (type_good (f_type fd) (Hk _ eq_refl) (field_knows fd Ht)) as [v [E Hg]]. eexists v, _. split; [exact E|]. split; [apply meta_field_type|now apply fits_one].
      - eexists _, _. split; [reflexivity|]. split; [apply meta_field_deprecated; apply truth_bool; apply is_deprecated_iff|apply fits_leaf].
      - destruct (reason_given (f_dirs fd) (Hl1 eq_refl) (field_stands fd Ht)) as [ans [H1 H2]]. eexists _, ans. split; [reflexivity|]. split; [now apply meta_field_reason|apply H2].
    Qed.
    Lemma input_ok v f args c : input_there v -> In ("__InputValue", f, c) meta_fields -> limits f ->
      (forall c', c = Some c' -> good_for c') -> done (TheInput v) f args (input_field schema show k v f).
    Proof.
      intros Ht Hin [Hl1 _] Hk. cbn [meta_fields In] in Hin.
      repeat (destruct Hin as [Hin|Hin]; [try discriminate Hin; injection Hin as <- <-|]); [..|destruct Hin].
      - eexists _, _. split; [reflexivity|]. split; [apply meta_input_name|apply fits_leaf].
      - destruct (text_ok (iv_desc v) sub) as [ans [H1 H2]]. eexists _, ans. split; [reflexivity|]. split; [now apply meta_input_description|exact H2].
      - destruct (type_good (iv_type v) (Hk _ eq_refl) (input_knows v Ht)) as [w [E Hg]]. eexists w, _. split; [exact E|]. split; [apply meta_input_type|now apply fits_one].
      - assert (Hd : exists ans, default_text show (iv_default v) ans /\ fits' ans sub (match iv_default v with Some d => VStr (show d) | None => VNull end)).
        { destruct (iv_default v); eexists; (split; constructor). }
        destruct Hd as [ans [H1 H2]]. eexists _, ans. split; [reflexivity|]. split; [now apply meta_input_default|exact H2].
      - eexists _, _. split; [reflexivity|]. split; [apply meta_input_deprecated; apply truth_bool; apply is_deprecated_iff|apply fits_leaf].
      - destruct (reason_given (iv_dirs v) (Hl1 eq_refl) (input_stands v Ht)) as [ans [H1 H2]]. eexists _, ans. split; [reflexivity|]. split; [now apply meta_input_reason|apply H2].
    Qed.
    Lemma value_ok v f args c : stands schema (ev_dirs v) -> In ("__EnumValue", f, c) meta_fields -> limits f ->
      done (TheValue v) f args (enum_value_field v f).
    Proof.
      intros Ht Hin [Hl1 _]. cbn [meta_fields In] in Hin.
      repeat (destruct Hin as [Hin|Hin]; [try discriminate Hin; injection Hin as <- <-|]); [..|destruct Hin].
      - eexists _, _. split; [reflexivity|]. split; [apply meta_value_name|apply fits_leaf].
      - destruct (text_ok (ev_desc v) sub) as [ans [H1 H2]]. eexists _, ans. split; [reflexivity|]. split; [now apply meta_value_description|exact H2].
      - eexists _, _. split; [reflexivity|]. split; [apply meta_value_deprecated; apply truth_bool; apply is_deprecated_iff|apply fits_leaf].
      - destruct (reason_given (ev_dirs v) (Hl1 eq_refl) Ht) as [ans [H1 H2]]. eexists _, ans. split; [reflexivity|]. split; [now apply meta_value_reason|apply H2].
    Qed.
    Lemma directive_ok n de i r ls f args c : In (DirectiveDef n de i r ls) schema -> In ("__Directive", f, c) meta_fields -> good_args vars f (args_of args) -> limits f ->
      (forall c', c = Some c' -> good_for c') -> done (TheDirective n de i r ls) f args (directive_field k n de i r ls f).
    Proof.
      intros Ht Hin Ha [_ [_ [_ [Hl2 _]]]] Hk. cbn [meta_fields In] in Hin.
      repeat (destruct Hin as [Hin|Hin]; [try discriminate Hin; injection Hin as <- <-|]); [..|destruct Hin].
      - eexists _, _. split; [reflexivity|]. split; [apply meta_directive_name|apply fits_leaf].
      - destruct (text_ok de sub) as [ans [H1 H2]]. eexists _, ans. split; [reflexivity|]. split; [now apply meta_directive_description|exact H2].
      - eexists _, _. split; [reflexivity|]. split; [apply meta_directive_locations|apply fits_leaf].
      - destruct (inputs_good i args "args" (Hk _ eq_refl) Ha) as [vs [E [H1 H2]]]; [apply Hl2; now left| |].
        { apply Forall_forall. intros v Hv. right; right. now exists n, de, i, r, ls. }
        eexists _, _. split; [exact E|]. split; [apply meta_directive_args; exact H1|exact H2].
      - eexists _, _. split; [reflexivity|]. split; [apply meta_directive_repeatable|apply fits_leaf].
    Qed.
    Lemma root_ok r f args c : (f = "__schema" /\ c = "__Schema" \/ f = "__type" /\ c = "__Type") -> good_args vars f (args_of args) -> good_for c ->
      done (TheRoot r) f args (root_field schema vars k r f args).
    Proof.
      intros [[-> ->]|[-> ->]] Ha Hk.
      - destruct (Hk OnSchema TheSchema rel_schema eq_refl) as [v [E Hv]]. eexists v, _. split; [exact E|]. split; [apply meta_schema|now apply fits_one].
      - assert (Lookup : forall n, asked_name vars (args_of args) n ->
                  done (TheRoot r) "__type" args (match type_by_name schema n with Some t => k (OnDef t) | None => Some VNull end)).
        { intros n Hn. destruct (type_by_name schema n) as [t|] eqn:E.
          - pose proof (by_name_known _ _ _ E) as Hkn. apply type_by_name_in in E. destruct E as [Hd <-].
            destruct (Hk (OnDef t) (the t) (rel_def t Hd) eq_refl) as [v [Ev Hv]]. eexists v, _. split; [exact Ev|]. split; [eapply meta_type_known; eassumption|now apply fits_one].
          - exists VNull, Nothing. split; [reflexivity|]. split; [eapply meta_type_unknown; [exact Hn|]|apply fits_nothing]. now apply unknown_by_name. }
        destruct Ha as [Hn [_ Ha]]. destruct (Ha eq_refl) as [n Hasked]. specialize (Lookup n Hasked).
        change (root_field schema vars k r "__type" args) with
          (match args with
           | Some a =>
               match kget "name" a with
               | Some (GStr n) => match type_by_name schema n with Some t => k (OnDef t) | None => Some VNull end
               | Some (GVar x) => match str_var vars x with
                                  | Some n => match type_by_name schema n with Some t => k (OnDef t) | None => Some VNull end
                                  | None => Some VNull
                                  end
               | _ => Some VNull
               end
           | None => Some VNull
           end).
        destruct args as [a|]; cbn [args_of] in *; [|inversion Hasked; now match goal with H : In _ [] |- _ => destruct H end].
        inversion Hasked as [n' Hi|x n' Hi Hv]; subst.
        + rewrite (in_kget' _ _ _ Hn Hi). exact Lookup.
        + rewrite (in_kget' _ _ _ Hn Hi). unfold str_var. rewrite (in_kget' _ _ _ Hvars Hv). exact Lookup.
    Qed.
    Lemma root_answered ty r f a : good_for "__Type" -> root_is schema ty r ->
      (forall ans, ans = root_answer r -> meta' TheSchema f (args_of a) ans) ->
      exists v, root_type schema k r = Some v /\ meta' TheSchema f (args_of a) (root_answer r) /\ fits' (root_answer r) sub v.
    Proof.
      intros Hk Hr Hm. destruct r as [n|]; cbn [root_type root_answer] in *.
      - destruct (known_by_name schema Hsound n (sound_roots _ Hsound _ _ Hr)) as [t [-> [Hd <-]]].
        destruct (Hk (OnDef t) (the t) (rel_def t Hd) eq_refl) as [v [-> Hv]]. exists v. split; [reflexivity|]. split; [now apply Hm|now apply fits_one].
      - exists VNull. split; [reflexivity|]. split; [now apply Hm|apply fits_nothing].
    Qed.
    Definition directive_parts (l : list definition) : list (string * option string * list input_value * bool * list string) :=
      flat_map (fun d => match d with DirectiveDef n de a r l => [(n, de, a, r, l)] | _ => [] end) l.
    Lemma directives_listed l : those (fun d => exists n de i r ls, d = DirectiveDef n de i r ls) l
        (map (fun x => let '(n, de, i, r, ls) := x in DirectiveDef n de i r ls) (directive_parts l)).
    Proof.
      induction l as [|d l IH]; [constructor|]. destruct d as [ds a b c|t|x|x de i r ls]; cbn [directive_parts flat_map app map].
      1,2,3: apply those_skip; [intros [n [de [i [r [ls E]]]]]; discriminate|exact IH].
      apply those_keep; [now exists x, de, i, r, ls|exact IH].
    Qed.
    Lemma schema_ok f args c : In ("__Schema", f, c) meta_fields -> limits f ->
      (forall c', c = Some c' -> good_for c') -> done TheSchema f args (schema_field schema shuffle_types k f).
    Proof.
      intros Hin [_ [_ [_ [_ Hl]]]] Hk. cbn [meta_fields In] in Hin.
      repeat (destruct Hin as [Hin|Hin]; [try discriminate Hin; injection Hin as <- <-|]); [..|destruct Hin].
      - eexists _, _. split; [reflexivity|]. split; [apply meta_schema_description|apply fits_nothing].
      - change (schema_field schema shuffle_types k "types") with (each k (map OnDef (shuffle_types (type_map schema)))).
        destruct (each_good "__Type" (map OnDef (shuffle_types (type_map schema))) (map the (shuffle_types (type_map schema))) (Hk _ eq_refl)) as [vs [E Hf]].
        { assert (Hd : forall t, In t (shuffle_types (type_map schema)) -> defined schema t).
          { intros t Hi. apply (Permutation_in _ (Permutation_sym (Hshuffle_types _))) in Hi. rewrite (type_map_is schema Hsound) in Hi. now apply in_types_in. }
          induction (shuffle_types (type_map schema)) as [|t l IH]; cbn [map]; constructor.
          - split; [apply rel_def; apply Hd; now left|reflexivity].
          - apply IH. intros t' Ht'. apply Hd. now right. }
        eexists _, _. split; [exact E|]. split; [apply (meta_types schema vars show (args_of args) (type_map schema))|].
        + rewrite (type_map_is schema Hsound). apply types_once. apply (sound_once _ Hsound).
        + intros t. rewrite (type_map_is schema Hsound). apply in_types_in.
        + eapply fits_any; [|exact Hf]. apply Permutation_map. apply Hshuffle_types.
      - destruct (sound_query _ Hsound) as [n Hn].
        change (schema_field schema shuffle_types k "queryType") with
          (match query_type_name schema with
           | Some n => match type_by_name schema n with Some t => k (OnDef t) | None => None end
           | None => None
           end).
        change (query_type_name schema) with (model_root schema KQuery). rewrite (root_some _ _ Hn).
        destruct (known_by_name schema Hsound n (sound_roots _ Hsound _ _ Hn)) as [t [-> [Hd <-]]].
        destruct (Hk "__Type" eq_refl (OnDef t) (the t) (rel_def t Hd) eq_refl) as [v [-> Hv]]. exists v, (root_answer (Some (tname t))).
        split; [reflexivity|]. split; [now apply meta_query|now apply fits_one].
      - destruct (root_exists schema KMutation) as [r Hr].
        destruct (root_answered KMutation r "mutationType" args (Hk _ eq_refl) Hr) as [v [E H]]; [intros ans ->; now apply meta_mutation|].
        exists v, (root_answer r). split; [|exact H].
        change (schema_field schema shuffle_types k "mutationType") with (root_type schema k (model_root schema KMutation)).
        destruct r as [n|]; [now rewrite (root_some _ _ Hr)|rewrite root_no; [exact E|apply Hl; now left|exact Hr]].
      - destruct (root_exists schema KSubscription) as [r Hr].
        destruct (root_answered KSubscription r "subscriptionType" args (Hk _ eq_refl) Hr) as [v [E H]]; [intros ans ->; now apply meta_subscription|].
        exists v, (root_answer r). split; [|exact H].
        change (schema_field schema shuffle_types k "subscriptionType") with (root_type schema k (model_root schema KSubscription)).
        destruct r as [n|]; [now rewrite (root_some _ _ Hr)|rewrite root_no; [exact E|apply Hl; now right|exact Hr]].
      - change (schema_field schema shuffle_types k "directives") with
          (each k (flat_map (fun d => match d with DirectiveDef n de a r l => [OnDirective n de a r l] | _ => [] end) schema)).
        assert (Hall : Forall2 (fun s x => rel s x /\ metatype x = "__Directive")
          (flat_map (fun d => match d with DirectiveDef n de a r l => [OnDirective n de a r l] | _ => [] end) schema)
          (map (fun x => let '(n, de, i, r, ls) := x in TheDirective n de i r ls) (directive_parts schema))).
        { assert (Hd : forall d, In d schema -> In d schema) by trivial. revert Hd. generalize schema at 1 3 4 as l. induction l as [|d l IH]; intros Hd; [constructor|].
          specialize (IH (fun d' Hd' => Hd d' (or_intror Hd'))).
          destruct d as [ds a b c|t|x|x de i r ls]; cbn [flat_map directive_parts app map]; try exact IH.
          constructor; [|exact IH]. split; [|reflexivity]. apply rel_directive. apply Hd. now left. }
        destruct (each_good "__Directive" _ _ (Hk _ eq_refl) Hall) as [vs [E Hf]]. eexists _, _. split; [exact E|].
        split; [apply meta_directives; apply directives_listed|now apply fits_many].
    Qed.
    Lemma wrapper_ok kind t th f args c : rel (OnWrapper kind t) th -> In ("__Type", f, c) meta_fields ->
      (forall c', c = Some c' -> good_for c') -> done th f args (wrapper_field schema k kind t f).
    Proof.
      intros Hr Hin Hk.
      assert (Hw : exists w, th = TheType w /\ (exists t', w = TList t' \/ w = TNonNull t')) by (inversion Hr; subst; eexists; (split; [reflexivity|]); exists t; tauto).
      assert (Hno : forall f, In f ["name"; "description"; "specifiedByURL"; "isOneOf"; "fields"; "interfaces"; "possibleTypes"; "enumValues"; "inputFields"] ->
                wrapper_field schema k kind t f = Some VNull -> done th f args (wrapper_field schema k kind t f)).
      { intros f' Hf' E. destruct Hw as [w [-> Hw]]. exists VNull, Nothing. split; [exact E|]. split; [now apply meta_wrapped|apply fits_nothing]. }
      cbn [meta_fields In] in Hin.
      repeat (destruct Hin as [Hin|Hin]; [try discriminate Hin; injection Hin as <- <-|]); [..|destruct Hin].
      - inversion Hr; subst; eexists _, _; (split; [reflexivity|]); (split; [constructor|apply fits_leaf]).
      - apply Hno; [cbn; tauto|reflexivity].
      - apply Hno; [cbn; tauto|reflexivity].
      - apply Hno; [cbn; tauto|reflexivity].
      - apply Hno; [cbn; tauto|reflexivity].
      - apply Hno; [cbn; tauto|reflexivity].
      - apply Hno; [cbn; tauto|reflexivity].
      - apply Hno; [cbn; tauto|reflexivity].
      - apply Hno; [cbn; tauto|reflexivity].
      - assert (Ht : knows t) by (inversion Hr; subst; assumption).
        destruct (type_good t (Hk _ eq_refl) Ht) as [v [E Hv]]. inversion Hr; subst; (exists v; eexists; split; [exact E|]; split; [constructor|now apply fits_one]).
      - apply Hno; [cbn; tauto|reflexivity].
    Qed.
  End Sub.
End Fields.
