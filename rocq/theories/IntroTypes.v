(** Proofs about introspection: types, and whole selection sets. *)
From Coq Require Import String List Bool Permutation.
From Verif Require Import Ast JsonModel CoerceModel ConsumerModel ConsumerSpec ConsumerParts IntroModel IntroSpec IntroProofs IntroFields.
Import ListNotations.
Local Open Scope string_scope.
Local Open Scope list_scope.

Section Types.
  Variable schema : list definition.
  Variable vars : list (string * value).
  Variable shuffle_names : list string -> list string.
  Variable shuffle_types : list typedef -> list typedef.
  Variable show : gvalue -> string.
  Hypothesis Hshuffle_names : forall l, Permutation l (shuffle_names l).
  Hypothesis Hshuffle_types : forall l, Permutation l (shuffle_types l).
  Hypothesis Hsound : sound schema.
  Hypothesis Hvars : NoDup (map fst vars).

  (** * Possible types *)
  Lemma object_unkeyed o d im ds fs : defined schema (Object o d im ds fs) -> kget o (first_possible_types schema) = None.
  Proof.
    intros Hd. destruct (kget o (first_possible_types schema)) as [l|] eqn:E; [|reflexivity]. exfalso.
    assert (Hn : kget o (fold_left first_possible schema []) <> None) by (unfold first_possible_types in E; now rewrite E).
    apply first_key in Hn. destruct Hn as [Hn|[x [Hi Hk]]]; [now apply Hn|].
    assert (Himp : forall n, says schema (EImplements n o) [] -> False).
    { intros n Hs. destruct (sound_implements _ Hsound n o (ex_intro _ _ Hs)) as [d' [im' [ds' [fs' Hd']]]].
      pose proof (sound_names _ Hsound _ _ Hd Hd' eq_refl). discriminate. }
    destruct x as [a b c e|t|n|n de j r ls]; try contradiction. destruct t; try contradiction; cbn [keyed] in Hk.
    - apply (Himp name). eexists _, _. split; [exact Hi|]. now apply part_object_implements.
    - apply (Himp name). eexists _, _. split; [exact Hi|]. now apply part_interface_implements.
    - subst. pose proof (sound_names _ Hsound _ _ Hd Hi eq_refl). discriminate.
  Qed.
  Definition object_named (o : string) : Prop := exists d im ds fs, defined schema (Object o d im ds fs).
  Lemma flat_objects l : Forall object_named l ->
    flat_map (fun y => y :: match kget y (first_possible_types schema) with Some l' => l' | None => [] end) l = l.
  Proof.
    induction 1 as [|o l [d [im [ds [fs Hd]]]] Hl IH]; cbn [flat_map]; [reflexivity|]. rewrite (object_unkeyed o d im ds fs Hd). cbn [app]. now rewrite IH.
  Qed.
  Definition possible (n : string) : list string :=
    filter (fun x => negb (String.eqb x n)) (shuffle_names (nodup string_dec (n :: possible_of (first_possible_types schema) n))).
  Lemma possible_once n : NoDup (possible n).
  Proof. apply NoDup_filter. eapply Permutation_NoDup; [apply Hshuffle_names|apply NoDup_nodup]. Qed.
  Lemma in_possible n o : In o (possible n) <-> o <> n /\ In o (possible_of (first_possible_types schema) n).
  Proof.
    unfold possible. rewrite filter_In.
    assert (E : forall l, In o (shuffle_names l) <-> In o l).
    { intros l. split; apply Permutation_in; [apply Permutation_sym|]; apply Hshuffle_names. }
    rewrite E, nodup_In. cbn [In]. destruct (String.eqb_spec o n) as [->|Hne]; cbn [negb]; [intuition congruence|]. intuition congruence.
  Qed.
  Lemma possible_interface n d im ds fs : interfaces_flat schema -> defined schema (Interface n d im ds fs) -> forall o, In o (possible n) <-> implementing schema n o.
  Proof.
    intros Hflat Hd o. rewrite in_possible.
    assert (Hfirst : forall o, (exists x, kget n (first_possible_types schema) = Some x /\ In o x) <-> implementing schema n o).
    { intros o'. unfold first_possible_types. rewrite first_of.
      - cbn [kget]. split.
        + intros [[x [[=] _]]|[x [Hi Ha]]]. destruct x as [a b c e|t|y|y de j r ls]; try contradiction. destruct t; try contradiction; cbn [adds] in Ha.
          * destruct Ha as [Ha ->]. now exists desc, impls, dirs, fields.
          * destruct Ha as [Ha _]. rewrite (Hflat _ _ _ _ _ Hi) in Ha. destruct Ha.
          * destruct Ha as [<- _]. pose proof (sound_names _ Hsound _ _ Hd Hi eq_refl). discriminate.
        + intros [d' [im' [ds' [fs' [Hd' Hi]]]]]. right. exists (TypeDef (Object o' d' im' ds' fs')). split; [exact Hd'|]. now split.
      - intros u d' ds' ms Hi ->. pose proof (sound_names _ Hsound _ _ Hd Hi eq_refl). discriminate. }
    assert (Hin : In o (possible_of (first_possible_types schema) n) <-> implementing schema n o).
    { unfold possible_of. destruct (kget n (first_possible_types schema)) as [l|] eqn:E.
      - rewrite flat_objects.
        + rewrite <- Hfirst. split; [now exists l|]. intros [x [[= ->] Hx]]. exact Hx.
        + apply Forall_forall. intros x Hx. destruct (proj1 (Hfirst x)) as [d' [im' [ds' [fs' [Hd' _]]]]]; [now exists l|]. now exists d', im', ds', fs'.
      - rewrite <- Hfirst. split; [intros []|]. intros [x [[=] _]]. }
    rewrite Hin. split; [tauto|]. intros H. split; [|exact H]. intros ->. destruct H as [d' [im' [ds' [fs' [Hd' _]]]]].
    pose proof (sound_names _ Hsound _ _ Hd Hd' eq_refl). discriminate.
  Qed.
  Lemma possible_union n d ds ms : defined schema (Union n d ds ms) -> forall o, In o (possible n) <-> In o ms.
  Proof.
    intros Hd o. rewrite in_possible.
    assert (E : kget n (first_possible_types schema) = Some ms).
    { unfold first_possible_types. eapply first_union; [exact Hd| |].
      - intros d' ds' ms' Hi. pose proof (sound_names _ Hsound _ _ Hd Hi eq_refl) as [= -> -> ->]. reflexivity.
      - assert (Himp : forall x, says schema (EImplements x n) [] -> False).
        { intros x Hs. destruct (sound_implements _ Hsound x n (ex_intro _ _ Hs)) as [d' [im' [ds' [fs' Hd']]]].
          pose proof (sound_names _ Hsound _ _ Hd Hd' eq_refl). discriminate. }
        intros x Hi. destruct x as [a b c e|t|y|y de j r ls]; try exact I. destruct t; try exact I; intros Hm; apply (Himp name); eexists _, _; (split; [exact Hi|]).
        + now apply part_object_implements.
        + now apply part_interface_implements. }
    assert (Hobj : Forall object_named ms).
    { apply Forall_forall. intros x Hx. apply (sound_members _ Hsound n x). eexists. eexists _, _. split; [exact Hd|]. now apply part_member. }
    unfold possible_of. rewrite E, (flat_objects _ Hobj). split; [tauto|]. intros H. split; [|exact H]. intros ->.
    rewrite Forall_forall in Hobj. destruct (Hobj n H) as [d' [im' [ds' [fs' Hd']]]]. pose proof (sound_names _ Hsound _ _ Hd Hd' eq_refl). discriminate.
  Qed.
  Lemma type_says t : defined schema t -> exists k ds, says schema (EType k (ConsumerModel.type_name t) (type_desc t)) ds.
  Proof. intros Hd. destruct t; eexists _, _; eexists _, _; (split; [exact Hd|]); constructor. Qed.

  Section Sub.
    Variable sub : list sel.
    Variable k : subject -> option value.
    Notation good := (good_for schema vars show sub k).
    Notation done' := (done schema vars show sub).

    Lemma null_ok x f args o : o = Some VNull -> meta schema vars show x f (args_of args) Nothing -> done' x f args o.
    Proof. intros E H. exists VNull, Nothing. split; [exact E|]. split; [exact H|apply fits_nothing]. Qed.
    Lemma fields_ok n d im ds fs args : good "__Field" -> good_args vars "fields" (args_of args) ->
      defined schema (Object n d im ds fs) \/ defined schema (Interface n d im ds fs) ->
      done' (TheType (TNamed n)) "fields" args
        (each k (map OnField (filter (fun fd => negb (reserved (f_name fd)) && (include_deprecated vars args || negb (is_deprecated (f_dirs fd))))%bool fs))).
    Proof.
      intros Hk Ha Hd. set (l := filter _ fs).
      destruct (each_good schema vars show sub k "__Field" (map OnField l) (map TheField l) Hk) as [vs [E Hf]].
      - assert (Hl : Forall (field_there schema) l).
        { apply Forall_forall. intros fd Hi. apply filter_In in Hi. exists n, d, im, ds, fs. tauto. }
        induction Hl as [|fd l' Hfd Hl' IH]; cbn [map]; constructor; [|exact IH]. split; [now apply rel_field|reflexivity].
      - exists (VArr vs), (Many (map TheField l)). split; [exact E|]. split; [|now apply fits_many].
        assert (Hlisted : field_listed vars (args_of args) fs l).
        { exists (include_deprecated vars args). split; [eapply included; exact Ha|]. apply those_filter. intros fd _. unfold reserved.
          rewrite andb_true_iff, negb_true_iff, orb_true_iff, negb_true_iff, <- (is_deprecated_iff (f_dirs fd)), not_true_iff_false. reflexivity. }
        destruct Hd as [Hd|Hd]; [eapply meta_object_fields|eapply meta_interface_fields]; eassumption.
    Qed.
    Lemma possible_ok n l args : good "__Type" -> (forall o, In o (possible n) -> known schema o) ->
      l = possible n -> (forall a, meta schema vars show (TheType (TNamed n)) "possibleTypes" a (AnyOrder (map (fun i => TheType (TNamed i)) l))) ->
      done' (TheType (TNamed n)) "possibleTypes" args (each k (map OnDef (named_types schema (possible n)))).
    Proof.
      intros Hk Hkn -> Hm. destruct (names_good schema vars show Hsound sub k (possible n) Hk) as [vs [E Hf]]; [now apply Forall_forall|].
      eexists _, _. split; [exact E|]. split; [apply Hm|]. eapply fits_any; [apply Permutation_refl|exact Hf].
    Qed.
    Lemma def_ok t f args c : defined schema t -> In ("__Type", f, c) meta_fields -> good_args vars f (args_of args) -> limits schema f ->
      (forall c', c = Some c' -> good c') -> done' (the t) f args (def_field schema vars shuffle_names k t f args).
    Proof.
      intros Ht Hin Ha [_ [Hl1 [Hl2 [Hl3 _]]]] Hk. cbn [meta_fields In] in Hin.
      assert (Hkn : known schema (ConsumerModel.type_name t)) by (exists t; now split).
      repeat (destruct Hin as [Hin|Hin]; [try discriminate Hin; injection Hin as <- <-|]); [..|destruct Hin].
      - exists (VStr (kind_name t)), (Leaf (VStr (kind_name t))). split; [reflexivity|]. split; [|apply fits_leaf].
        destruct t; [eapply meta_kind_scalar|eapply meta_kind_object|eapply meta_kind_interface|eapply meta_kind_union|eapply meta_kind_enum|eapply meta_kind_input]; exact Ht.
      - eexists _, _. split; [reflexivity|]. split; [now apply meta_name_named|apply fits_leaf].
      - destruct (type_says t Ht) as [kd [ds Hs]]. destruct (text_ok schema vars show (type_desc t) sub) as [ans [H1 H2]].
        eexists _, ans. split; [reflexivity|]. split; [eapply meta_description; eassumption|exact H2].
      - destruct t as [n d ds|n d im ds fs|n d im ds fs|n d ds ms|n d ds vs|n d ds fs].
        1:{ destruct (url_given schema vars show Hsound ds) as [ans [H1 H2]]; [exists (EType KindScalar n d), (TypeDef (Scalar n d ds)), [ds]; split; [exact Ht|constructor]|].
            eexists _, ans. split; [reflexivity|]. split; [eapply meta_specified; eassumption|apply H2]. }
        all: apply null_ok; [reflexivity|]; (apply meta_not_scalar; [exact Ht|discriminate]).
      - destruct t as [n d ds|n d im ds fs|n d im ds fs|n d ds ms|n d ds vs|n d ds fs].
        2:{ change (done' (TheType (TNamed n)) "fields" args
              (each k (map OnField (filter (fun fd => negb (reserved (f_name fd)) && (include_deprecated vars args || negb (is_deprecated (f_dirs fd))))%bool fs)))).
            eapply fields_ok; [now apply Hk|exact Ha|left; exact Ht]. }
        2:{ change (done' (TheType (TNamed n)) "fields" args
              (each k (map OnField (filter (fun fd => negb (reserved (f_name fd)) && (include_deprecated vars args || negb (is_deprecated (f_dirs fd))))%bool fs)))).
            eapply fields_ok; [now apply Hk|exact Ha|right; exact Ht]. }
        all: apply null_ok; [reflexivity|]; (apply meta_no_fields; [exact Ht|intros; split; discriminate|now left]).
      - destruct t as [n d ds|n d im ds fs|n d im ds fs|n d ds ms|n d ds vs|n d ds fs].
        2:{ destruct (names_good schema vars show Hsound sub k im (Hk _ eq_refl)) as [vs [E Hf]].
            { apply Forall_forall. intros i Hi. eapply (refers_known schema Hsound (EImplements n i)); [|reflexivity].
              eexists _, _. split; [exact Ht|]. now apply part_object_implements. }
            eexists _, _. split; [exact E|]. split; [eapply meta_object_interfaces; exact Ht|now apply fits_many]. }
        2:{ now destruct (Hl1 eq_refl n d im ds fs). }
        all: apply null_ok; [reflexivity|]; (apply meta_no_fields; [exact Ht|intros; split; discriminate|right; now left]).
      - destruct t as [n d ds|n d im ds fs|n d im ds fs|n d ds ms|n d ds vs|n d ds fs].
        3:{ change (done' (TheType (TNamed n)) "possibleTypes" args (each k (map OnDef (named_types schema (possible n))))).
            pose proof (possible_interface n d im ds fs (Hl2 eq_refl) Ht) as Hp. eapply possible_ok; [now apply Hk| |reflexivity|].
            - intros o Ho. apply Hp in Ho. destruct Ho as [d' [im' [ds' [fs' [Hd' _]]]]]. now exists (Object o d' im' ds' fs').
            - intros a. eapply meta_interface_possible; [exact Ht|apply possible_once|exact Hp]. }
        3:{ change (done' (TheType (TNamed n)) "possibleTypes" args (each k (map OnDef (named_types schema (possible n))))).
            pose proof (possible_union n d ds ms Ht) as Hp. eapply possible_ok; [now apply Hk| |reflexivity|].
            - intros o Ho. apply Hp in Ho. eapply (refers_known schema Hsound (EMember n o)); [|reflexivity]. eexists _, _. split; [exact Ht|]. now apply part_member.
            - intros a. eapply meta_union_possible; [exact Ht|apply possible_once|exact Hp]. }
        all: apply null_ok; [reflexivity|]; (apply meta_not_abstract; [exact Ht|intros; split; discriminate]).
      - destruct t as [n d ds|n d im ds fs|n d im ds fs|n d ds ms|n d ds vs|n d ds fs].
        5:{ set (l := filter (fun v => include_deprecated vars args || negb (is_deprecated (ev_dirs v)))%bool vs).
            change (done' (TheType (TNamed n)) "enumValues" args (each k (map OnEnumValue l))).
            destruct (each_good schema vars show sub k "__EnumValue" (map OnEnumValue l) (map TheValue l) (Hk _ eq_refl)) as [ws [E Hf]].
            - assert (Hl : Forall (fun v => In v vs) l) by (apply Forall_forall; intros v Hi; apply filter_In in Hi; tauto).
              induction Hl as [|v l' Hv Hl' IH]; cbn [map]; constructor; [|exact IH]. split; [eapply rel_value; eassumption|reflexivity].
            - exists (VArr ws), (Many (map TheValue l)). split; [exact E|]. split; [eapply meta_enum_values; [exact Ht|]|now apply fits_many].
              exists (include_deprecated vars args). split; [eapply included; exact Ha|]. apply those_filter. intros v _.
              rewrite orb_true_iff, negb_true_iff, <- (is_deprecated_iff (ev_dirs v)), not_true_iff_false. reflexivity. }
        all: apply null_ok; [reflexivity|]; (apply meta_not_enum; [exact Ht|discriminate]).
      - destruct t as [n d ds|n d im ds fs|n d im ds fs|n d ds ms|n d ds vs|n d ds fs].
        6:{ destruct (inputs_good schema vars show sub k fs args "inputFields" (Hk _ eq_refl) Ha) as [ws [E [H1 H2]]]; [apply Hl3; now right| |].
            - apply Forall_forall. intros v Hv. right; left. now exists n, d, ds, fs.
            - eexists _, _. split; [exact E|]. split; [eapply meta_input_fields; eassumption|exact H2]. }
        all: apply null_ok; [reflexivity|]; (apply meta_not_input; [exact Ht|discriminate|right; left; reflexivity]).
      - apply null_ok; [reflexivity|]. now apply meta_not_wrapped.
      - destruct t as [n d ds|n d im ds fs|n d im ds fs|n d ds ms|n d ds vs|n d ds fs].
        6:{ eexists _, _. split; [reflexivity|]. split; [eapply meta_one_of; [exact Ht|]; apply truth_bool|apply fits_leaf].
            unfold is_one_of. rewrite existsb_exists. split; intros [x [Hi He]]; exists x; (split; [exact Hi|]); [exact (proj1 (String.eqb_eq _ _) He)|exact (proj2 (String.eqb_eq _ _) He)]. }
        all: apply null_ok; [reflexivity|]; (apply meta_not_input; [exact Ht|discriminate|now left]).
    Qed.

    Lemma typename_ok s x args : rel schema s x -> done' x "__typename" args (value_of schema vars shuffle_names shuffle_types show k s "__typename" args).
    Proof. intros H. exists (VStr (metatype x)), (Leaf (VStr (metatype x))). split; [inversion H; subst; reflexivity|]. split; [apply meta_typename|apply fits_leaf]. Qed.
    Lemma unreserved_type r f c : String.prefix "__" r = false -> In (r, f, c) meta_fields -> False.
    Proof.
      intros Hr Hin. cbn [meta_fields In] in Hin.
      repeat (destruct Hin as [Hin|Hin]; [injection Hin as <- _ _; vm_compute in Hr; discriminate|]). exact Hin.
    Qed.
    Lemma value_good root s x f args c : String.prefix "__" root = false -> rel schema s x -> (forall r, x = TheRoot r -> r = root) ->
      declares root (metatype x) f c -> good_args vars f (args_of args) -> limits schema f ->
      (forall c', c = Some c' -> good c') -> done' x f args (value_of schema vars shuffle_names shuffle_types show k s f args).
    Proof.
      intros Hroot Hrel Hx Hdec Ha Hl Hk.
      assert (Hdec' : f = "__typename" \/ (In (metatype x, f, c) meta_fields) \/ (metatype x = root /\ (f = "__schema" /\ c = Some "__Schema" \/ f = "__type" /\ c = Some "__Type"))).
      { inversion Hdec; subst; tauto. }
      destruct Hdec' as [->|[Hin|[Hm Hf]]]; [now apply typename_ok| |].
      - inversion Hrel; subst; cbn [metatype the value_of] in *.
        + destruct (unreserved_type _ _ _ H Hin).
        + eapply schema_ok; eassumption.
        + eapply def_ok; eassumption.
        + eapply wrapper_ok; eassumption.
        + eapply wrapper_ok; eassumption.
        + eapply field_ok; eassumption.
        + eapply input_ok; eassumption.
        + eapply value_ok; try eassumption. eapply value_stands; eassumption.
        + eapply directive_ok; eassumption.
      - assert (Hxr : exists r, s = OnRoot r /\ x = TheRoot r).
        { inversion Hrel; subst; cbn [metatype the] in Hroot; try (vm_compute in Hroot; discriminate). eexists; now split. }
        destruct Hxr as [r [-> ->]]. destruct Hf as [[-> ->]|[-> ->]]; (eapply root_ok; [exact Hvars| |exact Ha|apply Hk; reflexivity]); tauto.
    Qed.
  End Sub.
End Types.
