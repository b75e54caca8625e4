(** Introspection queries that are answered against the specification. *)
From Coq Require Import String List Bool Permutation.
From Verif Require Import Ast JsonModel CoerceModel ConsumerModel ConsumerSpec IntroModel IntroSpec IntroProofs IntroFields.
Import ListNotations.
Local Open Scope string_scope.
Local Open Scope list_scope.

Definition same {A} (l : list A) : list A := l.
Definition nothing_shown (v : gvalue) : string := "".
Definition int : tnode := TNamed "Int".
Definition old : list directive := [mkdirective "deprecated" []].
Definition id_field : field := mkfield "id" None [] int [].
Definition query_type : typedef := Object "Query" None [] [] [mkfield "old" None [mkinput "x" None int None old] int old].
Definition i_type : typedef := Interface "I" None [] [] [id_field].
Definition j_type : typedef := Interface "J" None ["I"] [] [id_field].
Definition mutation_type : typedef := Object "Mutation" None ["J"; "I"] [] [id_field].
Definition int_type : typedef := Scalar "Int" None [].
Definition small : list definition :=
  [SchemaDef [] (Some "Query") None None; TypeDef query_type; TypeDef i_type; TypeDef j_type; TypeDef mutation_type; TypeDef int_type].

Ltac cases H := cbn [In small] in H; repeat (destruct H as [H|H]; [try discriminate H|]); [..|destruct H].
Lemma small_types t : defined small t -> t = query_type \/ t = i_type \/ t = j_type \/ t = mutation_type \/ t = int_type.
Proof. intros H. unfold defined in H. cases H; injection H as <-; tauto. Qed.
Lemma small_has n : (n = "Query" \/ n = "I" \/ n = "J" \/ n = "Mutation" \/ n = "Int") -> has_type small n.
Proof.
  intros [->|[->|[->|[->| ->]]]].
  - exists KindObject, None, [], (TypeDef query_type). eexists. split; [cbn; tauto|]. constructor.
  - exists KindInterface, None, [], (TypeDef i_type). eexists. split; [cbn; tauto|]. constructor.
  - exists KindInterface, None, [], (TypeDef j_type). eexists. split; [cbn; tauto|]. constructor.
  - exists KindObject, None, [], (TypeDef mutation_type). eexists. split; [cbn; tauto|]. constructor.
  - exists KindScalar, None, [], (TypeDef int_type). eexists. split; [cbn; tauto|]. constructor.
Qed.
Lemma small_dirs ds : stands small ds -> ds = [] \/ ds = old.
Proof.
  intros [e [x [p [Hi Hp]]]]. cases Hi; subst x; inversion Hp; subst; try (now left);
    repeat match goal with H : In _ [_] |- _ => destruct H as [<-|[]] | H : In _ [] |- _ => destruct H | H : In _ (f_args _) |- _ => cbn in H; destruct H as [<-|[]] | H : In _ (f_args _) |- _ => destruct H end;
    cbn; tauto.
Qed.
Lemma small_query : root_is small KQuery (Some "Query").
Proof. exact (root_given small KQuery [] (Some "Query") None None (or_introl eq_refl)). Qed.
Lemma small_sound : sound small.
Proof.
  constructor.
  - repeat constructor; cbn; intuition discriminate.
  - intros t t' Ht Ht'. apply small_types in Ht. apply small_types in Ht'.
    destruct Ht as [->|[->|[->|[->| ->]]]]; destruct Ht' as [->|[->|[->|[->| ->]]]]; intros E; try reflexivity; discriminate E.
  - intros e ds n [x [p [Hi Hp]]] Hr. apply small_has. cases Hi; subst x; inversion Hp; subst;
      repeat match goal with H : In _ [_] |- _ => destruct H as [<-|[]] | H : In _ [_; _] |- _ => destruct H as [<-|[<-|[]]] | H : In _ [] |- _ => destruct H | H : In _ (f_args _) |- _ => cbn in H; destruct H as [<-|[]] | H : In _ (f_args _) |- _ => destruct H end;
      cbn in Hr; try discriminate; injection Hr as <-; tauto.
  - intros t i [ds [x [p [Hi Hp]]]]. cases Hi; subst x; inversion Hp; subst;
      repeat match goal with H : In _ [_] |- _ => destruct H as [<-|[]] | H : In _ [_; _] |- _ => destruct H as [<-|[<-|[]]] | H : In _ [] |- _ => destruct H end;
      eexists _, _, _, _; unfold defined; cbn; tauto.
  - intros u t [ds [x [p [Hi Hp]]]]. cases Hi; subst x; inversion Hp.
  - intros ds q m s ds' q' m' s' H H'. cases H. cases H'. congruence.
  - intros k n H. inversion H as [ds q m s Hi E|d im ds fs Hno Hd E|]; subst.
    + cases Hi. injection Hi as <- <- <- <-. destruct k; try discriminate E. injection E as <-. exists query_type. split; [cbn; tauto|reflexivity].
    + destruct (Hno [] (Some "Query") None None). now left.
  - exists "Query". exact small_query.
  - intros ds d d' Hs Hd Hd' _ _. destruct (small_dirs ds Hs) as [->| ->]; [destruct Hd|]. destruct Hd as [<-|[]]. destruct Hd' as [<-|[]]. reflexivity.
  - intros ds d Hs Hd _. destruct (small_dirs ds Hs) as [->| ->]; [destruct Hd|]. destruct Hd as [<-|[]]. constructor.
  - intros ds d Hs Hd E. destruct (small_dirs ds Hs) as [->| ->]; [destruct Hd|]. destruct Hd as [<-|[]]. discriminate E.
Qed.

(** * Queries *)
Definition field_of (f : string) (a : list (string * gvalue)) (l : list sel) : sel := SField f None (Some a) None None false l.
Definition type_query (n : string) (l : list sel) : list sel := [field_of "__type" [("name", GStr n)] l].
Definition all_too : list (string * gvalue) := [("includeDeprecated", GBool true)].
Notation gives0 := (gives small [] nothing_shown).
Notation fits0 := (fits small [] nothing_shown).
Notation meta0 := (meta small [] nothing_shown).
Definition answer_to (l : list sel) : option value :=
  resolve_introspection small [] same same nothing_shown (mkop None (Some KQuery) l None).
Definition answered_wrongly (l : list sel) : Prop :=
  Forall (valid [] "Query" "Query") l /\ exists v, answer_to l = Some v /\ ~ gives0 (TheRoot "Query") l v.

Lemma one_field x f a l o : gives0 x [field_of f a l] o -> exists w ans, o = VObj [(f, w)] /\ meta0 x f a ans /\ fits0 ans l w.
Proof.
  intros H. inversion H as [x' l' o' Hn Hk Hv]; subst.
  assert (Honly : forall k n a' s, picks (metatype x) [field_of f a l] k n a' s -> k = f /\ n = f /\ a' = a /\ s = l).
  { intros k n a' s Hp. inversion Hp as [l1 n1 al1 a1 i1 s1 o1 sub1 Hi|l1 i1 s1 sub1 k1 n1 a1 sub' Hi Hp']; subst.
    - destruct Hi as [[= <- <- <- <- <- <- <-]|[]]. now repeat split.
    - destruct Hi as [[=]|[]]. }
  assert (Hf : In f (map fst o')).
  { apply Hk. exists f, a, l. apply (picks_field (metatype x) [field_of f a l] f None (Some a) None None false l). now left. }
  assert (Hkf : forall k, In k (map fst o') -> k = f) by (intros k0 Hi; apply Hk in Hi; destruct Hi as [n [a' [s Hp]]]; now apply Honly in Hp).
  destruct o' as [|[k w] [|[k' w'] o']]; [destruct Hf| |].
  - destruct Hf as [E|[]]. cbn [fst] in E. subst k. destruct (Hv f w (or_introl eq_refl)) as [n [a' [ans [[s Hp] [Hm Hfit]]]]].
    apply Honly in Hp. destruct Hp as [_ [-> [-> _]]]. exists w, ans. split; [reflexivity|]. split; [exact Hm|]. cbn [flat_map subs_of field_of key_of] in Hfit.
    now rewrite String.eqb_refl, app_nil_r in Hfit.
  - exfalso. cbn [map fst] in Hn. inversion Hn as [|k0 l0 Hni _]; subst. apply Hni. left. rewrite (Hkf k), (Hkf k'); [reflexivity|right; now left|now left].
Qed.
Lemma ask_type n l o : gives0 (TheRoot "Query") (type_query n l) o -> known small n -> exists w, o = VObj [("__type", w)] /\ gives0 (TheType (TNamed n)) l w.
Proof.
  intros H Hkn. apply one_field in H. destruct H as [w [ans [-> [Hm Hf]]]]. exists w. split; [reflexivity|].
  assert (Hname : forall m, asked_name [] [("name", GStr n)] m -> m = n).
  { intros m Ha. inversion Ha as [m' Hi|y m' Hi Hv]; subst; [|destruct Hv]. destruct Hi as [[= ->]|[]]. reflexivity. }
  inversion Hm; subst; match goal with H : asked_name _ _ _ |- _ => apply Hname in H; subst end; [|contradiction]. now inversion Hf.
Qed.
Lemma small_knows n : (n = "Query" \/ n = "I" \/ n = "J" \/ n = "Mutation" \/ n = "Int") -> known small n.
Proof. intros H. apply small_has in H. destruct H as [k [d [ds H]]]. eapply says_type_known. exact H. Qed.

(** ** Validity *)
Ltac declared := first [apply declares_type|apply declares_schema|apply declares_meta; cbn [meta_fields In]; tauto].
Lemma no_args f : f <> "__type" -> good_args [] f [].
Proof. intros H. split; [constructor|]. split; [intros v []|]. intros E. contradiction. Qed.
Lemma all_args f : f <> "__type" -> good_args [] f all_too.
Proof.
  intros H. split; [repeat constructor; intros []|]. split; [|intros E; contradiction]. intros v [[= <-]|[]]. left. now exists true.
Qed.
Lemma type_args n : good_args [] "__type" [("name", GStr n)].
Proof.
  split; [repeat constructor; intros []|]. split; [intros v [[=]|[]]|]. intros _. exists n. apply asked_literal. now left.
Qed.
Ltac args := first [apply type_args|apply no_args; discriminate|apply all_args; discriminate].
Ltac valid := repeat first
  [apply Forall_cons|apply Forall_nil
  |apply valid_leaf; [declared|args]
  |eapply valid_field; [declared|args|discriminate|]
  |apply valid_fragment; [discriminate|]].

Lemma no_type t n : defined small t -> ConsumerModel.type_name t = n -> (n = "Query" -> t = query_type) /\ (n = "I" -> t = i_type) /\ (n = "J" -> t = j_type) /\ (n = "Mutation" -> t = mutation_type).
Proof. intros Hd <-. apply small_types in Hd. destruct Hd as [->|[->|[->|[->| ->]]]]; repeat split; intros E; (reflexivity || discriminate E). Qed.

Lemma no_reason : answered_wrongly (type_query "Query" [field_of "fields" all_too [field_of "deprecationReason" [] []]]).
Proof.
  split; [unfold type_query; valid|]. eexists. split; [vm_compute; reflexivity|]. intros H.
  apply ask_type in H; [|apply small_knows; tauto]. destruct H as [w [[= <-] H]]. apply one_field in H. destruct H as [w [ans [[= <-] [Hm Hf]]]].
  assert (Hl : exists l, ans = Many (map TheField l) /\ exists b, those (fun f => String.prefix "__" (f_name f) = false /\ (b = true \/ ~ deprecated (f_dirs f))) [mkfield "old" None [mkinput "x" None int None old] int old] l).
  { inversion Hm; subst; try (exfalso; now inversion Hf).
    - match goal with H : defined small ?t |- _ => pose proof (no_type t "Query" H eq_refl) as [E _]; specialize (E eq_refl); injection E as -> -> -> -> end.
      match goal with H : field_listed _ _ _ _ |- _ => destruct H as [b [_ H]]; eexists; split; [reflexivity|]; exists b; exact H end.
    - match goal with H : defined small ?t |- _ => pose proof (no_type t "Query" H eq_refl) as [E _]; specialize (E eq_refl); discriminate E end. }
  destruct Hl as [l [-> [b Hl]]]. inversion Hf as [| | |l0 xs vs Hall|]; subst. destruct l as [|f [|f' l]]; cbn [map] in Hall; inversion Hall as [|x xs l0 v vs Hg Hrest]; subst; [|inversion Hrest].
  assert (Hfd : f_dirs f = old) by (inversion Hl; subst; [match goal with H : those _ [] _ |- _ => inversion H end|reflexivity]).
  apply one_field in Hg. destruct Hg as [w [ans [[= <-] [Hm' Hf']]]]. inversion Hm'; subst. rewrite Hfd in *.
  match goal with H : deprecation _ _ |- _ => inversion H; subst end; [|inversion Hf'|inversion Hf'].
  match goal with H : ~ deprecated _ |- _ => apply H end. exists (mkdirective "deprecated" []). split; [now left|reflexivity].
Qed.
Lemma no_interfaces : answered_wrongly (type_query "J" [field_of "interfaces" [] [field_of "name" [] []]]).
Proof.
  split; [unfold type_query; valid|]. eexists. split; [vm_compute; reflexivity|]. intros H.
  apply ask_type in H; [|apply small_knows; tauto]. destruct H as [w [[= <-] H]]. apply one_field in H. destruct H as [w [ans [[= <-] [Hm Hf]]]].
  inversion Hm; subst; try (now inversion Hf).
  - match goal with H : exists t', _ |- _ => destruct H as [t' [E|E]]; discriminate E end.
  - match goal with H : In "interfaces" _ |- _ => destruct H as [E|[E|[]]]; discriminate E end.
  - match goal with Hd : defined small ?t, Hn : forall n d im ds fs, ?t <> _ /\ _, E : ConsumerModel.type_name ?t = "J" |- _ =>
      pose proof (no_type t "J" Hd E) as [_ [_ [E' _]]]; rewrite (E' eq_refl) in Hn; edestruct Hn as [_ Hn']; now apply Hn' end.
Qed.
Lemma interfaces_possible : answered_wrongly (type_query "I" [field_of "possibleTypes" [] [field_of "name" [] []]]).
Proof.
  split; [unfold type_query; valid|]. eexists. split; [vm_compute; reflexivity|]. intros H.
  apply ask_type in H; [|apply small_knows; tauto]. destruct H as [w [[= <-] H]]. apply one_field in H. destruct H as [w [ans [[= <-] [Hm Hf]]]].
  assert (Hl : exists l, ans = AnyOrder (map (fun i => TheType (TNamed i)) l) /\ NoDup l /\ forall o, In o l -> o = "Mutation").
  { inversion Hm; subst; try (now inversion Hf).
    - eexists. split; [reflexivity|]. split; [assumption|]. intros o Ho. match goal with H : forall o, In o l <-> _ |- _ => apply H in Ho end.
      destruct Ho as [d' [im' [ds' [fs' [Hd Hi]]]]]. apply small_types in Hd. destruct Hd as [E|[E|[E|[E|E]]]]; try discriminate E; injection E as -> -> -> -> ->; [|reflexivity].
      destruct Hi.
    - match goal with H : defined small ?t |- _ => pose proof (no_type t "I" H eq_refl) as [_ [E _]]; specialize (E eq_refl); discriminate E end. }
  destruct Hl as [l [-> [Hn Hl]]]. inversion Hf as [| | | |l0 xs ys vs Hp Hall]; subst.
  destruct l as [|o [|o' l]].
  - apply Permutation_nil in Hp. subst ys. inversion Hall.
  - apply Permutation_length_1_inv in Hp. subst ys. inversion Hall as [|x xs l0 v vs Hg Hrest]; subst. inversion Hrest.
  - inversion Hn as [|a b Hni _]; subst. apply Hni. left. rewrite (Hl o), (Hl o'); [reflexivity|right; now left|now left].
Qed.
Lemma deprecated_args : answered_wrongly (type_query "Query" [field_of "fields" all_too [field_of "args" [] [field_of "name" [] []]]]).
Proof.
  split; [unfold type_query; valid|]. eexists. split; [vm_compute; reflexivity|]. intros H.
  apply ask_type in H; [|apply small_knows; tauto]. destruct H as [w [[= <-] H]]. apply one_field in H. destruct H as [w [ans [[= <-] [Hm Hf]]]].
  assert (Hl : exists l, ans = Many (map TheField l) /\ exists b, those (fun f => String.prefix "__" (f_name f) = false /\ (b = true \/ ~ deprecated (f_dirs f))) [mkfield "old" None [mkinput "x" None int None old] int old] l).
  { inversion Hm; subst; try (exfalso; now inversion Hf).
    - match goal with H : defined small ?t |- _ => pose proof (no_type t "Query" H eq_refl) as [E _]; specialize (E eq_refl); injection E as -> -> -> -> end.
      match goal with H : field_listed _ _ _ _ |- _ => destruct H as [b [_ H]]; eexists; split; [reflexivity|]; exists b; exact H end.
    - match goal with H : defined small ?t |- _ => pose proof (no_type t "Query" H eq_refl) as [E _]; specialize (E eq_refl); discriminate E end. }
  destruct Hl as [l [-> [b Hl]]]. inversion Hf as [| | |l0 xs vs Hall|]; subst. destruct l as [|f [|f' l]]; cbn [map] in Hall; inversion Hall as [|x xs l0 v vs Hg Hrest]; subst; [|inversion Hrest].
  assert (Hfd : f_args f = [mkinput "x" None int None old]) by (inversion Hl; subst; [match goal with H : those _ [] _ |- _ => inversion H end|reflexivity]).
  apply one_field in Hg. destruct Hg as [w [ans [[= <-] [Hm' Hf']]]]. inversion Hm'; subst. rewrite Hfd in *.
  match goal with H : listed _ _ _ _ _ |- _ => destruct H as [b' [Hb Ht]] end.
  assert (b' = false) as -> by (inversion Hb; subst; try reflexivity; match goal with H : In _ [] |- _ => destruct H end).
  inversion Ht; subst.
  - match goal with H : those _ [] _ |- _ => inversion H; subst end. inversion Hf' as [| | |l0 xs vs Hall'|]; subst. inversion Hall'.
  - match goal with H : _ \/ ~ deprecated _ |- _ => destruct H as [E|E]; [discriminate E|apply E] end. exists (mkdirective "deprecated" []). split; [now left|reflexivity].
Qed.
Lemma schema_fragment : answered_wrongly [field_of "__schema" [] [SFrag "__Schema" None None [field_of "queryType" [] [field_of "name" [] []]]]].
Proof.
  split; [valid|]. eexists. split; [vm_compute; reflexivity|]. intros H. apply one_field in H. destruct H as [w [ans [[= <-] [Hm Hf]]]].
  inversion Hm; subst. inversion Hf as [| |l0 x v Hg| |]; subst. inversion Hg as [x l o Hn Hk Hv]; subst. cbn [map] in Hk.
  apply (Hk "queryType"). exists "queryType", [], [field_of "name" [] []]. eapply picks_fragment; [now left|].
  apply (picks_field _ _ "queryType" None (Some []) None None false). now left.
Qed.
Lemma not_merged : answered_wrongly (type_query "I" [SFrag "__Type" None None [field_of "fields" [] [field_of "name" [] []]]; field_of "fields" [] [field_of "description" [] []]]).
Proof.
  split; [unfold type_query; valid|]. eexists. split; [vm_compute; reflexivity|]. intros H.
  apply ask_type in H; [|apply small_knows; tauto]. destruct H as [w [[= <-] H]]. inversion H as [x l o Hn Hk Hv]; subst. cbn [map fst] in Hn.
  inversion Hn as [|a b Hni _]; subst. apply Hni. now left.
Qed.
Lemma stray_mutation : answered_wrongly [field_of "__schema" [] [field_of "mutationType" [] [field_of "name" [] []]]].
Proof.
  split; [valid|]. eexists. split; [vm_compute; reflexivity|]. intros H. apply one_field in H. destruct H as [w [ans [[= <-] [Hm Hf]]]].
  inversion Hm; subst. inversion Hf as [| |l0 x v Hg| |]; subst. apply one_field in Hg. destruct Hg as [w [ans [[= <-] [Hm' Hf']]]]. inversion Hm'; subst.
  match goal with H : root_is small KMutation _ |- _ => inversion H as [ds q m s Hi E|d im ds fs Hno Hd E|Hno Hd]; subst end.
  - cases Hi. injection Hi as <- <- <- <-. inversion Hf'.
  - destruct (Hno [] (Some "Query") None None). now left.
  - destruct (Hno [] (Some "Query") None None). now left.
Qed.
(** A field whose type is not in the schema *)
Definition broken : list definition := [TypeDef (Object "Query" None [] [] [mkfield "a" None [] (TNamed "Gone") []])].
Lemma unknown_type : exists l, Forall (valid [] "Query" "Query") l /\ root_is broken KQuery (Some "Query")
  /\ resolve_introspection broken [] same same nothing_shown (mkop None (Some KQuery) l None) = None.
Proof.
  exists (type_query "Query" [field_of "fields" [] [field_of "type" [] [field_of "name" [] []]]]). split; [unfold type_query; valid|]. split; [|vm_compute; reflexivity].
  apply (root_default broken KQuery None [] [] [mkfield "a" None [] (TNamed "Gone") []]); [|now left]. intros ds q m s [E|[]]. discriminate E.
Qed.
(** What is answered *)
Lemma answered : answer_to [field_of "__schema" [] [field_of "queryType" [] [field_of "name" [] []; field_of "fields" all_too [field_of "name" [] []; field_of "type" [] [field_of "kind" [] []]]]]; field_of "__type" [("name", GStr "X")] [field_of "name" [] []]]
  = Some (VObj [("__schema", VObj [("queryType", VObj [("fields", VArr [VObj [("name", VStr "old"); ("type", VObj [("kind", VStr "SCALAR")])]]); ("name", VStr "Query")])]); ("__type", VNull)]).
Proof. vm_compute. reflexivity. Qed.
