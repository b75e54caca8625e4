(* The rules of validation that look at one place at a time report exactly what they are to report. *)
From Coq Require Import String List Bool ZArith.
From Verif Require Import StrUtil Ast ConsumerModel IntroModel CondModel NormModel WalkModel LocalModel LocalSpec LocalProofs LocalState LocalMore.
Import ListNotations.
Local Open Scope string_scope.
Local Open Scope list_scope.

(* All rules together report what each of them reports; without a query type the router panics on queries. *)
Theorem C62_validate : forall E sch (rules : list (visitor E)) doc l, walk sch doc = Some l ->
  exists es, validate sch rules doc = Some es /\ forall e, In e es <-> exists r, In r rules /\ In e (errors_of r l).
Proof. exact @validate_each. Qed.
Print Assumptions C62_validate.
Theorem C62_panic : forall E sch (rules : list (visitor E)) doc, well_formed sch ->
  (validate sch rules doc = None <-> rules <> [] /\ (forall n, ~ root sch KQuery n) /\ exists n ds vs set, In (QOp KQuery n ds vs set) doc).
Proof. exact @validate_ends. Qed.
Print Assumptions C62_panic.

Theorem C62_operation_names : forall sch doc l, walk sch doc = Some l -> forall e, In e (errors_of unique_operation_names l) <->
  exists n, e = TwoOperations n /\ twice_in (operation_names doc) n.
Proof. exact unique_operation_names_ok. Qed.
Print Assumptions C62_operation_names.
Theorem C62_fragment_names : forall sch doc l, walk sch doc = Some l -> forall e, In e (errors_of unique_fragment_names l) <->
  exists n, e = TwoFragments n /\ twice_in (fragment_names doc) n.
Proof. exact unique_fragment_names_ok. Qed.
Print Assumptions C62_fragment_names.
Theorem C62_anonymous : forall sch doc l, walk sch doc = Some l -> forall e, In e (errors_of (lone_anonymous_operation doc) l) <->
  e = NotAlone /\ several doc /\ exists k ds vs set, In (QOp k None ds vs set) doc.
Proof. exact lone_anonymous_operation_ok. Qed.
Print Assumptions C62_anonymous.
Theorem C62_types : forall sch doc, well_formed sch -> forall l, walk sch doc = Some l -> forall e, In e (errors_of (known_type_names sch) l) <->
  exists n, e = UnknownType n /\ mentions_type doc n /\ (forall t, ~ named sch n t) /\ ~ reserved n.
Proof. exact known_type_names_ok. Qed.
Print Assumptions C62_types.
Theorem C62_composite : forall sch doc, well_formed sch -> forall l, walk sch doc = Some l -> forall e, In e (errors_of (fragments_on_composite_types sch) l) <->
  exists f tc t, e = NotComposite f tc /\ named sch tc t /\ ~ composite t /\
    match f with Some n => exists ds set, In (QFrag n tc ds set) doc | None => exists ds sub, item doc (NInline (Some tc) ds sub) end.
Proof. exact fragments_on_composite_types_ok. Qed.
Print Assumptions C62_composite.
Theorem C62_input_types : forall sch doc, well_formed sch -> forall l, walk sch doc = Some l -> forall e, In e (errors_of (variables_are_input_types sch) l) <->
  exists v t, e = NotInput (vd_name v) (vd_type v) /\ variable_of doc v /\ named sch (base (vd_type v)) t /\ ~ takes_input t.
Proof. exact variables_are_input_types_ok. Qed.
Print Assumptions C62_input_types.
Theorem C62_leaves : forall sch doc, well_formed sch -> forall l, walk sch doc = Some l -> forall e, In e (errors_of (leaf_field_selections sch) l) <->
  exists ty n args sub f t, field_at sch doc ty n args sub /\ selects sch ty n f /\ named sch (base (f_type f)) t /\
    ((leaf t /\ sub <> [] /\ e = LeafSelection n (f_type f)) \/ (~ leaf t /\ sub = [] /\ e = NoSelection n (f_type f))).
Proof. exact leaf_field_selections_ok. Qed.
Print Assumptions C62_leaves.
Theorem C62_fields : forall sch doc, well_formed sch -> forall l, walk sch doc = Some l -> forall e, In e (errors_of fields_on_correct_type l) <->
  (exists ty n args sub t, e = NoField n (type_name t) /\ field_at sch doc ty n args sub /\ stands sch ty t /\ ~ reserved n /\
     forall f, In f (fields_of t) -> f_name f <> n) \/
  (e = RootTypename /\ exists n ds vs set al args ds' sub, In (QOp KSubscription n ds vs set) doc /\ In (NField al "__typename" args ds' sub) set).
Proof. exact fields_on_correct_type_ok. Qed.
Print Assumptions C62_fields.
Theorem C62_fragments : forall sch doc, well_formed sch -> forall l, walk sch doc = Some l -> forall e, In e (errors_of (known_fragment_names doc) l) <->
  exists n ds, e = UnknownFragment n /\ item doc (NSpread n ds) /\ ~ In n (fragment_names doc).
Proof. exact known_fragment_names_ok. Qed.
Print Assumptions C62_fragments.
Theorem C62_spreads : forall sch, well_formed sch -> forall doc l, walk sch doc = Some l -> NoDup (fragment_names doc) ->
  forall e, In e (errors_of (possible_fragment_spreads sch doc) l) ->
  exists f t p, e = Impossible f (type_name p) (type_name t) /\ put sch doc f t p /\ composite t /\ composite p /\ ~ overlap sch t p.
Proof. exact possible_fragment_spreads_sound. Qed.
Print Assumptions C62_spreads.
(* Partial: an interface that others implement counts as shared also when no object type implements it. *)
Theorem C62_spreads_partial : forall sch, well_formed sch -> forall doc l, walk sch doc = Some l -> NoDup (fragment_names doc) ->
  inhabited sch -> members_ok sch -> forall f t p, put sch doc f t p -> composite t -> composite p -> ~ overlap sch t p ->
  In (Impossible f (type_name p) (type_name t)) (errors_of (possible_fragment_spreads sch doc) l).
Proof. exact possible_fragment_spreads_complete. Qed.
Print Assumptions C62_spreads_partial.
Theorem C62_arguments : forall sch doc, well_formed sch -> forall l, walk sch doc = Some l -> forall e,
  bad_argument sch doc e -> In e (errors_of (known_argument_names sch) l).
Proof. exact known_argument_names_complete. Qed.
Print Assumptions C62_arguments.
(* Partial: arguments of unknown fields and directives are looked up in what surrounds them. *)
Theorem C62_arguments_partial : forall sch doc, well_formed sch -> forall l, walk sch doc = Some l -> arguments_known sch doc ->
  forall e, In e (errors_of (known_argument_names sch) l) -> bad_argument sch doc e.
Proof. exact known_argument_names_sound. Qed.
Print Assumptions C62_arguments_partial.
Theorem C62_argument_names : forall sch doc, well_formed sch -> forall l, walk sch doc = Some l -> forall e, In e (errors_of unique_argument_names l) <->
  exists n args, e = TwoArguments n /\ twice_in (map fst args) n /\
    ((exists al f ds sub, item doc (NField al f args ds sub)) \/ (exists d, directive_used doc d /\ d_args d = args)).
Proof. exact unique_argument_names_ok. Qed.
Print Assumptions C62_argument_names.
Theorem C62_variable_names : forall sch doc, well_formed sch -> forall l, walk sch doc = Some l -> forall e, In e (errors_of unique_variable_names l) <->
  exists n k name ds vs set, e = TwoVariables n /\ In (QOp k name ds vs set) doc /\ twice_in (map vd_name vs) n.
Proof. exact unique_variable_names_ok. Qed.
Print Assumptions C62_variable_names.
Theorem C62_required : forall sch doc, well_formed sch -> forall l, walk sch doc = Some l -> forall e, In e (errors_of (provided_required_arguments sch) l) <->
  (exists ty n args sub f m, e = MissingFieldArgument n (iv_name m) (iv_type m) /\ field_at sch doc ty n args sub /\ selects sch ty n f /\
     In m (f_args f) /\ required m /\ ~ In (iv_name m) (map fst args)) \/
  (exists d defs rep ls m, e = MissingDirectiveArgument (d_name d) (iv_name m) (iv_type m) /\ directive_used doc d /\
     defines sch (d_name d) defs rep ls /\ In m defs /\ required m /\ ~ In (iv_name m) (map fst (d_args d))).
Proof. exact provided_required_arguments_ok. Qed.
Print Assumptions C62_required.
Theorem C62_directives : forall sch doc, well_formed sch -> forall l, walk sch doc = Some l -> forall e, In e (errors_of (known_directives sch) l) <->
  exists loc ds d, directed doc loc ds /\ In d ds /\
    ((e = UnknownDirective (d_name d) /\ ~ In (d_name d) (directive_names sch)) \/
     (e = Misplaced (d_name d) loc /\ exists args rep ls, defines sch (d_name d) args rep ls /\ ~ In loc ls)).
Proof. exact known_directives_ok. Qed.
Print Assumptions C62_directives.
Theorem C62_input_fields : forall sch doc, well_formed sch -> forall l, walk sch doc = Some l -> forall e, In e (errors_of unique_input_field_names l) <->
  exists k o, e = TwoInputFields k /\ value_of doc (GObj o) /\ twice_in (map fst o) k.
Proof. exact unique_input_field_names_ok. Qed.
Print Assumptions C62_input_fields.
Theorem C62_directive_names : forall sch doc, well_formed sch -> forall l, walk sch doc = Some l -> forall e, In e (errors_of (unique_directives_per_location sch) l) <->
  exists n loc ds args ls, e = TwoDirectives n /\ directed doc loc ds /\ defines sch n args false ls /\ twice_in (map d_name ds) n.
Proof. exact unique_directives_per_location_ok. Qed.
Print Assumptions C62_directive_names.

(* A schema: type Query { a(x: Int): I, s: String }, interface I { s: String }, interface J { s: String },
   interface K implements I & J, no object type implements I or J; directive @d(y: Int!) on FIELD *)
Definition plain (n : string) (t : tnode) : input_value := mkinput n None t None [].
Definition example_schema : list definition :=
  [TypeDef (Scalar "Int" None []); TypeDef (Scalar "String" None []);
   TypeDef (Object "Query" None [] [] [mkfield "a" None [plain "x" (TNamed "Int")] (TNamed "I") []; mkfield "s" None [] (TNamed "String") []]);
   TypeDef (Interface "I" None [] [] [mkfield "s" None [] (TNamed "String") []]);
   TypeDef (Interface "J" None [] [] [mkfield "s" None [] (TNamed "String") []]);
   TypeDef (Interface "K" None ["I"; "J"] [] [mkfield "s" None [] (TNamed "String") []]);
   DirectiveDef "d" None [plain "y" (TNonNull (TNamed "Int"))] false ["FIELD"]].
Lemma example_well_formed : well_formed example_schema.
Proof.
  constructor.
  - vm_compute. repeat (apply NoDup_cons; [cbn; intuition discriminate|]). apply NoDup_nil.
  - vm_compute. repeat (apply NoDup_cons; [cbn; intuition discriminate|]). apply NoDup_nil.
  - intros t K. cbn in K. destruct K as [K|[K|[K|[K|[K|[K|[K|[]]]]]]]]; try discriminate K; injection K as <-; cbn;
      repeat (apply NoDup_cons; [cbn; intuition discriminate|]); apply NoDup_nil.
  - intros d1 q1 m1 s1 d2 q2 m2 s2 K. cbn in K. intuition discriminate.
Qed.
Definition every_rule (sch : list definition) (doc : list qdef) : list (visitor lerr) :=
  [unique_operation_names; unique_fragment_names; lone_anonymous_operation doc; known_type_names sch; fragments_on_composite_types sch;
   variables_are_input_types sch; leaf_field_selections sch; fields_on_correct_type; known_fragment_names doc;
   possible_fragment_spreads sch doc; known_argument_names sch; unique_argument_names; unique_variable_names;
   provided_required_arguments sch; known_directives sch; unique_input_field_names; unique_directives_per_location sch].
Definition field (n : string) (args : list (string * gvalue)) (sub : list nsel) : nsel := NField None n args [] sub.
Definition query (set : list nsel) : list qdef := [QOp KQuery None [] [] set].
Definition reports (doc : list qdef) : option (list lerr) := validate example_schema (every_rule example_schema doc) doc.

Example C62_example_accepts :
  reports [QOp KQuery (Some "q") [] [mkvardef "v" (TNamed "Int") None]
             [NField None "a" [("x", GVar "v")] [Build_directive "d" [("y", GInt 1%Z)]] [field "s" [] []; NSpread "f" []]; NInline (Some "Query") [] [field "s" [] []]];
           QFrag "f" "I" [] [NField (Some "t") "s" [] [] []]] = Some [].
Proof. vm_compute. reflexivity. Qed.
Example C62_example_rejects :
  reports [QOp KQuery (Some "q") [] [mkvardef "v" (TNamed "I") None; mkvardef "v" (TNamed "No") None]
             [NField None "a" [("x", GVar "v"); ("z", GObj [("k", GNull); ("k", GNull)]); ("x", GNull)] [Build_directive "d" []; Build_directive "d" []; Build_directive "e" []] [];
              field "s" [] [field "t" [] []]; field "u" [] []; NSpread "g" []; NSpread "f" [Build_directive "d" [("y", GInt 1%Z)]]];
           QFrag "f" "Int" [] []; QFrag "f" "I" [] [field "s" [] []]; QOp KQuery (Some "q") [] [] []; QOp KMutation None [] [] []]
  = Some [NotAlone; NotInput "v" (TNamed "I"); UnknownType "No"; TwoVariables "v"; NoSelection "a" (TNamed "I"); TwoArguments "x"; TwoDirectives "d";
          UnknownFieldArgument "z" "Query" "a"; TwoInputFields "k";
          MissingDirectiveArgument "d" "y" (TNonNull (TNamed "Int")); MissingDirectiveArgument "d" "y" (TNonNull (TNamed "Int")); UnknownDirective "e";
          LeafSelection "s" (TNamed "String"); NoField "t" "String"; NoField "u" "Query"; UnknownFragment "g"; Impossible (Some "f") "Query" "I"; Misplaced "d" "FRAGMENT_SPREAD";
          NotComposite (Some "f") "Int"; TwoOperations "q"; TwoFragments "f"].
Proof. vm_compute. reflexivity. Qed.

(* Any unknown type or field whose name starts with two underscores passes. *)
Theorem C62_reserved_refuted : ~ (forall sch doc l, well_formed sch -> walk sch doc = Some l ->
  (forall n, mentions_type doc n -> (forall t, ~ named sch n t) -> In (UnknownType n) (errors_of (known_type_names sch) l)) \/
  (forall ty n args sub t, field_at sch doc ty n args sub -> stands sch ty t -> n <> "__typename" -> (forall f, In f (fields_of t) -> f_name f <> n) ->
     In (NoField n (type_name t)) (errors_of fields_on_correct_type l))).
Proof.
  intros H. pose (doc := [QOp KQuery None [] [mkvardef "v" (TNamed "__No") None] [field "__no" [] []]]).
  destruct (walk example_schema doc) as [l|] eqn:W; [|discriminate W].
  destruct (H example_schema doc l example_well_formed W) as [K|K].
  - assert (Q : In (UnknownType "__No") (errors_of (known_type_names example_schema) l)).
    { apply K.
      - right; right. exists (mkvardef "v" (TNamed "__No") None). split; [|reflexivity].
        exists KQuery, None, [], [mkvardef "v" (TNamed "__No") None], [field "__no" [] []]. split; now left.
      - intros t [I E]. cbn in I. destruct I as [I|[I|[I|[I|[I|[I|[I|[]]]]]]]]; try discriminate I; injection I as <-; discriminate E. }
    vm_compute in W. injection W as <-. vm_compute in Q. exact Q.
  - assert (Q : In (NoField "__no" "Query") (errors_of fields_on_correct_type l)).
    { apply (K (Some (TNamed "Query")) "__no" [] [] (Object "Query" None [] [] [mkfield "a" None [plain "x" (TNamed "Int")] (TNamed "I") []; mkfield "s" None [] (TNamed "String") []])).
      - exists [field "__no" [] []], None, []. split; [|now left]. eapply on_operation; [now left|]. split.
        + eexists. split; [split; [right; right; left; reflexivity|reflexivity]|exact I].
        + right. split; [reflexivity|]. intros m (ds & q & m' & s & I & _). cbn in I. intuition discriminate.
      - exists (TNamed "Query"). split; [reflexivity|]. split; [right; right; left; reflexivity|reflexivity].
      - discriminate.
      - intros f I. cbn in I. destruct I as [<-|[<-|[]]]; discriminate. }
    vm_compute in W. injection W as <-. vm_compute in Q. exact Q.
Qed.
Print Assumptions C62_reserved_refuted.
(* Selections and arguments of [__typename] pass, or are blamed on the field around it. *)
Theorem C62_typename_refuted :
  reports (query [field "__typename" [("x", GInt 1%Z)] [field "s" [] []]]) = Some [] /\
  reports (query [field "a" [] [field "__typename" [("z", GInt 1%Z)] []]]) = Some [UnknownFieldArgument "z" "Query" "a"] /\
  reports (query [field "a" [] [field "__typename" [("x", GInt 1%Z)] []]]) = Some [].
Proof. repeat split; vm_compute; reflexivity. Qed.
Print Assumptions C62_typename_refuted.
(* Fragments on interfaces without a common object type pass when some interface implements both. *)
Theorem C62_spreads_refuted : ~ (forall sch doc l, well_formed sch -> walk sch doc = Some l -> NoDup (fragment_names doc) ->
  forall f t p, put sch doc f t p -> composite t -> composite p -> ~ overlap sch t p ->
  In (Impossible f (type_name p) (type_name t)) (errors_of (possible_fragment_spreads sch doc) l)).
Proof.
  intros H. pose (doc := [QFrag "f" "I" [] [NInline (Some "J") [] [field "s" [] []]]]).
  destruct (walk example_schema doc) as [l|] eqn:W; [|discriminate W].
  assert (Q : In (Impossible None "I" "J") (errors_of (possible_fragment_spreads example_schema doc) l)).
  { apply (H example_schema doc l example_well_formed W) with
      (t := Interface "J" None [] [] [mkfield "s" None [] (TNamed "String") []]) (p := Interface "I" None [] [] [mkfield "s" None [] (TNamed "String") []]) (f := None).
    - cbn. constructor; [intros []|constructor].
    - exists (Some (TNamed "I")), [NInline (Some "J") [] [field "s" [] []]]. split; [eapply on_fragment; now left|].
      split; [exists (TNamed "I"); split; [reflexivity|split; [do 3 right; left; reflexivity|reflexivity]]|].
      exists "J", [], [field "s" [] []]. split; [now left|]. split; [do 4 right; left; reflexivity|reflexivity].
    - exact I.
    - exact I.
    - intros [E|(o & (O & IO & K) & _)]; [discriminate E|]. cbn in IO. destruct IO as [E|[E|[E|[E|[E|[E|[E|[]]]]]]]]; try discriminate E; injection E as <-; contradiction. }
  vm_compute in W. injection W as <-. vm_compute in Q. exact Q.
Qed.
Print Assumptions C62_spreads_refuted.
