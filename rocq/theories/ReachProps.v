(* The rules of validation that follow fragment spreads report exactly what they are to report, where that holds. *)
From Coq Require Import String List Bool ZArith.
From Verif Require Import StrUtil Ast ConsumerModel IntroModel CondModel NormModel WalkModel LocalModel LocalSpec ReachModel ReachSpec ReachVars ReachPos ReachCycle ReachTop.
Import ListNotations.
Local Open Scope string_scope.
Local Open Scope list_scope.

(* Unused fragments are the ones that no operation reaches. *)
Theorem C63_unused_fragments : forall sch doc l, well_formed sch -> walk sch doc = Some l -> NoDup (fragment_names doc) ->
  forall e, In e (errors_of (no_unused_fragments doc) l) <-> exists n, e = UnusedFragment n /\ In n (fragment_names doc) /\ ~ fragment_used doc n.
Proof. exact no_unused_fragments_ok. Qed.
Print Assumptions C63_unused_fragments.
(* Unused variables of an operation are the ones that nothing it reaches uses. *)
Theorem C63_unused_variables : forall sch, well_formed sch -> forall doc l, walk sch doc = Some l -> NoDup (operation_ids doc) ->
  forall e, In e (errors_of no_unused_variables l) <->
    exists k n ds vs set v, e = UnusedVariable v n /\ In (QOp k n ds vs set) doc /\ In v (map vd_name vs) /\
      forall d, reaches doc (QOp k n ds vs set) d -> ~ uses d v.
Proof. exact no_unused_variables_ok. Qed.
Print Assumptions C63_unused_variables.
Theorem C63_undefined_variables : forall sch, well_formed sch -> forall doc l, walk sch doc = Some l -> NoDup (operation_ids doc) ->
  forall e, In e (errors_of no_undefined_variables l) <->
    exists k n ds vs set v d, e = UndefinedVariable v n /\ In (QOp k n ds vs set) doc /\ reaches doc (QOp k n ds vs set) d /\ uses d v /\ ~ In v (map vd_name vs).
Proof. exact no_undefined_variables_ok. Qed.
Print Assumptions C63_undefined_variables.
(* Variables at places whose type they do not fit, other than items of lists that may not be null *)
Theorem C63_positions_partial : forall sch, well_formed sch -> inputs_ok sch -> forall doc l, walk sch doc = Some l -> NoDup (operation_ids doc) ->
  (forall k n ds vs set, In (QOp k n ds vs set) doc -> NoDup (map vd_name vs)) -> constant_defaults doc ->
  forall e, In e (errors_of (variables_in_allowed_position sch) l) <->
    exists k n ds vs set v d t df u, In (QOp k n ds vs set) doc /\ In v vs /\ reaches doc (QOp k n ds vs set) d /\ typed_use sch true d t df (vd_name v) /\
      ~ allowed v t df /\ counts_as v u /\ e = BadUse (vd_name v) u t.
Proof. exact positions_ok. Qed.
Print Assumptions C63_positions_partial.
(* What is reported breaks the rule of the specification. *)
Theorem C63_positions_sound : forall sch, well_formed sch -> inputs_ok sch -> forall doc l, walk sch doc = Some l -> NoDup (operation_ids doc) ->
  (forall k n ds vs set, In (QOp k n ds vs set) doc -> NoDup (map vd_name vs)) -> constant_defaults doc ->
  forall e, In e (errors_of (variables_in_allowed_position sch) l) ->
    exists k n ds vs set v d t df u, In (QOp k n ds vs set) doc /\ In v vs /\ reaches doc (QOp k n ds vs set) d /\ typed_use sch false d t df (vd_name v) /\
      ~ allowed v t df /\ e = BadUse (vd_name v) u t.
Proof.
  intros sch WF IO doc l W ND VA CO e I. apply (positions_ok sch WF IO doc l W ND VA CO) in I.
  destruct I as (k & n & ds & vs & set & v & d & t & df & u & A & B & C & D & E & F & G). exists k, n, ds, vs, set, v, d, t, df, u.
  repeat (split; [assumption || now apply typed_use_loose|]). exact G.
Qed.
Print Assumptions C63_positions_sound.
(* Every reported cycle is one, along the reported names. *)
Theorem C63_cycles_real : forall sch doc l, walk sch doc = Some l -> forall e, In e (errors_of (no_fragments_cycle doc) l) ->
  exists n via, e = FragmentCycle n via /\ chain (edge doc) n via n.
Proof. exact cycles_real. Qed.
Print Assumptions C63_cycles_real.
(* Cycles over spreads that are at most one field deep are seen. *)
Theorem C63_cycles_found_partial : forall sch doc l, walk sch doc = Some l -> NoDup (fragment_names doc) ->
  forall n via, chain (near_edge doc) n via n -> errors_of (no_fragments_cycle doc) l <> [].
Proof. exact cycles_found. Qed.
Print Assumptions C63_cycles_found_partial.
Theorem C63_cycles_shallow_partial : forall sch doc l, walk sch doc = Some l -> NoDup (fragment_names doc) -> shallow doc ->
  (errors_of (no_fragments_cycle doc) l = [] <-> forall n via, ~ chain (edge doc) n via n).
Proof. exact cycles_shallow. Qed.
Print Assumptions C63_cycles_shallow_partial.
(* Subscriptions with root fields of several names, or of a reserved name *)
Theorem C63_subscriptions : forall sch doc l, well_formed sch -> walk sch doc = Some l -> NoDup (fragment_names doc) ->
  forall e, In e (errors_of (single_field_subscriptions sch doc) l) <->
    exists name ds vs set r o, In (QOp KSubscription name ds vs set) doc /\ root sch KSubscription r /\ named sch r o /\
      ((e = ManyFields name /\ exists a b, a <> b /\ root_field sch doc o set a /\ root_field sch doc o set b) \/
       (e = IntrospectionField name /\ exists a, reserved a /\ root_field sch doc o set a)).
Proof. exact subscriptions_ok. Qed.
Print Assumptions C63_subscriptions.

(* A schema: type Query { a(x: [Int!]!, y: Int! = 1, z: In): Query }, input In { k: [Int!] }, type Subscription { x: Int, y: Int } *)
Definition rquery : typedef := Object "Query" None [] []
  [mkfield "a" None [mkinput "x" None (TNonNull (TList (TNonNull (TNamed "Int")))) None []; mkinput "y" None (TNonNull (TNamed "Int")) (Some (GInt 1%Z)) []; mkinput "z" None (TNamed "In") None []] (TNamed "Query") []].
Definition rsub : typedef := Object "Subscription" None [] [] [mkfield "x" None [] (TNamed "Int") []; mkfield "y" None [] (TNamed "Int") []].
Definition rschema : list definition :=
  [TypeDef (Scalar "Int" None []); TypeDef rquery; TypeDef (InputObject "In" None [] [mkinput "k" None (TList (TNonNull (TNamed "Int"))) None []]); TypeDef rsub].
Lemma rschema_well_formed : well_formed rschema.
Proof.
  constructor.
  - vm_compute. repeat (apply NoDup_cons; [cbn; intuition discriminate|]). apply NoDup_nil.
  - vm_compute. apply NoDup_nil.
  - intros t K. cbn in K. destruct K as [K|[K|[K|[K|[]]]]]; injection K as <-; cbn;
      repeat (apply NoDup_cons; [cbn; intuition discriminate|]); apply NoDup_nil.
  - intros d1 q1 m1 s1 d2 q2 m2 s2 K. cbn in K. intuition discriminate.
Qed.
Lemma rschema_inputs : forall l, input_in rschema l -> l = [] \/ (exists f, In f (fields_of rquery) /\ l = f_args f) \/ l = [mkinput "k" None (TList (TNonNull (TNamed "Int"))) None []].
Proof.
  intros l [t f T F|t T|n args rep ls (desc & D)].
  - cbn in T. destruct T as [T|[T|[T|[T|[]]]]]; injection T as <-; cbn in F; try (destruct F; fail).
    + right. left. exists f. split; [exact F|reflexivity].
    + destruct F as [<-|[<-|[]]]; now left.
  - cbn in T. destruct T as [T|[T|[T|[T|[]]]]]; injection T as <-; cbn; auto.
  - cbn in D. intuition discriminate.
Qed.
Lemma rschema_inputs_ok : inputs_ok rschema.
Proof.
  constructor.
  - intros l H. destruct (rschema_inputs l H) as [->|[(f & [<-|[]] & ->)| ->]]; cbn;
      repeat (apply NoDup_cons; [cbn; intuition discriminate|]); apply NoDup_nil.
  - intros l a t H A [N E]. destruct (rschema_inputs l H) as [->|[(f & [<-|[]] & ->)| ->]]; cbn in A; [destruct A| |].
    + cbn in N. destruct N as [N|[N|[N|[N|[]]]]]; injection N as <-; destruct A as [<-|[<-|[<-|[]]]]; try discriminate E; first [left; exact I|right; exact I].
    + cbn in N. destruct N as [N|[N|[N|[N|[]]]]]; injection N as <-; destruct A as [<-|[]]; try discriminate E; first [left; exact I|right; exact I].
  - intros l a H A. destruct (rschema_inputs l H) as [->|[(f & [<-|[]] & ->)| ->]]; cbn in A; [destruct A| |].
    + destruct A as [<-|[<-|[<-|[]]]]; exact I.
    + destruct A as [<-|[]]. exact I.
Qed.
Definition rrules (doc : list qdef) : list (visitor rerr) :=
  [single_field_subscriptions rschema doc; no_unused_fragments doc; no_fragments_cycle doc; no_unused_variables; no_undefined_variables; variables_in_allowed_position rschema].
Definition rreports (doc : list qdef) : option (list rerr) := validate rschema (rrules doc) doc.
Definition rfield (n : string) (args : list (string * gvalue)) (sub : list nsel) : nsel := NField None n args [] sub.
Definition int : tnode := TNamed "Int".

Example C63_example_accepts :
  rreports [QOp KQuery (Some "q") [] [mkvardef "v" (TNonNull int) None; mkvardef "w" int None; mkvardef "l" (TNonNull (TList (TNonNull int))) None]
              [rfield "a" [("x", GVar "l"); ("y", GVar "w")] [NSpread "f" []]];
            QFrag "f" "Query" [] [rfield "a" [("x", GVar "l"); ("z", GObj [("k", GList [GVar "v"])])] []];
            QOp KSubscription None [] [] [rfield "x" [] []]] = Some [].
Proof. vm_compute. reflexivity. Qed.
Example C63_example_rejects :
  rreports [QOp KQuery (Some "q") [] [mkvardef "v" int None; mkvardef "w" int None; mkvardef "n" int (Some (GInt 2%Z))]
              [rfield "a" [("x", GVar "u"); ("y", GVar "n")] [NSpread "f" []]];
            QFrag "f" "Query" [] [rfield "a" [("z", GObj [("k", GList [GVar "v"])])] [NSpread "g" []]];
            QFrag "g" "Query" [] [NSpread "f" []];
            QFrag "h" "Query" [] [];
            QOp KSubscription (Some "s") [] [] [rfield "x" [] []; NInline None [] [rfield "y" [] []]; rfield "__typename" [] []]] =
  Some [FragmentCycle "f" ["g"]; ManyFields (Some "s"); IntrospectionField (Some "s"); UnusedFragment "h"; UnusedVariable "w" (Some "q"); UndefinedVariable "u" (Some "q");
        BadUse "v" int (TNonNull int)].
Proof. vm_compute. reflexivity. Qed.

(* A variable that may be null stands as an item of a list of type [Int!]! and nothing is reported. *)
Definition item_doc : list qdef := [QOp KQuery None [] [mkvardef "v" int None] [rfield "a" [("x", GList [GVar "v"])] []]].
Theorem C63_positions_refuted : rreports item_doc = Some [] /\ ~ (forall sch doc l, well_formed sch -> inputs_ok sch -> walk sch doc = Some l ->
  forall k n ds vs set v t df, In (QOp k n ds vs set) doc -> In v vs -> typed_use sch false (QOp k n ds vs set) t df (vd_name v) -> ~ allowed v t df ->
  errors_of (variables_in_allowed_position sch) l <> []).
Proof.
  split; [vm_compute; reflexivity|]. intros H. destruct (walk rschema item_doc) as [l|] eqn:W; [|discriminate W].
  apply (H rschema item_doc l rschema_well_formed rschema_inputs_ok W KQuery None [] [mkvardef "v" int None] [rfield "a" [("x", GList [GVar "v"])] []]
    (mkvardef "v" int None) (TNonNull int) false).
  - now left.
  - now left.
  - eapply use_argument with (ty := Some (TNamed "Query")) (n := "a") (args := [("x", GList [GVar "v"])]) (sub := []) (v := GList [GVar "v"]) (a := mkinput "x" None (TNonNull (TList (TNonNull (TNamed "Int")))) None []).
    + exists [rfield "a" [("x", GList [GVar "v"])] []], None, []. split; [|now left]. eapply on_operation; [now left|]. split.
      * exists rquery. split; [split; [right; left; reflexivity|reflexivity]|exact I].
      * right. split; [reflexivity|]. intros m (ds & q & m' & s & I & _). cbn in I. intuition discriminate.
    + exists rquery. split; [exists (TNamed "Query"); split; [reflexivity|split; [right; left; reflexivity|reflexivity]]|]. split; [now left|reflexivity].
    + now left.
    + now left.
    + eapply position_item; [now left|right; split; reflexivity|]. apply position_here.
  - intros [[(x & E & _)|E] _]; discriminate E.
  - vm_compute in W. injection W as <-. vm_compute. reflexivity.
Qed.
Print Assumptions C63_positions_refuted.
(* A fragment that spreads itself two fields deep *)
Definition deep_doc : list qdef := [QOp KQuery None [] [] [NSpread "f" []]; QFrag "f" "Query" [] [rfield "a" [] [rfield "a" [] [NSpread "f" []]]]].
Theorem C63_cycles_refuted : rreports deep_doc = Some [] /\ chain (edge deep_doc) "f" [] "f".
Proof.
  split; [vm_compute; reflexivity|]. apply chain_last. exists "Query", [], [rfield "a" [] [rfield "a" [] [NSpread "f" []]]]. split; [right; now left|].
  exists []. cbn [set_of]. eapply within_field; [now left|]. eapply within_field; [now left|]. apply within_here. now left.
Qed.
Print Assumptions C63_cycles_refuted.
(* A subscription with two fields in its response *)
Definition two_doc : list qdef := [QOp KSubscription None [] [] [NField (Some "p") "x" [] [] []; NField (Some "q") "x" [] [] []]].
Theorem C63_subscriptions_refuted : rreports two_doc = Some [] /\
  response_field rschema two_doc rsub [NField (Some "p") "x" [] [] []; NField (Some "q") "x" [] [] []] "p" /\
  response_field rschema two_doc rsub [NField (Some "p") "x" [] [] []; NField (Some "q") "x" [] [] []] "q".
Proof.
  split; [vm_compute; reflexivity|]. split.
  - exists (Some "p"), "x", [], [], []. split; [apply top_here; now left|reflexivity].
  - exists (Some "q"), "x", [], [], []. split; [apply top_here; right; now left|reflexivity].
Qed.
Print Assumptions C63_subscriptions_refuted.
(* An interface that another implements *)
Example C63_example_interfaces : is_subtype [TypeDef (Interface "Node" None [] [] []); TypeDef (Interface "Named" None ["Node"] [] [])] (TNonNull (TNamed "Named")) (TNamed "Node") = true.
Proof. vm_compute. reflexivity. Qed.
