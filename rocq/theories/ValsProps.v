(* The rule on values of arguments against the input coercion of the GraphQL specification. *)
From Coq Require Import String List Bool ZArith Lia.
From Verif Require Import StrUtil Ast ConsumerModel IntroModel CondModel NormModel WalkModel LocalModel LocalSpec ReachModel ReachSpec ValsModel ValsSpec ValsProofs ValsFits.
Import ListNotations.
Local Open Scope string_scope.
Local Open Scope list_scope.

(* The reports are the faults of the values that the walk gets to: partial, since items of lists that may not be null are not among them. *)
Theorem C64_reports_partial : forall sch, well_formed sch -> inputs_ok sch -> forall doc l, walk sch doc = Some l ->
  forall e, In e (errors_of (values_of_correct_type sch) l) <->
    exists t v u w, place sch doc t v /\ meets sch true t v u w /\ fault sch u w e.
Proof. exact reports_ok. Qed.
Print Assumptions C64_reports_partial.
(* Nothing is reported without a value that its type does not take. *)
Theorem C64_sound : forall sch, well_formed sch -> inputs_ok sch -> forall doc l, walk sch doc = Some l ->
  forall e, In e (errors_of (values_of_correct_type sch) l) -> exists t v, place sch doc t v /\ ~ fits sch t v.
Proof. exact sound_ok. Qed.
Print Assumptions C64_sound.
(* Without reports, the values of the form that the rule judges are ones that their types take. *)
Theorem C64_complete_partial : forall sch, well_formed sch -> inputs_ok sch -> forall doc l, walk sch doc = Some l ->
  errors_of (values_of_correct_type sch) l = [] -> forall t v, place sch doc t v -> tame sch t v -> fits sch t v.
Proof. exact complete_ok. Qed.
Print Assumptions C64_complete_partial.

(* Example: type Query { f(n: Int, ids: [Int!]!, l: [Float], e: E, o: O, a: Any): Int }   enum E { A B }
   input O { k: ID!  d: Boolean! = true  s: [String!] }   scalar Any *)
Definition vquery : typedef := Object "Query" None [] [] [
  mkfield "f" None [mkinput "n" None (TNamed "Int") None []; mkinput "ids" None (TNonNull (TList (TNonNull (TNamed "Int")))) None [];
                    mkinput "l" None (TList (TNamed "Float")) None []; mkinput "e" None (TNamed "E") None [];
                    mkinput "o" None (TNamed "O") None []; mkinput "a" None (TNamed "Any") None []] (TNamed "Int") []].
Definition vinput : list input_value :=
  [mkinput "k" None (TNonNull (TNamed "ID")) None []; mkinput "d" None (TNonNull (TNamed "Boolean")) (Some (GBool true)) [];
   mkinput "s" None (TList (TNonNull (TNamed "String"))) None []].
Definition vschema : list definition :=
  [TypeDef vquery; TypeDef (Enum "E" None [] [mkenumvalue "A" None []; mkenumvalue "B" None []]); TypeDef (InputObject "O" None [] vinput);
   TypeDef (Scalar "Any" None []); TypeDef (Scalar "Int" None []); TypeDef (Scalar "Float" None []); TypeDef (Scalar "ID" None []);
   TypeDef (Scalar "Boolean" None []); TypeDef (Scalar "String" None [])].
Lemma vschema_well_formed : well_formed vschema.
Proof.
  constructor.
  - vm_compute. repeat (apply NoDup_cons; [cbn; intuition discriminate|]). apply NoDup_nil.
  - vm_compute. apply NoDup_nil.
  - intros t K. cbn in K. repeat (destruct K as [K|K]; [injection K as <-; cbn;
      repeat (apply NoDup_cons; [cbn; intuition discriminate|]); apply NoDup_nil|]). destruct K.
  - intros d1 q1 m1 s1 d2 q2 m2 s2 K. cbn in K. intuition discriminate.
Qed.
Lemma vschema_inputs : forall l, input_in vschema l -> l = [] \/ (exists f, In f (fields_of vquery) /\ l = f_args f) \/ l = vinput.
Proof.
  intros l [t f T F|t T|n args rep ls (desc & D)].
  - cbn in T. destruct T as [T|T]; [injection T as <-; right; left; now exists f|].
    repeat (destruct T as [T|T]; [injection T as <-; destruct F|]). destruct T.
  - cbn in T. repeat (destruct T as [T|T]; [injection T as <-; cbn; auto|]). destruct T.
  - cbn in D. intuition discriminate.
Qed.
Lemma vschema_inputs_ok : inputs_ok vschema.
Proof.
  constructor.
  - intros l H. destruct (vschema_inputs l H) as [->|[(f & [<-|[]] & ->)| ->]]; cbn;
      repeat (apply NoDup_cons; [cbn; intuition discriminate|]); apply NoDup_nil.
  - intros l a t H A [N E]. destruct (vschema_inputs l H) as [->|[(f & [<-|[]] & ->)| ->]]; cbn in A; [destruct A| |];
      cbn in N; repeat (destruct N as [N|N]; [injection N as <-; repeat (destruct A as [<-|A]; [first [discriminate E|left; exact I|right; exact I]|]); destruct A|]); destruct N.
  - intros l a H A. destruct (vschema_inputs l H) as [->|[(f & [<-|[]] & ->)| ->]]; cbn in A; [destruct A| |];
      repeat (destruct A as [<-|A]; [exact I|]); destruct A.
Qed.
Definition vdoc (args : list (string * gvalue)) : list qdef := [QOp KQuery None [] [] [NField None "f" args [] []]].
Definition vreports (doc : list qdef) : option (list verr) := validate vschema [values_of_correct_type vschema] doc.

Example C64_example_accepts :
  vreports (QOp KQuery None [] [mkvardef "x" (TNonNull (TNamed "E")) (Some (GEnum "A"))] [] ::
    vdoc [("n", GInt 1%Z); ("ids", GInt 2%Z); ("l", GList [GInt 1%Z; GNull; GFloat 0%N; GVar "x"]); ("e", GEnum "B");
          ("o", GObj [("k", GStr "i"); ("s", GStr "t")]); ("a", GObj [("z", GEnum "Q")])]) = Some [].
Proof. vm_compute. reflexivity. Qed.
Example C64_example_rejects :
  vreports (QOp KQuery None [] [mkvardef "x" (TNonNull (TNamed "E")) (Some GNull); mkvardef "y" (TNamed "E") (Some (GStr "A"))] [] ::
    vdoc [("n", GStr "1"); ("ids", GNull); ("l", GList [GBool true; GFloat 0%N]); ("e", GEnum "C");
          ("o", GObj [("s", GList [GNull]); ("q", GInt 1%Z)]); ("o", GInt 3%Z)]) =
  Some [NullFor (TNonNull (TNamed "E")); NotEnum "E" (GStr "A"); Expected "Int" (GStr "1"); NullFor (TNonNull (TList (TNonNull (TNamed "Int"))));
        Expected "Float" (GBool true); NoSuchValue "C" "E"; MissingField "O" "k" (TNonNull (TNamed "ID")); UndefinedField "q" "O";
        NullFor (TNonNull (TNamed "String")); Expected "O" (GInt 3%Z)].
Proof. vm_compute. reflexivity. Qed.

(* Values for which nothing is reported although their types do not take them: null and a string in a list for [Int!]!, a list for Int,
   an object for Int, an integer beyond 32 bits *)
Lemma vplace : forall k v a, In a (f_args (mkfield "f" None
    [mkinput "n" None (TNamed "Int") None []; mkinput "ids" None (TNonNull (TList (TNonNull (TNamed "Int")))) None []] (TNamed "Int") [])) ->
  iv_name a = k -> place vschema (vdoc [(k, v)]) (iv_type a) v.
Proof.
  intros k v a A <-. eapply place_argument with (ty := Some (TNamed "Query")) (n := "f") (args := [(iv_name a, v)]) (sub := []).
  - exists [NField None "f" [(iv_name a, v)] [] []], None, []. split; [|now left]. eapply on_operation; [now left|]. split.
    + exists vquery. split; [split; [now left|reflexivity]|exact I].
    + right. split; [reflexivity|]. intros m (ds & q & m' & s & J & _). cbn in J. intuition discriminate.
  - exists vquery. split; [exists (TNamed "Query"); split; [reflexivity|split; [now left|reflexivity]]|]. split; [now left|reflexivity].
  - cbn in A |- *. tauto.
  - now left.
Qed.
Lemma int_fits : forall v, fits vschema (TNamed "Int") v -> v = GNull \/ (exists x, v = GVar x) \/ exists z, v = GInt z /\ (- 2 ^ 31 <= z < 2 ^ 31)%Z.
Proof.
  intros v F. inversion F as [| | | | | |n desc ds v1 N1 NM T|n desc ds vs s NM J|n desc ds fs o NM KN RQ FT]; subst.
  - right; left. now eexists.
  - now left.
  - right; right. destruct T as [T|[[_ T]|T]]; [destruct T; now left|exact T|]. exfalso. intuition discriminate.
  - exfalso. destruct NM as [NM _]. cbn in NM. intuition discriminate.
  - exfalso. destruct NM as [NM _]. cbn in NM. intuition discriminate.
Qed.
Definition unjudged : list (string * tnode * gvalue) :=
  [("ids", TNonNull (TList (TNonNull (TNamed "Int"))), GList [GNull; GStr "a"]);
   ("n", TNamed "Int", GList [GInt 1%Z]);
   ("n", TNamed "Int", GObj [("a", GInt 1%Z)]);
   ("n", TNamed "Int", GInt 1099511627776%Z)].
Theorem C64_complete_refuted : forall k t v, In (k, t, v) unjudged ->
  vreports (vdoc [(k, v)]) = Some [] /\ place vschema (vdoc [(k, v)]) t v /\ ~ fits vschema t v.
Proof.
  intros k t v K. cbn in K. destruct K as [[= <- <- <-]|[[= <- <- <-]|[[= <- <- <-]|[[= <- <- <-]|[]]]]]; (split; [vm_compute; reflexivity|]);
    (split; [|intros F]).
  - apply (vplace "ids" _ (mkinput "ids" None (TNonNull (TList (TNonNull (TNamed "Int")))) None [])); [right; now left|reflexivity].
  - inversion F as [|t1 v1 _ F1| | | | | | |]; subst. inversion F1 as [| | | |t2 l2 A|t2 v2 B| | |]; subst; [|now destruct (B [GNull; GStr "a"])].
    specialize (A GNull (or_introl eq_refl)). inversion A; subst. contradiction.
  - apply (vplace "n" _ (mkinput "n" None (TNamed "Int") None [])); [now left|reflexivity].
  - apply int_fits in F. destruct F as [F|[[x F]|(z & F & _)]]; discriminate F.
  - apply (vplace "n" _ (mkinput "n" None (TNamed "Int") None [])); [now left|reflexivity].
  - apply int_fits in F. destruct F as [F|[[x F]|(z & F & _)]]; discriminate F.
  - apply (vplace "n" _ (mkinput "n" None (TNamed "Int") None [])); [now left|reflexivity].
  - apply int_fits in F. destruct F as [F|[[x F]|(z & [= <-] & F)]]; try discriminate F. lia.
Qed.
Print Assumptions C64_complete_refuted.
