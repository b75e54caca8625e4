(** Supergraphs on which the consumer schema shows too much. *)
From Coq Require Import String List Bool.
From Verif Require Import Ast ConsumerModel ConsumerSpec ConsumerProofs ConsumerParts.
Import ListNotations.
Local Open Scope string_scope.

Lemma resolved introspection l q r : extensionless l -> answers l -> queried l q -> composed l -> self_contained introspection l q ->
  consumer_schema introspection l = Some r -> closed r.
Proof.
  intros Hx Ha Hq Hc Hs E. destruct (built introspection l q Hx Ha Hq) as [r' [E' [H1 [H2 H3]]]]. rewrite E in E'. injection E' as <-.
  intros e ds n Hsay Href. specialize (H3 Hc e ds Hsay).
  assert (Hor : (exists ds0, shown l e ds0 /\ public e) \/ added introspection q e ds) by (destruct H3 as [[ds0 [Ha0 [Hb _]]]|H3]; [left; now exists ds0|now right]).
  assert (Hn : (type_shown l n /\ ~ internal_type n) \/ exists k d ds', added introspection q (EType k n d) ds').
  { destruct Hor as [[ds0 H]|H]; [apply (Hs e ds0 n); [now left|exact Href]|apply (Hs e ds n); [now right|exact Href]]. }
  destruct Hn as [[[k [d [ds' Ht]]] Hi]|[k [d [ds' Ht]]]].
  - destruct (H1 _ _ Ht Hi) as [ds2 [_ Hs2]]. now exists k, d, ds2.
  - exists k, d, ds'. now apply H2.
Qed.

Definition hide : list directive := [mkdirective "inaccessible" []].
Definition plain (n : string) (ty : tnode) : field := mkfield n None [] ty [].
Definition hidden (n : string) (ty : tnode) : field := mkfield n None [] ty hide.
Lemma hide_marked : marked hide.
Proof. exists (mkdirective "inaccessible" []). split; [now left|reflexivity]. Qed.
Lemma unmarked_nil : ~ marked [].
Proof. now intros [d [[] _]]. Qed.

Definition small (more : list definition) (more_fields : list field) : list definition :=
  TypeDef (Object "Query" None [] [] (plain "a" (TNamed "Int") :: more_fields)) :: more.
Lemma small_answers more mf : answers (small more mf).
Proof.
  exists "Query", "a", (TNamed "Int"), None, []. eexists _, _. split; [now left|].
  split; [exact (part_object_field "Query" None [] [] (plain "a" (TNamed "Int") :: mf) (plain "a" (TNamed "Int")) (or_introl eq_refl))|].
  cbn. repeat constructor; apply unmarked_nil.
Qed.
Lemma small_queried more mf : (forall ds q m s, ~ In (SchemaDef ds q m s) more) -> queried (small more mf) "Query".
Proof.
  intros Hs. split; [right; split; [|reflexivity]|split].
  - intros ds q' m s [Hi|Hi]; [discriminate|now apply Hs in Hi].
  - unfold internal_type. cbn. intuition discriminate.
  - exists None, []. eexists _, _. split; [now left|]. split; [constructor|]. repeat constructor. apply unmarked_nil.
Qed.

(** An object all of whose fields are hidden keeps them. *)
Lemma all_hidden : exists introspection l q r e ds,
  extensionless l /\ answers l /\ queried l q /\ consumer_schema introspection l = Some r
  /\ says r e ds /\ (forall ds', ~ shown l e ds') /\ (forall ds', ~ added introspection q e ds').
Proof.
  exists [], (small [TypeDef (Object "T" None [] [] [hidden "secret" (TNamed "Int")])] []), "Query".
  eexists _, (EField "T" "secret" (TNamed "Int") None), [].
  split; [intros n [H|[H|[]]]; discriminate|]. split; [apply small_answers|].
  split; [apply small_queried; intros ds q m s [H|[]]; discriminate|]. split; [reflexivity|]. split; [|split].
  - eexists _, _. split; [right; now left|].
    exact (part_object_field "T" None [] [] [plain "secret" (TNamed "Int")] (plain "secret" (TNamed "Int")) (or_introl eq_refl)).
  - intros ds' [d [p [[<-|[<-|[]]] [Hp Ho]]]]; inversion Hp; subst.
    repeat match goal with H : In _ [_] |- _ => destruct H as [H|[]]; subst end.
    apply Forall_inv_tail, Forall_inv in Ho. apply Ho. match goal with H : hidden _ _ = f |- _ => rewrite <- H end. apply hide_marked.
  - intros ds' H. inversion H; subst; now match goal with H : In _ [] |- _ => destruct H end.
Qed.
(** A hidden type stays among the members of a union. *)
Lemma hidden_member : exists introspection l q r u t ds,
  extensionless l /\ answers l /\ queried l q /\ composed l /\ consumer_schema introspection l = Some r
  /\ says r (EMember u t) ds /\ ~ type_shown l t /\ ~ has_type r t.
Proof.
  exists [], (small [TypeDef (Union "U" None [] ["Query"; "T"]); TypeDef (Object "T" None [] hide [plain "a" (TNamed "Int")])] []), "Query".
  eexists _, "U", "T", [].
  split; [intros n [H|[H|[H|[]]]]; discriminate|]. split; [apply small_answers|].
  split; [apply small_queried; intros ds q m s [H|[H|[]]]; discriminate|].
  split.
  { intros d Hd n de im ds fs Hor Hm. right. destruct Hd as [<-|[<-|[<-|[]]]]; destruct Hor as [Hor|Hor]; try discriminate;
      injection Hor as <- <- <- <- <-; (eexists; split; [now left|apply unmarked_nil]). }
  split; [reflexivity|]. split; [|split].
  - eexists _, _. split; [right; now left|]. apply part_member. right. now left.
  - intros [k [d [ds [d' [p [[<-|[<-|[<-|[]]]] [Hp Ho]]]]]]]; inversion Hp; subst. apply (Forall_inv Ho). apply hide_marked.
  - intros [k [d [ds [d' [p [[<-|[<-|[]]] Hp]]]]]]; inversion Hp.
Qed.
(** A hidden interface stays among the interfaces of a type. *)
Lemma hidden_interface : exists introspection l q r t i ds,
  extensionless l /\ answers l /\ queried l q /\ composed l /\ consumer_schema introspection l = Some r
  /\ says r (EImplements t i) ds /\ ~ type_shown l i /\ ~ has_type r i.
Proof.
  exists [], (small [TypeDef (Object "T" None ["I"] [] [plain "a" (TNamed "Int")]); TypeDef (Interface "I" None [] hide [plain "a" (TNamed "Int")])] []), "Query".
  eexists _, "T", "I", [].
  split; [intros n [H|[H|[H|[]]]]; discriminate|]. split; [apply small_answers|].
  split; [apply small_queried; intros ds q m s [H|[H|[]]]; discriminate|].
  split.
  { intros d Hd n de im ds fs Hor Hm. right. destruct Hd as [<-|[<-|[<-|[]]]]; destruct Hor as [Hor|Hor]; try discriminate;
      injection Hor as <- <- <- <- <-; (eexists; split; [now left|apply unmarked_nil]). }
  split; [reflexivity|]. split; [|split].
  - eexists _, _. split; [right; now left|]. apply part_object_implements. now left.
  - intros [k [d [ds [d' [p [[<-|[<-|[<-|[]]]] [Hp Ho]]]]]]]; inversion Hp; subst. apply (Forall_inv Ho). apply hide_marked.
  - intros [k [d [ds [d' [p [[<-|[<-|[]]] Hp]]]]]]; inversion Hp.
Qed.
(** The types the [@context] machinery of federation declares are shown. *)
Lemma context_shown : exists introspection l q r,
  extensionless l /\ answers l /\ queried l q /\ composed l /\ consumer_schema introspection l = Some r
  /\ says r (EType KindScalar "join__FieldValue" None) [] /\ forall ds, ~ added introspection q (EType KindScalar "join__FieldValue" None) ds.
Proof.
  exists [], (small [TypeDef (Scalar "join__FieldValue" None [])] []), "Query". eexists.
  split; [intros n [H|[H|[]]]; discriminate|]. split; [apply small_answers|].
  split; [apply small_queried; intros ds q m s [H|[]]; discriminate|].
  split.
  { intros d Hd n de im ds fs Hor Hm. right. destruct Hd as [<-|[<-|[]]]; destruct Hor as [Hor|Hor]; try discriminate;
      injection Hor as <- <- <- <- <-; (eexists; split; [now left|apply unmarked_nil]). }
  split; [reflexivity|]. split.
  - eexists _, _. split; [right; now left|]. constructor.
  - intros ds' H. inversion H; subst; now match goal with H : In _ [] |- _ => destruct H end.
Qed.
(** A schema in which there is nothing to replace is returned with what is hidden in it. *)
Lemma nothing_replaced : exists introspection l q r n,
  extensionless l /\ queried l q /\ consumer_schema introspection l = Some r /\ ~ type_shown l n /\ has_type r n.
Proof.
  exists [], [TypeDef (Object "Query" None [] [] [hidden "a" (TNamed "Secret")]); TypeDef (Scalar "Secret" None hide)], "Query". eexists _, "Secret".
  split; [intros n [H|[H|[]]]; discriminate|].
  split.
  { split; [right; split; [|reflexivity]|split].
    - intros ds q' m s [Hi|[Hi|[]]]; discriminate.
    - unfold internal_type. cbn. intuition discriminate.
    - exists None, []. eexists _, _. split; [now left|]. split; [constructor|]. repeat constructor. apply unmarked_nil. }
  split; [reflexivity|]. split.
  - intros [k [d [ds [d' [p [[<-|[<-|[]]] [Hp Ho]]]]]]]; inversion Hp; subst. apply (Forall_inv Ho). apply hide_marked.
  - eexists _, _, _, _, _. split; [right; now left|]. constructor.
Qed.
(** A type extension makes the router panic. *)
Lemma extension_panics introspection l1 n l2 : consumer_schema introspection (l1 ++ TypeExtension n :: l2) = None.
Proof.
  unfold consumer_schema, prune. replace (default_document _ _ _ _ _ _) with (@None (change (list definition))); [reflexivity|].
  unfold default_document. replace (transform_all _ _ _ _ _ _) with (@None (list (definition * change definition))); [reflexivity|].
  symmetry. induction l1 as [|d l1 IH]; [reflexivity|]. cbn [app filter].
  destruct (accessible_definition d); [|exact IH]. cbn [transform_all]. rewrite IH. now destruct (transform_definition _ _ _ _ _ d).
Qed.

(** * A supergraph that is fine *)
Definition nice : list definition :=
  small [DirectiveDef "join__type" None [] true ["OBJECT"]; TypeDef (Enum "join__Graph" None [] [mkenumvalue "A" None []]);
         TypeDef (Object "T" None [] [mkdirective "join__type" []; mkdirective "shout" []]
           [mkfield "a" None [mkinput "x" None (TNamed "Int") None hide; mkinput "y" None (TNamed "Int") None []] (TNamed "Int") [mkdirective "tag" []];
            hidden "b" (TNamed "Int")])] [].
Lemma nice_shown : consumer_schema [TypeDef (Object "Query" None [] [] [plain "__schema" (TNamed "Int")]); TypeDef (Scalar "Int" None [])] nice = Some
  [TypeDef (Object "Query" None [] [] [plain "a" (TNamed "Int"); plain "__schema" (TNamed "Int")]);
   TypeDef (Object "T" None [] [mkdirective "shout" []] [mkfield "a" None [mkinput "y" None (TNamed "Int") None []] (TNamed "Int") []]);
   TypeDef (Scalar "Int" None [])].
Proof. reflexivity. Qed.
