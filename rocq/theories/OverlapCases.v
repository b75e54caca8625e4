From Coq Require Import String List NArith ZArith Bool Lia PeanoNat.
From Verif Require Import Ast NormModel NormProofs OverlapModel OverlapSpec OverlapBase OverlapValues OverlapSteps OverlapSound OverlapTop OverlapEnds.
Import ListNotations.
Local Open Scope string_scope.
Local Open Scope list_scope.

(** Everything else that is asked of a document *)
Definition in_order (sch : list tdef) (doc : list definition) : Prop :=
  unique_types sch /\ unique_fragments doc /\ known_conditions sch doc /\ tidy_arguments sch doc /\ acyclic doc.

Definition fld (al : option string) (n : string) (sub : list nsel) : nsel := NField al n [] [] sub.
Definition str : tdef := mktdef "String" KLeaf [].
Definition int : tdef := mktdef "Int" KLeaf [].

Ltac enum H := cbn in H; repeat (destruct H as [H|H]); try contradiction.
Ltac tidy_plain := apply tidy_other; intros; discriminate.

(** Three selections of one field: the fragment C was visited for the first pair and is skipped for the second *)
Definition three_sch : list tdef :=
  [mktdef "Query" KObject [("t", TNamed "T")];
   mktdef "T" KObject [("a", TNamed "String"); ("c", TNamed "String"); ("d", TNamed "String")]; str].
Definition three_doc : list definition :=
  [Oper (Some "Query") [fld None "t" [fld (Some "x") "a" []]; fld None "t" [NSpread "B" []]; fld None "t" [fld (Some "y") "c" []]];
   Frag "B" "T" [NSpread "C" []]; Frag "C" "T" [fld (Some "y") "d" []]].
Lemma three_order : in_order three_sch three_doc.
Proof.
  assert (U : unique_types three_sch) by (unfold unique_types; cbn; repeat constructor; cbn; intuition discriminate).
  split; [exact U|]. split; [unfold unique_fragments; cbn; repeat constructor; cbn; intuition discriminate|].
  split; [|split].
  - intros p set c ds sub S I. apply (proj2 (sets_ok _ _ U (p, set))) in S. enum S; injection S as <- <-; enum I; discriminate.
  - intros p set al n args ds sub S I. apply (proj2 (sets_ok _ _ U (p, set))) in S. enum S; injection S as <- <-; enum I; try discriminate;
      unfold fld in I; injection I as <- <- <- <- <-; (apply tidy_obj; [constructor|constructor]).
  - exists (fun n => if String.eqb n "B" then 1 else 0). intros n tc set k I M. enum I; try discriminate; injection I as <- <- <-;
      inversion M as [ds J|al n args ds sub J M'|tc ds sub J M']; subst; enum J; try discriminate.
    + injection J as <- _. cbn. lia.
    + unfold fld in J. injection J as _ _ _ _ <-. inversion M'; contradiction.
Qed.
Lemma three_clash : document_clash three_sch three_doc.
Proof.
  assert (U : unique_types three_sch) by (exact (proj1 three_order)).
  set (q := mktdef "Query" KObject [("t", TNamed "T")]).
  set (t := mktdef "T" KObject [("a", TNamed "String"); ("c", TNamed "String"); ("d", TNamed "String")]).
  eexists (Some q), _, (Some q), (mkfield None "t" [] [NSpread "B" []]), (Some q), (mkfield None "t" [] [fld (Some "y") "c" []]), "t".
  split; [apply (stands_operation _ _ "Query"); [left; reflexivity|now apply type_by_name_ok]|].
  split; [apply (collected_field _ _ _ _ None "t" [] []); cbn; tauto|].
  split; [apply (collected_field _ _ _ _ None "t" [] []); cbn; tauto|].
  split; [right; split; reflexivity|]. split; [right; split; reflexivity|].
  apply (clash_below _ _ _ _ _ _ _ (Some t) (Some t) "y" (Some t) (mkfield (Some "y") "d" [] []) (Some t) (mkfield (Some "y") "c" [] [])).
  - now apply inside_ok.
  - now apply inside_ok.
  - apply (collected_spread _ _ _ _ "B" [] "T" [NSpread "C" []] (Some t)); [now left|cbn; tauto|now apply type_by_name_ok|].
    apply (collected_spread _ _ _ _ "C" [] "T" [fld (Some "y") "d" []] (Some t)); [now left|cbn; tauto|now apply type_by_name_ok|].
    apply (collected_field _ _ _ _ (Some "y") "d" [] []). now left.
  - apply (collected_field _ _ _ _ (Some "y") "c" [] []). now left.
  - now left.
  - now left.
  - assert (A : ~ apart (Some q) (Some q)) by (intros (x & y & E1 & E2 & _ & _ & N); congruence).
    apply clash_name; [tauto| |discriminate]. intros (x & y & E1 & E2 & _ & _ & N). congruence.
Qed.
Lemma three_passes : validate three_sch three_doc 20 = Some [].
Proof. vm_compute. reflexivity. Qed.

Lemma tidy_ints : forall l, tidy (GList (map GInt l)).
Proof. intros l. apply tidy_list. induction l as [|z l IH]; cbn; constructor; [tidy_plain|exact IH]. Qed.
(** Lists of different lengths *)
Definition list_sch : list tdef := [mktdef "Query" KObject [("f", TNamed "String")]; str].
Definition list_doc : list definition :=
  [Oper (Some "Query") [NField None "f" [("x", GList [GInt 1])] [] []; NField None "f" [("x", GList [GInt 1; GInt 2])] [] []]].
Lemma list_order : in_order list_sch list_doc.
Proof.
  assert (U : unique_types list_sch) by (unfold unique_types; cbn; repeat constructor; cbn; intuition discriminate).
  split; [exact U|]. split; [constructor|]. split; [|split].
  - intros p set c ds sub S I. apply (proj2 (sets_ok _ _ U (p, set))) in S. enum S; injection S as <- <-; enum I; discriminate.
  - intros p set al n args ds sub S I. apply (proj2 (sets_ok _ _ U (p, set))) in S. enum S; injection S as <- <-; enum I; try discriminate;
      injection I as <- <- <- <- <-; (apply tidy_obj; [repeat constructor; intros []|]); (constructor; [|constructor]); cbn;
      [exact (tidy_ints [1%Z])|exact (tidy_ints [1%Z; 2%Z])].
  - exists (fun _ => 0). intros n tc set k I M. enum I. discriminate.
Qed.
Lemma list_flat : flat list_doc.
Proof. intros n tc set k I. enum I. discriminate. Qed.
Lemma list_clash : document_clash list_sch list_doc.
Proof.
  assert (U : unique_types list_sch) by (exact (proj1 list_order)).
  set (q := mktdef "Query" KObject [("f", TNamed "String")]).
  eexists (Some q), _, (Some q), (mkfield None "f" [("x", GList [GInt 1])] []), (Some q), (mkfield None "f" [("x", GList [GInt 1; GInt 2])] []), "f".
  split; [apply (stands_operation _ _ "Query"); [left; reflexivity|now apply type_by_name_ok]|].
  split; [apply (collected_field _ _ _ _ None "f" _ []); cbn; tauto|].
  split; [apply (collected_field _ _ _ _ None "f" _ []); cbn; tauto|].
  split; [right; split; reflexivity|]. split; [right; split; reflexivity|].
  apply clash_args; [tauto|intros (x & y & E1 & E2 & _ & _ & N); congruence|]. cbn.
  intros H. inversion H as [| | | | | | | |? ? A _]; subst. destruct (A "x" _ (or_introl eq_refl)) as (w & [E|[]] & S).
  injection E as <-. inversion S as [| | | | | | |? ? F|]; subst. inversion F as [|? ? ? ? _ F']. inversion F'.
Qed.
Lemma list_passes : validate list_sch list_doc 20 = Some [].
Proof. vm_compute. reflexivity. Qed.

(** The name of the type under the response name of a number *)
Definition type_a : tdef := mktdef "A" KObject [("n", TNamed "Int")].
Definition type_b : tdef := mktdef "B" KObject [("n", TNamed "Int")].
Definition name_sch : list tdef :=
  [mktdef "Query" KObject [("u", TNamed "U")]; mktdef "U" KUnion []; type_a; type_b; int; str].
Definition name_set : list nsel := [NInline (Some "A") [] [fld (Some "k") "__typename" []]; NInline (Some "B") [] [fld (Some "k") "n" []]].
Definition name_doc : list definition := [Oper (Some "Query") [fld None "u" name_set]].
Lemma name_types : unique_types name_sch.
Proof. unfold unique_types; cbn; repeat constructor; cbn; intuition discriminate. Qed.
Lemma name_passes : validate name_sch name_doc 20 = Some [].
Proof. vm_compute. reflexivity. Qed.
Lemma name_collected :
  stands name_sch name_doc (Some (mktdef "U" KUnion [])) name_set
  /\ collected name_sch name_doc (Some (mktdef "U" KUnion [])) name_set (Some type_a) (mkfield (Some "k") "__typename" [] [])
  /\ collected name_sch name_doc (Some (mktdef "U" KUnion [])) name_set (Some type_b) (mkfield (Some "k") "n" [] []).
Proof.
  split; [|split].
  - apply (proj1 (sets_ok name_sch name_doc name_types (_, _))). cbn. tauto.
  - apply (collected_inline _ _ _ _ (Some "A") [] [fld (Some "k") "__typename" []] (Some type_a)); [now left|apply type_by_name_ok; [exact name_types|reflexivity]|].
    apply (collected_field _ _ _ _ (Some "k") "__typename" [] []). now left.
  - apply (collected_inline _ _ _ _ (Some "B") [] [fld (Some "k") "n" []] (Some type_b)); [right; now left|apply type_by_name_ok; [exact name_types|reflexivity]|].
    apply (collected_field _ _ _ _ (Some "k") "n" [] []). now left.
Qed.

(** A fragment that mentions itself twice, under a field that no schema has *)
Definition loop_inner : nsel := fld None "zz" [NSpread "F" []].
Definition loop_set : list nsel := [fld None "zz" [loop_inner; NSpread "F" []]].
Definition loop_doc : list definition := [Frag "F" "Query" loop_set; Oper (Some "Query") [NSpread "F" []]].
Section Loop.
  Variable sch : list tdef.
  Hypothesis Hzz : fdef (type_by_name sch "Query") "zz" = None.
  Definition inner : entry := mkentry None (mkfield None "zz" [] [NSpread "F" []]) None.
  Definition outer : entry := mkentry (type_by_name sch "Query") (mkfield None "zz" [] [loop_inner; NSpread "F" []]) None.
  Lemma loop_get : frag_get loop_doc "F" = Some ("Query", loop_set).
  Proof. reflexivity. Qed.
  Lemma outer_fields : fields_and_fragments sch (type_by_name sch "Query") loop_set = ([("zz", [outer])], []).
  Proof. unfold fields_and_fragments, loop_set, fld. cbn [collect collect_one]. fold (fdef (type_by_name sch "Query") "zz"). rewrite Hzz. reflexivity. Qed.
  Lemma inner_fields : fields_and_fragments sch None [loop_inner; NSpread "F" []] = ([("zz", [inner])], ["F"]).
  Proof. reflexivity. Qed.
  Lemma spread_fields : fields_and_fragments sch None [NSpread "F" []] = ([], ["F"]).
  Proof. reflexivity. Qed.
  Lemma loop_find : forall n st, find_conflict sch loop_doc n "zz" inner outer false st = None.
  Proof.
    assert (G : forall n st, find_conflict sch loop_doc n "zz" inner outer false st = None
      /\ find_conflict sch loop_doc (S n) "zz" inner outer false st = None
      /\ find_conflict sch loop_doc (S (S n)) "zz" inner outer false st = None).
    { induction n as [|n IH].
      - intros st. split; [reflexivity|]. split; rewrite find_step; reflexivity.
      - intros st. split; [apply IH|]. split; [apply IH|].
        rewrite find_step. cbv zeta. cbn [e_parent inner outer exclusive negb e_field f_name f_args f_sub e_def andb].
        change (String.eqb "zz" "zz") with true. cbn [negb same_arguments]. cbn [List.length Nat.eqb forallb andb negb].
        rewrite sets_step. cbn [type_of_def]. rewrite spread_fields, inner_fields.
        unfold andthen at 1. cbn [pairs flat_map each_pair each].
        unfold andthen at 1. cbn [each]. rewrite fields_step, loop_get, outer_fields. cbn [smem existsb].
        unfold andthen at 1. cbn [pairs flat_map each_pair each until app].
        unfold andthen at 1. cbn [each]. rewrite fields_step, loop_get, outer_fields. cbn [smem existsb].
        unfold andthen at 1. unfold each_pair. change (pairs [("zz", [inner])] [("zz", [outer])]) with [("zz", inner, outer)]. cbn [each].
        rewrite (proj1 (IH st)). reflexivity. }
    intros n st. apply G.
  Qed.
  Lemma loop_forever : forall fuel, validate sch loop_doc fuel = None.
  Proof.
    intros fuel. unfold validate.
    assert (S1 : forall st, within_set sch loop_doc fuel (type_by_name sch "Query", loop_set) st = Some ([], mkstate [] (compared st))).
    { intros st. unfold within_set. cbn [fst snd]. rewrite outer_fields. reflexivity. }
    assert (S2 : forall st, within_set sch loop_doc fuel (None, [loop_inner; NSpread "F" []]) st = None).
    { intros st. unfold within_set. cbn [fst snd]. rewrite inner_fields. cbn [pairs_within flat_map later map app fst snd].
      unfold andthen at 1. cbn [each within_fragments]. unfold andthen at 1.
      destruct fuel as [|n]; [reflexivity|]. rewrite fields_step, loop_get, outer_fields. cbn [smem existsb].
      unfold andthen at 1. unfold each_pair. change (pairs [("zz", [inner])] [("zz", [outer])]) with [("zz", inner, outer)]. cbn [each].
      rewrite loop_find. reflexivity. }
    assert (E : exists rest, flat_map (sets_of sch) loop_doc = (type_by_name sch "Query", loop_set) :: (None, [loop_inner; NSpread "F" []]) :: rest).
    { eexists. unfold loop_doc. cbn [flat_map sets_of]. unfold loop_set at 2. cbn [flat_map fld sets_one].
      fold (fdef (type_by_name sch "Query") "zz"). rewrite Hzz. cbn [type_of_def app]. reflexivity. }
    destruct E as [rest ->]. cbn [each]. rewrite S1, S2. reflexivity.
  Qed.
End Loop.
