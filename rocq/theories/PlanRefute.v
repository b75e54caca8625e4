(** An example schema, and operations whose plan is not what they select. *)
From Coq Require Import String List Bool Arith.
From Verif Require Import StrOrd JsonModel Ast ProjModel ProjSpec TrieModel PlanModel PlanSpec.
Import ListNotations.
Local Open Scope string_scope.
Local Open Scope list_scope.

Definition tables (l : list (string * list (string * (string * nshape)))) (t : string) : option (string -> option (string * nshape)) :=
  option_map (fun fs f => get f fs) (get t l).
Definition ex_types : list (string * list (string * (string * nshape))) :=
  [("Query", [("me", ("User", NLeaf false)); ("node", ("Node", NLeaf false))]);
   ("Node", [("name", ("String", NLeaf false))]);
   ("User", [("name", ("String", NLeaf true)); ("email", ("String", NLeaf false)); ("a", ("A", NLeaf false))]);
   ("Admin", [("name", ("String", NLeaf false)); ("level", ("String", NLeaf false))]);
   ("A", [("b", ("B", NLeaf false))]); ("B", [("secret", ("String", NLeaf false))])].
Definition objects (t : string) : bool := existsb (String.eqb t) ["Query"; "User"; "Admin"; "A"; "B"].
Definition possible (t : string) : sset := if String.eqb t "Node" then ["Admin"; "Node"; "User"] else [t].
Definition ex_of types : meta :=
  mkmeta possible (fun _ => None) (tables types) objects (fun t => String.eqb t "String") (fun _ => false) (fun t => String.eqb t "Node").
Definition ex := ex_of ex_types.
Definition fld n sub := SField n None None None None false sub.
Definition plans (r : bres (list plan)) : list plan := match r with BOk l => l | BErr _ => [] end.

Lemma possible_not t : t <> "Node" -> possible t = [t].
Proof. intros H. unfold possible. apply String.eqb_neq in H. rewrite H. reflexivity. Qed.
Lemma ex_schema types :
  (forall f o, match get "Node" types with Some fs => option_map fst (get f fs) | None => None end = Some o ->
     forall t, In t ["Admin"; "User"] -> match get t types with Some fs => option_map fst (get f fs) | None => None end = Some o) ->
  schema_ok (ex_of types).
Proof.
  intros Hu.
  assert (Out : forall t f, output (ex_of types) t f = match get t types with Some fs => option_map fst (get f fs) | None => None end).
  { intros t f. unfold output, ex_of, tables. cbn [m_fields]. destruct (get t types) as [fs|]; [|reflexivity]. cbn [option_map].
    destruct (get f fs) as [[? ?]|]; reflexivity. }
  constructor; cbn [m_possible m_object m_scalar ex_of]; unfold objs; cbn [m_possible m_object ex_of].
  - intros t. destruct (string_dec t "Node") as [->|H]; [cbn; auto|]. rewrite possible_not by exact H. cbn; auto.
  - intros t. destruct (string_dec t "Node") as [->|H].
    + change (NoDup ["Admin"; "Node"; "User"]). constructor; [cbn; intuition discriminate|]. constructor; [cbn; intuition discriminate|].
      constructor; [cbn; intuition|constructor].
    + rewrite possible_not by exact H. constructor; [cbn; tauto|constructor].
  - intros t Ho. apply possible_not. intros ->. discriminate.
  - intros t T Hs [H1 H2]. apply String.eqb_eq in Hs. subst t. cbn in H2. destruct H2 as [<-|[]]. discriminate.
  - intros a b c Hb Hc. destruct (string_dec a "Node") as [->|Ha].
    + cbn in Hb. destruct Hb as [<-|[<-|[<-|[]]]]; cbn in Hc; cbn; tauto.
    + rewrite possible_not in Hb by exact Ha. destruct Hb as [<-|[]]. exact Hc.
  - intros a b f o Hb. rewrite !Out. destruct (string_dec a "Node") as [->|Ha].
    + intros Ho. change (In b ["Admin"; "Node"; "User"]) in Hb. destruct Hb as [<-|[<-|[<-|[]]]]; [apply Hu; cbn; auto|exact Ho|apply Hu; cbn; auto].
    + rewrite possible_not in Hb by exact Ha. destruct Hb as [<-|[]]. tauto.
Qed.
Lemma ex_ok : schema_ok ex.
Proof.
  apply ex_schema. intros f o H t Ht.
  change ((if String.eqb f "name" then Some "String" else None) = Some o) in H || cbn in H.
  destruct (String.eqb f "name") eqn:E; [|destruct f; discriminate || (cbn in H; congruence)].
  apply String.eqb_eq in E. subst f. cbn in H. injection H as <-. cbn in Ht. destruct Ht as [<-|[<-|[]]]; reflexivity.
Qed.

(** Without aliases, a response key names its field. *)
Fixpoint no_alias (s : sel) : Prop :=
  match s with
  | SField _ a _ _ _ _ sub => a = None /\ all no_alias sub
  | SFrag _ _ _ sub => all no_alias sub
  | SSpread _ => True
  end.
Lemma all_in Q l s : all Q l -> In s l -> Q s.
Proof. induction l as [|x l IH]; cbn; [tauto|]. intros [H1 H2] [<-|H]; auto. Qed.
Lemma no_alias_collected M part T l k f sub : collected M part T l k f sub -> all no_alias l -> k = f /\ all no_alias sub.
Proof.
  intros H. induction H as [l n a args i s sub k Hin Hp Hk|l t i s sub k f sub' Hin Hp HT H IH]; intros Hl.
  - pose proof (all_in _ _ _ Hl Hin) as [-> Hs]. auto.
  - pose proof (all_in _ _ _ Hl Hin) as Hs. exact (IH Hs).
Qed.
Lemma no_alias_coherent M X l : all no_alias l -> coherent (fun path => typed M X path /\ mentions M path l).
Proof.
  intros Hl path T k f f' [_ H1] [_ H2].
  assert (G : forall path l f, all no_alias l -> mentions M (path ++ [(T, k, f)]) l -> k = f).
  { clear. induction path as [|[[T0 k0] f0] path IH]; intros l f Hl (sub & Hc & Hm).
    - exact (proj1 (no_alias_collected _ _ _ _ _ _ _ Hc Hl)).
    - apply (IH sub f); [exact (proj2 (no_alias_collected _ _ _ _ _ _ _ Hc Hl))|exact Hm]. }
  rewrite <- (G path l f Hl H1). exact (G path l f' Hl H2).
Qed.

Definition same_order (s : sset) : list string := s.
Lemma same_order_ok : forall s x, In x (same_order s) <-> In x s.
Proof. reflexivity. Qed.

(** [node { ... on Node @include(if: $x) { ... on User { name } } }] *)
Definition op_nested := [fld "node" [SFrag "Node" (Some "x") None [SFrag "User" None None [fld "name" []]]]].
Lemma nested_refuted :
  exists M order root sels ps vt path, schema_ok M /\ (forall s x, In x (order s) <-> In x s) /\ m_object M root = true /\
    coherent (fun path => typed M (objs M root) path /\ mentions M path sels) /\
    from_operation M order root sels = BOk ps /\ typed M (objs M root) path /\
    shows vt path ps /\ ~ selects M vt path sels.
Proof.
  exists ex, same_order, "Query", op_nested, (plans (from_operation ex same_order "Query" op_nested)), (fun _ => true),
    [("Query", "node", "node"); ("Admin", "name", "name")].
  split; [exact ex_ok|]. split; [exact same_order_ok|]. split; [reflexivity|].
  split; [apply no_alias_coherent; cbn; tauto|]. split; [vm_compute; reflexivity|].
  split; [cbn; split; [split; [reflexivity|cbn; auto]|]; right; split; [discriminate|]; exists "Node"; split; [reflexivity|]; split; [split; [reflexivity|cbn; auto]|auto]|].
  split.
  - match goal with |- shows _ _ ?l => let l' := eval vm_compute in l in change l with l' end.
    cbn [shows kids]. eexists. split; [left; reflexivity|]. cbn [p_key p_field p_guard p_cond p_val kids opens met_opt met].
    split; [reflexivity|]. split; [reflexivity|]. split; [exact I|]. split; [cbn; auto|].
    eexists. split; [left; reflexivity|]. cbn [p_key p_field p_guard p_cond p_val opens met_opt met].
    repeat (split; [reflexivity || (cbn; tauto)|]). exact I.
  - intros (sub & Hc & sub' & Hc' & _).
    inversion Hc as [? ? ? ? ? ? ? ? Hin _ _|? ? ? ? ? ? ? ? Hin]; subst; cbn in Hin; destruct Hin as [E|[]]; [|discriminate].
    injection E as <- <- <- <- <-. clear Hc.
    inversion Hc' as [? ? ? ? ? ? ? ? Hin _ _|? ? ? ? ? ? ? ? Hin _ _ Hc]; subst; cbn in Hin; destruct Hin as [E|[]]; [discriminate|].
    injection E as <- <- <- <-. clear Hc'.
    inversion Hc as [? ? ? ? ? ? ? ? Hin _ _|? ? ? ? ? ? ? ? Hin _ HT]; subst; cbn in Hin; destruct Hin as [E|[]]; [discriminate|].
    injection E as <- <- <- <-. cbn in HT. destruct HT as [HT|[]]. discriminate.
Qed.

(** Implementers that narrow the type of a field. *)
Definition covariant_types : list (string * list (string * (string * nshape))) :=
  [("Query", [("node", ("Node", NLeaf false))]);
   ("Node", [("name", ("String", NLeaf false)); ("friend", ("Node", NLeaf false))]);
   ("User", [("name", ("String", NLeaf false)); ("friend", ("User", NLeaf false))]);
   ("Admin", [("name", ("String", NLeaf false)); ("friend", ("Admin", NLeaf false))])].
(** [node { ... on Node @include(if: $x) { friend { name } } ... on Node @include(if: $y) { friend { ... on Admin { name } } } }] *)
Definition op_covariant :=
  [fld "node" [SFrag "Node" (Some "x") None [fld "friend" [fld "name" []]];
               SFrag "Node" (Some "y") None [fld "friend" [SFrag "Admin" None None [fld "name" []]]]]].
Lemma rev_order_ok : forall (s : sset) x, In x (rev s) <-> In x s.
Proof. intros. symmetry. apply in_rev. Qed.
Lemma covariant_refuted :
  exists M order root sels ps vt path, (forall s x, In x (order s) <-> In x s) /\ m_object M root = true /\
    all (fun s => simple M s root (objs M root)) sels /\
    coherent (fun path => typed M (objs M root) path /\ mentions M path sels) /\
    from_operation M order root sels = BOk ps /\ typed M (objs M root) path /\
    selects M vt path sels /\ ~ shows vt path ps.
Proof.
  set (M := ex_of covariant_types).
  exists M, (@rev string), "Query", op_covariant, (plans (from_operation M (@rev string) "Query" op_covariant)), (fun _ => true),
    [("Query", "node", "node"); ("Admin", "friend", "friend"); ("Admin", "name", "name")].
  assert (OA : objs M "Node" "Admin") by (split; [reflexivity|cbn; auto]).
  split; [exact rev_order_ok|]. split; [reflexivity|].
  assert (Leaf : forall P X, output M P "name" = Some "String" -> simple M (fld "name" []) P X).
  { intros P X E. cbn. split; [reflexivity|]. right. split; [discriminate|]. exists "String". split; [exact E|]. right. split; [tauto|]. split; [|exact I].
    intros _ T [H1 H2]. cbn in H2. destruct H2 as [<-|[]]. discriminate. }
  split.
  { cbn [all op_covariant]. split; [|exact I]. cbn [fld simple]. split; [reflexivity|]. right. split; [discriminate|]. exists "Node". split; [reflexivity|]. right.
    split; [cbn; tauto|]. split; [discriminate|]. split; [|split; [|exact I]]; (split; [discriminate|]); (split; [intros _; exists "Admin"; split; [exact OA|cbn; auto]|]);
      (split; [|right; cbn; tauto]); (split; [|exact I]); cbn [fld simple]; (split; [reflexivity|]); right; (split; [discriminate|]); exists "Node"; (split; [reflexivity|]);
      right; (split; [cbn; tauto|]); (split; [discriminate|]); (split; [|exact I]).
    - apply Leaf. reflexivity.
    - split; [discriminate|]. split; [intros _; exists "Admin"; split; [exact OA|cbn; auto]|]. split; [split; [apply Leaf; reflexivity|exact I]|right; cbn; tauto]. }
  split; [apply no_alias_coherent; cbn; tauto|]. split; [vm_compute; reflexivity|].
  split.
  { cbn. split; [split; [reflexivity|cbn; auto]|]. right. split; [discriminate|]. exists "Node". split; [reflexivity|].
    split; [exact OA|]. right. split; [discriminate|]. exists "Admin". split; [reflexivity|]. split; [split; [reflexivity|cbn; auto]|auto]. }
  split.
  - eexists. split; [eapply col_field; [left; reflexivity|split; exact I|reflexivity]|].
    eexists. split; [eapply col_frag; [left; reflexivity|split; [reflexivity|exact I]|cbn; auto|eapply col_field; [left; reflexivity|split; exact I|reflexivity]]|].
    eexists. split; [eapply col_field; [left; reflexivity|split; exact I|reflexivity]|exact I].
  - match goal with |- ~ shows _ _ ?l => let l' := eval vm_compute in l in change l with l' end.
    intros (p & Hp & _ & _ & _ & _ & q & Hq & _ & _ & _ & _ & r & Hr & _ & _ & Hg & _).
    destruct Hp as [<-|[]]. cbn in Hq. destruct Hq as [<-|[]]. cbn in Hr. destruct Hr as [<-|[]]. cbn in Hg. discriminate.
Qed.

(** [node { name }], answered by a user without a name *)
Definition op_name := [fld "node" [fld "name" []]].
Lemma nullability_refuted :
  exists M order root sels ps vt k1 f1 T k2 f2 fs out o, schema_ok M /\ (forall s x, In x (order s) <-> In x s) /\ m_object M root = true /\
    all (fun s => simple M s root (objs M root)) sels /\
    coherent (fun path => typed M (objs M root) path /\ mentions M path sels) /\
    from_operation M order root sels = BOk ps /\
    selects M vt [(root, k1, f1); (T, k2, f2)] sels /\
    m_fields M T = Some fs /\ fs f2 = Some (out, NLeaf true) /\ get "__typename" o = Some (VStr T) /\
    comp_root M vt root ps (VObj [(k1, VObj o)]) (OObj [(k1, OObj [(k2, ONull)])]).
Proof.
  exists ex, same_order, "Query", op_name, (plans (from_operation ex same_order "Query" op_name)), (fun _ => true),
    "node", "node", "User", "name", "name".
  eexists. eexists. exists [("__typename", VStr "User")].
  split; [exact ex_ok|]. split; [exact same_order_ok|]. split; [reflexivity|].
  split.
  { cbn. split; [|exact I]. split; [reflexivity|]. right. split; [discriminate|]. exists "Node". split; [reflexivity|]. right. split; [tauto|]. split; [discriminate|].
    split; [|exact I]. split; [reflexivity|]. right. split; [discriminate|]. exists "String". split; [reflexivity|]. right. split; [tauto|]. split; [|exact I].
    intros _ T [H1 H2]. cbn in H2. destruct H2 as [<-|[]]. discriminate. }
  split; [apply no_alias_coherent; cbn; tauto|]. split; [vm_compute; reflexivity|].
  split.
  { eexists. split; [eapply col_field; [left; reflexivity|split; exact I|reflexivity]|].
    eexists. split; [eapply col_field; [left; reflexivity|split; exact I|reflexivity]|exact I]. }
  split; [reflexivity|]. split; [reflexivity|]. split; [reflexivity|].
  match goal with |- comp_root _ _ _ ?l _ _ => let l' := eval vm_compute in l in change l with l' end.
  constructor. apply (fs_shown _ _ (Plan _ "node" _ _ _ _ _)); [|discriminate|constructor].
  eapply f_value; [reflexivity|reflexivity|reflexivity|reflexivity|].
  eapply comp_obj; [reflexivity|]. apply (fs_shown _ _ (Plan _ "name" _ _ _ _ _)); [|reflexivity|constructor].
  eapply f_missing; [reflexivity|reflexivity|reflexivity|reflexivity].
Qed.

(** [node { ... on User { name email } ... on Admin { level name } }], answered by an admin *)
Definition op_order :=
  [fld "node" [SFrag "User" None None [fld "name" []; fld "email" []]; SFrag "Admin" None None [fld "level" []; fld "name" []]]].
Lemma order_refuted :
  exists M order root sels ps vt k1 f1 sub T o kvs, schema_ok M /\ (forall s x, In x (order s) <-> In x s) /\ m_object M root = true /\
    all (fun s => simple M s root (objs M root)) sels /\
    coherent (fun path => typed M (objs M root) path /\ mentions M path sels) /\
    from_operation M order root sels = BOk ps /\
    (forall sub', collected M (included vt) root sels k1 f1 sub' <-> sub' = sub) /\ get "__typename" o = Some (VStr T) /\
    comp_root M vt root ps (VObj [(k1, VObj o)]) (OObj [(k1, OObj kvs)]) /\
    map fst kvs <> collected_order M vt T sub.
Proof.
  exists ex, same_order, "Query", op_order, (plans (from_operation ex same_order "Query" op_order)), (fun _ => true),
    "node", "node", [SFrag "User" None None [fld "name" []; fld "email" []]; SFrag "Admin" None None [fld "level" []; fld "name" []]], "Admin",
    [("__typename", VStr "Admin"); ("level", VStr "9"); ("name", VStr "x")], [("name", OLeaf (VStr "x")); ("level", OLeaf (VStr "9"))].
  assert (Leaf : forall n P X, n <> "__typename" -> output ex P n = Some "String" -> simple ex (fld n []) P X).
  { intros n P X Hn E. cbn. split; [reflexivity|]. right. split; [exact Hn|]. exists "String". split; [exact E|]. right. split; [tauto|]. split; [|exact I].
    intros _ T [H1 H2]. cbn in H2. destruct H2 as [<-|[]]. discriminate. }
  split; [exact ex_ok|]. split; [exact same_order_ok|]. split; [reflexivity|].
  split.
  { cbn [all op_order]. split; [|exact I]. cbn [fld simple]. split; [reflexivity|]. right. split; [discriminate|]. exists "Node". split; [reflexivity|]. right. split; [cbn; tauto|]. split; [discriminate|].
    split; [|split; [|exact I]]; (split; [discriminate|]); (split; [intros _; eexists; split; [|left; reflexivity]; split; [reflexivity|cbn; auto]|]);
      (split; [split; [apply Leaf; [discriminate|reflexivity]|split; [apply Leaf; [discriminate|reflexivity]|exact I]]|left; split; [reflexivity|cbn; tauto]]). }
  split; [apply no_alias_coherent; cbn; tauto|]. split; [vm_compute; reflexivity|].
  split.
  { intros sub'. split.
    - intros H. inversion H as [? ? ? ? ? ? ? ? Hin _ _|? ? ? ? ? ? ? ? Hin]; subst; cbn in Hin; destruct Hin as [E|[]]; [|discriminate]. injection E as <- <- <- <- <-. reflexivity.
    - intros ->. eapply col_field; [left; reflexivity|split; exact I|reflexivity]. }
  split; [reflexivity|]. split; [|vm_compute; discriminate].
  match goal with |- comp_root _ _ _ ?l _ _ => let l' := eval vm_compute in l in change l with l' end.
  constructor. apply (fs_shown _ _ (Plan _ "node" _ _ _ _ _)); [|discriminate|constructor].
  eapply f_value; [reflexivity|reflexivity|reflexivity|reflexivity|].
  eapply comp_obj; [reflexivity|].
  repeat first [apply fs_nil
    | apply fs_absent; [reflexivity|]
    | eapply (fs_shown _ _ (Plan _ _ _ _ _ _ _)); [eapply f_value; [reflexivity|reflexivity|reflexivity|reflexivity|apply comp_leaf; exact I]|discriminate|]].
Qed.
