From Coq Require Import String List Bool Relations.
From Verif Require Import Ast CoerceModel CondModel NormModel NormSpec NormProofs NormTyped NormProps.
Import ListNotations.
Local Open Scope string_scope.
Local Open Scope list_scope.

(** The schema and the operation of the examples meet the hypotheses of the theorems. *)
Definition ex_narrows (u t : string) : Prop := u = t \/ (In u ["User"; "Post"] /\ In t ["Node"; "Item"]).
Lemma ex_is_a obj t : is_a ex_schema obj t -> ex_narrows obj t.
Proof.
  intros [->|[(ms & Hk & Hi)|(fs & is & gs & Hk & Hi & _)]]; [left; reflexivity|right..].
  - apply kget_in in Hk. cbn in Hk.
    repeat (destruct Hk as [Hk|Hk]; [try discriminate; injection Hk as <- <-; cbn in Hi; cbn; intuition congruence|]). destruct Hk.
  - apply kget_in in Hk. cbn in Hk.
    repeat (destruct Hk as [Hk|Hk]; [try discriminate; injection Hk as <- <- <-; cbn in Hi; cbn; intuition congruence|]). destruct Hk.
Qed.
Lemma ex_field t f u : field_in ex_schema t f u ->
  In (t, f, u) [("Query", "node", "Node"); ("Query", "me", "User"); ("Node", "id", "ID"); ("Node", "owner", "Node");
    ("User", "id", "ID"); ("User", "owner", "User"); ("User", "email", "String");
    ("Post", "id", "ID"); ("Post", "owner", "User"); ("Post", "title", "String")].
Proof.
  intros (d & Hk & Hf). apply kget_in in Hk, Hf. cbn in Hk.
  repeat (destruct Hk as [Hk|Hk]; [injection Hk as <- <-; cbn in Hf; cbn; intuition congruence|]). destruct Hk.
Qed.
Ltac field := eexists; split; [vm_compute; reflexivity|vm_compute; reflexivity].
Lemma ex_narrowing : narrowing ex_schema ex_narrows.
Proof.
  constructor.
  - left; reflexivity.
  - intros t obj [_ H]. apply ex_is_a; exact H.
  - intros t u g w [->|[Hu Ht]] Hf; [exists w; split; [exact Hf|left; reflexivity]|].
    apply ex_field in Hf. cbn in Hu, Ht, Hf.
    repeat (destruct Hf as [Hf|Hf]; [injection Hf as <- <- <-; try (exfalso; intuition congruence);
      (destruct Hu as [<-|[<-|[]]]; eexists; (split; [field|cbv; tauto]))|]). destruct Hf.
Qed.
Example ex_complete : complete ex_schema.
Proof.
  split; [|exists ex_narrows; exact ex_narrowing].
  intros t g u Hf. apply ex_field in Hf. cbn in Hf.
  repeat (destruct Hf as [Hf|Hf]; [injection Hf as <- <- <-; eexists; vm_compute; reflexivity|]). destruct Hf.
Qed.
Lemma ex_object o : In o ["User"; "Post"] -> exists fs is, kget o ex_schema = Some (DObject fs is).
Proof. intros [<-|[<-|[]]]; do 2 eexists; vm_compute; reflexivity. Qed.
Example ex_ok : schema_ok ex_schema.
Proof.
  constructor.
  - repeat (constructor; [cbn; intuition congruence|]). constructor.
  - intros c ms obj Hk Hi. apply ex_object. apply kget_in in Hk. cbn in Hk.
    repeat (destruct Hk as [Hk|Hk]; [try discriminate; injection Hk as <- <-; exact Hi|]). destruct Hk.
  - intros i gs obj g t u Hi [(fs & is & Ho) Hr] Ht Hu x Hx.
    assert (i = "Node" /\ (g = "id" /\ t = "ID" \/ g = "owner" /\ t = "Node")) as [-> Hg].
    { apply kget_in in Hi, Ht. cbn in Hi.
      repeat (destruct Hi as [Hi|Hi]; [try discriminate; injection Hi as <- <-; cbn in Ht; intuition congruence|]). destruct Hi. }
    assert (In obj ["User"; "Post"]) as Hobj.
    { apply ex_is_a in Hr as [->|[H _]]; [|exact H]. vm_compute in Ho; discriminate. }
    apply ex_field in Hu. destruct Hg as [[-> ->]|[-> ->]].
    + assert (u = "ID") as -> by (cbn in Hu, Hobj; intuition congruence). exact Hx.
    + assert (u = "User") as -> by (cbn in Hu, Hobj; intuition congruence). destruct Hx as [Hx1 Hx2]. split; [exact Hx1|].
      apply ex_is_a in Hx2 as [->|[_ H]]; [|cbn in H; exfalso; intuition discriminate].
      right; right. do 3 eexists. split; [vm_compute; reflexivity|]. split; [left; reflexivity|vm_compute; reflexivity].
Qed.

Definition ex_doc : list ndef :=
  [NOp KQuery None [f "node" [NSpread "A" []; f "id" []]; f "me" [NInline (Some "Node") [] [f "id" []]; NInline None [inc "y"] [f "email" []]]];
   NFrag "A" "Node" [NSpread "B" []; f "owner" [f "id" []]];
   NFrag "B" "Item" [NInline (Some "User") [inc "x"] [f "email" []]; f "__typename" []]].
Ltac fits := repeat match goal with
  | |- fits _ _ _ (NField _ "__typename" _ _ _) => apply fits_meta; reflexivity
  | |- fits _ _ _ (f ?n ?l) => unfold f
  | |- fits _ _ _ (NField _ _ _ _ _) => eapply fits_field; [field|]
  | |- fits _ _ _ (NInline (Some _) _ _) => apply fits_cond; [eexists; vm_compute; reflexivity|]
  | |- fits _ _ _ (NInline None _ _) => apply fits_bare
  | |- fits _ _ _ (NSpread _ _) => apply fits_spread; eexists; vm_compute; reflexivity
  | |- forall s, In s _ -> _ => let H := fresh in intros ? H; cbn in H; repeat (destruct H as [<-|H]); [..|destruct H]
  end.
Example ex_valid : valid ex_schema ex_root None ex_doc.
Proof.
  split; [|split; [|split]].
  - do 4 eexists. split; [vm_compute; reflexivity|]. split; [reflexivity|]. split; [eexists; vm_compute; reflexivity|]. fits.
  - intros n fr H. apply kget_in in H. vm_compute in H.
    destruct H as [H|[H|[]]]; injection H as <- <-; (split; [eexists; vm_compute; reflexivity|]); cbn [fr_tc fr_sels]; fits.
  - intros n (d & Hd & Hn). cbn in Hd. repeat (destruct Hd as [<-|Hd]; [cbn in Hn; destruct Hn as [<-|[]]; eexists; vm_compute; reflexivity|]).
    destruct Hd as [<-|[]]; cbn in Hn; destruct Hn.
  - intros n Hn.
    assert (forall a b, edge (fragment_map ex_doc) a b -> a = "A" /\ b = "B") as He.
    { intros a b (fr & Hk & Hb). apply kget_in in Hk. vm_compute in Hk.
      destruct Hk as [Hk|[Hk|[]]]; injection Hk as <- <-; cbn in Hb; intuition congruence. }
    assert (forall a b, clos_trans string (edge (fragment_map ex_doc)) a b -> a = "A" /\ b = "B") as Ht.
    { induction 1 as [a b H|a b c _ [_ E1] _ [E2 _]]; [auto|congruence]. }
    apply Ht in Hn as [-> Hn]; discriminate.
Qed.
