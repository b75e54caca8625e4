(** Operations that do not keep their meaning, and the names of fragments. *)
From Coq Require Import String Ascii List NArith ZArith Bool Lia.
From Verif Require Import Ast AstHashModel PrintModel GqlModel FragModel FragSpec FragProofs FragDoc.
Import ListNotations.
Local Open Scope string_scope.

(** Two objects of one type are asked for one field with different arguments. *)
Definition pair_graph : supergraph :=
  mksupergraph [("Query", [("left", TNamed "T"); ("right", TNonNull (TNamed "T"))]); ("T", [("f", TNamed "Int"); ("g", TNamed "Int")])]
    "Query" None None.
Definition leaf (n : string) (args : option (list (string * gvalue))) : sel := SField n None args None None false [].
Definition under (n : string) (l : list sel) : sel := SField n None None None None false l.
Definition query (l : list sel) : operation := mkop None (Some KQuery) l None.
Definition pair_of (a b : list sel) : operation := query [under "left" a; under "right" b].

Lemma declared_left : declared (definitions pair_graph) "Query" "left" "T".
Proof. eexists _, _. split; [reflexivity|]. split; [reflexivity|]. constructor. Qed.
Lemma declared_right : declared (definitions pair_graph) "Query" "right" "T".
Proof. eexists _, _. split; [reflexivity|]. split; [reflexivity|]. repeat constructor. Qed.
Lemma not_meta_of : forall n, is_introspection n = false -> ~ meta n.
Proof. intros n. apply not_meta. Qed.
Lemma pair_sendable : forall a b, Forall (fits (definitions pair_graph) "T") a -> Forall (fits (definitions pair_graph) "T") b ->
  sendable pair_graph (pair_of a b) "Query".
Proof.
  intros a b Ha Hb. split; [constructor|]. split; [right; eexists; reflexivity|].
  constructor; [|constructor; [|constructor]].
  - eapply fits_field; [now apply not_meta_of|discriminate|exact declared_left|right; eexists; reflexivity|exact Ha].
  - eapply fits_field; [now apply not_meta_of|discriminate|exact declared_right|right; eexists; reflexivity|exact Hb].
Qed.
Lemma leaf_fits : forall n args, n = "f" \/ n = "g" -> fits (definitions pair_graph) "T" (leaf n args).
Proof.
  intros n args H. eapply fits_field with (t' := "Int"); [| | |now left|constructor].
  - destruct H as [-> | ->]; now apply not_meta_of.
  - destruct H as [-> | ->]; discriminate.
  - destruct H as [-> | ->]; (eexists _, _; split; [reflexivity|]; split; [reflexivity|]; constructor).
Qed.

Lemma declared_one : forall types t n t1 t2, declared types t n t1 -> declared types t n t2 -> t1 = t2.
Proof.
  intros types t n t1 t2 (fs & ty & K & F & B) (fs' & ty' & K' & F' & B'). unfold known in *.
  assert (fs = fs') by congruence. subst fs'. assert (ty = ty') by congruence. subst ty'.
  apply inner_base in B, B'. congruence.
Qed.
(** Selections without spreads of leaf fields expand to themselves only. *)
Lemma expands_leaves : forall types d t l e, Forall (fun x => exists n args, x = leaf n args /\ is_introspection n = false /\ n <> "_entities") l ->
  expands types d t l e -> e = l.
Proof.
  induction l as [|x l IH]; intros e Hl He.
  - inversion He. reflexivity.
  - destruct (Forall_inv Hl) as (n & args & -> & Hm & Hn). unfold leaf in He. apply not_meta in Hm.
    inversion He as [|? ? ? ? ? ? ? ? ? l' Hmeta Hl'|? ? ? ? ? ? ? ? sub' t' ? l' _ _ _ Hsub Hl'|? ? ? ? ? ? ? sub' ? l' Hsub Hl'| |]; subst.
    + contradiction.
    + inversion Hsub; subst. f_equal. apply IH; [exact (Forall_inv_tail Hl)|exact Hl'].
    + congruence.
Qed.
Lemma expands_pair : forall d a b e, expands (definitions pair_graph) d "Query" [under "left" a; under "right" b] e ->
  exists a' b', e = [under "left" a'; under "right" b'] /\ expands (definitions pair_graph) d "T" a a' /\
    expands (definitions pair_graph) d "T" b b'.
Proof.
  intros d a b e He. unfold under in He.
  inversion He as [|? ? ? ? ? ? ? ? ? l' Hmeta Hl'|? ? ? ? ? ? ? ? sub' t' ? l' _ _ Hd Hsub Hl'| | |]; subst.
  { now apply not_meta_of in Hmeta. }
  rewrite (declared_one _ _ _ _ _ Hd declared_left) in Hsub.
  inversion Hl' as [|? ? ? ? ? ? ? ? ? l2 Hmeta Hl2|? ? ? ? ? ? ? ? sub2 t2 ? l2 _ _ Hd2 Hsub2 Hl2| | |]; subst.
  { now apply not_meta_of in Hmeta. }
  rewrite (declared_one _ _ _ _ _ Hd2 declared_right) in Hsub2. inversion Hl2; subst.
  now exists sub', sub2.
Qed.

(** When both sets have one identifier, the fragment is made from the first. *)
Section Confused.
  Variable gid : string -> list sel -> N.
  Variable a b : list sel.
  Hypothesis a_some : a <> [].
  Hypothesis b_some : b <> [].
  Hypothesis leaves : forall l, l = a \/ l = b -> Forall (fun x => exists n args, x = leaf n args /\ (n = "f" \/ n = "g")) l.
  Hypothesis same : gid "T" a = gid "T" b.

  Definition sent_together : document :=
    mkdoc (query [under "left" [SSpread "a"]; under "right" [SSpread "a"]]) [mkfragment "a" "T" a].
  Hypothesis apart_root : gid "Query" [under "left" a; under "right" b] <> gid "T" a.
  Hypothesis apart_leaf : gid "Int" [] <> gid "T" a.

  Lemma walk_leaves : forall l s, l = a \/ l = b -> walk_all pair_graph gid "T" l s = Done s.
  Proof.
    intros l s Hl. specialize (leaves l Hl). clear Hl. induction l as [|x l IH]; [reflexivity|].
    destruct (Forall_inv leaves) as (n & args & -> & H).
    change (walk_all pair_graph gid "T" (leaf n args :: l) s) with
      (then_ (walk pair_graph gid "T" (leaf n args) s) (walk_all pair_graph gid "T" l)).
    destruct H as [-> | ->]; cbn [walk leaf]; apply IH; exact (Forall_inv_tail leaves).
  Qed.
  Lemma rewrite_leaves : forall st l m, l = a \/ l = b -> is_duplicated st (gid "Int" []) = false ->
    rewrite_all pair_graph gid st "T" l m = Done (l, m).
  Proof.
    intros st l m Hl Hd. specialize (leaves l Hl). clear Hl. induction l as [|x l IH]; [reflexivity|].
    destruct (Forall_inv leaves) as (n & args & -> & H).
    rewrite rewrite_all_cons.
    assert (E : rewrite pair_graph gid st "T" (leaf n args) m = Done (leaf n args, m)).
    { unfold leaf. rewrite rewrite_field. destruct H as [-> | ->].
      - change (then_ (rewrite_set pair_graph gid st "Int" [] m) (fun r => Done (SField "f" None args None None false (fst r), snd r)) = Done (leaf "f" args, m)).
        unfold rewrite_set, share. now rewrite Hd.
      - change (then_ (rewrite_set pair_graph gid st "Int" [] m) (fun r => Done (SField "g" None args None None false (fst r), snd r)) = Done (leaf "g" args, m)).
        unfold rewrite_set, share. now rewrite Hd. }
    rewrite E. cbn [then_ fst snd]. rewrite IH by exact (Forall_inv_tail leaves). reflexivity.
  Qed.

  Let q := gid "Query" [under "left" a; under "right" b].
  Let k := gid "T" a.
  Lemma visit_some : forall rest ty l s, l <> [] ->
    visit pair_graph gid rest ty l s =
    (let s' := increase (gid ty l) s in
     if (1 <? count (gid ty l) s')%N then Done s'
     else match named ty (definitions pair_graph) with Some _ => rest s' | None => Failed (TypeNotFound ty) end).
  Proof. intros rest ty [|x l] s H; [congruence|reflexivity]. Qed.
  Lemma confused_counts : walk_set pair_graph gid "Query" (op_sels (pair_of a b)) [] = Done [(q, 1%N); (k, 2%N)].
  Proof.
    unfold pair_of, query, op_sels. unfold walk_set. rewrite visit_some by discriminate. cbn zeta.
    fold q. cbn [increase count]. rewrite N.eqb_refl.
    change (then_ (walk_set pair_graph gid "T" a [(q, 1%N)]) (fun s => then_ (walk_set pair_graph gid "T" b s) (fun s' => Done s'))
      = Done [(q, 1%N); (k, 2%N)]).
    unfold walk_set at 1. rewrite visit_some by exact a_some. cbn zeta. fold k. cbn [increase].
    assert (E : (k =? q)%N = false) by (apply N.eqb_neq; intros H; now apply apart_root). rewrite E. cbn [count]. rewrite E, N.eqb_refl.
    change (then_ (walk_all pair_graph gid "T" a [(q, 1%N); (k, 1%N)]) (fun s => then_ (walk_set pair_graph gid "T" b s) (fun s' => Done s'))
      = Done [(q, 1%N); (k, 2%N)]).
    rewrite walk_leaves by now left. cbn [then_].
    unfold walk_set. rewrite visit_some by exact b_some. cbn zeta. rewrite <- same. fold k. cbn [increase].
    rewrite E, N.eqb_refl. cbn [count]. rewrite E, N.eqb_refl. reflexivity.
  Qed.
  Lemma confused_sent : minify pair_graph gid (pair_of a b) = Done sent_together.
  Proof.
    unfold minify. cbn [root_of op_kind pair_of query query_root pair_graph]. fold (query [under "left" a; under "right" b]).
    fold (pair_of a b). fold pair_graph. rewrite confused_counts. cbn [then_]. unfold transform.
    change (has_duplicates [(q, 1%N); (k, 2%N)]) with true. cbn iota.
    set (st := [(q, 1%N); (k, 2%N)]).
    assert (Eq : (q =? k)%N = false) by (apply N.eqb_neq; exact apart_root).
    assert (Ek : (k =? q)%N = false) by (rewrite N.eqb_sym; exact Eq).
    assert (Dq : is_duplicated st q = false) by (unfold is_duplicated, st; cbn [count]; now rewrite N.eqb_refl).
    assert (Dk : is_duplicated st k = true) by (unfold is_duplicated, st; cbn [count]; now rewrite Ek, N.eqb_refl).
    assert (Di : is_duplicated st (gid "Int" []) = false).
    { unfold is_duplicated, st; cbn [count]. destruct (gid "Int" [] =? q)%N; [reflexivity|].
      destruct (N.eqb_spec (gid "Int" []) k) as [H|]; [now apply apart_leaf in H|reflexivity]. }
    unfold rewrite_set, share. cbn [op_sels pair_of query]. fold q. rewrite Dq.
    change (rewrite_all pair_graph gid st "Query" [under "left" a; under "right" b] (mkmade [] 0)) with
      (then_ (then_ (rewrite_set pair_graph gid st "T" a (mkmade [] 0))
                (fun r => Done (SField "left" None None None None false (fst r), snd r)))
         (fun r => then_ (then_ (then_ (rewrite_set pair_graph gid st "T" b (snd r))
                (fun r => Done (SField "right" None None None None false (fst r), snd r)))
            (fun r => Done ([fst r], snd r))) (fun p => Done (fst r :: fst p, snd p)))).
    unfold rewrite_set at 1. unfold share. fold k. rewrite Dk. unfold get_or_create. cbn [lookup table next put].
    rewrite (rewrite_leaves st a) by (auto). cbn [then_ fst snd table next put]. rewrite N.eqb_refl.
    unfold rewrite_set, share. rewrite <- same. fold k. rewrite Dk. unfold get_or_create. cbn [lookup table].
    rewrite N.eqb_refl. reflexivity.
  Qed.
  Lemma confused_means : forall e, expands (definitions pair_graph) (defines sent_together) "Query" (op_sels (doc_op sent_together)) e ->
    e = [under "left" a; under "right" a].
  Proof.
    intros e He. apply expands_pair in He as (a' & b' & -> & Ha & Hb).
    assert (Hone : forall c, expands (definitions pair_graph) (defines sent_together) "T" [SSpread "a"] c -> c = a).
    { intros c Hc. inversion Hc as [| | | | |? ? body body' ? l' Hd Hbody Hl]; subst. inversion Hl; subst.
      destruct Hd as [Hd|[]]. injection Hd as <-. rewrite app_nil_r.
      eapply expands_leaves; [|exact Hbody]. eapply Forall_impl; [|exact (leaves a (or_introl eq_refl))].
      intros x (n & args & -> & [-> | ->]); eexists _, _; (split; [reflexivity|]); split; try reflexivity; discriminate. }
    now rewrite (Hone _ Ha), (Hone _ Hb).
  Qed.
  Lemma leaves_expand : forall d l, l = a \/ l = b -> expands (definitions pair_graph) d "T" l l.
  Proof.
    intros d l Hl. apply (expands_selves pair_graph). eapply Forall_impl; [|exact (leaves l Hl)].
    intros x (n & args & -> & H). now apply leaf_fits.
  Qed.
  Lemma confused_expands : expands (definitions pair_graph) (defines sent_together) "Query" (op_sels (doc_op sent_together))
    [under "left" a; under "right" a].
  Proof.
    assert (H : expands (definitions pair_graph) (defines sent_together) "T" [SSpread "a"] a).
    { rewrite <- (app_nil_r a). eapply expands_spread; [left; reflexivity|apply leaves_expand; now left|constructor]. }
    cbn [doc_op op_sels query sent_together].
    eapply expands_field; [now apply not_meta_of|discriminate|exact declared_left|exact H|].
    eapply expands_field; [now apply not_meta_of|discriminate|exact declared_right|exact H|constructor].
  Qed.
End Confused.

(** The items of shuffled sets correspond. *)
Inductive like : sel -> sel -> Prop :=
| like_field n a args i s o sub sub' : shuffled sub sub' -> like (SField n a args i s o sub) (SField n a args i s o sub')
| like_frag t i s sub sub' : shuffled sub sub' -> like (SFrag t i s sub) (SFrag t i s sub')
| like_spread n : like (SSpread n) (SSpread n).
Lemma like_refl : forall x, like x x.
Proof. destruct x; constructor; apply shuffled_refl. Qed.
Lemma like_trans : forall x y z, like x y -> like y z -> like x z.
Proof. intros x y z H1 H2. destruct H1; inversion H2; subst; constructor; eapply shuffled_trans; eassumption. Qed.
Lemma shuffled_in : forall l l', shuffled l l' -> forall y, In y l' -> exists x, In x l /\ like x y.
Proof.
  induction 1 as [|n a args i s o sub sub' l l' H1 IH1 H2 IH2|t i s sub sub' l l' H1 IH1 H2 IH2|n l l' H IH|x y l|l1 l2 l3 H1 IH1 H2 IH2];
    intros z Hz.
  - contradiction.
  - destruct Hz as [<-|Hz]; [eexists; split; [now left|now constructor]|].
    destruct (IH2 z Hz) as (x & Hx & Hl). exists x. split; [now right|exact Hl].
  - destruct Hz as [<-|Hz]; [eexists; split; [now left|now constructor]|].
    destruct (IH2 z Hz) as (x & Hx & Hl). exists x. split; [now right|exact Hl].
  - destruct Hz as [<-|Hz]; [eexists; split; [now left|now constructor]|].
    destruct (IH z Hz) as (x & Hx & Hl). exists x. split; [now right|exact Hl].
  - exists z. split; [|apply like_refl]. destruct Hz as [<-|[<-|Hz]]; cbn [In]; auto.
  - destruct (IH2 z Hz) as (y & Hy & Hyz). destruct (IH1 y Hy) as (x & Hx & Hxy). exists x. split; [exact Hx|eapply like_trans; eassumption].
Qed.

(** * Arguments that are hashed alike *)
Lemma same_id : forall H D ty n args args',
  args_hash H args = args_hash H args' -> selection_id H D ty [leaf n (Some args)] = selection_id H D ty [leaf n (Some args')].
Proof. intros H D ty n args args' E. unfold selection_id, set_hash, leaf. cbn [map fold_left item_tokens]. now rewrite E. Qed.
Definition injective {A B} (f : A -> B) : Prop := forall x y, f x = f y -> x = y.
Definition asked (v w : gvalue) : operation := pair_of [leaf "f" (Some [("x", v)])] [leaf "f" (Some [("x", w)])].
Lemma asked_sendable : forall v w, sendable pair_graph (asked v w) "Query".
Proof. intros. apply pair_sendable; (constructor; [|constructor]); apply leaf_fits; now left. Qed.
Lemma arguments_confused : forall H D v w, injective D -> value_tokens v = value_tokens w -> v <> w ->
  exists d e, minify_operation pair_graph H D (asked v w) = Done d /\
    expands (definitions pair_graph) (defines d) "Query" (op_sels (doc_op d)) e /\
    (forall e', expands (definitions pair_graph) (defines d) "Query" (op_sels (doc_op d)) e' -> e' = e) /\
    In (under "right" [leaf "f" (Some [("x", v)])]) e /\ ~ shuffled e (op_sels (asked v w)).
Proof.
  intros H D v w HD Hvw Hne. set (a := [leaf "f" (Some [("x", v)])]). set (b := [leaf "f" (Some [("x", w)])]).
  assert (Hleaves : forall l, l = a \/ l = b -> Forall (fun x => exists n args, x = leaf n args /\ (n = "f" \/ n = "g")) l).
  { intros l [-> | ->]; (constructor; [|constructor]); eexists _, _; (split; [reflexivity|now left]). }
  assert (Hsame : selection_id H D "T" a = selection_id H D "T" b).
  { apply same_id. unfold args_hash. cbn [fold_left fst snd]. now rewrite Hvw. }
  assert (H1 : selection_id H D "Query" [under "left" a; under "right" b] <> selection_id H D "T" a).
  { unfold selection_id. intros E. apply HD in E. discriminate. }
  assert (H2 : selection_id H D "Int" [] <> selection_id H D "T" a).
  { unfold selection_id. intros E. apply HD in E. discriminate. }
  exists (sent_together a), [under "left" a; under "right" a]. split; [|split; [|split; [|split]]].
  - apply (confused_sent _ a b); auto; discriminate.
  - exact (confused_expands a b Hleaves).
  - exact (confused_means a b Hleaves).
  - right; now left.
  -
    intros Hs. destruct (shuffled_in _ _ Hs (under "right" b)) as (x & Hx & Hl); [right; now left|].
    assert (Hab : shuffled a b).
    { destruct Hx as [<-|[<-|[]]]; inversion Hl; subst. assumption. }
    destruct (shuffled_in _ _ Hab (leaf "f" (Some [("x", w)]))) as (y & Hy & Hyl); [now left|].
    destruct Hy as [<-|[]]. inversion Hyl. congruence.
Qed.

(** * Selections that cancel out *)
Lemma cancelled_id : forall H D ty n m x, selection_id H D ty [leaf n None; leaf n None; x] = selection_id H D ty [leaf m None; leaf m None; x].
Proof.
  intros. unfold selection_id, set_hash. cbn [map fold_left]. do 4 f_equal.
  rewrite !N.lxor_0_l, !N.lxor_nilpotent. reflexivity.
Qed.
Definition cancelling : operation :=
  pair_of [leaf "f" None; leaf "f" None; leaf "f" (Some [])] [leaf "g" None; leaf "g" None; leaf "f" (Some [])].
Lemma selections_cancel : sendable pair_graph cancelling "Query" /\ forall H D, injective D ->
  exists d e, minify_operation pair_graph H D cancelling = Done d /\
    expands (definitions pair_graph) (defines d) "Query" (op_sels (doc_op d)) e /\
    (forall e', expands (definitions pair_graph) (defines d) "Query" (op_sels (doc_op d)) e' -> e' = e) /\
    ~ shuffled e (op_sels cancelling).
Proof.
  split.
  { apply pair_sendable; repeat (constructor; [apply leaf_fits; auto|]); constructor. }
  intros H D HD. set (a := [leaf "f" None; leaf "f" None; leaf "f" (Some [])]). set (b := [leaf "g" None; leaf "g" None; leaf "f" (Some [])]).
  assert (Hleaves : forall l, l = a \/ l = b -> Forall (fun x => exists n args, x = leaf n args /\ (n = "f" \/ n = "g")) l).
  { intros l [-> | ->]; repeat (constructor; [eexists _, _; split; [reflexivity|auto]|]); constructor. }
  exists (sent_together a), [under "left" a; under "right" a]. split; [|split; [|split]].
  - apply (confused_sent _ a b); auto; try discriminate.
    + apply cancelled_id.
    + unfold selection_id. intros E. apply HD in E. discriminate.
    + unfold selection_id. intros E. apply HD in E. discriminate.
  - exact (confused_expands a b Hleaves).
  - exact (confused_means a b Hleaves).
  - intros Hs. destruct (shuffled_in _ _ Hs (under "right" b)) as (x & Hx & Hl); [right; now left|].
    assert (Hab : shuffled a b).
    { destruct Hx as [<-|[<-|[]]]; inversion Hl; subst. assumption. }
    destruct (shuffled_in _ _ Hab (leaf "g" None)) as (y & Hy & Hyl); [now left|].
    destruct Hy as [<-|[<-|[<-|[]]]]; inversion Hyl.
Qed.

(** * A fragment called "on" *)
(** The selection sets number [k], each asked for twice *)
Definition numbered (k : N) : list sel := [SField "f" (Some (fragment_name k)) None None None false []].
Definition twice (k : N) : list sel :=
  [SField "left" (Some ("p" ++ fragment_name k)) None None None false (numbered k);
   SField "left" (Some ("q" ++ fragment_name k)) None None None false (numbered k)].
Fixpoint numbers (n : nat) (k : N) : list N := match n with O => [] | S n' => k :: numbers n' (k + 1)%N end.
Definition crowded : operation := query (flat_map twice (numbers 691 0)).
(** identifiers that tell these apart *)
Definition own_id (ty : string) (l : list sel) : N :=
  match l with
  | [] => 0
  | [SField _ (Some a) _ _ _ _ []] => 2 + index_of a
  | _ => 1
  end%N.
Definition unreadable (f64_of : string -> option N) (show : N -> string) (r : outcome document) : bool :=
  match r with
  | Done d => (existsb (fun f => String.eqb (fr_name f) "on") (doc_frags d) &&
               match parse_query f64_of 50 None (document_text show d) with PErr => true | _ => false end)%bool
  | Failed _ => false
  end.
Lemma crowded_check : forall f64_of show, unreadable f64_of show (minify pair_graph own_id crowded) = true.
Proof. intros. vm_compute. reflexivity. Qed.
Lemma unreadable_doc : forall f64_of show r, unreadable f64_of show r = true ->
  exists d, r = Done d /\ In "on" (map fr_name (doc_frags d)) /\ parse_query f64_of 50 None (document_text show d) = PErr.
Proof.
  intros f64_of show [d|e] H; [|discriminate]. cbn [unreadable] in H. apply andb_prop in H as [H1 H2].
  exists d. split; [reflexivity|]. split.
  - apply existsb_exists in H1 as (f & Hin & E). apply String.eqb_eq in E. rewrite <- E. now apply in_map.
  - destruct (parse_query f64_of 50 None (document_text show d)); try discriminate; reflexivity.
Qed.
Lemma crowded_on : forall f64_of show, exists d, minify pair_graph own_id crowded = Done d /\
  In "on" (map fr_name (doc_frags d)) /\ parse_query f64_of 50 None (document_text show d) = PErr.
Proof. intros. exact (unreadable_doc f64_of show _ (crowded_check f64_of show)). Qed.
Lemma twice_in : forall ks x, In x (flat_map twice ks) -> exists k a, x = SField "left" (Some a) None None None false (numbered k).
Proof.
  intros ks x H. apply in_flat_map in H as (k & _ & [<-|[<-|[]]]); eauto.
Qed.
Lemma crowd_sendable : forall ks, sendable pair_graph (query (flat_map twice ks)) "Query".
Proof.
  intros ks. split; [constructor|]. split; [right; eexists; reflexivity|]. apply Forall_forall. cbn [query op_sels].
  intros x Hx. destruct (twice_in _ _ Hx) as (k & a & ->).
  eapply fits_field; [now apply not_meta_of|discriminate|exact declared_left|right; eexists; reflexivity|].
  constructor; [|constructor]. eapply fits_field with (t' := "Int"); [now apply not_meta_of|discriminate| |now left|constructor].
  eexists _, _; split; [reflexivity|]; split; [reflexivity|]; constructor.
Qed.
Lemma crowd_occurs : forall ks t l, occurs (definitions pair_graph) "Query" (flat_map twice ks) t l ->
  (t = "Query" /\ l = flat_map twice ks) \/ (t = "T" /\ exists k, l = numbered k) \/ (t = "Int" /\ l = []).
Proof.
  intros ks t l H. inversion H as [|? ? x t' l' ? ? Hin Hop Hocc]; subst; [now left|]. right.
  destruct (twice_in _ _ Hin) as (k & a & ->). inversion Hop as [? ? ? ? ? ? ? ? _ _ Hd| |]; subst.
  rewrite (declared_one _ _ _ _ _ Hd declared_left) in *.
  inversion Hocc as [|? ? y t2 l2 ? ? Hin2 Hop2 Hocc2]; subst; [left; eauto|]. right.
  destruct Hin2 as [<-|[]]. inversion Hop2 as [? ? ? ? ? ? ? ? _ _ Hd2| |]; subst.
  assert (E : t2 = "Int").
  { eapply declared_one; [exact Hd2|]. eexists _, _; split; [reflexivity|]; split; [reflexivity|]; constructor. }
  subst t2. inversion Hocc2 as [|? ? z t3 l3 ? ? Hin3 Hop3 Hocc3]; subst; [now split|destruct Hin3].
Qed.
Lemma numbered_id : forall t k, own_id t (numbered k) = (2 + k)%N.
Proof. intros t k. unfold own_id, numbered. now rewrite name_index. Qed.
Lemma crowd_id : forall t k ks, own_id t (flat_map twice (k :: ks)) = 1%N.
Proof. reflexivity. Qed.
Lemma crowd_tells : forall k ks, tells pair_graph own_id eq "Query" (flat_map twice (k :: ks)).
Proof.
  intros k ks t l t' l' H H' E. apply crowd_occurs in H, H'.
  destruct H as [[-> ->]|[(-> & j & ->)|[-> ->]]]; destruct H' as [[-> ->]|[(-> & j' & ->)|[-> ->]]];
    rewrite ?numbered_id, ?crowd_id in E; try (split; reflexivity); try lia.
  - cbn [own_id] in E. lia.
  - assert (j = j') by lia. subst j'. split; reflexivity.
  - cbn [own_id] in E. lia.
  - cbn [own_id] in E. lia.
  - cbn [own_id] in E. lia.
Qed.
Lemma crowded_fine : sendable pair_graph crowded "Query" /\ tells pair_graph own_id eq "Query" (op_sels crowded).
Proof.
  split; [apply crowd_sendable|].
  exact (crowd_tells 0 (numbers 690 1)).
Qed.
