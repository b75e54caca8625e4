(** Proofs about introspection: whole queries. *)
From Coq Require Import String List Bool Permutation.
From Verif Require Import Ast JsonModel CoerceModel ConsumerModel ConsumerSpec ConsumerParts IntroModel IntroSpec IntroProofs IntroFields IntroTypes.
Import ListNotations.
Local Open Scope string_scope.
Local Open Scope list_scope.

Lemma insert_perm e l : Permutation (e :: l) (insert_entry e l).
Proof.
  induction l as [|e' l IH]; cbn [insert_entry]; [apply Permutation_refl|]. destruct (String.ltb (fst e) (fst e')); [apply Permutation_refl|].
  eapply perm_trans; [apply perm_swap|]. now apply perm_skip.
Qed.
Lemma sort_entries_perm l : Permutation l (sort_entries l).
Proof.
  unfold sort_entries. assert (G : forall l acc, Permutation (l ++ acc) (fold_left (fun acc e => insert_entry e acc) l acc)).
  { clear. induction l as [|e l IH]; intros acc; cbn [fold_left app]; [apply Permutation_refl|].
    eapply perm_trans; [|apply IH]. eapply perm_trans; [apply Permutation_middle|]. apply Permutation_app_head. apply insert_perm. }
  specialize (G l []). now rewrite app_nil_r in G.
Qed.
Lemma all_some_all {A B} (f : A -> option B) (P : A -> B -> Prop) l : Forall (fun a => exists b, f a = Some b /\ P a b) l ->
  exists bs, all_some (map f l) = Some bs /\ Forall2 P l bs.
Proof.
  induction 1 as [|a l [b [E Hp]] Hl [bs [E' H2]]]; cbn [map all_some].
  - exists []. split; [reflexivity|constructor].
  - rewrite E, E'. exists (b :: bs). split; [reflexivity|now constructor].
Qed.
Lemma nodup_app_l {A} (l l' : list A) : NoDup (l ++ l') -> NoDup l /\ NoDup l' /\ (forall a, In a l -> ~ In a l').
Proof.
  induction l as [|a l IH]; cbn [app]; intros H.
  - split; [constructor|]. split; [exact H|intros a []].
  - inversion H as [|a' x Hi Hn E]; subst. destruct (IH Hn) as [H1 [H2 H3]]. rewrite in_app_iff in Hi. split; [constructor; tauto|]. split; [exact H2|].
    intros b [<-|Hb]; [tauto|now apply H3].
Qed.

(** * Response keys *)
Section Keys.
  Variable vars : list (string * value).
  Variable root : string.
  Lemma picks_key ty l k n a sub : picks ty l k n a sub -> In k (flat_map keys l).
  Proof.
    induction 1 as [l n alias a i s o sub Hi|l i s sub k n a sub' Hi Hp IH]; apply in_flat_map.
    - eexists. split; [exact Hi|]. now left.
    - eexists. split; [exact Hi|]. exact IH.
  Qed.
  Lemma no_subs ty k x : ~ In k (keys x) -> subs_of ty k x = [].
  Proof.
    induction x as [n al args inc skip om sub IH|t inc skip sub IH|n] using sel_ind'; cbn [keys subs_of]; [| |reflexivity].
    - intros H. destruct (String.eqb_spec (key_of n al) k) as [<-|]; [|reflexivity]. destruct H. now left.
    - intros H. destruct (String.eqb t ty); [|reflexivity]. induction IH as [|y l Hy Hl IHl]; [reflexivity|]. cbn [flat_map] in *. rewrite in_app_iff in H.
      rewrite Hy, IHl; tauto.
  Qed.
  Lemma none_below ty k l : ~ In k (flat_map keys l) -> flat_map (subs_of ty k) l = [].
  Proof.
    induction l as [|x l IH]; [reflexivity|]. cbn [flat_map]. rewrite in_app_iff. intros H. rewrite no_subs, IH; tauto.
  Qed.
  Lemma picks_sub ty l k n a sub : picks ty l k n a sub -> NoDup (flat_map keys l) -> flat_map (subs_of ty k) l = sub.
  Proof.
    induction 1 as [l n alias a i s o sub Hi|l i s sub k n a sub' Hi Hp IH]; intros Hn; apply in_split in Hi; destruct Hi as [l1 [l2 ->]];
      rewrite flat_map_app in *; cbn [flat_map] in *; apply nodup_app_l in Hn; destruct Hn as [_ [Hn H1]]; apply nodup_app_l in Hn; destruct Hn as [Hs [_ H2]].
    - rewrite (none_below ty _ l1), (none_below ty _ l2).
      + cbn [subs_of app]. rewrite String.eqb_refl. apply app_nil_r.
      + apply H2. now left.
      + intros Hi. apply (H1 _ Hi). now left.
    - pose proof (picks_key _ _ _ _ _ _ Hp) as Hk. rewrite (none_below ty _ l1), (none_below ty _ l2).
      + cbn [subs_of app]. rewrite String.eqb_refl, app_nil_r. now apply IH.
      + now apply H2.
      + intros Hi. apply (H1 _ Hi). apply in_app_iff. now left.
  Qed.
  Lemma picks_more ty l l' k n a sub : (forall x, In x l -> In x l') -> picks ty l k n a sub -> picks ty l' k n a sub.
  Proof.
    intros H Hp. destruct Hp as [l n alias a i s o sub Hi|l i s sub k n a sub' Hi Hp].
    - eapply picks_field. apply H. exact Hi.
    - eapply picks_fragment; [apply H; exact Hi|exact Hp].
  Qed.
End Keys.

Section Whole.
  Variable schema : list definition.
  Variable vars : list (string * value).
  Variable shuffle_names : list string -> list string.
  Variable shuffle_types : list typedef -> list typedef.
  Variable show : gvalue -> string.
  Variable root : string.
  Hypothesis Hshuffle_names : forall l, Permutation l (shuffle_names l).
  Hypothesis Hshuffle_types : forall l, Permutation l (shuffle_types l).
  Hypothesis Hsound : sound schema.
  Hypothesis Hvars : NoDup (map fst vars).
  Hypothesis Hroot : String.prefix "__" root = false.
  Notation item := (resolve_item schema vars shuffle_names shuffle_types show).
  Notation items := (resolve_items schema vars shuffle_names shuffle_types show).
  Notation subject_value := (resolve_subject schema vars shuffle_names shuffle_types show).

  Definition the_items := (fix items (l : list sel) (s : subject) : option (list (string * value)) :=
                    match l with
                    | [] => Some []
                    | y :: l' => match item y s, items l' s with
                                 | Some a, Some b => Some (a ++ b)%list
                                 | _, _ => None
                                 end
                    end).
  Lemma the_items_is l s : the_items l s = items l s.
  Proof.
    unfold resolve_items. induction l as [|x l IH]; cbn [the_items map all_some]; [reflexivity|]. rewrite IH.
    destruct (item x s) as [a|]; [|reflexivity]. destruct (all_some _) as [b|]; reflexivity.
  Qed.
  Lemma item_field n al args inc skip om sub s :
    item (SField n al args inc skip om sub) s =
    option_map (fun v => [(response_key n al, v)])
      (value_of schema vars shuffle_names shuffle_types show (fun s' => option_map (fun l => VObj (sort_entries l)) (the_items sub s')) s n args).
  Proof. reflexivity. Qed.
  Lemma item_frag t inc skip sub s : s <> OnSchema -> item (SFrag t inc skip sub) s = the_items sub s.
  Proof. destruct s; try reflexivity. congruence. Qed.

  Definition entry_ok (th : thing) (l : list sel) (e : string * value) : Prop :=
    exists n a sub ans, picks (metatype th) l (fst e) n a sub /\ meta schema vars show th n a ans /\ fits schema vars show ans sub (snd e).
  Definition item_ok (x : sel) : Prop :=
    forall s th, rel schema s th -> (forall r, th = TheRoot r -> r = root) -> simple vars root (metatype th) x -> (forall f, asks f x -> limits schema f) ->
      exists es, item x s = Some es /\ map fst es = keys x /\ Forall (entry_ok th [x]) es.

  Lemma items_ok l s th : Forall item_ok l -> rel schema s th -> (forall r, th = TheRoot r -> r = root) -> Forall (simple vars root (metatype th)) l ->
    (forall f x, In x l -> asks f x -> limits schema f) ->
    exists es, items l s = Some es /\ map fst es = flat_map keys l /\ Forall (entry_ok th l) es.
  Proof.
    intros Hl Hr Hx Hs Ha.
    assert (Hall : Forall (fun x => exists es, item x s = Some es /\ (In x l /\ map fst es = keys x /\ Forall (entry_ok th [x]) es)) l).
    { rewrite Forall_forall in *. intros x Hi. destruct (Hl x Hi s th Hr Hx (Hs x Hi) (fun f => Ha f x Hi)) as [es [E [H1 H2]]]. exists es. tauto. }
    destruct (all_some_all _ _ _ Hall) as [ess [E H2]]. unfold resolve_items. rewrite E. exists (List.concat ess). split; [reflexivity|].
    assert (G : forall l0 ess, Forall2 (fun x es => In x l /\ map fst es = keys x /\ Forall (entry_ok th [x]) es) l0 ess ->
                 map fst (List.concat ess) = flat_map keys l0 /\ Forall (entry_ok th l) (List.concat ess)).
    { clear. intros l0 ess H. induction H as [|x es l0 ess [Hi [Hk He]] H [IH1 IH2]]; cbn [List.concat flat_map]; [split; constructor|].
      rewrite map_app, Hk, IH1. split; [reflexivity|]. apply Forall_app. split; [|exact IH2]. eapply Forall_impl; [|exact He].
      intros e [n [a [sub [ans [Hp Hm]]]]]. exists n, a, sub, ans. split; [|exact Hm]. eapply picks_more; [|exact Hp]. intros y [<-|[]]. exact Hi. }
    now apply G.
  Qed.
  Lemma object_ok l s th : Forall item_ok l -> rel schema s th -> (forall r, th = TheRoot r -> r = root) -> Forall (simple vars root (metatype th)) l ->
    (forall f x, In x l -> asks f x -> limits schema f) -> NoDup (flat_map keys l) ->
    exists v, subject_value l s = Some v /\ gives schema vars show th l v.
  Proof.
    intros Hl Hr Hx Hs Ha Hn. destruct (items_ok l s th Hl Hr Hx Hs Ha) as [es [E [Hk He]]]. unfold resolve_subject. rewrite E.
    eexists. split; [reflexivity|]. pose proof (sort_entries_perm es) as Hp. pose proof (Permutation_map fst Hp) as Hpk. rewrite Hk in Hpk.
    assert (Hkey : forall k, In k (map fst (sort_entries es)) <-> In k (flat_map keys l)).
    { intros k. split; apply Permutation_in; [now apply Permutation_sym|exact Hpk]. }
    rewrite Forall_forall in He. apply gives_object.
    - eapply Permutation_NoDup; eassumption.
    - intros k. rewrite Hkey. split.
      + rewrite <- Hk. rewrite in_map_iff. intros [e [<- Hi]]. destruct (He e Hi) as [n [a [sub [ans [H _]]]]]. now exists n, a, sub.
      + intros [n [a [sub H]]]. eapply picks_key. exact H.
    - intros k v Hi. assert (Hi' : In (k, v) es) by (eapply Permutation_in; [apply Permutation_sym; exact Hp|exact Hi]).
      destruct (He _ Hi') as [n [a [sub [ans [H1 [H2 H3]]]]]]. cbn [fst snd] in *. exists n, a, ans. split; [now exists sub|]. split; [exact H2|].
      now rewrite (picks_sub _ _ _ _ _ _ H1 Hn).
  Qed.
  Lemma declared_reserved t n c : declares root t n (Some c) -> String.prefix "__" c = true.
  Proof.
    intros H. inversion H as [t' f c' Hin| | |]; subst; [|reflexivity|reflexivity]. cbn [meta_fields In] in Hin.
    repeat (destruct Hin as [Hin|Hin]; [try discriminate Hin; injection Hin as _ _ <-; reflexivity|]). destruct Hin.
  Qed.
  Lemma item_good x : item_ok x.
  Proof.
    induction x as [n al args inc skip om sub IH|t inc skip sub IH|n] using sel_ind'; intros s th Hr Hx Hs Ha.
    - rewrite item_field. set (k := fun s' => option_map (fun l => VObj (sort_entries l)) (the_items sub s')).
      assert (Hlim : limits schema n) by (apply Ha; constructor).
      assert (Hd : done schema vars show sub th n args (value_of schema vars shuffle_names shuffle_types show k s n args)).
      { inversion Hs as [t n' al' a' i' s' o' Hdec Hga|t n' al' a' i' s' o' sub' c Hdec Hga Hn Hsub|]; subst.
        - eapply value_good; try eassumption. discriminate.
        - eapply value_good; try eassumption. intros c' [= <-] s' x' Hr' Hm. unfold k. rewrite the_items_is.
          change (exists v, subject_value sub s' = Some v /\ gives schema vars show x' sub v). apply object_ok; try assumption.
          + intros r ->. cbn [metatype] in Hm. subst r. pose proof (declared_reserved _ _ _ Hdec) as Hc. inversion Hr'; subst. congruence.
          + now rewrite Hm.
          + intros f x Hi Hf. apply Ha. eapply asks_below; eassumption. }
      destruct Hd as [v [ans [E [Hm Hf]]]]. rewrite E. eexists. split; [reflexivity|]. split; [reflexivity|]. constructor; [|constructor].
      exists n, (args_of args), sub, ans. cbn [fst snd]. split; [|now split]. change (response_key n al) with (key_of n al). eapply picks_field. now left.
    - inversion Hs as [| |t' i' s' sub' Hne Hsub]; subst. rewrite item_frag; [|intros ->; inversion Hr; subst; cbn [metatype] in Hne; congruence].
      rewrite the_items_is. destruct (items_ok sub s th IH Hr Hx Hsub) as [es [E [Hk He]]].
      { intros f x Hi Hf. apply Ha. eapply asks_fragment; eassumption. }
      exists es. split; [exact E|]. split; [exact Hk|]. eapply Forall_impl; [|exact He]. intros e [n [a [sub' [ans [Hp Hm]]]]]. exists n, a, sub', ans. split; [|exact Hm].
      eapply picks_fragment; [now left|exact Hp].
    - inversion Hs.
  Qed.
  Lemma introspection_good op : root_is schema (root_of op) (Some root) -> Forall (simple vars root root) (op_sels op) -> NoDup (flat_map keys (op_sels op)) ->
    (forall f x, In x (op_sels op) -> asks f x -> limits schema f) ->
    exists v, resolve_introspection schema vars shuffle_names shuffle_types show op = Some v /\ gives schema vars show (TheRoot root) (op_sels op) v.
  Proof.
    intros Hr Hs Hn Ha. unfold resolve_introspection.
    assert (E : match op_kind op with
           | None | Some KQuery => query_type_name schema
           | Some KMutation => mutation_type_name schema
           | Some KSubscription => subscription_type_name schema
           end = Some root).
    { apply (root_some schema Hsound) in Hr. unfold root_of in Hr. destruct (op_kind op) as [[]|]; exact Hr. }
    rewrite E. apply object_ok; try assumption.
    - apply Forall_forall. intros x _. apply item_good.
    - now apply rel_root.
    - intros r [= <-]. reflexivity.
  Qed.
End Whole.
