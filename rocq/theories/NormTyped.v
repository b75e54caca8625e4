From Coq Require Import String List Bool Arith Lia Permutation.
From Verif Require Import StrOrd StrUtil Ast CoerceModel CoerceProofs QplanModel QplanGroup CondModel NormModel NormSpec NormProofs NormMeaning.
Import ListNotations.
Local Open Scope list_scope.

Lemma args_eqb_ok a b : args_eqb a b = true -> a = b.
Proof.
  revert b; induction a as [|[k v] a IH]; intros [|[k' v'] b]; cbn; try discriminate; auto.
  intros H. apply andb_true_iff in H as [H1 H2]. apply andb_true_iff in H1 as [H0 H1].
  apply String.eqb_eq in H0. apply gvalue_eqb_ok in H1. apply IH in H2. congruence.
Qed.
Lemma directive_eqb_ok a b : directive_eqb a b = true -> a = b.
Proof.
  unfold directive_eqb. intros H. apply andb_true_iff in H as [H1 H2]. apply String.eqb_eq in H1.
  apply (args_eqb_ok (d_args a) (d_args b)) in H2. destruct a, b; cbn in *; congruence.
Qed.
Lemma directives_eqb_ok a b : directives_eqb a b = true -> a = b.
Proof.
  unfold directives_eqb. revert b; induction a as [|d a IH]; intros [|d' b]; cbn; try discriminate; auto.
  intros H. apply andb_true_iff in H as [H1 H2]. apply directive_eqb_ok in H1. apply IH in H2. congruence.
Qed.
Lemma tc_eqb_ok a b : tc_eqb a b = true -> a = b.
Proof. destruct a, b; cbn; try discriminate; auto. intros H; apply String.eqb_eq in H; congruence. Qed.

Lemma kget_in {A} k (v : A) l : kget k l = Some v -> In (k, v) l.
Proof.
  induction l as [|[k' v'] l IH]; cbn; [discriminate|].
  destruct (String.eqb_spec k k') as [->|]; [intros H; injection H as ->; auto|auto].
Qed.
Lemma in_kget {A} k (v : A) l : NoDup (map fst l) -> In (k, v) l -> kget k l = Some v.
Proof.
  induction l as [|[k' v'] l IH]; cbn; [tauto|]. intros Hn [H|H].
  - injection H as -> ->. rewrite String.eqb_refl. reflexivity.
  - inversion Hn; subst. destruct (String.eqb_spec k k') as [->|]; auto.
    exfalso. apply H2. change k' with (fst (k', v)). apply in_map; exact H.
Qed.

Section Typed.
Context (sc : schema) (on : directive -> bool) (OK : schema_ok sc).
Notation picks := (picks sc on []).
Notation selects := (selects sc on []).
Notation applies := (applies sc).
Notation typed := (typed sc).
Notation runtime := (runtime sc).

Lemma spread_none n dirs p : ~ picks (NSpread n dirs) p.
Proof. rewrite picks_spread_iff. intros (f & Hf & _). discriminate. Qed.

(** * Types *)
Lemma is_a_object t c fs is : kget c sc = Some (DObject fs is) -> is_a sc t c -> t = c.
Proof. intros Hc [H|[(ms & H & _)|(? & ? & ? & _ & _ & H)]]; congruence. Qed.
Lemma typed_runtime t p : typed t p -> exists st q, p = st :: q /\ runtime t (st_type st).
Proof. intros H; inversion H; subst; eauto. Qed.
Lemma typed_weaken t u p : typed u p -> (forall x, runtime u x -> runtime t x) -> typed t p.
Proof.
  intros H Hx; inversion H; subst; [apply typed_end|apply typed_meta|eapply typed_field]; eauto.
Qed.
Lemma typed_cond t c p : typed t p -> applies (Some c) p -> typed c p.
Proof.
  intros H Ha. assert (forall st q, p = st :: q -> runtime c (st_type st)) as Hr.
  { intros st q ->. apply typed_runtime in H as (st' & q' & E & Hobj & _). injection E as <- <-.
    split; [exact Hobj|exact Ha]. }
  inversion H; subst; [apply typed_end|apply typed_meta|eapply typed_field]; eauto.
Qed.
Lemma typed_applies_self t p : typed t p -> applies (Some t) p.
Proof. intros H; apply typed_runtime in H as (st & q & -> & _ & Ha). exact Ha. Qed.
Lemma field_cov pname d f t obj u x :
  kget pname sc = Some d -> kget f (fields_of d) = Some t -> runtime pname obj -> field_in sc obj f u ->
  runtime u x -> runtime t x.
Proof.
  intros Hp Hf Hr Hu. destruct d as [fs is|gs|ms|]; cbn in Hf; try discriminate.
  - destruct Hr as [_ Ha]. apply (is_a_object _ _ _ _ Hp) in Ha; subst obj.
    destruct Hu as (d & Hd & Hu). rewrite Hp in Hd; injection Hd as <-. cbn in Hu. rewrite Hf in Hu; injection Hu as ->. auto.
  - intros Hx. eapply (ok_fields _ OK); eauto.
Qed.
Lemma typed_sub pname d f t st q :
  kget pname sc = Some d -> kget f (fields_of d) = Some t -> typed pname (st :: q) -> st_name st = f ->
  introspective f = false -> q <> [] -> typed t q.
Proof.
  intros Hp Hf H Hn Hi Hq. inversion H as [| |? ? ? u Hr Hu Ht]; subst.
  - congruence.
  - congruence.
  - eapply typed_weaken; [exact Ht|]. intros x. eapply field_cov; eauto.
Qed.
Lemma get_type_ok t d : get_type sc t = Ok d -> kget t sc = Some d.
Proof. unfold get_type. destruct (kget t sc); congruence. Qed.
Lemma field_type_ok pname p n t : field_type pname p n = Ok t -> kget n (fields_of p) = Some t.
Proof. unfold field_type. destruct (kget n (fields_of p)); congruence. Qed.

Lemma possible_spec c ts obj : possible_types sc c = Some ts ->
  (In obj ts <-> runtime c obj).
Proof.
  unfold possible_types. destruct (kget c sc) as [[fs is|gs|ms|]|] eqn:Ec; try discriminate; intros H; injection H as <-.
  - rewrite in_map_iff. split.
    + intros ([k d] & <- & Hk). apply filter_In in Hk as [Hk Hd]. cbn in *. destruct d as [fs is| | |]; try discriminate.
      apply in_kget in Hk; [|apply OK]. split; [eauto|]. right; right. exists fs, is, gs.
      apply existsb_exists in Hd as (x & Hx & E). apply String.eqb_eq in E; subst x. auto.
    + intros [(fs & is & Ho) Ha]. exists (obj, DObject fs is). split; [reflexivity|].
      apply filter_In; split; [apply kget_in; exact Ho|]. cbn.
      destruct Ha as [->|[(ms & E & _)|(fs' & is' & gs' & E & Hin & _)]]; [congruence|congruence|].
      rewrite Ho in E; injection E as <- <-. apply existsb_exists. exists c; split; [exact Hin|apply String.eqb_refl].
  - rewrite nodup_In. split.
    + intros Hin. split; [eapply (ok_members _ OK); eauto|]. right; left. eauto.
    + intros [(fs & is & Ho) [->|[(ms' & E & Hin)|(fs' & is' & gs' & _ & _ & E)]]]; congruence.
Qed.
Lemma possible_some c d : kget c sc = Some d -> is_abstract d = true -> exists ts, possible_types sc c = Some ts.
Proof. intros Hc Hd. unfold possible_types. rewrite Hc. destruct d; try discriminate; eauto. Qed.
Lemma applies_to_object_ok tc obj st q : (exists fs is, kget obj sc = Some (DObject fs is)) -> st_type st = obj ->
  (applies_to_object sc tc obj = true <-> applies tc (st :: q)).
Proof.
  intros Ho E. destruct tc as [c|]; cbn; [|tauto]. rewrite E. rewrite orb_true_iff, String.eqb_eq. split.
  - intros [->|H]; [left; reflexivity|]. destruct (possible_types sc c) as [ts|] eqn:Ep; [|discriminate].
    apply existsb_exists in H as (x & Hx & Ex). apply String.eqb_eq in Ex; subst x.
    apply (possible_spec _ _ _ Ep) in Hx as [_ Ha]. exact Ha.
  - intros Ha. destruct (possible_types sc c) as [ts|] eqn:Ep.
    + right. apply existsb_exists. exists obj; split; [|apply String.eqb_refl].
      apply (possible_spec _ _ _ Ep). split; auto.
    + left. destruct Ha as [->|[(ms & Ec & _)|(? & ? & ? & _ & _ & Ec)]]; [reflexivity| |];
        unfold possible_types in Ep; rewrite Ec in Ep; discriminate.
Qed.

(** * Rewriting below a field or a fragment *)
Lemma typed_field_same pname d al n args dirs sub sub' t p :
  kget pname sc = Some d -> kget n (fields_of d) = Some t -> introspective n = false -> typed pname p ->
  (forall q, typed t q -> (selects sub q <-> selects sub' q)) ->
  picks (NField al n args dirs sub) p <-> picks (NField al n args dirs sub') p.
Proof.
  intros Hp Hf Hi Ht H. rewrite !picks_field_iff. split; intros (ty & args' & rest & -> & Hd & Ha & Hr);
    exists ty, args', rest; repeat split; auto;
    (destruct Hr as [Hr|Hr]; [left; exact Hr|right]);
    (apply H; [|exact Hr]); (eapply typed_sub; [exact Hp|exact Hf|exact Ht|reflexivity|exact Hi|]);
    destruct Hr as (s & _ & Hr); eapply picks_nonempty; exact Hr.
Qed.
Lemma typed_inline_same pname c dirs sub sub' p : typed pname p ->
  (typed c p -> (selects sub p <-> selects sub' p)) ->
  picks (NInline (Some c) dirs sub) p <-> picks (NInline (Some c) dirs sub') p.
Proof.
  intros Ht H. rewrite !picks_inline_iff. split; intros (Hd & Ha & Hs); repeat split; auto;
    apply H; auto; eapply typed_cond; eauto.
Qed.
Lemma each_typed (k : nsel -> res (list nsel)) l out pname :
  each k l = Ok out ->
  (forall s o, In s l -> k s = Ok o -> forall p, typed pname p -> (picks s p <-> selects o p)) ->
  forall p, typed pname p -> (selects l p <-> selects out p).
Proof. intros E H p Hp. eapply each_same with (Q := typed pname); eauto. Qed.

(** * Flattened fragments *)
Definition keeps (h : string -> tdef -> list nsel -> res (list nsel)) : Prop :=
  forall pname p l out, kget pname sc = Some p -> h pname p l = Ok out ->
  forall path, typed pname path -> (selects l path <-> selects out path).

Lemma merge_directives_ok outer own more : merge_directives outer own = Some more ->
  (all_on on (own ++ more) <-> all_on on own /\ all_on on outer).
Proof.
  revert more; induction outer as [|d outer IH]; cbn; intros more E.
  - injection E as <-. rewrite app_nil_r. unfold all_on; cbn; tauto.
  - destruct (find (fun x => String.eqb (d_name x) (d_name d)) own) as [x|] eqn:Ef.
    + destruct (directive_eqb x d) eqn:Ed; [|discriminate]. apply directive_eqb_ok in Ed; subst x.
      apply find_some in Ef as [Hin _]. rewrite (IH _ E).
      change (d :: outer) with ([d] ++ outer). rewrite all_on_app.
      assert (all_on on own -> all_on on [d]).
      { rewrite !all_on_in. intros H x [<-|[]]; auto. }
      tauto.
    + destruct (merge_directives outer own) as [r|] eqn:Em; [|discriminate]. injection E as <-.
      change (d :: r) with ([d] ++ r). change (d :: outer) with ([d] ++ outer).
      specialize (IH _ eq_refl). rewrite !all_on_app in *. tauto.
Qed.
Lemma each_sub_ok k l out : each_sub k l = Ok out ->
  exists outs, Forall2 (fun s o => k s = Ok o) l outs /\ out = concat outs.
Proof.
  revert out; induction l as [|s l IH]; cbn; intros out E.
  - injection E as <-; exists []; split; [constructor|reflexivity].
  - apply bind_ok in E as (a & Ea & E). apply bind_ok in E as (b & Eb & E). injection E as <-.
    destruct (IH _ Eb) as (outs & H & ->). exists (a :: outs); split; [constructor; auto|reflexivity].
Qed.
Lemma each_obj_ok k l out : each_obj k l = Ok out ->
  exists outs, Forall2 (fun s o => k s = Ok o) l outs /\ out = concat outs.
Proof.
  revert out; induction l as [|s l IH]; cbn; intros out E.
  - injection E as <-; exists []; split; [constructor|reflexivity].
  - apply bind_ok in E as (a & Ea & E). apply bind_ok in E as (b & Eb & E). injection E as <-.
    destruct (IH _ Eb) as (outs & H & ->). exists (a :: outs); split; [constructor; auto|reflexivity].
Qed.
Lemma unless_empty_one l s p : (l = [] -> ~ picks s p) -> (selects (unless_empty l s) p <-> picks s p).
Proof.
  destruct l; cbn [unless_empty empty]; [|rewrite selects_one; tauto].
  intros H; rewrite selects_nil. specialize (H eq_refl). tauto.
Qed.
Lemma selects_split obj items st q : (exists fs is, kget obj sc = Some (DObject fs is)) -> st_type st = obj ->
  (selects items (st :: q) <->
   selects (filter is_field items) (st :: q) \/
   exists dirs sub, In (dirs, sub) (frags_for sc obj items) /\ all_on on dirs /\ selects sub (st :: q)).
Proof.
  intros Ho Et. split.
  - intros (s & Hs & H). destruct s as [al n args dirs sub|n dirs|tc dirs sub].
    + left. exists (NField al n args dirs sub); split; [apply filter_In; auto|exact H].
    + exfalso; exact (spread_none _ _ _ H).
    + rewrite picks_inline_iff in H. destruct H as (Hd & Ha & Hs'). right. exists dirs, sub. repeat split; auto.
      apply in_flat_map. exists (NInline tc dirs sub); split; [exact Hs|].
      apply (applies_to_object_ok tc obj st q Ho Et) in Ha. rewrite Ha. left; reflexivity.
  - intros [(s & Hs & H)|(dirs & sub & Hin & Hd & Hs)].
    + apply filter_In in Hs as [Hs _]. exists s; auto.
    + apply in_flat_map in Hin as (s & Hs' & Hin). destruct s as [al n args dirs0 sub0|n dirs0|tc dirs0 sub0]; try destruct Hin.
      destruct (applies_to_object sc tc obj) eqn:Ea; [|destruct Hin]. destruct Hin as [E|[]]; injection E as -> ->.
      exists (NInline tc dirs sub); split; [exact Hs'|]. rewrite picks_inline_iff. repeat split; auto.
      apply (applies_to_object_ok tc obj st q Ho Et). exact Ea.
Qed.
Lemma applies_object obj st q fs is : kget obj sc = Some (DObject fs is) ->
  (applies (Some obj) (st :: q) <-> st_type st = obj).
Proof. intros Ho. cbn. split; [apply (is_a_object _ _ _ _ Ho)|left; auto]. Qed.

Lemma expand_for_ok h dirs items obj out pname st q :
  keeps h -> (exists fs is, kget obj sc = Some (DObject fs is)) -> expand_for sc h dirs items obj = Ok out ->
  typed pname (st :: q) ->
  (selects out (st :: q) <-> st_type st = obj /\ all_on on dirs /\ selects items (st :: q)).
Proof.
  intros Hh (fs & is & Ho) H Ht. unfold expand_for in H. apply bind_ok in H as (d & Hd & H). apply get_type_ok in Hd.
  assert (st_type st = obj -> typed obj (st :: q)) as Hto.
  { intros E. eapply typed_cond; [exact Ht|]. eapply applies_object; eauto. }
  pose proof (applies_object obj st q fs is Ho) as Hao.
  destruct (existsb (fun s => negb (empty (fst s))) (frags_for sc obj items)) eqn:Ex.
  - apply bind_ok in H as (l & Hl & H). apply bind_ok in H as (ls & Hls & H). injection H as <-.
    apply each_sub_ok in Hls as (outs & F & ->).
    rewrite selects_app, unless_empty_one;
      [|intros ->; rewrite picks_inline_iff, selects_nil; tauto].
    rewrite picks_inline_iff, Hao, selects_concat.
    split.
    + intros [(Hdd & E & Hs)|(o & Ho' & Hs)].
      * repeat split; auto. apply (selects_split obj items st q); [eauto|exact E|]. left.
        apply (Hh obj d _ _ Hd Hl); auto.
      * destruct (forall2_back _ _ _ _ F Ho') as ([own sub] & Hin & Hk).
        apply bind_ok in Hk as (sub' & Hsub & Hk). injection Hk as <-.
        assert (st_type st = obj /\ all_on on dirs /\ all_on on own /\ selects sub' (st :: q)) as (E & Hdd & Hown & Hs').
        { destruct (merge_directives dirs own) as [more|] eqn:Em.
          - rewrite unless_empty_one in Hs; [|intros ->; rewrite picks_inline_iff, selects_nil; tauto].
            rewrite picks_inline_iff, Hao, (merge_directives_ok _ _ _ Em) in Hs. tauto.
          - rewrite unless_empty_one in Hs; [|intros ->; rewrite picks_inline_iff, selects_one, picks_inline_iff, selects_nil; tauto].
            rewrite picks_inline_iff, selects_one, picks_inline_iff, Hao in Hs. tauto. }
        repeat split; auto. apply (selects_split obj items st q); [eauto|exact E|]. right. exists own, sub.
        repeat split; auto. apply (Hh obj d _ _ Hd Hsub); auto.
    + intros (E & Hdd & Hs). apply (selects_split obj items st q) in Hs; [|eauto|exact E].
      destruct Hs as [Hs|(own & sub & Hin & Hown & Hs)].
      * left. repeat split; auto. apply (Hh obj d _ _ Hd Hl); auto.
      * right. destruct (forall2_pick _ _ _ _ F Hin) as (o & Ho' & Hk). exists o; split; [exact Ho'|].
        apply bind_ok in Hk as (sub' & Hsub & Hk). injection Hk as <-.
        apply (Hh obj d _ _ Hd Hsub) in Hs; [|auto].
        destruct (merge_directives dirs own) as [more|] eqn:Em.
        -- rewrite unless_empty_one; [|intros ->; rewrite picks_inline_iff, selects_nil; tauto].
           rewrite picks_inline_iff, Hao, (merge_directives_ok _ _ _ Em). tauto.
        -- rewrite unless_empty_one; [|intros ->; rewrite picks_inline_iff, selects_one, picks_inline_iff, selects_nil; tauto].
           rewrite picks_inline_iff, selects_one, picks_inline_iff, Hao. tauto.
  - apply bind_ok in H as (l & Hl & H). injection H as <-.
    assert (forall x, In x (frags_for sc obj items) -> fst x = []) as He.
    { intros x Hx. destruct (fst x) eqn:E; [reflexivity|]. exfalso.
      assert (existsb (fun s => negb (empty (fst s))) (frags_for sc obj items) = true); [|congruence].
      apply existsb_exists. exists x; split; [exact Hx|]. rewrite E; reflexivity. }
    assert (flat_map fst (frags_for sc obj items) = []) as ->.
    { clear - He. induction (frags_for sc obj items) as [|x r IH]; [reflexivity|]. cbn [flat_map].
      rewrite (He x), IH; [reflexivity| |left; reflexivity]. intros y Hy; apply He; right; exact Hy. }
    rewrite app_nil_r, unless_empty_one; [|intros ->; rewrite picks_inline_iff, selects_nil; tauto].
    rewrite picks_inline_iff, Hao.
    assert (st_type st = obj -> (selects l (st :: q) <-> selects items (st :: q))) as Hsame.
    { intros E. rewrite <- (Hh obj d _ _ Hd Hl) by auto. rewrite selects_app, (selects_split obj items st q) by eauto.
      rewrite selects_flat_map. split; (intros [Hs|Hs]; [left; exact Hs|right]).
      - destruct Hs as ([own sub] & Hin & Hs). exists own, sub. repeat split; auto.
        pose proof (He _ Hin) as E'; cbn in E'; subst own. reflexivity.
      - destruct Hs as (own & sub & Hin & _ & Hs). exists (own, sub); auto. }
    split; intros (H1 & H2 & H3); repeat split; auto; apply Hsame; auto.
Qed.
Lemma expand_abstract_ok h pname p tc dirs items out path :
  keeps h -> kget pname sc = Some p -> expand_abstract sc h pname p tc dirs items = Ok out -> typed pname path ->
  (selects out path <-> all_on on dirs /\ applies (Some tc) path /\ selects items path).
Proof.
  intros Hh Hp H Ht. unfold expand_abstract in H. apply bind_ok in H as (ts & Hts & H). apply bind_ok in H as (ps & Hps & H).
  unfold possible_or_err in Hts. destruct (possible_types sc tc) as [ts'|] eqn:Ets; [|discriminate]. injection Hts as ->.
  apply each_obj_ok in H as (outs & F & ->).
  destruct (typed_runtime _ _ Ht) as (st & q & -> & Hrt).
  assert (forall x, In x (filter (fun t => existsb (String.eqb t) ps) ts) <-> In x ts /\ In x ps) as Hf.
  { intros x. rewrite filter_In, existsb_exists. split.
    - intros [H1 (y & Hy & E)]. apply String.eqb_eq in E; subst y; auto.
    - intros [H1 H2]. split; [exact H1|exists x; split; [exact H2|apply String.eqb_refl]]. }
  assert (In (st_type st) ps) as Hinp.
  { destruct p as [fs is|gs|ms|]; cbn [is_abstract] in Hps; unfold possible_or_err in Hps.
    - injection Hps as <-. destruct Hrt as [_ Ha]. apply (is_a_object _ _ _ _ Hp) in Ha. left; auto.
    - destruct (possible_types sc pname) as [ps'|] eqn:Eps; [|discriminate]. injection Hps as ->.
      apply (possible_spec _ _ _ Eps). exact Hrt.
    - destruct (possible_types sc pname) as [ps'|] eqn:Eps; [|discriminate]. injection Hps as ->.
      apply (possible_spec _ _ _ Eps). exact Hrt.
    - injection Hps as <-. destruct Hrt as [(fs & is & Ho) [->|[(ms & E & _)|(? & ? & ? & _ & _ & E)]]];
        [left; reflexivity|congruence|congruence]. }
  assert (forall x, In x (sort_by id (filter (fun t => existsb (String.eqb t) ps) ts)) -> exists fs is, kget x sc = Some (DObject fs is)) as Hobj.
  { intros x Hx. eapply Permutation_in in Hx; [|apply Permutation_sym, sort_by_perm]. apply Hf in Hx as [Hx _].
    apply (possible_spec _ _ _ Ets) in Hx as [Hx _]. exact Hx. }
  rewrite selects_concat. split.
  - intros (o & Ho & Hs). destruct (forall2_back _ _ _ _ F Ho) as (obj & Hin & Hk).
    apply (expand_for_ok _ _ _ _ _ pname st q Hh (Hobj _ Hin) Hk) in Hs; [|exact Ht].
    destruct Hs as (E & Hdd & Hs). repeat split; auto.
    eapply Permutation_in in Hin; [|apply Permutation_sym, sort_by_perm]. apply Hf in Hin as [Hin _].
    apply (possible_spec _ _ _ Ets) in Hin as [_ Ha]. cbn. rewrite E; exact Ha.
  - intros (Hdd & Ha & Hs).
    assert (In (st_type st) (sort_by id (filter (fun t => existsb (String.eqb t) ps) ts))) as Hin.
    { eapply Permutation_in; [apply sort_by_perm|]. apply Hf. split; [|exact Hinp].
      apply (possible_spec _ _ _ Ets). split; [apply Hrt|exact Ha]. }
    destruct (forall2_pick _ _ _ _ F Hin) as (o & Ho & Hk). exists o; split; [exact Ho|].
    apply (expand_for_ok _ _ _ _ _ pname st q Hh (Hobj _ Hin) Hk); auto.
Qed.
Lemma flatten_sel_ok h pname p s out path :
  keeps h -> kget pname sc = Some p -> flatten_sel sc h pname p s = Ok out -> typed pname path ->
  (picks s path <-> selects out path).
Proof.
  intros Hh Hp H Ht. destruct s as [al n args dirs sub|n dirs|[c|] dirs sub]; cbn [flatten_sel] in H.
  - destruct (introspective n || empty sub) eqn:Ei; [injection H as <-; rewrite selects_one; tauto|].
    apply orb_false_iff in Ei as [Ei _].
    apply bind_ok in H as (t & Hf & H). apply bind_ok in H as (d & Hd & H). apply bind_ok in H as (sub' & Hs & H).
    injection H as <-. rewrite selects_one. apply field_type_ok in Hf. apply get_type_ok in Hd.
    eapply typed_field_same; [exact Hp|exact Hf|exact Ei|exact Ht|]. intros q Hq. eapply Hh; [exact Hd|exact Hs|exact Hq].
  - injection H as <-. rewrite selects_nil. split; [apply spread_none|tauto].
  - destruct (String.eqb_spec c pname) as [->|Hne].
    + apply bind_ok in H as (sub' & Hs & H). injection H as <-. pose proof (Hh _ _ _ _ Hp Hs path Ht) as Hsame.
      rewrite picks_inline_iff. pose proof (typed_applies_self _ _ Ht) as Ha.
      destruct (empty dirs) eqn:Ee.
      * apply empty_nil in Ee; subst dirs. rewrite Hsame. split; [tauto|]. intros; repeat split; auto.
      * rewrite selects_one, picks_inline_iff. tauto.
    + unfold expand_condition in H. apply bind_ok in H as (d & Hd & H). apply get_type_ok in Hd.
      destruct (is_abstract d) eqn:Ea.
      * rewrite (expand_abstract_ok _ _ _ _ _ _ _ _ Hh Hp H Ht). apply picks_inline_iff.
      * destruct (is_object d) eqn:Eo.
        -- destruct d as [fs is| | |]; try discriminate Eo.
           destruct (is_object p && negb (String.eqb pname c)) eqn:Ei.
           ++ injection H as <-. rewrite selects_nil, picks_inline_iff. split; [|tauto]. intros (_ & Ha & _).
              destruct (typed_runtime _ _ Ht) as (st & q & -> & _ & Hra).
              apply andb_true_iff in Ei as [Ei _]. destruct p as [fs' is'| | |]; try discriminate Ei.
              apply (is_a_object _ _ _ _ Hp) in Hra. cbn in Ha. apply (is_a_object _ _ _ _ Hd) in Ha. congruence.
           ++ apply bind_ok in H as (sub' & Hs & H). injection H as <-. rewrite selects_one.
              eapply typed_inline_same; [exact Ht|]. intros Ht'. eapply Hh; eauto.
        -- injection H as <-. rewrite selects_nil, picks_inline_iff. split; [|tauto]. intros (_ & Ha & _).
           destruct (typed_runtime _ _ Ht) as (st & q & -> & (fs & is & Ho) & _). cbn in Ha.
           destruct Ha as [E|[(ms & E & _)|(? & ? & ? & _ & _ & E)]].
           ++ rewrite E, Hd in Ho. injection Ho as ->; discriminate.
           ++ rewrite Hd in E; injection E as ->; discriminate.
           ++ rewrite Hd in E; injection E as ->; discriminate.
  - apply bind_ok in H as (sub' & Hs & H). pose proof (Hh _ _ _ _ Hp Hs path Ht) as Hsame.
    rewrite picks_inline_iff. assert (applies None path) as Hnone.
    { apply applies_none. destruct (typed_runtime _ _ Ht) as (st & q & -> & _); discriminate. }
    pose proof (typed_applies_self _ _ Ht) as Ha.
    destruct (empty dirs) eqn:Ee.
    + injection H as <-. apply empty_nil in Ee; subst dirs. rewrite Hsame. split; [tauto|]. intros; repeat split; auto.
    + destruct (is_abstract p).
      * rewrite (expand_abstract_ok _ _ _ _ _ _ _ _ Hh Hp H Ht). tauto.
      * injection H as <-. rewrite selects_one, picks_inline_iff. tauto.
Qed.
Lemma flatten_keeps fuel : keeps (flatten sc fuel).
Proof.
  induction fuel as [|fuel IH]; intros pname p l out Hp H; cbn [flatten] in H; [discriminate|].
  eapply each_typed; [exact H|]. intros s o Hs Eo path Ht. eapply flatten_sel_ok; eauto.
Qed.
End Typed.
