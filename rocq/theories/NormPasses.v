From Coq Require Import String List Bool Arith Lia Permutation.
From Verif Require Import StrOrd StrUtil Ast CoerceModel CoerceProofs QplanModel QplanGroup CondModel NormModel NormSpec NormProofs NormMeaning NormTyped.
Import ListNotations.
Local Open Scope list_scope.

Section Passes.
Context (sc : schema) (on : directive -> bool) (OK : schema_ok sc).
Notation picks := (picks sc on []).
Notation selects := (selects sc on []).
Notation applies := (applies sc).
Notation typed := (typed sc).
Notation runtime := (runtime sc).
Notation keeps := (keeps sc on).

(** * Expanded types *)
Section Expand.
Context (should_expand : string -> string -> bool).
Notation expand_sel := (expand_sel sc should_expand).
Definition expand_all (pname : string) (p : tdef) (l : list nsel) : res (list nsel) :=
  bind (expansion sc pname p) (fun objs => each (expand_sel pname p objs) l).
Lemma expand_sel_field pname p objs al n args dirs sub :
  expand_sel pname p objs (NField al n args dirs sub) =
      if introspective n then Ok [NField al n args dirs sub]
      else bind (field_type pname p n) (fun t =>
        match (if should_expand pname n then objs else None) with
        | Some ts =>
            each_obj (fun obj =>
              bind (if empty sub then Ok sub
                    else match kget n (object_fields sc obj) with
                         | Some u => bind (get_type sc u) (fun d => expand_all u d sub)
                         | None => Ok sub
                         end)
                   (fun sub' => Ok [NInline (Some obj) dirs [NField al n args dirs sub']])) (sort_by id ts)
        | None =>
            if empty sub then Ok [NField al n args dirs sub]
            else bind (get_type sc t) (fun d => bind (expand_all t d sub) (fun sub' => Ok [NField al n args dirs sub']))
        end).
Proof. reflexivity. Qed.
Lemma expand_sel_inline pname p objs tc dirs sub :
  expand_sel pname p objs (NInline tc dirs sub) =
      match tc with
      | Some c => match kget c sc with
                  | Some d => bind (expand_all c d sub) (fun sub' => Ok [NInline tc dirs sub'])
                  | None => Ok [NInline tc dirs sub]
                  end
      | None => bind (expand_all pname p sub) (fun sub' => Ok [NInline tc dirs sub'])
      end.
Proof. reflexivity. Qed.
Lemma expand_sel_ok s : forall pname p objs out, kget pname sc = Some p -> expansion sc pname p = Ok objs ->
  expand_sel pname p objs s = Ok out -> forall path, typed pname path -> (picks s path <-> selects out path).
Proof.
  induction s as [al n args dirs sub IH|n dirs|tc dirs sub IH] using nsel_ind';
    intros pname p objs out Hp He H path Ht; try rewrite Forall_forall in IH.
  - assert (forall t d o, kget t sc = Some d -> expand_all t d sub = Ok o ->
      forall q, typed t q -> (selects sub q <-> selects o q)) as Hall.
    { intros t d o Hd Ho. apply bind_ok in Ho as (objs' & Ho' & Ho). eapply each_typed; [exact Ho|].
      intros s o' Hs Eo q Hq. eapply IH; eauto. }
    rewrite expand_sel_field in H. destruct (introspective n) eqn:Ei; [injection H as <-; rewrite selects_one; tauto|].
    apply bind_ok in H as (t & Hf & H). apply field_type_ok in Hf.
    destruct (if should_expand pname n then objs else None) as [ts|] eqn:Ex.
    + assert (objs = Some ts) as -> by (destruct (should_expand pname n); congruence).
      unfold expansion in He. destruct p as [| gs | |]; try discriminate.
      apply bind_ok in He as (ts' & Hts & He). apply bind_ok in He as (u & _ & He). injection He as ->.
      unfold possible_or_err in Hts. destruct (possible_types sc pname) as [ts'|] eqn:Ets; [|discriminate]. injection Hts as ->.
      apply each_obj_ok in H as (outs & F & ->). rewrite selects_concat.
      destruct (typed_runtime _ _ _ Ht) as (st & q & -> & Hrt).
      assert (forall obj sub', st_type st = obj -> In obj ts ->
        (if empty sub then Ok sub
         else match kget n (object_fields sc obj) with
              | Some u => bind (get_type sc u) (fun d => expand_all u d sub)
              | None => Ok sub
              end) = Ok sub' ->
        (picks (NField al n args dirs sub) (st :: q) <-> picks (NField al n args dirs sub') (st :: q))) as Hsub.
      { intros obj sub' Eo Hin E. destruct (empty sub); [injection E as <-; tauto|].
        destruct (kget n (object_fields sc obj)) as [w|] eqn:Ew; [|injection E as <-; tauto].
        apply bind_ok in E as (d & Hd & E). apply get_type_ok in Hd.
        unfold object_fields in Ew. destruct (kget obj sc) as [dobj|] eqn:Eobj; [|discriminate].
        eapply typed_field_same; [exact OK|exact Eobj|exact Ew|exact Ei| |].
        - eapply typed_cond; [exact Ht|]. left; exact Eo.
        - intros r Hr. eapply Hall; eauto. }
      split.
      * intros H. assert (In (st_type st) ts) as Hin by (apply (possible_spec sc OK _ _ _ Ets); exact Hrt).
        assert (In (st_type st) (sort_by id ts)) as Hin' by (eapply Permutation_in; [apply sort_by_perm|exact Hin]).
        destruct (forall2_pick _ _ _ _ F Hin') as (o & Ho & Hk). exists o; split; [exact Ho|].
        apply bind_ok in Hk as (sub' & Hs & Hk). injection Hk as <-.
        rewrite selects_one, picks_inline_iff, selects_one. apply (Hsub _ _ eq_refl Hin Hs) in H.
        split; [|split; [left; reflexivity|exact H]].
        rewrite picks_field_iff in H. destruct H as (? & ? & ? & _ & Hd & _). exact Hd.
      * intros (o & Ho & H). destruct (forall2_back _ _ _ _ F Ho) as (obj & Hin & Hk).
        apply bind_ok in Hk as (sub' & Hs & Hk). injection Hk as <-.
        rewrite selects_one, picks_inline_iff, selects_one in H. destruct H as (_ & Ha & H).
        eapply Permutation_in in Hin; [|apply Permutation_sym, sort_by_perm].
        pose proof Hin as Hin'. apply (possible_spec sc OK _ _ _ Ets) in Hin' as [(fs & is & Hobj) _].
        apply (applies_object _ _ _ _ _ _ Hobj) in Ha. apply (Hsub _ _ Ha Hin Hs). exact H.
    + destruct (empty sub); [injection H as <-; rewrite selects_one; tauto|].
      apply bind_ok in H as (d & Hd & H). apply bind_ok in H as (sub' & Hs & H). injection H as <-.
      apply get_type_ok in Hd. rewrite selects_one.
      eapply typed_field_same; [exact OK|exact Hp|exact Hf|exact Ei|exact Ht|]. eapply Hall; eauto.
  - cbn in H. injection H as <-. rewrite selects_one. tauto.
  - rewrite expand_sel_inline in H.
    assert (forall t d o, kget t sc = Some d -> expand_all t d sub = Ok o ->
      forall q, typed t q -> (selects sub q <-> selects o q)) as Hall.
    { intros t d o Hd Ho. apply bind_ok in Ho as (objs' & Ho' & Ho). eapply each_typed; [exact Ho|].
      intros s o' Hs Eo q Hq. eapply IH; eauto. }
    destruct tc as [c|].
    + destruct (kget c sc) as [d|] eqn:Ed; [|injection H as <-; rewrite selects_one; tauto].
      apply bind_ok in H as (sub' & Hs & H). injection H as <-. rewrite selects_one.
      eapply typed_inline_same; [exact Ht|]. intros Hc. eapply Hall; eauto.
    + apply bind_ok in H as (sub' & Hs & H). injection H as <-. rewrite selects_one, !picks_inline_iff.
      rewrite (Hall _ _ _ Hp Hs path Ht). tauto.
Qed.
Lemma type_expand_keeps : keeps (type_expand sc should_expand).
Proof.
  intros pname p l out Hp H. unfold type_expand in H. apply bind_ok in H as (objs & Ho & H).
  eapply each_typed; [exact H|]. intros s o Hs Eo path Ht. eapply expand_sel_ok; eauto.
Qed.
End Expand.

(** * Merged fragments *)
Lemma flatten_redundant_ok tc dirs items path : all_on on dirs -> applies tc path ->
  (selects (flatten_redundant tc dirs items) path <-> selects items path).
Proof.
  intros Hd Ha. unfold flatten_redundant. rewrite selects_flat_map.
  assert (forall s, selects (match s with
                     | NInline tc' dirs' sub' => if can_flatten tc dirs tc' dirs' then sub' else [s]
                     | _ => [s]
                     end) path <-> picks s path) as H.
  { intros [al n args dirs' sub|n dirs'|tc' dirs' sub]; rewrite ?selects_one; try tauto.
    destruct (can_flatten tc dirs tc' dirs') eqn:E; [|rewrite selects_one; tauto].
    unfold can_flatten in E. apply andb_true_iff in E as [E1 E2]. apply tc_eqb_ok in E1; subst tc'.
    rewrite picks_inline_iff. assert (all_on on dirs') as Hd'.
    { apply orb_true_iff in E2 as [E2|E2]; [apply empty_nil in E2; subst; reflexivity|apply directives_eqb_ok in E2; subst; exact Hd]. }
    tauto. }
  split.
  - intros (s & Hs & Hp). exists s; split; [exact Hs|apply H; exact Hp].
  - intros (s & Hs & Hp). exists s; split; [exact Hs|apply H; exact Hp].
Qed.
Lemma merge_into_ok h tc dirs items acc out path :
  (forall l o, h l = Ok o -> applies tc path -> (selects l path <-> selects o path)) ->
  merge_into h tc dirs items acc = Ok out ->
  (selects out path <-> selects acc path \/ picks (NInline tc dirs items) path).
Proof.
  intros Hh. revert out; induction acc as [|s acc IH]; intros out; cbn [merge_into].
  - intros H; injection H as <-. rewrite selects_one, selects_nil. tauto.
  - assert (forall s0, bind (merge_into h tc dirs items acc) (fun r => Ok (s0 :: r)) = Ok out ->
      (selects out path <-> selects (s0 :: acc) path \/ picks (NInline tc dirs items) path)) as Hgo.
    { intros s0 H. apply bind_ok in H as (r & Hr & H). injection H as <-. rewrite !selects_cons, (IH _ Hr). tauto. }
    destruct s as [al n args dirs' sub|n dirs'|tc' dirs' sub]; try apply Hgo.
    destruct (tc_eqb tc tc' && directives_eqb dirs dirs') eqn:E; [|apply Hgo].
    apply andb_true_iff in E as [E1 E2]. apply tc_eqb_ok in E1. apply directives_eqb_ok in E2. subst tc' dirs'.
    intros H. apply bind_ok in H as (l & Hl & H). injection H as <-. rewrite !selects_cons, !picks_inline_iff.
    assert (applies tc path -> (selects l path <-> selects sub path \/ selects items path)) as Hs.
    { intros Ha. rewrite <- (Hh _ _ Hl Ha), selects_app. tauto. }
    tauto.
Qed.
Lemma child_typed pname p tc cname c path : kget pname sc = Some p -> child_type sc pname p tc = (cname, c) ->
  typed pname path -> kget cname sc = Some c /\ (applies tc path -> typed cname path).
Proof.
  intros Hp H Ht. unfold child_type in H. destruct tc as [t|].
  - destruct (kget t sc) as [d|] eqn:Ed; injection H as <- <-.
    + split; [exact Ed|]. intros Ha; eapply typed_cond; eauto.
    + split; [exact Hp|auto].
  - injection H as <- <-. auto.
Qed.
Lemma merge_inline_loop_ok h pname p l acc out path :
  keeps h -> kget pname sc = Some p -> merge_inline_loop sc h pname p acc l = Ok out -> typed pname path ->
  (selects out path <-> selects acc path \/ selects l path).
Proof.
  intros Hh Hp H Ht. revert acc H; induction l as [|s l IH]; intros acc; cbn [merge_inline_loop].
  - intros H; injection H as <-. rewrite selects_nil. tauto.
  - intros H. apply bind_ok in H as (acc' & H & Hl). rewrite (IH _ Hl), selects_cons.
    assert (selects acc' path <-> selects acc path \/ picks s path); [|tauto].
    clear IH Hl. destruct s as [al n args dirs sub|n dirs|tc dirs sub].
    + destruct (introspective n || empty sub) eqn:Ei; [injection H as <-; rewrite selects_app, selects_one; tauto|].
      apply orb_false_iff in Ei as [Ei _].
      apply bind_ok in H as (t & Hf & H). apply bind_ok in H as (d & Hd & H). apply bind_ok in H as (sub' & Hs & H).
      injection H as <-. rewrite selects_app, selects_one. apply field_type_ok in Hf. apply get_type_ok in Hd.
      rewrite (typed_field_same sc on OK pname p al n args dirs sub sub' t path); [tauto|exact Hp|exact Hf|exact Ei|exact Ht|].
      intros q Hq. eapply Hh; eauto.
    + injection H as <-. pose proof (spread_none sc on n dirs path). tauto.
    + destruct (child_type sc pname p tc) as [cname c] eqn:Ec.
      destruct (child_typed _ _ _ _ _ _ Hp Ec Ht) as [Hc Hct].
      apply bind_ok in H as (sub' & Hs & H). apply merge_into_ok with (path := path) in H.
      * rewrite H. rewrite !picks_inline_iff.
        assert (all_on on dirs -> applies tc path -> (selects (flatten_redundant tc dirs sub') path <-> selects sub path)) as Hsame.
        { intros Hd Ha. rewrite flatten_redundant_ok by assumption. symmetry. eapply Hh; eauto. }
        tauto.
      * intros l0 o Hlo Ha. eapply Hh; eauto.
Qed.
Lemma merge_inline_keeps fuel : keeps (merge_inline sc fuel).
Proof.
  induction fuel as [|fuel IH]; intros pname p l out Hp H path Ht; cbn [merge_inline] in H; [discriminate|].
  rewrite (merge_inline_loop_ok _ _ _ _ _ _ _ IH Hp H Ht), selects_nil. tauto.
Qed.

(** * Fragments on the type of their field *)
Lemma flatten_matching_ok obj items path fs is : kget obj sc = Some (DObject fs is) -> typed obj path ->
  (selects (flatten_matching obj items) path <-> selects items path).
Proof.
  intros Ho Ht. unfold flatten_matching. rewrite selects_flat_map.
  assert (forall s, selects (match s with
                     | NInline tc dirs sub =>
                         if empty dirs && opt_is tc obj && negb (existsb is_typename sub) then sub else [s]
                     | _ => [s]
                     end) path <-> picks s path) as H.
  { intros [al n args dirs sub|n dirs|tc dirs sub]; rewrite ?selects_one; try tauto.
    destruct (empty dirs && opt_is tc obj && negb (existsb is_typename sub)) eqn:E; [|rewrite selects_one; tauto].
    apply andb_true_iff in E as [E _]. apply andb_true_iff in E as [E1 E2]. apply empty_nil in E1. apply opt_is_true in E2.
    subst. rewrite picks_inline_iff. pose proof (typed_applies_self _ _ _ Ht).
    split; [intros Hs; repeat split; auto|tauto]. }
  split.
  - intros (s & Hs & Hp). exists s; split; [exact Hs|apply H; exact Hp].
  - intros (s & Hs & Hp). exists s; split; [exact Hs|apply H; exact Hp].
Qed.
Lemma flatten_objects_field pname p al n args dirs sub :
  flatten_objects_sel sc pname p (NField al n args dirs sub) =
      if introspective n || empty sub then Ok (NField al n args dirs sub)
      else bind (field_type pname p n) (fun t => bind (get_type sc t) (fun d =>
           bind (flatten_objects sc t d sub) (fun sub' =>
           Ok (NField al n args dirs (if is_object d then flatten_matching t sub' else sub'))))).
Proof. reflexivity. Qed.
Lemma flatten_objects_inline pname p tc dirs sub :
  flatten_objects_sel sc pname p (NInline tc dirs sub) =
      let '(cname, c) := child_type sc pname p tc in
      bind (flatten_objects sc cname c sub) (fun sub' => Ok (NInline tc dirs sub')).
Proof. reflexivity. Qed.
Lemma flatten_objects_each pname p l out : flatten_objects sc pname p l = Ok out ->
  Forall2 (fun s o => flatten_objects_sel sc pname p s = Ok o) l out.
Proof.
  unfold flatten_objects. revert out; induction l as [|s l IH]; cbn [each_one]; intros out E; [injection E as <-; constructor|].
  apply bind_ok in E as (a & Ea & E). apply bind_ok in E as (b & Eb & E). injection E as <-. constructor; auto.
Qed.
Lemma flatten_objects_list l pname p out :
  (forall s, In s l -> forall pname p o, kget pname sc = Some p -> flatten_objects_sel sc pname p s = Ok o ->
     forall path, typed pname path -> (picks s path <-> picks o path)) ->
  kget pname sc = Some p -> flatten_objects sc pname p l = Ok out ->
  forall path, typed pname path -> (selects l path <-> selects out path).
Proof.
  intros IH Hp H path Ht. apply flatten_objects_each in H. split.
  - intros (s & Hs & Hk). destruct (forall2_pick _ _ _ _ H Hs) as (o & Ho & Eo). exists o; split; [exact Ho|].
    eapply (IH s Hs pname p o Hp Eo path Ht); exact Hk.
  - intros (o & Ho & Hk). destruct (forall2_back _ _ _ _ H Ho) as (s & Hs & Eo). exists s; split; [exact Hs|].
    eapply (IH s Hs pname p o Hp Eo path Ht); exact Hk.
Qed.
Lemma flatten_objects_sel_ok s : forall pname p o, kget pname sc = Some p -> flatten_objects_sel sc pname p s = Ok o ->
  forall path, typed pname path -> (picks s path <-> picks o path).
Proof.
  induction s as [al n args dirs sub IH|n dirs|tc dirs sub IH] using nsel_ind';
    intros pname p o Hp H path Ht; try rewrite Forall_forall in IH.
  - rewrite flatten_objects_field in H. destruct (introspective n || empty sub) eqn:Ei; [injection H as <-; tauto|].
    apply orb_false_iff in Ei as [Ei _].
    apply bind_ok in H as (t & Hf & H). apply bind_ok in H as (d & Hd & H). apply bind_ok in H as (sub' & Hs & H).
    injection H as <-. apply field_type_ok in Hf. apply get_type_ok in Hd.
    eapply typed_field_same; [exact OK|exact Hp|exact Hf|exact Ei|exact Ht|]. intros q Hq.
    rewrite (flatten_objects_list _ _ _ _ IH Hd Hs q Hq).
    destruct d as [fs is| | |]; cbn [is_object]; try tauto. symmetry. eapply flatten_matching_ok; eauto.
  - cbn in H. injection H as <-. tauto.
  - rewrite flatten_objects_inline in H. destruct (child_type sc pname p tc) as [cname c] eqn:Ec.
    destruct (child_typed _ _ _ _ _ _ Hp Ec Ht) as [Hc Hct].
    apply bind_ok in H as (sub' & Hs & H). injection H as <-. rewrite !picks_inline_iff.
    assert (applies tc path -> (selects sub path <-> selects sub' path)) as Hsame.
    { intros Ha. eapply flatten_objects_list; eauto. }
    tauto.
Qed.
Lemma flatten_objects_keeps : keeps (flatten_objects sc).
Proof.
  intros pname p l out Hp H. eapply flatten_objects_list; eauto.
  intros s _. apply flatten_objects_sel_ok.
Qed.

(** * Merged fields *)
Definition same (h : list nsel -> res (list nsel)) : Prop :=
  forall l out, h l = Ok out -> forall path, selects l path <-> selects out path.
Lemma field_iff_sub al n args dirs sub sub' p : (forall q, selects sub q <-> selects sub' q) ->
  (picks (NField al n args dirs sub) p <-> picks (NField al n args dirs sub') p).
Proof. intros H. apply field_sub. intros; apply H. Qed.
Lemma field_or al n args dirs sub sub' p :
  picks (NField al n args dirs (sub ++ sub')) p <->
  picks (NField al n args dirs sub) p \/ picks (NField al n args dirs sub') p.
Proof.
  rewrite !picks_field_iff. split.
  - intros (t & args' & rest & -> & Hd & Ha & [Hr|Hr]).
    + left; exists t, args', rest; auto.
    + rewrite selects_app in Hr. destruct Hr as [Hr|Hr]; [left|right]; exists t, args', rest; auto.
  - intros [(t & args' & rest & -> & Hd & Ha & Hr)|(t & args' & rest & -> & Hd & Ha & Hr)];
      exists t, args', rest; rewrite selects_app; tauto.
Qed.
Lemma merge_field_into_ok h al n args dirs sub acc out path : same h ->
  merge_field_into h al n args dirs sub acc = Ok out ->
  (selects out path <-> selects acc path \/ picks (NField al n args dirs sub) path).
Proof.
  intros Hh. revert out; induction acc as [|s acc IH]; intros out; cbn [merge_field_into].
  - intros H; injection H as <-. rewrite selects_one, selects_nil. tauto.
  - assert (forall s0, bind (merge_field_into h al n args dirs sub acc) (fun r => Ok (s0 :: r)) = Ok out ->
      (selects out path <-> selects (s0 :: acc) path \/ picks (NField al n args dirs sub) path)) as Hgo.
    { intros s0 H. apply bind_ok in H as (r & Hr & H). injection H as <-. rewrite !selects_cons, (IH _ Hr). tauto. }
    destruct s as [al' n' args' dirs' sub'|n' dirs'|tc' dirs' sub']; try apply Hgo.
    destruct (fields_equal al al' n n' args args' dirs dirs') eqn:E; [|apply Hgo].
    unfold fields_equal in E. apply andb_true_iff in E as [E E4]. apply andb_true_iff in E as [E E3]. apply andb_true_iff in E as [E1 E2].
    apply tc_eqb_ok in E1. apply String.eqb_eq in E2. apply args_eqb_ok in E3. apply directives_eqb_ok in E4. subst.
    intros H. apply bind_ok in H as (l & Hl & H). injection H as <-. rewrite !selects_cons.
    rewrite (field_iff_sub _ _ _ _ l (sub' ++ sub)) by (intros q; symmetry; apply (Hh _ _ Hl)).
    rewrite field_or. tauto.
Qed.
Lemma merge_fields_loop_ok h l acc out path : same h -> merge_fields_loop h acc l = Ok out ->
  (selects out path <-> selects acc path \/ selects l path).
Proof.
  intros Hh. revert acc; induction l as [|s l IH]; intros acc; cbn [merge_fields_loop].
  - intros H; injection H as <-. rewrite selects_nil. tauto.
  - intros H. apply bind_ok in H as (acc' & H & Hl). rewrite (IH _ Hl), selects_cons.
    assert (selects acc' path <-> selects acc path \/ picks s path); [|tauto].
    clear IH Hl. destruct s as [al n args dirs sub|n dirs|tc dirs sub].
    + apply bind_ok in H as (sub' & Hs & H). rewrite (merge_field_into_ok _ _ _ _ _ _ _ _ _ Hh H).
      rewrite (field_iff_sub _ _ _ _ sub sub') by (intros q; apply (Hh _ _ Hs)). tauto.
    + injection H as <-. pose proof (spread_none sc on n dirs path). tauto.
    + apply bind_ok in H as (sub' & Hs & H). injection H as <-. rewrite selects_app, selects_one, !picks_inline_iff.
      rewrite (Hh _ _ Hs). tauto.
Qed.
Lemma merge_fields_same fuel : same (merge_fields fuel).
Proof.
  induction fuel as [|fuel IH]; intros l out H path; cbn [merge_fields] in H; [discriminate|].
  rewrite (merge_fields_loop_ok _ _ _ _ _ IH H), selects_nil. tauto.
Qed.

(** * Dropped duplicates *)
Definition dup_step (acc : list nsel) (x : nsel) : list nsel :=
  if existsb (shallow_equal x) acc then acc else acc ++ [drop_dup_sel x].
Lemma drop_dup_inline tc dirs sub : drop_dup_sel (NInline tc dirs sub) = NInline tc dirs (drop_duplicated sub).
Proof.
  cbn [drop_dup_sel]. unfold drop_duplicated. destruct sub as [|x [|y l]]; try reflexivity. f_equal.
  assert (forall acc r, (fix go (acc l0 : list nsel) {struct l0} : list nsel :=
     match l0 with
     | [] => acc
     | x0 :: l' => go (if existsb (shallow_equal x0) acc then acc else acc ++ [drop_dup_sel x0]) l'
     end) acc r = fold_left (fun acc x => if existsb (shallow_equal x) acc then acc else acc ++ [drop_dup_sel x]) r acc) as H.
  { intros acc r; revert acc; induction r as [|z r IH]; intros acc; [reflexivity|]. cbn [fold_left]. apply IH. }
  apply (H [] (x :: y :: l)).
Qed.
Lemma shallow_same s acc path : existsb (shallow_equal s) acc = true -> picks s path -> selects acc path.
Proof.
  intros H Hp. apply existsb_exists in H as (x & Hx & E). exists x; split; [exact Hx|].
  destruct s as [al n args dirs sub|n dirs|tc dirs sub], x as [al' n' args' dirs' sub'|n' dirs'|tc' dirs' sub']; cbn in E; try discriminate E.
  apply andb_true_iff in E as [E E5]. apply andb_true_iff in E5 as [E5 E6].
  apply andb_true_iff in E as [E E4]. apply andb_true_iff in E as [E E3]. apply andb_true_iff in E as [E1 E2].
  apply String.eqb_eq in E1. apply tc_eqb_ok in E2. apply args_eqb_ok in E3. apply directives_eqb_ok in E4.
  apply empty_nil in E5, E6. subst. exact Hp.
Qed.
Lemma dup_fold l acc path : (forall s, In s l -> (picks (drop_dup_sel s) path <-> picks s path)) ->
  (selects (fold_left dup_step l acc) path <-> selects acc path \/ selects l path).
Proof.
  revert acc; induction l as [|s l IH]; intros acc H; cbn [fold_left].
  - rewrite selects_nil. tauto.
  - rewrite IH by (intros x Hx; apply H; right; exact Hx). rewrite selects_cons.
    unfold dup_step. destruct (existsb (shallow_equal s) acc) eqn:E.
    + pose proof (shallow_same s acc path E). tauto.
    + rewrite selects_app, selects_one, (H s) by (left; reflexivity). tauto.
Qed.
Lemma drop_dup_list l path : (forall s, In s l -> (picks (drop_dup_sel s) path <-> picks s path)) ->
  (selects (drop_duplicated l) path <-> selects l path).
Proof.
  intros H. unfold drop_duplicated. destruct l as [|x [|y l]]; try tauto.
  change (selects (fold_left dup_step (x :: y :: l) []) path <-> selects (x :: y :: l) path).
  rewrite dup_fold by exact H. rewrite selects_nil. tauto.
Qed.
Lemma drop_dup_sel_ok s path : picks (drop_dup_sel s) path <-> picks s path.
Proof.
  induction s as [al n args dirs sub IH|n dirs|tc dirs sub IH] using nsel_ind'; try (cbn [drop_dup_sel]; tauto).
  rewrite drop_dup_inline, !picks_inline_iff, drop_dup_list; [tauto|]. rewrite Forall_forall in IH; exact IH.
Qed.
Lemma drop_duplicated_same l path : selects (drop_duplicated l) path <-> selects l path.
Proof. apply drop_dup_list. intros s _. apply drop_dup_sel_ok. Qed.
End Passes.
