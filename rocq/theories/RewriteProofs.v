From Coq Require Import String List Bool Arith Lia Sorted.
From Verif Require Import StrOrd JsonModel MergeSpec TraverseModel TraverseSpec TraverseProofs RewriteModel RewriteSpec.
Import ListNotations.
Local Open Scope string_scope.
Local Open Scope list_scope.

(** ** Binary search on a sorted slice is lookup *)
Section B.
  Variable A : Type.
  Implicit Types l : list (string * A).

  Lemma sorted_nth l : keys_sorted l -> forall i j a b,
    i < j -> nth_error l i = Some a -> nth_error l j = Some b -> str_lt (fst a) (fst b).
  Proof.
    unfold keys_sorted. induction l as [|c l IH]; intros S i j a b L Ha Hb; [destruct i; discriminate|].
    cbn in S. apply StronglySorted_inv in S. destruct S as [S F]. destruct j as [|j]; [lia|]. cbn in Hb.
    destruct i as [|i].
    - cbn in Ha. injection Ha as ->. rewrite Forall_forall in F. apply F. apply in_map. eapply nth_error_In. exact Hb.
    - cbn in Ha. eapply IH with (i := i) (j := j); eauto. lia.
  Qed.

  Lemma get_nth l k : (forall v, get k l = Some v -> exists j, nth_error l j = Some (k, v)) /\
                      (get k l = None -> forall j v, nth_error l j <> Some (k, v)).
  Proof.
    split.
    - intros v H. apply get_in in H. apply In_nth_error in H. exact H.
    - intros H j v N. apply nth_error_In in N. apply get_none_notin in H. apply H.
      change k with (fst (k, v)). apply in_map. exact N.
  Qed.

  Lemma bsearch_loop_ok l k j v : keys_sorted l -> nth_error l j = Some (k, v) ->
    forall fuel base size, size <= fuel -> 1 <= size -> base <= j < base + size -> base + size <= length l ->
    bsearch_loop fuel l k base size = j.
  Proof.
    intros S N. induction fuel as [|fuel IH]; intros base size F1 F2 F3 F4; [lia|].
    cbn [bsearch_loop]. destruct (Nat.leb_spec size 1) as [L|L]; [lia|].
    assert (H1 : 1 <= Nat.div size 2) by (apply Nat.div_le_lower_bound; lia).
    assert (H2 : Nat.div size 2 < size) by (apply Nat.div_lt; lia).
    assert (H3 : 2 * Nat.div size 2 <= size) by (apply Nat.mul_div_le; lia).
    set (half := Nat.div size 2) in *. clearbody half. cbv zeta.
    destruct (nth_error l (base + half)) as [[k' v']|] eqn:E.
    - destruct (lt_eq_lt_dec (base + half) j) as [[Lt|Eq]|Gt].
      + pose proof (sorted_nth l S _ _ _ _ Lt E N) as C. cbn in C. unfold str_lt in C. rewrite C.
        apply IH; lia.
      + subst j. rewrite E in N. injection N as -> ->. rewrite str_compare_refl. apply IH; lia.
      + pose proof (sorted_nth l S _ _ _ _ Gt N E) as C. cbn in C. apply str_lt_gt in C. rewrite C.
        apply IH; lia.
    - apply nth_error_None in E. lia.
  Qed.

  Lemma bsearch_get l k : keys_sorted l -> bsearch k l = get k l.
  Proof.
    intros S. destruct (get_nth l k) as [H1 H2]. unfold bsearch. destruct (get k l) as [v|] eqn:G.
    - destruct (H1 v eq_refl) as [j N].
      assert (L : j < length l) by (apply nth_error_Some; congruence).
      rewrite (bsearch_loop_ok l k j v S N) by lia. rewrite N, String.eqb_refl. reflexivity.
    - destruct (nth_error l (bsearch_loop (length l) l k 0 (length l))) as [[k' v]|] eqn:N; [|reflexivity].
      destruct (String.eqb k' k) eqn:E; [|reflexivity]. apply String.eqb_eq in E. subst k'.
      destruct (H2 eq_refl _ _ N).
  Qed.
End B.

(** ** Targets of rewrites *)
Section R.
  Variable pt : ptypes.
  Variable endf : value -> list (list seg * value).

  Fixpoint rt (p : list rseg) {struct p} : value -> list (list seg * value) :=
    match p with
    | [] => endf
    | RTypes ts :: p' =>
        fix go (v : value) :=
          match v with
          | VArr l => items go 0 l
          | VObj o => if rcast_ok pt o ts then rt p' v else []
          | _ => []
          end
    | RKey f :: p' =>
        fix go (v : value) :=
          match v with
          | VArr l => items go 0 l
          | VObj o => match get f o with Some w => pre (Key f) (rt p' w) | None => [] end
          | _ => []
          end
    end.

  Lemma rt_sorted : (forall v, StronglySorted before (map fst (endf v))) ->
    forall p v, StronglySorted before (map fst (rt p v)).
  Proof.
    intros He. induction p as [|[f|ts] p IH]; intros v; [apply He| |].
    - induction v as [|fbits|iz|un|bb|str|raw|l IHl|o IHo] using value_ind'; try (cbn [rt]; constructor).
      + change (rt (RKey f :: p) (VArr l)) with (items (rt (RKey f :: p)) 0 l). apply items_sorted, IHl.
      + cbn [rt]. destruct (get f o); [apply pre_sorted, IH|constructor].
    - induction v as [|fbits|iz|un|bb|str|raw|l IHl|o IHo] using value_ind'; try (cbn [rt]; constructor).
      + change (rt (RTypes ts :: p) (VArr l)) with (items (rt (RTypes ts :: p)) 0 l). apply items_sorted, IHl.
      + cbn [rt]. destruct (rcast_ok pt o ts); [apply IH|constructor].
  Qed.

  Lemma rt_at : (forall v q x, In (q, x) (endf v) -> at_path q v = Some x) ->
    forall p v q x, In (q, x) (rt p v) -> at_path q v = Some x.
  Proof.
    intros He. induction p as [|[f|ts] p IH]; intros v q x; [apply He| |].
    - revert q. induction v as [|fbits|iz|un|bb|str|raw|l IHl|o IHo] using value_ind'; intros q; try (cbn [rt]; intros []).
      + change (rt (RKey f :: p) (VArr l)) with (items (rt (RKey f :: p)) 0 l). intros H. apply in_items in H.
        destruct H as (j & y & q' & -> & N & H). cbn. rewrite N. rewrite Forall_forall in IHl.
        apply IHl; [eapply nth_error_In, N|exact H].
      + cbn [rt]. destruct (get f o) eqn:G; [|intros []]. intros H. apply in_pre in H.
        destruct H as (q' & -> & H). cbn. rewrite G. apply IH, H.
    - revert q. induction v as [|fbits|iz|un|bb|str|raw|l IHl|o IHo] using value_ind'; intros q; try (cbn [rt]; intros []).
      + change (rt (RTypes ts :: p) (VArr l)) with (items (rt (RTypes ts :: p)) 0 l). intros H. apply in_items in H.
        destruct H as (j & y & q' & -> & N & H). cbn. rewrite N. rewrite Forall_forall in IHl.
        apply IHl; [eapply nth_error_In, N|exact H].
      + cbn [rt]. destruct (rcast_ok pt o ts); [apply IH|intros []].
  Qed.
End R.

Definition upd (f : value -> value) (ts : list (list seg * value)) : list (list seg * value) :=
  map (fun t => (fst t, f (snd t))) ts.
Lemma upd_pre f s ts : upd f (pre s ts) = pre s (upd f ts).
Proof. unfold upd, pre. rewrite !map_map. reflexivity. Qed.
Lemma upd_fst f ts : map fst (upd f ts) = map fst ts.
Proof. unfold upd. rewrite map_map. reflexivity. Qed.

Lemma upd_items f g h l : Forall (fun x => replace_all (upd f (g x)) x = h x) l ->
  forall done, replace_all (upd f (items g (length done) l)) (VArr (done ++ l)) = VArr (done ++ map h l).
Proof.
  induction 1 as [|x l Hx Hl IH]; intros done; [reflexivity|].
  cbn [items map]. unfold upd. rewrite map_app. fold (upd f (pre (Idx (length done)) (g x))).
  fold (upd f (items g (S (length done)) l)). rewrite upd_pre.
  unfold replace_all at 1. rewrite fold_left_app. fold (replace_all (pre (Idx (length done)) (upd f (g x))) (VArr (done ++ x :: l))).
  rewrite replace_all_idx with (c := x).
  - rewrite Hx. replace (set_nth (length done) (h x) (done ++ x :: l)) with ((done ++ [h x]) ++ l).
    + specialize (IH (done ++ [h x])). rewrite app_length in IH. cbn [length] in IH. rewrite Nat.add_1_r in IH.
      unfold replace_all in IH. rewrite IH, <- app_assoc. reflexivity.
    + rewrite <- app_assoc. cbn. clear. induction done; cbn; [reflexivity|]. f_equal. exact IHdone.
  - clear. induction done; cbn; auto.
Qed.

(** *** Value setters *)
Definition leaf_end (v : value) : list (list seg * value) := [([], v)].

Lemma set_value_ok pt x p : forall v,
  set_value pt x p v = replace_all (upd (fun _ => VStr x) (rt pt leaf_end p v)) v.
Proof.
  induction p as [|[f|ts] p IH]; intros v; [reflexivity| |].
  - induction v as [|fbits|iz|un|bb|str|raw|l IHl|o IHo] using value_ind'; try reflexivity.
    + change (rt pt leaf_end (RKey f :: p) (VArr l)) with (items (rt pt leaf_end (RKey f :: p)) 0 l).
      pose proof (upd_items (fun _ => VStr x) (rt pt leaf_end (RKey f :: p)) (set_value pt x (RKey f :: p)) l) as U.
      specialize (U ltac:(eapply Forall_impl; [|exact IHl]; intros y Hy; symmetry; exact Hy) []).
      cbn [app length] in U. rewrite U. reflexivity.
    + cbn [set_value rt]. destruct (get f o) eqn:G; [|reflexivity]. rewrite upd_pre.
      rewrite replace_all_key with (c := v) by exact G. rewrite put_set_key, <- IH. reflexivity.
  - induction v as [|fbits|iz|un|bb|str|raw|l IHl|o IHo] using value_ind'; try reflexivity.
    + change (rt pt leaf_end (RTypes ts :: p) (VArr l)) with (items (rt pt leaf_end (RTypes ts :: p)) 0 l).
      pose proof (upd_items (fun _ => VStr x) (rt pt leaf_end (RTypes ts :: p)) (set_value pt x (RTypes ts :: p)) l) as U.
      specialize (U ltac:(eapply Forall_impl; [|exact IHl]; intros y Hy; symmetry; exact Hy) []).
      cbn [app length] in U. rewrite U. reflexivity.
    + cbn [set_value rt]. destruct (rcast_ok pt o ts); [apply IH|reflexivity].
Qed.

Lemma rt_reaches pt p : forall v q, (exists x, In (q, x) (rt pt leaf_end p v)) <-> reaches pt p v q.
Proof.
  induction p as [|[f|ts] p IH]; intros v q.
  - cbn. split.
    + intros (x & [E|[]]). injection E as <- <-. constructor.
    + intros H. inversion H. exists v. auto.
  - revert q. induction v as [|fbits|iz|un|bb|str|raw|l IHl|o IHo] using value_ind'; intros q;
      try (split; [intros (x & [])|intros H; inversion H]).
    + change (rt pt leaf_end (RKey f :: p) (VArr l)) with (items (rt pt leaf_end (RKey f :: p)) 0 l). rewrite Forall_forall in IHl. split.
      * intros (x & H). apply in_items in H. destruct H as (j & y & q' & -> & N & H). eapply rc_list; [exact N|].
        apply IHl; [eapply nth_error_In, N|]. exists x. exact H.
      * intros H. inversion H; subst. match goal with R : reaches _ _ ?x ?q, N : nth_error l i = Some ?x |- _ =>
          apply IHl in R; [|eapply nth_error_In, N]; destruct R as (z & Hz); exists z; apply in_items;
          exists i, x, q; auto end.
    + cbn [rt]. split.
      * intros (x & H). destruct (get f o) eqn:G; [|destruct H]. apply in_pre in H. destruct H as (q' & -> & H).
        eapply rc_key; [exact G|]. apply IH. exists x. exact H.
      * intros H. inversion H; subst. match goal with G : get f o = Some _ |- _ => rewrite G end.
        match goal with R : reaches _ p _ _ |- _ => apply IH in R; destruct R as (z & Hz) end.
        exists z. apply in_pre. eauto.
  - revert q. induction v as [|fbits|iz|un|bb|str|raw|l IHl|o IHo] using value_ind'; intros q;
      try (split; [intros (x & [])|intros H; inversion H]).
    + change (rt pt leaf_end (RTypes ts :: p) (VArr l)) with (items (rt pt leaf_end (RTypes ts :: p)) 0 l). rewrite Forall_forall in IHl. split.
      * intros (x & H). apply in_items in H. destruct H as (j & y & q' & -> & N & H). eapply rc_list; [exact N|].
        apply IHl; [eapply nth_error_In, N|]. exists x. exact H.
      * intros H. inversion H; subst. match goal with R : reaches _ _ ?x ?q, N : nth_error l i = Some ?x |- _ =>
          apply IHl in R; [|eapply nth_error_In, N]; destruct R as (z & Hz); exists z; apply in_items;
          exists i, x, q; auto end.
    + cbn [rt]. unfold rcast_ok. destruct (cast_ok pt o ts) eqn:E.
      * rewrite IH. split; [intros H; apply rc_types; [apply cast_ok_spec, E|exact H]|intros H; inversion H; subst; assumption].
      * split; [intros (x & [])|]. intros H. inversion H; subst.
        match goal with M : may_be _ _ _ |- _ => apply cast_ok_spec in M; congruence end.
Qed.

Lemma apart_inside q q' : apart q q' <-> ~ inside q q' /\ ~ inside q' q.
Proof.
  unfold apart, inside. split; intros [A B]; split.
  - intros [c E]. apply (A c E).
  - intros [c E]. apply (B c E).
  - intros c E. apply A. exists c. exact E.
  - intros c E. apply B. exists c. exact E.
Qed.

Lemma upd_in f ts q w : In (q, w) (upd f ts) <-> exists x, In (q, x) ts /\ w = f x.
Proof.
  unfold upd. rewrite in_map_iff. split.
  - intros ([q0 x] & E & H). injection E as <- <-. eauto.
  - intros (x & H & ->). exists (q, x). auto.
Qed.

Lemma targets_replaced f ts v :
  StronglySorted before (map fst ts) -> (forall q x, In (q, x) ts -> at_path q v = Some x) ->
  (forall q x, In (q, x) ts -> at_path q (replace_all (upd f ts) v) = Some (f x)) /\
  (forall q, (forall t x, In (t, x) ts -> apart t q) -> at_path q (replace_all (upd f ts) v) = at_path q v).
Proof.
  intros S A. split.
  - intros q x H. pose proof (replace_all_at (upd f ts) v) as R. rewrite upd_fst in R. specialize (R S).
    assert (R2 : Forall (fun u => at_path (fst u) v <> None) (upd f ts)).
    { apply Forall_forall. intros [q0 w] Hu. apply upd_in in Hu. destruct Hu as (x0 & Hx & _). cbn.
      rewrite (A _ _ Hx). discriminate. }
    specialize (R R2). rewrite Forall_forall in R. apply (R (q, f x)). apply upd_in. eauto.
  - intros q H. apply replace_all_other. apply Forall_forall. intros [q0 w] Hu. apply upd_in in Hu.
    destruct Hu as (x0 & Hx & _). cbn. apply apart_inside. eapply H. exact Hx.
Qed.

Lemma leaf_end_sorted v : StronglySorted before (map fst (leaf_end v)).
Proof. repeat constructor. Qed.
Lemma leaf_end_at v q x : In (q, x) (leaf_end v) -> at_path q v = Some x.
Proof. intros [E|[]]. injection E as <- <-. reflexivity. Qed.

Lemma set_value_effect pt x p v :
  (forall q, reaches pt p v q -> at_path q (set_value pt x p v) = Some (VStr x)) /\
  (forall q, (forall t, reaches pt p v t -> apart t q) -> at_path q (set_value pt x p v) = at_path q v).
Proof.
  rewrite set_value_ok.
  destruct (targets_replaced (fun _ => VStr x) (rt pt leaf_end p v) v
              (rt_sorted pt leaf_end leaf_end_sorted p v) (rt_at pt leaf_end leaf_end_at p v)) as [A B].
  split.
  - intros q H. apply rt_reaches in H. destruct H as (y & H). apply A with (x := y). exact H.
  - intros q H. apply B. intros t y Ht. apply H, rt_reaches. eauto.
Qed.

Lemma keys_sorted_set_key k w o : keys_sorted o -> keys_sorted (set_key k w o).
Proof.
  unfold keys_sorted. intros S. replace (map fst (set_key k w o)) with (map fst o); [exact S|].
  clear. induction o as [|[k' v] o IH]; cbn; [reflexivity|]. destruct (String.eqb k k'); cbn; [reflexivity|f_equal; exact IH].
Qed.
Lemma wf_set_key k w o : wf (VObj o) -> wf w -> wf (VObj (set_key k w o)).
Proof.
  intros W Ww. inversion W; subst. constructor; [apply keys_sorted_set_key; assumption|].
  clear H0 W. induction H1 as [|[k' v] o Hv Ho IH]; cbn; [constructor|].
  destruct (String.eqb k k'); constructor; auto.
Qed.

Lemma set_value_wf pt x p : forall v, wf v -> wf (set_value pt x p v).
Proof.
  induction p as [|[f|ts] p IH]; intros v W; [constructor| |].
  - induction v as [|fbits|iz|un|bb|str|raw|l IHl|o IHo] using value_ind'; try exact W.
    + cbn [set_value]. inversion W; subst. constructor. clear W. induction H0; cbn [map]; [constructor|].
      inversion IHl; subst. constructor; [apply H3; assumption|]. apply IHForall. assumption.
    + cbn [set_value]. destruct (get f o) eqn:G; [|exact W]. rewrite put_set_key. apply wf_set_key; [exact W|].
      apply IH. inversion W; subst. rewrite Forall_forall in H1. apply (H1 (f, v)). apply get_in, G.
  - induction v as [|fbits|iz|un|bb|str|raw|l IHl|o IHo] using value_ind'; try exact W.
    + cbn [set_value]. inversion W; subst. constructor. clear W. induction H0; cbn [map]; [constructor|].
      inversion IHl; subst. constructor; [apply H3; assumption|]. apply IHForall. assumption.
    + cbn [set_value]. destruct (rcast_ok pt o ts); [apply IH; exact W|exact W].
Qed.

(** *** Key renames *)
Fixpoint obj_end (v : value) : list (list seg * value) :=
  match v with
  | VArr l => items obj_end 0 l
  | VObj o => [([], v)]
  | _ => []
  end.
Definition rn (k to : string) (v : value) : value :=
  match v with VObj o => VObj (if String.eqb k to then o else rename_first k to o) | _ => v end.

Lemma map_opt_map {A} (f : A -> option A) g l : Forall (fun x => f x = Some (g x)) l -> map_opt f l = Some (map g l).
Proof. induction 1 as [|x l Hx Hl IH]; [reflexivity|]. cbn. fold (map_opt f). rewrite Hx. cbn in IH. rewrite IH. reflexivity. Qed.

Lemma rename_ok pt to k p : forall v,
  rename pt to (p ++ [RKey k]) v = Some (replace_all (upd (rn k to) (rt pt obj_end p v)) v).
Proof.
  assert (Harr : forall (F : value -> option value) (G : value -> list (list seg * value)) l,
    Forall (fun x => F x = Some (replace_all (upd (rn k to) (G x)) x)) l ->
    match map_opt F l with Some l' => Some (VArr l') | None => None end =
    Some (replace_all (upd (rn k to) (items G 0 l)) (VArr l))).
  { intros F G l H. rewrite (map_opt_map F (fun x => replace_all (upd (rn k to) (G x)) x)) by exact H.
    pose proof (upd_items (rn k to) G (fun x => replace_all (upd (rn k to) (G x)) x) l) as U.
    specialize (U ltac:(apply Forall_forall; reflexivity) []). cbn [app length] in U. rewrite U. reflexivity. }
  induction p as [|[f|ts] p IH]; intros v.
  - induction v as [|fbits|iz|un|bb|str|raw|l IHl|o IHo] using value_ind'; try reflexivity.
    + cbn [app rt obj_end]. apply (Harr (rename pt to [RKey k]) obj_end). exact IHl.
    + cbn [app rename rt obj_end upd map fst snd]. unfold replace_all. cbn [fold_left fst snd replace]. cbn [rn].
      destruct (String.eqb k to); reflexivity.
  - induction v as [|fbits|iz|un|bb|str|raw|l IHl|o IHo] using value_ind'; try reflexivity.
    + apply (Harr (rename pt to ((RKey f :: p) ++ [RKey k])) (rt pt obj_end (RKey f :: p))). exact IHl.
    + cbn [app rename rt]. destruct (p ++ [RKey k]) eqn:Ep; [destruct p; discriminate|].
      destruct (get f o) eqn:G; [|reflexivity]. rewrite IH, upd_pre, replace_all_key with (c := v) by exact G.
      rewrite put_set_key. reflexivity.
  - induction v as [|fbits|iz|un|bb|str|raw|l IHl|o IHo] using value_ind'; try reflexivity.
    + apply (Harr (rename pt to ((RTypes ts :: p) ++ [RKey k])) (rt pt obj_end (RTypes ts :: p))). exact IHl.
    + cbn [app rename rt]. destruct (rcast_ok pt o ts); [apply IH|reflexivity].
Qed.

Lemma obj_end_ok v : forall q x, In (q, x) (obj_end v) <-> exists o, x = VObj o /\ forall pt, reaches_obj pt [] v q o.
Proof.
  induction v as [|fbits|iz|un|bb|str|raw|l IHl|o IHo] using value_ind'; intros q x;
    try solve [cbn; split; [intros []|intros (o' & _ & H); specialize (H (fun _ => None)); inversion H]].
  - cbn [obj_end]. rewrite Forall_forall in IHl. rewrite in_items. split.
    + intros (j & y & q' & -> & N & H). apply IHl in H; [|eapply nth_error_In; exact N]. destruct H as (o & -> & H).
      exists o. split; [reflexivity|]. intros pt. eapply ro_list; [exact N|apply H].
    + intros (o & -> & H). pose proof (H (fun _ => None)) as H0. inversion H0; subst.
      exists i, x, q0. split; [reflexivity|]. split; [assumption|]. apply IHl; [eapply nth_error_In; eassumption|].
      exists o. split; [reflexivity|]. intros pt. specialize (H pt). inversion H; subst.
      assert (x0 = x) by congruence. subst. assumption.
  - cbn [obj_end]. split.
    + intros [E|[]]. injection E as <- <-. exists o. split; [reflexivity|]. constructor.
    + intros (o' & -> & H). specialize (H (fun _ => None)). inversion H; subst. left. reflexivity.
Qed.

Lemma reaches_obj_nil pt pt' v q o : reaches_obj pt [] v q o -> reaches_obj pt' [] v q o.
Proof.
  remember [] as p. induction 1; subst; try discriminate; [constructor|]. eapply ro_list; eauto.
Qed.

Lemma rt_obj pt p : forall v q x, In (q, x) (rt pt obj_end p v) <-> exists o, x = VObj o /\ reaches_obj pt p v q o.
Proof.
  induction p as [|[f|ts] p IH]; intros v q x.
  - cbn [rt]. rewrite obj_end_ok. split; intros (o & -> & H); exists o; (split; [reflexivity|]); [apply H|].
    intros pt'. eapply reaches_obj_nil, H.
  - revert q x. induction v as [|fbits|iz|un|bb|str|raw|l IHl|o IHo] using value_ind'; intros q y;
      try (split; [intros []|intros (o & _ & H); inversion H]).
    + change (rt pt obj_end (RKey f :: p) (VArr l)) with (items (rt pt obj_end (RKey f :: p)) 0 l).
      rewrite Forall_forall in IHl. rewrite in_items. split.
      * intros (j & z & q' & -> & N & H). apply IHl in H; [|eapply nth_error_In; exact N]. destruct H as (o & -> & H).
        exists o. split; [reflexivity|]. eapply ro_list; eauto.
      * intros (o & -> & H). inversion H; subst. exists i, x, q0. split; [reflexivity|]. split; [assumption|].
        apply IHl; [eapply nth_error_In; eassumption|]. eauto.
    + cbn [rt]. split.
      * intros H. destruct (get f o) eqn:G; [|destruct H]. apply in_pre in H. destruct H as (q' & -> & H).
        apply IH in H. destruct H as (o' & -> & H). exists o'. split; [reflexivity|]. eapply ro_key; eauto.
      * intros (o' & -> & H). inversion H; subst. match goal with G : get f o = Some _ |- _ => rewrite G end.
        apply in_pre. eexists. split; [reflexivity|]. apply IH. eauto.
  - revert q x. induction v as [|fbits|iz|un|bb|str|raw|l IHl|o IHo] using value_ind'; intros q y;
      try (split; [intros []|intros (o & _ & H); inversion H]).
    + change (rt pt obj_end (RTypes ts :: p) (VArr l)) with (items (rt pt obj_end (RTypes ts :: p)) 0 l).
      rewrite Forall_forall in IHl. rewrite in_items. split.
      * intros (j & z & q' & -> & N & H). apply IHl in H; [|eapply nth_error_In; exact N]. destruct H as (o & -> & H).
        exists o. split; [reflexivity|]. eapply ro_list; eauto.
      * intros (o & -> & H). inversion H; subst. exists i, x, q0. split; [reflexivity|]. split; [assumption|].
        apply IHl; [eapply nth_error_In; eassumption|]. eauto.
    + cbn [rt]. unfold rcast_ok. destruct (cast_ok pt o ts) eqn:E.
      * rewrite IH. split; intros (o' & -> & H); exists o'; (split; [reflexivity|]).
        -- apply ro_types; [apply cast_ok_spec, E|exact H].
        -- inversion H; subst; assumption.
      * split; [intros []|]. intros (o' & -> & H). inversion H; subst.
        match goal with M : may_be _ _ _ |- _ => apply cast_ok_spec in M; congruence end.
Qed.

Lemma obj_end_sorted v : StronglySorted before (map fst (obj_end v)).
Proof.
  induction v as [|fbits|iz|un|bb|str|raw|l IHl|o IHo] using value_ind'; try (repeat constructor).
  apply items_sorted. exact IHl.
Qed.
Lemma reaches_obj_at pt p v q o : reaches_obj pt p v q o -> at_path q v = Some (VObj o).
Proof.
  induction 1 as [o|p l i x q o H _ IH|k p o w q o' H _ IH|ts p o q o' _ _ IH]; cbn; rewrite ?H; auto.
Qed.

Lemma rename_first_renamed k to o : renamed k to o (rename_first k to o).
Proof.
  induction o as [|[k' v] o IH]; cbn [rename_first].
  - apply rn_absent; [intros []|reflexivity].
  - destruct (String.eqb k' k) eqn:E.
    + apply String.eqb_eq in E. subst k'. apply (rn_entry _ _ _ _ [] v o); [intros []|reflexivity|reflexivity].
    + apply String.eqb_neq in E. destruct IH as [N ->|l1 x l2 N -> ->].
      * apply rn_absent; [|reflexivity]. cbn. intros [H|H]; [congruence|auto].
      * apply (rn_entry _ _ _ _ ((k', v) :: l1) x l2); [|reflexivity|reflexivity]. cbn. intros [H|H]; [congruence|auto].
Qed.
Lemma renamed_same k o : renamed k k o o.
Proof.
  destruct (in_dec string_dec k (map fst o)) as [H|H].
  - induction o as [|[k' v] o IH]; [destruct H|]. destruct (string_dec k' k) as [->|N].
    + apply (rn_entry _ _ _ _ [] v o); [intros []|reflexivity|reflexivity].
    + destruct H as [H|H]; [cbn in H; congruence|]. destruct (IH H) as [N2 _|l1 x l2 N2 E1 E2]; [contradiction|].
      apply (rn_entry _ _ _ _ ((k', v) :: l1) x l2); [|rewrite E1; reflexivity|rewrite E2; reflexivity].
      cbn. intros [H2|H2]; [congruence|auto].
  - apply rn_absent; [exact H|reflexivity].
Qed.

Lemma rename_effect pt to k p v : exists v', rename pt to (p ++ [RKey k]) v = Some v' /\
  (forall q o, reaches_obj pt p v q o -> exists o', at_path q v' = Some (VObj o') /\ renamed k to o o') /\
  (forall q, (forall t o, reaches_obj pt p v t o -> apart t q) -> at_path q v' = at_path q v).
Proof.
  eexists. split; [apply rename_ok|].
  assert (At : forall q x, In (q, x) (rt pt obj_end p v) -> at_path q v = Some x).
  { intros q x H. apply rt_obj in H. destruct H as (o & -> & H). eapply reaches_obj_at, H. }
  destruct (targets_replaced (rn k to) (rt pt obj_end p v) v (rt_sorted pt obj_end obj_end_sorted p v) At) as [A B].
  split.
  - intros q o H. specialize (A q (VObj o)). cbn [rn] in A. exists (if String.eqb k to then o else rename_first k to o). split.
    { apply A. apply rt_obj. exists o. auto. }
    destruct (String.eqb k to) eqn:E; [|apply rename_first_renamed]. apply String.eqb_eq in E. subst to. apply renamed_same.
  - intros q H. apply B. intros t x Ht. apply rt_obj in Ht. destruct Ht as (o & _ & Ht). eapply H. exact Ht.
Qed.

(** every member keeps being there, under its new name *)
Lemma renamed_get k to o o' : NoDup (map fst o) -> ~ In to (map fst o) -> renamed k to o o' ->
  forall j, get j o' = if String.eqb j to then get k o else if String.eqb j k then None else get j o.
Proof.
  intros ND Nto R j. destruct R as [N ->|l1 x l2 N -> ->].
  - destruct (String.eqb j to) eqn:E1.
    + apply String.eqb_eq in E1. subst j. transitivity (@None value); [apply get_none_notin, Nto|symmetry; apply get_none_notin, N].
    + destruct (String.eqb j k) eqn:E2; [|reflexivity]. apply String.eqb_eq in E2. subst j. apply get_none_notin, N.
  - assert (Ga : forall a (b : list (string * value)), get j (a ++ b) = match get j a with Some y => Some y | None => get j b end).
    { intros a b. induction a as [|[k' y] a IHa]; [reflexivity|]. cbn. destruct (String.eqb j k'); [reflexivity|exact IHa]. }
    assert (Gk : get k (l1 ++ (k, x) :: l2) = Some x).
    { clear - N. induction l1 as [|[k' y] l1 IHl]; cbn.
      - rewrite String.eqb_refl. reflexivity.
      - destruct (String.eqb k k') eqn:E; [apply String.eqb_eq in E; subst; destruct N; left; reflexivity|].
        apply IHl. intros H. apply N. right. exact H. }
    rewrite Gk, !Ga. cbn [get]. rewrite map_app in Nto, ND. cbn in Nto, ND.
    destruct (String.eqb j to) eqn:E1.
    + apply String.eqb_eq in E1. subst j. replace (get to l1) with (@None value); [reflexivity|].
      symmetry. apply get_none_notin. intros H. apply Nto, in_or_app. auto.
    + destruct (String.eqb j k) eqn:E2.
      * apply String.eqb_eq in E2. subst j. replace (get k l1) with (@None value) by (symmetry; apply get_none_notin, N).
        apply get_none_notin. apply NoDup_remove_2 in ND. intros H. apply ND, in_or_app. auto.
      * destruct (get j l1); reflexivity.
Qed.
