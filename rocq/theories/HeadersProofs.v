From Coq Require Import String Ascii List Bool NArith Lia.
From Verif Require Import StrUtil HeadersModel HeadersSpec.
Import ListNotations.
Local Open Scope string_scope.

Lemma mem_in s l : mem s l = true <-> In s l.
Proof.
  unfold mem. rewrite existsb_exists. split.
  - intros [x [Hx E]]. apply String.eqb_eq in E. subst. exact Hx.
  - intro H. exists s. split; [exact H|apply String.eqb_refl].
Qed.

Lemma denied_in n : is_denied_header n = true <-> In n hop_by_hop.
Proof. apply mem_in. Qed.

Lemma denied_response_in n :
  is_denied_response_header n = true <-> In n hop_by_hop \/ n = "content-type".
Proof.
  unfold is_denied_response_header. rewrite orb_true_iff. unfold is_denied_header.
  rewrite !mem_in. simpl. intuition congruence.
Qed.

Lemma never_join_in n : is_never_join_header n = true <-> In n never_join.
Proof. apply mem_in. Qed.

(** ** lines *)
Lemma lines_app n (a b : headers) : lines n (a ++ b)%list = (lines n a ++ lines n b)%list.
Proof. unfold lines. apply flat_map_app. Qed.

Lemma lines_append n m v h : lines n (happend m v h) = (lines n h ++ if String.eqb m n then [v] else [])%list.
Proof. unfold happend. rewrite lines_app. simpl. rewrite app_nil_r. reflexivity. Qed.

Lemma lines_remove_other n m h : m <> n -> lines n (hremove m h) = lines n h.
Proof.
  intro Hne. induction h as [|[k v] h IH]; simpl; [reflexivity|].
  destruct (String.eqb_spec m k) as [->|Hk]; simpl; rewrite IH; [|reflexivity].
  destruct (String.eqb_spec k n); [congruence|reflexivity].
Qed.

Lemma lines_remove_same n h : lines n (hremove n h) = [].
Proof.
  induction h as [|[k v] h IH]; simpl; [reflexivity|].
  destruct (String.eqb_spec n k) as [->|Hk]; simpl; [exact IH|].
  destruct (String.eqb_spec k n); [congruence|exact IH].
Qed.

Lemma lines_insert n m v h :
  lines n (hinsert m v h) = if String.eqb m n then [v] else lines n h.
Proof.
  unfold hinsert. rewrite lines_append. destruct (String.eqb_spec m n) as [->|Hne].
  - rewrite lines_remove_same. reflexivity.
  - rewrite lines_remove_other, app_nil_r by exact Hne. reflexivity.
Qed.

Lemma hget_lines n h : hget n h = hd_error (lines n h).
Proof.
  induction h as [|[k v] h IH]; simpl; [reflexivity|].
  rewrite (String.eqb_sym k n).
  destruct (String.eqb n k); simpl; [reflexivity|exact IH].
Qed.

Lemma hget_all_lines n h : hget_all n h = lines n h.
Proof.
  unfold hget_all. induction h as [|[k v] h IH]; simpl; [reflexivity|].
  rewrite (String.eqb_sym k n). destruct (String.eqb n k); simpl; rewrite IH; reflexivity.
Qed.

Lemma lines_filter_keep n (p : string * string -> bool) h :
  (forall v, p (n, v) = true) -> lines n (filter p h) = lines n h.
Proof.
  intro Hp. induction h as [|[k v] h IH]; simpl; [reflexivity|].
  destruct (p (k, v)) eqn:E; simpl; rewrite IH; [reflexivity|].
  destruct (String.eqb_spec k n) as [->|]; [rewrite Hp in E; discriminate|reflexivity].
Qed.

(** ** C19, requests *)
Lemma rq_named_loop_denied n rename client (Hn : is_denied_header n = true)
      (Hr : match rename with Some m => m <> n | None => True end) :
  forall names out matched,
    lines n (fst (rq_named_loop names rename client out matched)) = lines n out.
Proof.
  induction names as [|m names IH]; intros out matched; simpl; [reflexivity|].
  destruct (is_denied_header m) eqn:Em; [apply IH|].
  destruct (hget m client) as [v|]; [|apply IH].
  rewrite IH, lines_append.
  assert (Hd : String.eqb (or_name rename m) n = false).
  { apply String.eqb_neq. destruct rename; simpl; [exact Hr|congruence]. }
  rewrite Hd, app_nil_r. reflexivity.
Qed.

Lemma apply_request_rule_denied n sg client out r out' :
  is_denied_header n = true -> rq_rename_ok r ->
  apply_request_rule sg client out r = HOk out' -> lines n out' = lines n out.
Proof.
  intros Hn Hok. destruct r as [names default rename|inc exc|m v|m e|names|re]; simpl.
  - assert (Hr : match rename with Some m => m <> n | None => True end).
    { destruct rename; simpl in *; [|exact I]. intro E; subst.
      apply denied_in in Hn. contradiction. }
    pose proof (rq_named_loop_denied n rename client Hn Hr names out false) as L.
    destruct (rq_named_loop names rename client out false) as [out1 matched]. simpl in L.
    destruct matched; [intro H; inversion H; subst; exact L|].
    destruct default as [d|]; [|intro H; inversion H; subst; exact L].
    destruct names as [|n0 names]; [intro H; inversion H; subst; exact L|].
    destruct (is_denied_header (or_name rename n0)) eqn:Ed;
      intro H; inversion H; subst; [exact L|].
    rewrite lines_append, L.
    destruct (String.eqb_spec (or_name rename n0) n) as [E|]; [congruence|apply app_nil_r].
  - intro H; inversion H; subst; clear H.
    revert out. induction client as [|[k v] client IH]; intro out; simpl; [reflexivity|].
    rewrite IH. destruct (is_denied_header k) eqn:Ek; [reflexivity|].
    destruct (regex_selects inc exc k); [|reflexivity].
    rewrite lines_append. destruct (String.eqb_spec k n); [congruence|apply app_nil_r].
  - destruct (is_denied_header m) eqn:Em; [intro H; inversion H; subst; reflexivity|].
    assert (Hne : String.eqb m n = false) by (apply String.eqb_neq; congruence).
    destruct (is_never_join_header m); intro H; inversion H; subst;
      rewrite ?lines_append, ?lines_insert, Hne, ?app_nil_r; reflexivity.
  - destruct (is_denied_header m) eqn:Em; [intro H; inversion H; subst; reflexivity|].
    assert (Hne : String.eqb m n = false) by (apply String.eqb_neq; congruence).
    destruct (e sg client) as [| |v]; try discriminate;
      [intro H; inversion H; subst; reflexivity|].
    destruct (is_never_join_header m); intro H; inversion H; subst;
      rewrite ?lines_append, ?lines_insert, Hne, ?app_nil_r; reflexivity.
  - intro H; inversion H; subst; clear H.
    clear Hok. revert out. induction names as [|m names IH]; intro out; simpl; [reflexivity|].
    rewrite IH. destruct (is_denied_header m) eqn:Em; [reflexivity|].
    apply lines_remove_other. congruence.
  - intro H; inversion H; subst; clear H.
    apply lines_filter_keep. intro v. simpl. rewrite Hn. reflexivity.
Qed.

Lemma apply_request_rules_denied n sg client rules :
  In n hop_by_hop -> Forall rq_rename_ok rules ->
  forall out out', apply_request_rules sg client rules out = HOk out' ->
    lines n out' = lines n out.
Proof.
  intros Hn. apply denied_in in Hn.
  induction rules as [|r rules IH]; intros Hok out out' H; simpl in H.
  - inversion H. reflexivity.
  - inversion Hok as [|? ? Hr Hrest]; subst.
    destruct (apply_request_rule sg client out r) as [out1|] eqn:E; [|discriminate].
    rewrite (IH Hrest _ _ H). eapply apply_request_rule_denied; eauto.
Qed.

(** ** Aggregator *)
Lemma aget_aset n m e a :
  aget n (aset m e a) = if String.eqb n m then Some e else aget n a.
Proof.
  induction a as [|[k f] a IH]; simpl.
  - destruct (String.eqb n m); reflexivity.
  - destruct (String.eqb_spec m k) as [->|Hmk]; simpl.
    + destruct (String.eqb n k); reflexivity.
    + rewrite IH. destruct (String.eqb_spec n k) as [->|]; [|reflexivity].
      destruct (String.eqb_spec k m); [congruence|reflexivity].
Qed.

Lemma aget_aremove n m a : aget n (aremove m a) = if String.eqb n m then None else aget n a.
Proof.
  induction a as [|[k f] a IH]; simpl; [destruct (String.eqb n m); reflexivity|].
  destruct (String.eqb_spec m k) as [->|Hmk]; simpl; rewrite IH.
  - destruct (String.eqb n k); reflexivity.
  - destruct (String.eqb_spec n m) as [->|]; [|reflexivity].
    destruct (String.eqb_spec m k); [congruence|reflexivity].
Qed.

(** What a write does to the entry of its own name. *)
Definition write_entry (n v : string) (s : strategy) (o : option (strategy * list string)) :
  option (strategy * list string) :=
  match o with
  | None => Some (if is_never_join_header n then Append else s, [v])
  | Some (First, []) => Some (First, [v])
  | Some (First, vs) => Some (First, vs)
  | Some (Last, _) => Some (Last, [v])
  | Some (Append, vs) => Some (Append, (vs ++ [v])%list)
  end.

Lemma aget_write n m v s a :
  aget n (write m v s a) = if String.eqb n m then write_entry m v s (aget m a) else aget n a.
Proof.
  unfold write. destruct (aget m a) as [[[] vs]|] eqn:E; simpl.
  - destruct vs; [apply aget_aset|].
    destruct (String.eqb_spec n m); [subst; exact E|reflexivity].
  - apply aget_aset.
  - apply aget_aset.
  - apply aget_aset.
Qed.

Lemma aget_write_other n m v s a : m <> n -> aget n (write m v s a) = aget n a.
Proof. intro H. rewrite aget_write. destruct (String.eqb_spec n m); [congruence|reflexivity]. Qed.

Lemma aget_filter n (p : string * (strategy * list string) -> bool) a :
  (forall e, p (n, e) = true) -> aget n (filter p a) = aget n a.
Proof.
  intro Hp. induction a as [|[k f] a IH]; simpl; [reflexivity|].
  destruct (p (k, f)) eqn:E; simpl; rewrite IH; [reflexivity|].
  destruct (String.eqb_spec n k) as [<-|]; [rewrite Hp in E; discriminate|reflexivity].
Qed.

Lemma aget_fold_write_other n m s vs a :
  m <> n -> aget n (fold_left (fun a v => write m v s a) vs a) = aget n a.
Proof.
  intro H. revert a. induction vs as [|v vs IH]; intro a; simpl; [reflexivity|].
  rewrite IH. apply aget_write_other, H.
Qed.

(** ** C19, responses *)
Lemma rs_named_loop_denied n rename s sub (Hn : is_denied_response_header n = true)
      (Hr : match rename with Some m => m <> n | None => True end) :
  forall names a matched, aget n (fst (rs_named_loop names rename s sub a matched)) = aget n a.
Proof.
  induction names as [|m names IH]; intros a matched; simpl; [reflexivity|].
  destruct (is_denied_response_header m) eqn:Em; [apply IH|].
  rewrite IH. apply aget_fold_write_other.
  destruct rename; simpl; [exact Hr|congruence].
Qed.

Lemma apply_response_rule_denied n sg sub client a r a' :
  is_denied_response_header n = true -> rs_rename_ok r ->
  apply_response_rule sg sub client a r = HOk a' -> aget n a' = aget n a.
Proof.
  intros Hn Hok. destruct r as [names rename default s|inc exc s|m v s|m e s|names|re]; simpl.
  - assert (Hr : match rename with Some m => m <> n | None => True end).
    { destruct rename; simpl in *; [|exact I]. intro E; subst.
      apply denied_response_in in Hn. intuition. }
    pose proof (rs_named_loop_denied n rename s sub Hn Hr names a false) as L.
    destruct (rs_named_loop names rename s sub a false) as [a1 matched]. simpl in L.
    destruct matched; [intro H; inversion H; subst; exact L|].
    destruct default as [d|]; [|intro H; inversion H; subst; exact L].
    destruct names as [|n0 names]; [intro H; inversion H; subst; exact L|].
    destruct (is_denied_response_header (or_name rename n0)) eqn:Ed;
      intro H; inversion H; subst; [exact L|].
    rewrite aget_write_other; [exact L|congruence].
  - intro H; inversion H; subst; clear H.
    revert a. induction sub as [|[k v] sub IH]; intro a; simpl; [reflexivity|].
    rewrite IH. destruct (is_denied_response_header k) eqn:Ek; [reflexivity|].
    destruct (regex_selects inc exc k); [|reflexivity].
    apply aget_write_other. congruence.
  - destruct (is_denied_response_header m) eqn:Em; intro H; inversion H; subst; [reflexivity|].
    apply aget_write_other. congruence.
  - destruct (is_denied_response_header m) eqn:Em; [intro H; inversion H; subst; reflexivity|].
    destruct (e sg sub client) as [| |v]; try discriminate;
      intro H; inversion H; subst; [reflexivity|].
    apply aget_write_other. congruence.
  - intro H; inversion H; subst; clear H.
    clear Hok. revert a. induction names as [|m names IH]; intro a; simpl; [reflexivity|].
    rewrite IH. destruct (is_denied_response_header m) eqn:Em; [reflexivity|].
    rewrite aget_aremove. destruct (String.eqb_spec n m); [congruence|reflexivity].
  - intro H; inversion H; subst; clear H.
    apply aget_filter. intro e. simpl. rewrite Hn. reflexivity.
Qed.

Lemma apply_response_rules_denied n sg sub client rules :
  is_denied_response_header n = true -> Forall rs_rename_ok rules ->
  forall a, aget n (apply_response_rules sg sub client rules a) = aget n a.
Proof.
  intros Hn. induction rules as [|r rules IH]; intros Hok a; simpl; [reflexivity|].
  inversion Hok as [|? ? Hr Hrest]; subst.
  destruct (apply_response_rule sg sub client a r) as [a1|] eqn:E; [|reflexivity].
  rewrite (IH Hrest). eapply apply_response_rule_denied; eauto.
Qed.

Lemma apply_responses_denied n rules_of client resps :
  is_denied_response_header n = true -> (forall sg, Forall rs_rename_ok (rules_of sg)) ->
  forall a, aget n (apply_responses rules_of client resps a) = aget n a.
Proof.
  intros Hn Hok. unfold apply_responses.
  induction resps as [|[sg sub] resps IH]; intro a; simpl; [reflexivity|].
  rewrite IH. apply apply_response_rules_denied; auto.
Qed.

(** ** Emission *)

Definition emitted (n : string) (e : option (strategy * list string)) (old : list string) : list string :=
  match e with
  | None => old
  | Some (s, vs) =>
      match vs with
      | [] => old
      | _ :: _ =>
          if is_never_join_header n then (old ++ vs)%list
          else match vs, s with
               | [v], _ => [v]
               | vs, Append => [join ", " vs]
               | _, _ => old
               end
      end
  end.

Lemma lines_fold_append n m vs out :
  lines n (fold_left (fun o v => happend m v o) vs out) =
  (lines n out ++ if String.eqb m n then vs else [])%list.
Proof.
  revert out. induction vs as [|v vs IH]; intro out; simpl.
  - destruct (String.eqb m n); rewrite app_nil_r; reflexivity.
  - rewrite IH, lines_append. destruct (String.eqb m n); rewrite <- app_assoc; reflexivity.
Qed.

Lemma emit_entry_lines n m e out out' :
  emit_entry out m e = Some out' ->
  lines n out' = if String.eqb m n then emitted n (Some e) (lines n out) else lines n out.
Proof.
  destruct e as [s vs]. unfold emit_entry, emitted. cbn [fst snd].
  destruct vs as [|v vs]; [intro H; inversion H; subst; destruct (String.eqb m n); reflexivity|].
  destruct (is_never_join_header m) eqn:Ej.
  - intro H. apply (f_equal (fun o => match o with Some x => lines n x | None => [] end)) in H.
    cbv beta iota in H. rewrite <- H. rewrite (lines_fold_append n m (v :: vs) out).
    destruct (String.eqb_spec m n) as [->|]; [rewrite Ej; reflexivity|apply app_nil_r].
  - destruct vs as [|w vs].
    + intro H; inversion H; subst. rewrite lines_insert.
      destruct (String.eqb_spec m n) as [->|]; [rewrite Ej; reflexivity|reflexivity].
    + destruct s.
      * intro H; inversion H; subst. destruct (String.eqb_spec m n) as [->|]; [rewrite Ej|]; reflexivity.
      * intro H; inversion H; subst. destruct (String.eqb_spec m n) as [->|]; [rewrite Ej|]; reflexivity.
      * unfold join_with_comma. destruct (valid_value _); [|discriminate].
        intro H; inversion H; subst. rewrite lines_insert.
        destruct (String.eqb_spec m n) as [->|]; [rewrite Ej|]; reflexivity.
Qed.

Definition names_unique (a : agg) : Prop := NoDup (map fst a).

Lemma aget_none_notin n a : ~ In n (map fst a) -> aget n a = None.
Proof.
  induction a as [|[k e] a IH]; simpl; intro H; [reflexivity|].
  destruct (String.eqb_spec n k) as [->|]; [exfalso; auto|]. apply IH. auto.
Qed.

Lemma emit_lines n a : names_unique a -> forall out out', emit out a = Some out' ->
  lines n out' = emitted n (aget n a) (lines n out).
Proof.
  unfold names_unique. induction a as [|[k e] a IH]; intros Hu out out' H; simpl in *.
  - inversion H; subst. reflexivity.
  - inversion Hu as [|? ? Hk Hu']; subst.
    destruct (emit_entry out k e) as [out1|] eqn:E; [|discriminate].
    rewrite (IH Hu' _ _ H). rewrite (emit_entry_lines n _ _ _ _ E).
    rewrite (String.eqb_sym k n).
    destruct (String.eqb_spec n k) as [->|]; [|reflexivity].
    rewrite (aget_none_notin _ _ Hk). reflexivity.
Qed.

(** emission cannot fail *)
Definition values_valid (a : agg) : Prop :=
  Forall (fun kv => Forall (fun v => valid_value v = true) (snd (snd kv))) a.

Lemma valid_value_app a b : valid_value (a ++ b) = valid_value a && valid_value b.
Proof. apply all_chars_app. Qed.

Lemma valid_join vs : Forall (fun v => valid_value v = true) vs -> valid_value (join ", " vs) = true.
Proof.
  induction vs as [|v vs IH]; intro H; [reflexivity|].
  inversion H as [|? ? H1 H2]; subst. specialize (IH H2). cbn [join].
  destruct vs as [|w vs]; [exact H1|].
  rewrite !valid_value_app, H1, IH. reflexivity.
Qed.

Lemma emit_ok a : values_valid a -> forall out, exists out', emit out a = Some out'.
Proof.
  unfold values_valid. induction a as [|[k [s vs]] a IH]; intros H out; simpl; [eauto|].
  inversion H as [|? ? H1 H2]; subst. simpl in H1.
  assert (exists out1, emit_entry out k (s, vs) = Some out1) as [out1 E].
  { unfold emit_entry; simpl. destruct vs as [|v vs]; [eauto|].
    destruct (is_never_join_header k); [eauto|].
    destruct vs as [|w vs]; [eauto|]. destruct s; eauto.
    unfold join_with_comma. rewrite (valid_join _ H1). eauto. }
  rewrite E. apply IH, H2.
Qed.

(** names stay unique and values valid *)
Lemma aset_names n e a : map fst (aset n e a) = if mem n (map fst a) then map fst a else (map fst a ++ [n])%list.
Proof.
  induction a as [|[k f] a IH]; simpl; [reflexivity|].
  destruct (String.eqb n k) eqn:E; simpl; [reflexivity|]. rewrite IH.
  fold (mem n (map fst a)). destruct (mem n (map fst a)); reflexivity.
Qed.

Lemma aset_unique n e a : names_unique a -> names_unique (aset n e a).
Proof.
  unfold names_unique. intro H. rewrite aset_names.
  destruct (mem n (map fst a)) eqn:E; [exact H|].

  assert (~ In n (map fst a)) by (intro Hin; apply mem_in in Hin; congruence).
  clear E. induction (map fst a) as [|x l IH]; simpl; [constructor; [auto|constructor]|].
  inversion H as [|? ? H1 H2]; subst. constructor.
  - rewrite in_app_iff. simpl. intros [?|[?|[]]]; [contradiction|]. subst. apply H0. left; reflexivity.
  - apply IH; [exact H2|]. intro. apply H0. right; assumption.
Qed.

Lemma aset_values n s vs a :
  values_valid a -> Forall (fun v => valid_value v = true) vs -> values_valid (aset n (s, vs) a).
Proof.
  unfold values_valid. intros H Hv. induction a as [|[k f] a IH]; simpl.
  - repeat constructor. exact Hv.
  - inversion H as [|? ? H1 H2]; subst. destruct (String.eqb n k); constructor; auto.
Qed.

Lemma aget_values n a s vs :
  values_valid a -> aget n a = Some (s, vs) -> Forall (fun v => valid_value v = true) vs.
Proof.
  unfold values_valid. intro H. induction a as [|[k f] a IH]; simpl; [discriminate|].
  inversion H as [|? ? H1 H2]; subst. destruct (String.eqb n k); [|auto].
  intro E. inversion E; subst. exact H1.
Qed.

(** The invariant of the aggregator. *)
Definition agg_inv (a : agg) : Prop :=
  names_unique a /\ values_valid a /\
  (forall n s vs, aget n a = Some (s, vs) ->
     vs <> [] /\ (s <> Append -> exists v, vs = [v]) /\ (In n never_join -> s = Append)).

Lemma agg_inv_nil : agg_inv [].
Proof. split; [constructor|]. split; [constructor|]. intros n s vs H. discriminate H. Qed.

Lemma write_inv n v s a : agg_inv a -> valid_value v = true -> agg_inv (write n v s a).
Proof.
  intros (Hu & Hv & He) Hval. split; [|split].
  - unfold write. destruct (aget n a) as [[[] [|w vs]]|]; auto using aset_unique.
  - unfold write. destruct (aget n a) as [[[] vs]|] eqn:E; auto using aset_values.
    + destruct vs; auto using aset_values.
    + apply aset_values; [exact Hv|]. apply Forall_app. split; [|auto].
      eapply aget_values; eauto.
  - intros m s' vs'. rewrite aget_write.
    destruct (String.eqb_spec m n) as [->|]; [|apply He].
    specialize (He n). destruct (aget n a) as [[s0 vs]|]; simpl.
    + specialize (He s0 vs eq_refl) as (H1 & H2 & H3).
      destruct s0.
      * destruct vs; [congruence|]. intro E; inversion E; subst. auto.
      * intro E; inversion E; subst. split; [discriminate|]. split; eauto.
      * intro E; inversion E; subst. split; [destruct vs; discriminate|]. split; [congruence|auto].
    + intro E; inversion E; subst. split; [discriminate|]. split; [eauto|].
      intro Hin. apply never_join_in in Hin. rewrite Hin. reflexivity.
Qed.

Lemma fold_write_inv n s vs : Forall (fun v => valid_value v = true) vs ->
  forall a, agg_inv a -> agg_inv (fold_left (fun a v => write n v s a) vs a).
Proof.
  induction 1 as [|v vs Hv Hvs IH]; intros a Ha; simpl; [exact Ha|].
  apply IH, write_inv; auto.
Qed.

Lemma filter_inv p a : agg_inv a -> agg_inv (filter p a).
Proof.
  intros (Hu & Hv & He). unfold names_unique, values_valid in *.
  split; [|split].
  - clear -Hu. unfold names_unique. induction a as [|[k e] a IH]; simpl; [constructor|].
    simpl in Hu. inversion Hu as [|? ? H1 H2]; subst.
    destruct (p (k, e)); simpl; [|auto]. constructor; [|auto].
    intro Hin. apply H1. clear -Hin. induction a as [|[k' e'] a IH]; simpl in *; [exact Hin|].
    destruct (p (k', e')); simpl in *; tauto.
  - unfold values_valid. apply Forall_forall. intros x Hx. apply filter_In in Hx as [Hx _].
    rewrite Forall_forall in Hv. auto.
  - intros n s vs H. apply (He n). clear He Hv.
    induction a as [|[k e] a IH]; simpl in *; [exact H|].
    inversion Hu as [|? ? H1 H2]; subst.
    destruct (p (k, e)); simpl in *.
    + destruct (String.eqb n k); [exact H|auto].
    + destruct (String.eqb_spec n k) as [->|]; [|auto].
      specialize (IH H2 H). exfalso. rewrite (aget_none_notin _ _ H1) in IH. discriminate.
Qed.

Definition headers_valid (h : headers) : Prop := Forall (fun kv => valid_value (snd kv) = true) h.

(** Values a rule can write by itself are header values by type. *)
Definition rs_rule_valid (r : response_rule) : Prop :=
  match r with
  | RsPropagateNamed _ _ (Some d) _ => valid_value d = true
  | RsInsertStatic _ v _ => valid_value v = true
  | RsInsertExpr _ e _ => forall sg h c v, e sg h c = ExprVal v -> valid_value v = true
  | _ => True
  end.

Lemma lines_valid n h : headers_valid h -> Forall (fun v => valid_value v = true) (lines n h).
Proof.
  unfold headers_valid, lines. induction 1 as [|[k v] h Hv Hh IH]; simpl; [constructor|].
  destruct (String.eqb k n); simpl; auto.
Qed.

Lemma rs_named_loop_inv rename s sub (Hs : headers_valid sub) names :
  forall a matched, agg_inv a -> agg_inv (fst (rs_named_loop names rename s sub a matched)).
Proof.
  induction names as [|n names IH]; intros a matched Ha; simpl; [exact Ha|].
  destruct (is_denied_response_header n); [auto|].
  apply IH, fold_write_inv; [|exact Ha].
  pose proof (lines_valid n sub Hs) as L.
  rewrite hget_all_lines, hget_lines.
  destruct (is_never_join_header n); [exact L|].
  destruct (lines n sub) as [|v l]; simpl; [constructor|]. inversion L; auto.
Qed.

Lemma apply_response_rule_inv sg sub client a r a' :
  headers_valid sub -> rs_rule_valid r -> agg_inv a ->
  apply_response_rule sg sub client a r = HOk a' -> agg_inv a'.
Proof.
  intros Hs Hr Ha. destruct r as [names rename default s|inc exc s|m v s|m e s|names|re]; simpl in *.
  - pose proof (rs_named_loop_inv rename s sub Hs names a false Ha) as L.
    destruct (rs_named_loop names rename s sub a false) as [a1 matched]. simpl in L.
    destruct matched; [intro H; inversion H; subst; exact L|].
    destruct default as [d|]; [|intro H; inversion H; subst; exact L].
    destruct names as [|n0 names]; [intro H; inversion H; subst; exact L|].
    destruct (is_denied_response_header (or_name rename n0)) eqn:Ed;
      intro H; inversion H; subst; [exact L|]. apply write_inv; assumption.
  - intro H; inversion H; subst; clear H. revert a Ha.
    induction Hs as [|[k v] sub Hv Hs IH]; intros a Ha; simpl; [exact Ha|].
    apply IH. destruct (is_denied_response_header k); [exact Ha|].
    destruct (regex_selects inc exc k); [|exact Ha]. apply write_inv; assumption.
  - destruct (is_denied_response_header m); intro H; inversion H; subst; [exact Ha|].
    apply write_inv; assumption.
  - destruct (is_denied_response_header m); [intro H; inversion H; subst; exact Ha|].
    destruct (e sg sub client) as [| |v] eqn:E; try discriminate;
      intro H; inversion H; subst; [exact Ha|]. apply write_inv; eauto.
  - intro H; inversion H; subst; clear H. revert a Ha.
    induction names as [|m names IH]; intros a Ha; simpl; [exact Ha|].
    apply IH. destruct (is_denied_response_header m); [exact Ha|]. apply filter_inv, Ha.
  - intro H; inversion H; subst; clear H. apply filter_inv, Ha.
Qed.

Lemma apply_response_rules_inv sg sub client rules :
  headers_valid sub -> Forall rs_rule_valid rules ->
  forall a, agg_inv a -> agg_inv (apply_response_rules sg sub client rules a).
Proof.
  intros Hs. induction rules as [|r rules IH]; intros Hr a Ha; simpl; [exact Ha|].
  inversion Hr as [|? ? H1 H2]; subst.
  destruct (apply_response_rule sg sub client a r) as [a1|] eqn:E; [|exact Ha].
  apply IH; [exact H2|]. eapply apply_response_rule_inv; eauto.
Qed.

Lemma apply_responses_inv rules_of client resps :
  Forall (fun r => headers_valid (snd r)) resps ->
  (forall sg, Forall rs_rule_valid (rules_of sg)) ->
  forall a, agg_inv a -> agg_inv (apply_responses rules_of client resps a).
Proof.
  intros Hs Hr. unfold apply_responses. induction Hs as [|[sg sub] resps H1 H2 IH]; intros a Ha; simpl; [exact Ha|].
  apply IH. apply apply_response_rules_inv; auto.
Qed.

Lemma response_never_leaks n rules_of client resps out out' :
  In n hop_by_hop \/ n = "content-type" ->
  (forall sg, Forall rs_rename_ok (rules_of sg)) ->
  (forall sg, Forall rs_rule_valid (rules_of sg)) ->
  Forall (fun r => headers_valid (snd r)) resps ->
  emit out (apply_responses rules_of client resps []) = Some out' ->
  lines n out' = lines n out.
Proof.
  intros Hn Hok Hv Hs H.
  assert (I := apply_responses_inv rules_of client resps Hs Hv [] agg_inv_nil).
  rewrite (emit_lines n _ (proj1 I) _ _ H).
  apply denied_response_in in Hn.
  rewrite (apply_responses_denied n rules_of client resps Hn Hok []). reflexivity.
Qed.

(** ** C20 *)
Fixpoint write_history (n : string) (ws : list (string * strategy)) (o : option (strategy * list string)) :=
  match ws with
  | [] => o
  | (v, s) :: ws' => write_history n ws' (write_entry n v s o)
  end.

Lemma fold_write_same n s vs : forall a,
  aget n (fold_left (fun a v => write n v s a) vs a) =
  write_history n (map (fun v => (v, s)) vs) (aget n a).
Proof.
  induction vs as [|v vs IH]; intro a; simpl; [reflexivity|].
  rewrite IH, aget_write, String.eqb_refl. reflexivity.
Qed.

Lemma write_history_app n a b o :
  write_history n (a ++ b)%list o = write_history n b (write_history n a o).
Proof. revert o. induction a as [|[v s] a IH]; intro o; simpl; auto. Qed.

(** closed form of a history of writes with one strategy *)
Definition entry_of (n : string) (s : strategy) (vs : list string) : option (strategy * list string) :=
  match vs with
  | [] => None
  | _ :: _ =>
      if is_never_join_header n then Some (Append, vs)
      else match s with
           | First => Some (First, first_of vs)
           | Last => Some (Last, last_of vs)
           | Append => Some (Append, vs)
           end
  end.

Lemma write_history_entry n s vs :
  write_history n (map (fun v => (v, s)) vs) None = entry_of n s vs.
Proof.
  induction vs as [|v vs IH] using rev_ind; [reflexivity|].
  rewrite map_app, write_history_app, IH. cbn [map write_history].
  unfold entry_of. destruct vs as [|w vs].
  - simpl. destruct (is_never_join_header n); [reflexivity|]. destruct s; reflexivity.
  - cbn [app]. destruct (is_never_join_header n); [reflexivity|].
    destruct s; try reflexivity.
    cbn [write_entry]. unfold last_of.
    change (w :: (vs ++ [v]))%list with ((w :: vs) ++ [v])%list.
    rewrite rev_app_distr. reflexivity.
Qed.

Lemma single_rule_responses n s client resps :
  is_denied_response_header n = false ->
  let vs := if is_never_join_header n then all_lines n resps else first_lines n resps in
  forall a, aget n (apply_responses (fun _ => [RsPropagateNamed [n] None None s]) client resps a) =
    write_history n (map (fun v => (v, s)) vs) (aget n a).
Proof.
  intros Hd. cbv zeta. unfold apply_responses, all_lines, first_lines.
  induction resps as [|[sg sub] resps IH]; intro a.
  - destruct (is_never_join_header n); reflexivity.
  - cbn [fold_left fst snd]. rewrite IH. clear IH. cbn [flat_map fst snd].
    cbn [apply_response_rules apply_response_rule rs_named_loop]. rewrite Hd. cbn [or_name].
    set (ws := if is_never_join_header n then hget_all n sub else _).
    assert (Ews : ws = if is_never_join_header n then lines n sub else first_of (lines n sub)).
    { subst ws. rewrite hget_all_lines, hget_lines.
      destruct (is_never_join_header n); [reflexivity|]. destruct (lines n sub); reflexivity. }
    set (m := (false || _)). 
    assert (Ea : (if m then HOk (fold_left (fun (a : agg) (v : string) => write n v s a) ws a)
                  else HOk (fold_left (fun (a : agg) (v : string) => write n v s a) ws a))
                 = HOk (fold_left (fun (a : agg) (v : string) => write n v s a) ws a))
      by (destruct m; reflexivity).
    rewrite Ea. rewrite fold_write_same, Ews.
    destruct (is_never_join_header n); rewrite map_app, write_history_app; reflexivity.
Qed.

Lemma single_rule_client_lines n s client resps out out' :
  ~ In n hop_by_hop -> n <> "content-type" ->
  Forall (fun r => headers_valid (snd r)) resps ->
  emit out (apply_responses (fun _ => [RsPropagateNamed [n] None None s]) client resps []) = Some out' ->
  lines n out' =
    if is_never_join_header n then (lines n out ++ all_lines n resps)%list
    else match first_lines n resps with
         | [] => lines n out
         | vs => aggregated s vs
         end.
Proof.
  intros H1 H2 Hs H.
  assert (Hd : is_denied_response_header n = false).
  { destruct (is_denied_response_header n) eqn:E; [|reflexivity].
    apply denied_response_in in E. intuition. }
  assert (I : agg_inv (apply_responses (fun _ => [RsPropagateNamed [n] None None s]) client resps [])).
  { apply apply_responses_inv; [exact Hs| |apply agg_inv_nil]. intros _. repeat constructor. }
  rewrite (emit_lines n _ (proj1 I) _ _ H).
  rewrite (single_rule_responses n s client resps Hd []). cbn [aget].
  rewrite write_history_entry. unfold entry_of, emitted.
  destruct (is_never_join_header n) eqn:Ej.
  - destruct (all_lines n resps); [rewrite app_nil_r|]; reflexivity.
  - destruct (first_lines n resps) as [|v vs]; [reflexivity|].
    destruct s; cbn [aggregated first_of].
    + reflexivity.
    + unfold last_of. destruct (rev (v :: vs)) as [|w l] eqn:E.
      * apply (f_equal (@length _)) in E. rewrite rev_length in E. discriminate.
      * reflexivity.
    + destruct vs; reflexivity.
Qed.

Lemma emit_total rules_of client resps out :
  Forall (fun r => headers_valid (snd r)) resps ->
  (forall sg, Forall rs_rule_valid (rules_of sg)) ->
  exists out', emit out (apply_responses rules_of client resps []) = Some out'.
Proof.
  intros Hs Hv. apply emit_ok.
  exact (proj1 (proj2 (apply_responses_inv rules_of client resps Hs Hv [] agg_inv_nil))).
Qed.

(** Whatever the rules, everything the aggregator holds is shown to the client. *)
Definition shown (n : string) (s : strategy) (vs shown_lines : list string) : Prop :=
  if is_never_join_header n then forall v, In v vs -> In v shown_lines
  else shown_lines = [join ", " vs].

Lemma aggregator_loses_nothing n rules_of client resps out out' s vs :
  Forall (fun r => headers_valid (snd r)) resps ->
  (forall sg, Forall rs_rule_valid (rules_of sg)) ->
  emit out (apply_responses rules_of client resps []) = Some out' ->
  aget n (apply_responses rules_of client resps []) = Some (s, vs) ->
  if is_never_join_header n then lines n out' = (lines n out ++ vs)%list
  else lines n out' = [join ", " vs].
Proof.
  intros Hs Hv H Hg.
  assert (I := apply_responses_inv rules_of client resps Hs Hv [] agg_inv_nil).
  rewrite (emit_lines n _ (proj1 I) _ _ H), Hg. unfold emitted.
  destruct I as (_ & _ & He). destruct (He n s vs Hg) as (Hne & H1 & H2).
  destruct vs as [|v vs]; [congruence|].
  destruct (is_never_join_header n); [reflexivity|].
  destruct vs as [|w vs]; [reflexivity|].
  destruct s; try reflexivity; destruct H1 as [x Hx]; try discriminate; congruence.
Qed.
