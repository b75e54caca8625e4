(** Proofs about response extensions. *)
From Coq Require Import String List Bool Permutation.
From Verif Require Import JsonModel MaskModel MaskProofs ExtsModel ExtsSpec.
Import ListNotations.
Local Open Scope string_scope.

Lemma write_keys k v s a x : In x (map fst (write k v s a)) <-> x = k \/ In x (map fst a).
Proof.
  induction a as [|[k' [s' vs]] a IH]; cbn [write map fst In]; [intuition|]. destruct (String.eqb k k') eqn:E; cbn [map fst In].
  - apply String.eqb_eq in E. subst k'. intuition.
  - rewrite IH. intuition.
Qed.
Lemma write_nodup k v s a : NoDup (map fst a) -> NoDup (map fst (write k v s a)).
Proof.
  induction a as [|[k' [s' vs]] a IH]; cbn [write map fst]; intros N; [constructor; [intros []|constructor]|].
  apply NoDup_cons_iff in N. destruct N as [N1 N2]. destruct (String.eqb k k') eqn:E; cbn [map fst]; constructor; auto.
  rewrite write_keys. intros [H|H]; [|exact (N1 H)]. subst k'. rewrite String.eqb_refl in E. discriminate E.
Qed.
Definition upd (s : strategy) (v : value) (o : option (strategy * list value)) : strategy * list value :=
  match o with
  | None => (s, [v])
  | Some (s', vs) => (s', match s with First => vs | Last => [v] | Append => (vs ++ [v])%list end)
  end.
Lemma write_get j k v s a : aget j (write k v s a) = if String.eqb j k then Some (upd s v (aget k a)) else aget j a.
Proof.
  unfold aget. induction a as [|[k' [s' vs]] a IH]; cbn [write find fst].
  - destruct (String.eqb j k); reflexivity.
  - destruct (String.eqb k k') eqn:E; cbn [find fst].
    + apply String.eqb_eq in E. subst k'. destruct (String.eqb j k); reflexivity.
    + destruct (String.eqb j k') eqn:Ej; [|exact IH]. apply String.eqb_eq in Ej. subst j. destruct (String.eqb k' k) eqn:Ek; [|reflexivity].
      apply String.eqb_eq in Ek. subst k'. rewrite String.eqb_refl in E. discriminate E.
Qed.
(** The entry of a key after the values sent under it. *)
Definition entry (s : strategy) (vs : list value) (o : option (strategy * list value)) : option (strategy * list value) :=
  fold_left (fun o v => Some (upd s v o)) vs o.
Lemma fold_get p k o : forall a,
  aget k (fold_left (fun a kv => if passes p (fst kv) then write (fst kv) (snd kv) (p_strategy p) a else a) o a)
  = if passes p k then entry (p_strategy p) (map snd (filter (fun kv => String.eqb k (fst kv)) o)) (aget k a) else aget k a.
Proof.
  induction o as [|[k' v] o IH]; intros a; cbn [fold_left filter fst snd map].
  - destruct (passes p k); reflexivity.
  - rewrite IH. destruct (String.eqb k k') eqn:E.
    + apply String.eqb_eq in E. subst k'. destruct (passes p k) eqn:P; [|reflexivity]. cbn [map snd]. unfold entry. cbn [fold_left].
      rewrite write_get, String.eqb_refl. reflexivity.
    + destruct (passes p k'); [|reflexivity]. rewrite write_get, E. reflexivity.
Qed.
Lemma fold_nodup p o : forall a, NoDup (map fst a) ->
  NoDup (map fst (fold_left (fun a kv => if passes p (fst kv) then write (fst kv) (snd kv) (p_strategy p) a else a) o a)).
Proof.
  induction o as [|[k v] o IH]; intros a N; cbn [fold_left fst snd]; [exact N|]. apply IH. destruct (passes p k); [apply write_nodup|]; exact N.
Qed.
Lemma collect_nodup plan rs : NoDup (map fst (collect plan rs)).
Proof.
  unfold collect. assert (G : forall a, NoDup (map fst a) -> NoDup (map fst (fold_left (fun a r => match r with Some v => apply_exts plan a v | None => a end) rs a))).
  { induction rs as [|r rs IH]; intros a N; cbn [fold_left]; [exact N|]. apply IH. destruct r as [v|]; [|exact N]. unfold apply_exts.
    destruct plan as [p|]; [|exact N]. destruct v; try exact N. apply fold_nodup, N. }
  apply G. constructor.
Qed.
Lemma entry_app s a b o : entry s (a ++ b)%list o = entry s b (entry s a o).
Proof. apply fold_left_app. Qed.
Lemma collect_get p k rs : aget k (collect (Some p) rs) = if passes p k then entry (p_strategy p) (sent k rs) None else None.
Proof.
  unfold collect. assert (G : forall a, aget k (fold_left (fun a r => match r with Some v => apply_exts (Some p) a v | None => a end) rs a)
    = if passes p k then entry (p_strategy p) (sent k rs) (aget k a) else aget k a).
  { induction rs as [|r rs IH]; intros a; cbn [fold_left]; [destruct (passes p k); reflexivity|]. rewrite IH. unfold sent. cbn [flat_map]. fold (sent k rs).
    rewrite entry_app. destruct r as [v|]; [|reflexivity]. destruct v; try reflexivity. cbn [apply_exts]. rewrite fold_get. destruct (passes p k); reflexivity. }
  rewrite G. destruct (passes p k); reflexivity.
Qed.
Lemma collect_none rs : collect None rs = [].
Proof.
  unfold collect. assert (G : forall a, fold_left (fun a r => match r with Some v => apply_exts None a v | None => a end) rs a = a).
  { induction rs as [|r rs IH]; intros a; cbn [fold_left]; [reflexivity|]. rewrite IH. destruct r; reflexivity. }
  apply G.
Qed.
Lemma entry_first v vs : entry First (v :: vs) None = Some (First, [v]).
Proof. unfold entry. cbn [fold_left upd]. induction vs as [|w vs IH]; cbn [fold_left upd]; [reflexivity|exact IH]. Qed.
Lemma entry_last v vs : entry Last (v :: vs) None = Some (Last, [last (v :: vs) v]).
Proof.
  unfold entry. cbn [fold_left upd]. change (last (v :: vs) v) with (last (v :: vs) v).
  assert (G : forall w d, fold_left (fun o v0 => Some (upd Last v0 o)) vs (Some (Last, [w])) = Some (Last, [last (w :: vs) d])).
  { induction vs as [|x vs IH]; intros w d; [reflexivity|]. cbn [fold_left upd]. rewrite (IH x d). reflexivity. }
  apply G.
Qed.
Lemma entry_append v vs : entry Append (v :: vs) None = Some (Append, v :: vs).
Proof.
  unfold entry. cbn [fold_left upd]. assert (G : forall w, fold_left (fun o v0 => Some (upd Append v0 o)) vs (Some (Append, w)) = Some (Append, (w ++ vs)%list)).
  { induction vs as [|x vs IH]; intros w; cbn [fold_left upd]; [rewrite app_nil_r; reflexivity|]. rewrite IH, <- app_assoc. reflexivity. }
  apply (G [v]).
Qed.
Lemma collected p k rs : aget k (collect (Some p) rs) =
  if passes p k then match sent k rs with
                     | [] => None
                     | v :: vs => Some (p_strategy p, match p_strategy p with First => [v] | Last => [last (v :: vs) v] | Append => v :: vs end)
                     end else None.
Proof.
  rewrite collect_get. destruct (passes p k); [|reflexivity]. destruct (sent k rs) as [|v vs]; [reflexivity|].
  destruct (p_strategy p); [apply entry_first|apply entry_last|apply entry_append].
Qed.

Section M.
  Variable J : Type.
  Variable conv : value -> J.
  Variable arr : list J -> J.
  Lemma or_insert_get k j v (t : list (string * J)) : aget k (or_insert j v t) = match aget k t with Some x => Some x | None => if String.eqb k j then Some v else None end.
  Proof.
    unfold or_insert. destruct (aget j t) as [x|] eqn:E.
    - destruct (aget k t) eqn:Ek; [reflexivity|]. destruct (String.eqb k j) eqn:Ekj; [|reflexivity]. apply String.eqb_eq in Ekj. congruence.
    - rewrite aget_app. destruct (aget k t); [reflexivity|]. unfold aget. cbn [find fst]. destruct (String.eqb k j); reflexivity.
  Qed.
  Lemma or_insert_nodup k v (t : list (string * J)) : NoDup (map fst t) -> NoDup (map fst (or_insert k v t)).
  Proof.
    intros N. unfold or_insert. destruct (aget k t) eqn:E; [exact N|]. rewrite map_app. cbn [map fst].
    apply NoDup_rev in N. rewrite <- (rev_involutive (map fst t ++ [k])). apply NoDup_rev. rewrite rev_app_distr. cbn [rev app]. constructor; [|exact N].
    rewrite <- in_rev. intros H. apply in_map_iff in H. destruct H as ([k' v'] & Ek & H). cbn [fst] in Ek. subst k'. exact (aget_none k t E v' H).
  Qed.
  Definition good (a : agg) : Prop := forall k e, In (k, e) a -> final conv arr e <> None.
  Lemma merge_get a : forall t, NoDup (map fst a) -> good a -> exists t', merge_into conv arr a t = Some t' /\
    (NoDup (map fst t) -> NoDup (map fst t')) /\
    forall k, aget k t' = match aget k t with Some x => Some x | None => match aget k a with Some e => final conv arr e | None => None end end.
  Proof.
    induction a as [|[k e] a IH]; intros t N G; cbn [merge_into].
    - exists t. split; [reflexivity|]. split; [auto|]. intros k. destruct (aget k t); reflexivity.
    - cbn [map fst] in N. apply NoDup_cons_iff in N. destruct N as [N1 N]. destruct (final conv arr e) as [j|] eqn:Ef; [|exfalso; apply (G k e); [left; reflexivity|exact Ef]].
      destruct (IH (or_insert k j t) N) as (t' & E & Nd & H); [intros k' e' H; apply (G k'); right; exact H|]. exists t'. split; [exact E|].
      split; [intros Nt; apply Nd, or_insert_nodup, Nt|]. intros k'. rewrite H, or_insert_get. destruct (aget k' t); [reflexivity|].
      change (aget k' ((k, e) :: a)) with (option_map snd (if String.eqb k' k then Some (k, e) else find (fun kv => String.eqb k' (fst kv)) a)).
      destruct (String.eqb k' k) eqn:Ek; [|reflexivity]. cbn [option_map snd]. rewrite Ef. reflexivity.
  Qed.
  Lemma aget_perm k (a a' : agg) : NoDup (map fst a) -> Permutation a a' -> aget k a = aget k a'.
  Proof.
    intros N P. destruct (aget k a) as [e|] eqn:E.
    - apply aget_in in E. apply (Permutation_in _ P) in E. destruct (aget k a') as [e'|] eqn:E'; [|exfalso; exact (aget_none k a' E' e E)].
      apply aget_in in E'. f_equal. assert (N' : NoDup (map fst a')) by (eapply Permutation_NoDup; [apply Permutation_map, P|exact N]).
      clear -E E' N'. induction a' as [|[q w] a' IH]; [destruct E|]. cbn [map fst] in N'. apply NoDup_cons_iff in N'. destruct N' as [N1 N2].
      destruct E as [E|E], E' as [E'|E'].
      + congruence.
      + injection E as -> ->. exfalso. apply N1. apply (in_map fst) in E'. exact E'.
      + injection E' as -> ->. exfalso. apply N1. apply (in_map fst) in E. exact E.
      + apply IH; assumption.
    - destruct (aget k a') as [e'|] eqn:E'; [|reflexivity]. exfalso. apply aget_in in E'. apply (Permutation_in _ (Permutation_sym P)) in E'. exact (aget_none k a E e' E').
  Qed.
  Lemma collect_good plan rs : good (collect plan rs).
  Proof.
    intros k e H. destruct plan as [p|]; [|rewrite collect_none in H; destruct H].
    assert (E : aget k (collect (Some p) rs) = Some e).
    { pose proof (collect_nodup (Some p) rs) as N. clear -H N. induction (collect (Some p) rs) as [|[q w] a IH]; [destruct H|]. cbn [map fst] in N. apply NoDup_cons_iff in N. destruct N as [N1 N2].
      unfold aget. cbn [find fst]. destruct (String.eqb k q) eqn:E.
      - apply String.eqb_eq in E. subst q. destruct H as [H|H]; [injection H as ->; reflexivity|]. exfalso. apply N1. apply (in_map fst) in H. exact H.
      - destruct H as [H|H]; [injection H as -> ->; rewrite String.eqb_refl in E; discriminate E|]. apply IH; assumption. }
    rewrite collected in E. destruct (passes p k); [|discriminate E]. destruct (sent k rs) as [|v vs]; [discriminate E|]. injection E as <-.
    unfold final. cbn [fst snd]. destruct (p_strategy p); discriminate.
  Qed.
  (** Whatever the order of the hash map. *)
  Lemma aggregation_exact plan rs a t : Permutation (collect plan rs) a -> exists t', merge_into conv arr a t = Some t' /\
    (NoDup (map fst t) -> NoDup (map fst t')) /\
    forall k, aget k t' = match aget k t with Some x => Some x | None => propagated conv arr plan k rs end.
  Proof.
    intros P. pose proof (collect_nodup plan rs) as N. assert (N' : NoDup (map fst a)) by (eapply Permutation_NoDup; [apply Permutation_map, P|exact N]).
    assert (G : good a). { intros k e H. apply (collect_good plan rs k). eapply Permutation_in; [apply Permutation_sym, P|exact H]. }
    destruct (merge_get a t N' G) as (t' & E & Nd & H). exists t'. split; [exact E|]. split; [exact Nd|]. intros k. rewrite H. destruct (aget k t); [reflexivity|].
    rewrite <- (aget_perm k (collect plan rs) a N P). unfold propagated. destruct plan as [p|]; [|rewrite collect_none; reflexivity].
    rewrite collected. unfold allowed, passes. destruct (negb (String.eqb k "queryPlan") && _); [|reflexivity].
    destruct (sent k rs) as [|v vs]; [reflexivity|]. unfold final. cbn [fst snd]. destruct (p_strategy p); reflexivity.
  Qed.
  Lemma query_plan_reserved plan rs a t t' q : Permutation (collect plan rs) a -> merge_into conv arr a t = Some t' ->
    aget "queryPlan" t = None -> aget "queryPlan" (written q t') = q /\ aget "queryPlan" t' = None.
  Proof.
    intros P E N. destruct (aggregation_exact plan rs a t P) as (t1 & E1 & _ & H). rewrite E1 in E. injection E as <-.
    assert (K : aget "queryPlan" t1 = None) by (rewrite H, N; unfold propagated, allowed; destruct plan; reflexivity).
    split; [|exact K]. unfold written. rewrite aget_app, K. destruct q; reflexivity.
  Qed.
End M.
