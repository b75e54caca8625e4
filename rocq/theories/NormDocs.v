From Coq Require Import String List Bool Arith Lia Permutation.
From Verif Require Import StrOrd StrUtil Ast CoerceModel CoerceProofs QplanModel QplanGroup CondModel NormModel NormSpec NormProofs NormMeaning NormTyped NormPasses.
Import ListNotations.
Local Open Scope list_scope.

Definition is_op (d : ndef) : bool := match d with NOp _ _ _ => true | NFrag _ _ _ => false end.

(** * The chosen operation *)
Definition frag_step (m : fragments) (d : ndef) : fragments :=
  match d with NFrag n t s => kput n {| fr_tc := t; fr_sels := s |} m | NOp _ _ _ => m end.
Lemma fragment_map_fold ds : fragment_map ds = fold_left frag_step ds [].
Proof. reflexivity. Qed.
Lemma keep_used_frags name found ds m :
  fold_left frag_step (fst (keep_used name found ds)) m = fold_left frag_step ds m.
Proof.
  revert found m; induction ds as [|[k n s|n t s] ds IH]; intros found m; cbn [keep_used fold_left frag_step]; [reflexivity| |].
  - destruct found; [apply IH|].
    destruct (match name with None => true | Some _ => same_name n name end); [|apply IH].
    specialize (IH true m). destruct (keep_used name true ds) as [r f]. exact IH.
  - specialize (IH found (kput n {| fr_tc := t; fr_sels := s |} m)). destruct (keep_used name found ds) as [r f]. exact IH.
Qed.
Lemma keep_used_found name ds : filter is_op (fst (keep_used name true ds)) = [].
Proof.
  induction ds as [|[k n s|n t s] ds IH]; cbn [keep_used]; [reflexivity|exact IH|].
  destruct (keep_used name true ds) as [r f]. exact IH.
Qed.
Lemma keep_used_chosen name ds r : keep_used name false ds = (r, true) ->
  exists d, chosen name ds = Some d /\ filter is_op r = [d].
Proof.
  revert r; induction ds as [|[k n s|n t s] ds IH]; intros r; cbn [keep_used].
  - discriminate.
  - unfold chosen; cbn [find]; fold (chosen name ds).
    destruct name as [m|].
    + destruct n as [n|]; cbn [same_name]; [|apply IH].
      destruct (String.eqb n m); [|apply IH].
      pose proof (keep_used_found (Some m) ds) as Hf. destruct (keep_used (Some m) true ds) as [r' f].
      intros E; injection E as <- ->. eexists; split; [reflexivity|]. cbn in *. rewrite Hf. reflexivity.
    + pose proof (keep_used_found None ds) as Hf. destruct (keep_used None true ds) as [r' f].
      intros E; injection E as <- ->. exists (NOp k n s); split; [destruct n; reflexivity|]. cbn in *. rewrite Hf. reflexivity.
  - unfold chosen; cbn [find]; fold (chosen name ds).
    destruct (keep_used name false ds) as [r' f]. intros E; injection E as <- ->.
    destruct (IH _ eq_refl) as (d & Hd & Hf). exists d; split; [|exact Hf].
    destruct name; exact Hd.
Qed.
Lemma drop_unused_ok name ds r : drop_unused name ds = Ok r ->
  (exists d, chosen name ds = Some d /\ filter is_op r = [d]) /\ fragment_map r = fragment_map ds.
Proof.
  unfold drop_unused. pose proof (keep_used_frags name false ds []) as Hf.
  destruct (keep_used name false ds) as [r' [|]] eqn:E; [|discriminate]. intros H; injection H as ->.
  split; [apply keep_used_chosen; exact E|exact Hf].
Qed.
Lemma chosen_op name ds d : chosen name ds = Some d -> is_op d = true.
Proof. unfold chosen. intros H; apply find_some in H as [_ H]. destruct d; [reflexivity|destruct name; discriminate]. Qed.
Lemma drop_unused_err name ds e : drop_unused name ds = Err e -> chosen name ds = None.
Proof.
  unfold drop_unused. destruct (keep_used name false ds) as [r' f] eqn:E. destruct f; [discriminate|]. intros _.
  revert r' E; induction ds as [|[k n s|n t s] ds IH]; intros r'; cbn [keep_used]; [reflexivity| |].
  - unfold chosen; cbn [find]; fold (chosen name ds).
    assert (forall r f, keep_used name true ds = (r, f) -> f = true) as Ht.
    { clear. induction ds as [|[k n s|n t s] ds IH]; cbn [keep_used]; intros r f H; [congruence|eauto|].
      destruct (keep_used name true ds) as [r' f'] eqn:E. injection H as <- <-. eapply IH; reflexivity. }
    destruct name as [m|].
    + destruct n as [n|]; cbn [same_name]; [|apply IH]. destruct (String.eqb n m); [|apply IH].
      destruct (keep_used (Some m) true ds) as [r f] eqn:E. intros H; injection H as <- ->. discriminate (Ht _ _ eq_refl).
    + destruct (keep_used None true ds) as [r f] eqn:E. intros H; injection H as <- ->. discriminate (Ht _ _ eq_refl).
  - unfold chosen; cbn [find]; fold (chosen name ds). destruct (keep_used name false ds) as [r f] eqn:E.
    intros H; injection H as <- ->. destruct name; eapply IH; reflexivity.
Qed.

(** * Passes over all definitions *)
Lemma map_frags_kput k n f m : map_frags k (kput n f m) =
  kput n {| fr_tc := fr_tc f; fr_sels := k (fr_sels f) |} (map_frags k m).
Proof.
  unfold kput. cbn [map_frags map fst snd]. f_equal. unfold kremove.
  induction m as [|[n' f'] m IH]; [reflexivity|]. cbn [filter fst map map_frags].
  destruct (negb (String.eqb n n')); cbn [map fst snd]; [f_equal|]; exact IH.
Qed.
Lemma fragment_map_sels k ds : fragment_map (map (map_sels k) ds) = map_frags k (fragment_map ds).
Proof.
  rewrite !fragment_map_fold. change (@nil (string * fragment)) with (map_frags k []) at 1. generalize (@nil (string * fragment)).
  induction ds as [|[o n s|n t s] ds IH]; intros m; cbn [map map_sels fold_left frag_step]; [reflexivity|apply IH|].
  change (kput n {| fr_tc := t; fr_sels := k s |} (map_frags k m)) with (kput n {| fr_tc := fr_tc {| fr_tc := t; fr_sels := s |}; fr_sels := k (fr_sels {| fr_tc := t; fr_sels := s |}) |} (map_frags k m)).
  rewrite <- map_frags_kput. apply IH.
Qed.
Lemma filter_map_sels k ds : filter is_op (map (map_sels k) ds) = map (map_sels k) (filter is_op ds).
Proof. induction ds as [|[o n s|n t s] ds IH]; cbn; [reflexivity|f_equal; exact IH|exact IH]. Qed.
Lemma filter_forall2 m ds out : Forall2 (fun d o => inline_def m d = Ok o) ds out ->
  Forall2 (fun d o => inline_def m d = Ok o) (filter is_op ds) (filter is_op out).
Proof.
  induction 1 as [|d o ds out Hd H IH]; [constructor|].
  destruct d as [k n s|n t s]; pose proof Hd as E; unfold inline_def in E; apply bind_ok in E as (s' & _ & E); injection E as <-; cbn [filter is_op];
    [constructor; auto|exact IH].
Qed.
Lemma one_def k d out : each_def k [d] = Ok out -> exists o, k d = Ok o /\ out = [o].
Proof. intros H. apply each_def_ok in H. inversion H as [|? o ? r Ho Hr]; subst. inversion Hr; subst. eauto. Qed.

Section Doc.
Context (sc : schema) (should_expand : string -> string -> bool) (root_type : opkind -> option string) (fuel : nat).
Context (on : directive -> bool) (OK : schema_ok sc) (L : lawful on).

Lemma on_op_ok k o n s d : on_op sc root_type k (NOp o n s) = Ok d ->
  exists t td s', root_type o = Some t /\ kget t sc = Some td /\ k t td s = Ok s' /\ d = NOp o n s'.
Proof.
  unfold on_op. destruct (root_type o) as [t|]; [|discriminate]. intros H. apply bind_ok in H as (td & Ht & H).
  apply bind_ok in H as (s' & Hs & H). injection H as <-. apply get_type_ok in Ht. exists t, td, s'. auto.
Qed.
Lemma pass_ok k o n s out : each_def (on_op sc root_type k) [NOp o n s] = Ok out ->
  exists t td s', root_type o = Some t /\ kget t sc = Some td /\ k t td s = Ok s' /\ out = [NOp o n s'].
Proof.
  intros H. apply one_def in H as (d & Hd & ->).
  apply on_op_ok in Hd as (t & td & s' & H1 & H2 & H3 & ->). exists t, td, s'. auto.
Qed.
Lemma normalize_ok name ds out : normalize sc should_expand root_type fuel name ds = Ok out ->
  exists k n s s' root, chosen name ds = Some (NOp k n s) /\ out = [NOp k n s'] /\ root_type k = Some root /\
    forall p, typed sc root p -> (selects sc on (fragment_map ds) s p <-> selects sc on [] s' p).
Proof.
  unfold normalize. intros H. apply bind_ok in H as (d1 & H1 & H). cbv zeta in H.
  apply drop_unused_ok in H1 as ((d & Hd & Hop) & Hfr).
  apply bind_ok in H as (d2 & H2 & H). apply each_def_ok, filter_forall2 in H2.
  rewrite !filter_map_sels, Hop in H2. cbn [map] in H2.
  rewrite !fragment_map_sels, Hfr in H2.
  pose proof (chosen_op _ _ _ Hd) as Hisop. destruct d as [k n s|]; [|discriminate]. cbn [map_sels] in H2.
  inversion H2 as [|? o ? r Ho Hr Ea Eb]; subst. inversion Hr; subst. clear H2 Hr.
  change (fun d : ndef => match d with | NOp _ _ _ => true | NFrag _ _ _ => false end) with is_op in H.
  unfold drop_fragments in H. change (fun d : ndef => match d with | NOp _ _ _ => true | NFrag _ _ _ => false end) with is_op in H.
  rewrite <- Eb in H.
  unfold inline_def in Ho. apply bind_ok in Ho as (s3 & Hs3 & Ho). injection Ho as <-.
  apply bind_ok in H as (x & Hx & H). apply pass_ok in Hx as (root & td & s4 & Hroot & Htd & Hs4 & ->).
  assert (forall k0 s0 x, each_def (on_op sc root_type k0) [NOp k n s0] = Ok x -> exists s', k0 root td s0 = Ok s' /\ x = [NOp k n s']) as Hpass.
  { intros k0 s0 x Hx. apply pass_ok in Hx as (t' & td' & s' & Ht' & Htd' & Hs' & ->).
    rewrite Hroot in Ht'; injection Ht' as <-. rewrite Htd in Htd'; injection Htd' as <-. eauto. }
  apply bind_ok in H as (x & Hx & H). apply Hpass in Hx as (s5 & Hs5 & ->).
  apply bind_ok in H as (x & Hx & H). apply Hpass in Hx as (s6 & Hs6 & ->).
  apply bind_ok in H as (x & Hx & H). apply Hpass in Hx as (s7 & Hs7 & ->).
  apply bind_ok in H as (x & Hx & H). apply Hpass in Hx as (s8 & Hs8 & ->).
  injection H as <-.
  exists k, n, s, (drop_duplicated s8), root. split; [exact Hd|]. split; [reflexivity|]. split; [exact Hroot|].
  intros p Hp. rewrite drop_duplicated_same.
  rewrite <- (merge_fields_same sc on fuel _ _ Hs8).
  rewrite <- (flatten_objects_keeps sc on OK _ _ _ _ Htd Hs7 p Hp).
  rewrite <- (merge_inline_keeps sc on OK fuel _ _ _ _ Htd Hs6 p Hp).
  rewrite <- (type_expand_keeps sc on OK should_expand _ _ _ _ Htd Hs5 p Hp).
  rewrite <- (flatten_keeps sc on OK fuel _ _ _ _ Htd Hs4 p Hp).
  rewrite (skipped_same sc on (fragment_map ds) L).
  rewrite (sorted_same sc on).
  eapply inlined_sels; [exact Hs3|]. apply applies_none. destruct (typed_runtime _ _ _ Hp) as (st & q & -> & _). discriminate.
Qed.
End Doc.

Lemma enabled_lawful vars : lawful (enabled vars).
Proof.
  intros d. unfold enabled, condition. split; intros Hn Hl; rewrite Hl.
  - rewrite (proj2 (String.eqb_eq _ _) Hn). reflexivity.
  - destruct (String.eqb_spec (d_name d) "skip") as [E|E]; [congruence|].
    rewrite (proj2 (String.eqb_eq _ _) Hn). reflexivity.
Qed.
