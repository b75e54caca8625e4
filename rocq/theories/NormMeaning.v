From Coq Require Import String List Bool Arith Lia Permutation.
From Verif Require Import StrOrd StrUtil Ast CoerceModel CoerceProofs QplanModel QplanGroup CondModel NormModel NormSpec NormProofs.
Import ListNotations.
Local Open Scope list_scope.

Section Meaning.
Context (sc : schema) (on : directive -> bool) (env : fragments).
Notation picks := (picks sc on env).
Notation selects := (selects sc on env).

Lemma selects_nil p : selects [] p <-> False.
Proof. split; [intros (s & [] & _)|tauto]. Qed.
Lemma selects_cons s l p : selects (s :: l) p <-> picks s p \/ selects l p.
Proof.
  split.
  - intros (x & [<-|Hx] & H); [left; exact H|right; exists x; auto].
  - intros [H|(x & Hx & H)]; [exists s|exists x]; cbn; auto.
Qed.
Lemma selects_one s p : selects [s] p <-> picks s p.
Proof. rewrite selects_cons, selects_nil. tauto. Qed.
Lemma selects_app l l' p : selects (l ++ l') p <-> selects l p \/ selects l' p.
Proof.
  split.
  - intros (x & Hx & H). apply in_app_or in Hx as [Hx|Hx]; [left|right]; exists x; auto.
  - intros [(x & Hx & H)|(x & Hx & H)]; exists x; split; auto; apply in_or_app; auto.
Qed.
Lemma selects_concat ls p : selects (concat ls) p <-> exists l, In l ls /\ selects l p.
Proof.
  induction ls as [|l ls IH]; cbn [concat].
  - rewrite selects_nil. split; [tauto|intros (l & [] & _)].
  - rewrite selects_app, IH. split.
    + intros [H|(x & Hx & H)]; [exists l|exists x]; cbn; auto.
    + intros (x & [<-|Hx] & H); [left; exact H|right; exists x; auto].
Qed.
Lemma selects_flat_map {A} (f : A -> list nsel) l p : selects (flat_map f l) p <-> exists a, In a l /\ selects (f a) p.
Proof.
  rewrite flat_map_concat_map, selects_concat. split.
  - intros (x & Hx & H). apply in_map_iff in Hx as (a & <- & Ha). eauto.
  - intros (a & Ha & H). exists (f a); split; [apply in_map; exact Ha|exact H].
Qed.
Lemma selects_map (f : nsel -> nsel) l p : selects (map f l) p <-> exists a, In a l /\ picks (f a) p.
Proof.
  split.
  - intros (x & Hx & H). apply in_map_iff in Hx as (a & <- & Ha). eauto.
  - intros (a & Ha & H). exists (f a); split; [apply in_map; exact Ha|exact H].
Qed.
Lemma picks_field_iff al n args dirs sub p : picks (NField al n args dirs sub) p <->
  exists t args' rest, p = mkstep t (response_key al n) n args' :: rest /\ all_on on dirs /\ Permutation args args' /\
    (rest = [] \/ selects sub rest).
Proof.
  split.
  - intros H. inversion H; subst; [exists t, args', []|exists t, args', p0]; repeat split; auto.
    right; exists s; auto.
  - intros (t & args' & rest & -> & Hd & Ha & [->|(s & Hs & H)]); [constructor; auto|].
    apply picks_below with s; auto.
Qed.
Lemma picks_inline_iff tc dirs sub p : picks (NInline tc dirs sub) p <->
  all_on on dirs /\ applies sc tc p /\ selects sub p.
Proof.
  split.
  - intros H. inversion H; subst. repeat split; auto. exists s; auto.
  - intros (Hd & Ha & s & Hs & H). eapply picks_inline; eauto.
Qed.
Lemma picks_spread_iff n dirs p : picks (NSpread n dirs) p <->
  exists f, kget n env = Some f /\ all_on on dirs /\ applies sc (Some (fr_tc f)) p /\ selects (fr_sels f) p.
Proof.
  split.
  - intros H. inversion H; subst. exists f. repeat split; auto. exists s; auto.
  - intros (f & Hf & Hd & Ha & s & Hs & H). eapply picks_spread; eauto.
Qed.
Lemma picks_nonempty s p : picks s p -> p <> [].
Proof. intros H. induction H; try discriminate; auto. Qed.
Lemma field_sub al n args dirs sub sub' :
  forall p, (forall st q, p = st :: q -> q <> [] -> (selects sub q <-> selects sub' q)) ->
  picks (NField al n args dirs sub) p <-> picks (NField al n args dirs sub') p.
Proof.
  intros p H. rewrite !picks_field_iff. split; intros (t & args' & rest & -> & Hd & Ha & [->|Hr]);
    exists t, args'.
  1,3: exists []; repeat split; auto.
  all: exists rest; repeat split; auto; right; eapply H; try reflexivity; auto;
    destruct Hr as (s & _ & Hr); eapply picks_nonempty; exact Hr.
Qed.
End Meaning.

Lemma all_on_app on a b : all_on on (a ++ b) <-> all_on on a /\ all_on on b.
Proof. unfold all_on. rewrite forallb_app, andb_true_iff. tauto. Qed.
Lemma all_on_in on l : all_on on l <-> forall d, In d l -> on d = true.
Proof. apply forallb_forall. Qed.
Lemma empty_nil {A} (l : list A) : empty l = true -> l = [].
Proof. destruct l; [auto|discriminate]. Qed.

(** * Statically skipped selections *)
Lemma find_condition name ds b : extract_condition_directive name ds = Some b ->
  exists d, In d ds /\ d_name d = name /\ if_literal (d_args d) = Some b.
Proof.
  induction ds as [|d ds IH]; cbn; [discriminate|].
  destruct (String.eqb_spec (d_name d) name) as [E|E].
  - destruct (if_literal (d_args d)) eqn:El; [intros H; injection H as ->; exists d; auto|].
    intros H; destruct (IH H) as (x & ? & ? & ?); exists x; auto.
  - intros H; destruct (IH H) as (x & ? & ? & ?); exists x; auto.
Qed.
Lemma not_kept_off on ds : lawful on -> should_keep ds = false -> ~ all_on on ds.
Proof.
  intros L H Ha. rewrite all_on_in in Ha. unfold should_keep in H.
  destruct (extract_condition_directive "skip" ds) as [[|]|] eqn:E.
  1: { apply find_condition in E as (d & Hd & Hn & Hl). destruct (L d) as [L1 _].
       specialize (Ha d Hd). rewrite (L1 Hn Hl) in Ha. discriminate Ha. }
  all: destruct (extract_condition_directive "include" ds) as [[|]|] eqn:E2; try discriminate;
    apply find_condition in E2 as (d & Hd & Hn & Hl); destruct (L d) as [_ L2];
    specialize (Ha d Hd); rewrite (L2 Hn Hl) in Ha; discriminate.
Qed.
Lemma drop_skipped_field al n args dirs sub :
  drop_skipped_sel (NField al n args dirs sub) =
  if should_keep dirs then [NField al n args dirs (drop_skipped sub)] else [].
Proof. reflexivity. Qed.
Lemma drop_skipped_inline tc dirs sub :
  drop_skipped_sel (NInline tc dirs sub) = if should_keep dirs then [NInline tc dirs (drop_skipped sub)] else [].
Proof. reflexivity. Qed.

Definition map_frags (k : list nsel -> list nsel) (m : fragments) : fragments :=
  map (fun nf => (fst nf, {| fr_tc := fr_tc (snd nf); fr_sels := k (fr_sels (snd nf)) |})) m.
Lemma kget_map_frags k m n : kget n (map_frags k m) =
  option_map (fun f => {| fr_tc := fr_tc f; fr_sels := k (fr_sels f) |}) (kget n m).
Proof. induction m as [|[n' f] m IH]; cbn; [reflexivity|]. destruct (String.eqb n n'); auto. Qed.

Section Skipped.
Context (sc : schema) (on : directive -> bool) (env : fragments) (L : lawful on).
Notation env' := (map_frags drop_skipped env).
Lemma skipped_1 s p : picks sc on env s p -> selects sc on env' (drop_skipped_sel s) p.
Proof.
  intros H. induction H as [al n args dirs sub t args' Hd Ha|al n args dirs sub t args' s p Hd Ha Hs H IH|tc dirs sub s p Hd Ha Hs H IH|n dirs f s p Hd Hf Ha Hs H IH].
  all: assert (should_keep dirs = true) as K
    by (destruct (should_keep dirs) eqn:K; [reflexivity|exfalso; exact (not_kept_off on dirs L K Hd)]).
  all: try (rewrite drop_skipped_field, K); try (rewrite drop_skipped_inline, K); try (cbn [drop_skipped_sel]; rewrite K);
    rewrite selects_one.
  - constructor; auto.
  - rewrite picks_field_iff. exists t, args', p. repeat split; auto. right.
    unfold drop_skipped. rewrite selects_flat_map. exists s; auto.
  - rewrite picks_inline_iff. repeat split; auto. unfold drop_skipped. rewrite selects_flat_map. exists s; auto.
  - rewrite picks_spread_iff. eexists; split; [rewrite kget_map_frags, Hf; reflexivity|]. cbn [fr_tc fr_sels].
    repeat split; auto. unfold drop_skipped. rewrite selects_flat_map. exists s; auto.
Qed.
Lemma skipped_2 s' p : picks sc on env' s' p -> forall s, In s' (drop_skipped_sel s) -> picks sc on env s p.
Proof.
  intros H. induction H as [al n args dirs sub t args' Hd Ha|al n args dirs sub t args' s' p Hd Ha Hs H IH|tc dirs sub s' p Hd Ha Hs H IH|n dirs f s' p Hd Hf Ha Hs H IH];
    intros s Hin; destruct s as [al0 n0 args0 dirs0 sub0|n0 dirs0|tc0 dirs0 sub0];
    rewrite ?drop_skipped_field, ?drop_skipped_inline in Hin; try (cbn [drop_skipped_sel] in Hin);
    (destruct (should_keep dirs0); [|destruct Hin]); destruct Hin as [E|[]]; try discriminate E; injection E; intros; subst.
  - constructor; auto.
  - unfold drop_skipped in Hs. apply in_flat_map in Hs as (x & Hx & Hs). eapply picks_below; eauto.
  - unfold drop_skipped in Hs. apply in_flat_map in Hs as (x & Hx & Hs). eapply picks_inline; eauto.
  - rewrite kget_map_frags in Hf. destruct (kget n env) as [f0|] eqn:E0; [|discriminate]. cbn in Hf.
    injection Hf as <-. cbn [fr_tc fr_sels] in *. unfold drop_skipped in Hs. apply in_flat_map in Hs as (x & Hx & Hs).
    eapply picks_spread; eauto.
Qed.
Lemma skipped_same l p : selects sc on env l p <-> selects sc on env' (drop_skipped l) p.
Proof.
  unfold drop_skipped. rewrite selects_flat_map. split.
  - intros (s & Hs & H). exists s; split; [exact Hs|apply skipped_1; exact H].
  - intros (s & Hs & (s' & Hs' & H)). exists s; split; [exact Hs|eapply skipped_2; eauto].
Qed.
End Skipped.

(** * Sorted arguments and directives *)
Lemma insert_by_perm {A} (key : A -> string) a l : Permutation (a :: l) (insert_by key a l).
Proof.
  induction l as [|b l IH]; cbn; [reflexivity|]. destruct (String.compare (key a) (key b)); try reflexivity.
  rewrite perm_swap. constructor; exact IH.
Qed.
Lemma sort_by_perm {A} (key : A -> string) l : Permutation l (sort_by key l).
Proof. induction l as [|a l IH]; cbn; [reflexivity|]. rewrite IH at 1. apply insert_by_perm. Qed.
Lemma all_on_perm on a b : Permutation a b -> all_on on a <-> all_on on b.
Proof.
  intros H. rewrite !all_on_in. split; intros K d Hd; apply K; [eapply Permutation_in; [apply Permutation_sym; exact H|exact Hd]|eapply Permutation_in; eauto].
Qed.
Lemma drop_alias_key al n : response_key (drop_name_equal_alias al n) n = response_key al n.
Proof. destruct al as [a|]; cbn; [|reflexivity]. destruct (String.eqb_spec a n); auto. Qed.
Section Sorted.
Context (sc : schema) (on : directive -> bool) (env : fragments).
Notation env' := (map_frags normalize_fields env).
(** The selections below fields are not changed, so the two directions also need the unchanged ones. *)
Lemma sorted_1 s p : picks sc on env s p -> picks sc on env' s p /\ picks sc on env' (normalize_sel s) p.
Proof.
  intros H. induction H as [al n args dirs sub t args' Hd Ha|al n args dirs sub t args' s p Hd Ha Hs H IH|tc dirs sub s p Hd Ha Hs H IH|n dirs f s p Hd Hf Ha Hs H IH].
  - split; [constructor; auto|]. cbn [normalize_sel]. rewrite <- (drop_alias_key al n). constructor.
    + rewrite <- all_on_perm; [exact Hd|apply sort_by_perm].
    + rewrite <- sort_by_perm; exact Ha.
  - split; [eapply picks_below; eauto; apply IH|]. cbn [normalize_sel]. rewrite <- (drop_alias_key al n).
    apply picks_below with s; [| |exact Hs|apply IH].
    + rewrite <- all_on_perm; [exact Hd|apply sort_by_perm].
    + rewrite <- sort_by_perm; exact Ha.
  - split; [eapply picks_inline; eauto; apply IH|]. cbn [normalize_sel].
    apply picks_inline with (normalize_sel s); [|exact Ha|apply in_map; exact Hs|apply IH].
    rewrite <- all_on_perm; [exact Hd|apply sort_by_perm].
  - cbn [normalize_sel]. assert (picks sc on env' (NSpread n dirs) p); [|auto].
    eapply picks_spread with (s := normalize_sel s); [exact Hd|rewrite kget_map_frags, Hf; reflexivity|exact Ha|apply in_map; exact Hs|apply IH].
Qed.
Lemma sorted_2 s' p : picks sc on env' s' p ->
  picks sc on env s' p /\ forall s, s' = normalize_sel s -> picks sc on env s p.
Proof.
  intros H. induction H as [al n args dirs sub t args' Hd Ha|al n args dirs sub t args' s' p Hd Ha Hs H IH|tc dirs sub s' p Hd Ha Hs H IH|n dirs f s' p Hd Hf Ha Hs H IH].
  - split; [constructor; auto|]. intros [al0 n0 args0 dirs0 sub0|n0 dirs0|tc0 dirs0 sub0] E; try discriminate E.
    cbn [normalize_sel] in E. injection E as -> -> -> -> ->. rewrite (drop_alias_key al0 n0). constructor.
    + rewrite all_on_perm; [exact Hd|apply sort_by_perm].
    + rewrite <- Ha. apply sort_by_perm.
  - split; [eapply picks_below; [exact Hd|exact Ha|exact Hs|exact (proj1 IH)]|]. intros [al0 n0 args0 dirs0 sub0|n0 dirs0|tc0 dirs0 sub0] E; try discriminate E.
    cbn [normalize_sel] in E. injection E as -> -> -> -> ->. rewrite (drop_alias_key al0 n0).
    apply picks_below with s'; [| |exact Hs|exact (proj1 IH)].
    + rewrite all_on_perm; [exact Hd|apply sort_by_perm].
    + rewrite <- Ha. apply sort_by_perm.
  - split; [eapply picks_inline; [exact Hd|exact Ha|exact Hs|exact (proj1 IH)]|]. intros [al0 n0 args0 dirs0 sub0|n0 dirs0|tc0 dirs0 sub0] E; try discriminate E.
    cbn [normalize_sel] in E. injection E as -> -> ->. apply in_map_iff in Hs as (x & <- & Hx).
    apply picks_inline with x; [|exact Ha|exact Hx|apply IH; reflexivity].
    rewrite all_on_perm; [exact Hd|apply sort_by_perm].
  - rewrite kget_map_frags in Hf. destruct (kget n env) as [f0|] eqn:E0; [|discriminate]. cbn in Hf.
    injection Hf as <-. cbn [fr_tc fr_sels] in *. unfold normalize_fields in Hs. apply in_map_iff in Hs as (x & <- & Hx).
    assert (picks sc on env (NSpread n dirs) p) as Hp by (eapply picks_spread; eauto; apply IH; reflexivity).
    split; [exact Hp|]. intros [al0 n0 args0 dirs0 sub0|n0 dirs0|tc0 dirs0 sub0] E; try discriminate E.
    cbn [normalize_sel] in E. injection E as <- <-. exact Hp.
Qed.
Lemma sorted_same l p : selects sc on env l p <-> selects sc on env' (normalize_fields l) p.
Proof.
  unfold normalize_fields. rewrite selects_map. split.
  - intros (s & Hs & H). exists s; split; [exact Hs|apply sorted_1; exact H].
  - intros (s & Hs & H). exists s; split; [exact Hs|eapply sorted_2; eauto].
Qed.
End Sorted.

(** * Inlined spreads *)
Section Inlined.
Context (sc : schema) (on : directive -> bool) (env env' : fragments).
Notation S0 := (selects sc on env).
Notation S1 := (selects sc on env').

Lemma opt_is_true a b : opt_is a b = true -> a = Some b.
Proof. destruct a as [x|]; cbn; [|discriminate]. intros H; apply String.eqb_eq in H; congruence. Qed.
Lemma walk_same left ptc n dirs n' dirs' d p : walk env left ptc n dirs = Ok (n', dirs', d) -> applies sc ptc p ->
  kget n' env = Some d /\ (picks sc on env (NSpread n dirs) p <-> picks sc on env (NSpread n' dirs') p).
Proof.
  intros H Ha. revert n dirs H; induction left as [|left IH]; intros n dirs; cbn [walk];
    (destruct (kget n env) as [d0|] eqn:Ed; [|discriminate]);
    (destruct (opt_is ptc (fr_tc d0) && empty dirs) eqn:Ei;
      [|intros H; injection H as <- <- <-; split; [exact Ed|reflexivity]]);
    (destruct (fr_sels d0) as [|[ | nn nd | ] [|? ?]] eqn:Es;
      try (intros H; injection H as <- <- <-; split; [exact Ed|reflexivity])).
  - discriminate.
  - intros H; apply IH in H as (H1 & H2). split; [exact H1|]. rewrite <- H2.
    apply andb_true_iff in Ei as [E1 E2]. apply opt_is_true in E1. apply empty_nil in E2. subst dirs ptc.
    rewrite picks_spread_iff. split.
    + intros (f & Ef & _ & _ & Hs). rewrite Ed in Ef; injection Ef as <-. rewrite Es in Hs. rewrite selects_one in Hs. exact Hs.
    + intros Hs. exists d0. repeat split; auto. rewrite Es, selects_one. exact Hs.
Qed.
Lemma each_same (k : nsel -> res (list nsel)) l out (Q : list step -> Prop) :
  each k l = Ok out -> (forall s o, In s l -> k s = Ok o -> forall p, Q p -> (picks sc on env s p <-> S1 o p)) ->
  forall p, Q p -> (S0 l p <-> S1 out p).
Proof.
  intros E H p Hp. apply each_ok in E as (outs & F & ->). rewrite selects_concat. split.
  - intros (s & Hs & Hk). destruct (forall2_pick _ _ _ _ F Hs) as (o & Ho & Eo). exists o; split; [exact Ho|].
    apply (H s o Hs Eo p Hp); exact Hk.
  - intros (o & Ho & Hk). destruct (forall2_back _ _ _ _ F Ho) as (s & Hs & Eo). exists s; split; [exact Hs|].
    apply (H s o Hs Eo p Hp); exact Hk.
Qed.
Lemma cross_field al n args dirs sub sub' p :
  (forall q, q <> [] -> (S0 sub q <-> S1 sub' q)) ->
  picks sc on env (NField al n args dirs sub) p <-> picks sc on env' (NField al n args dirs sub') p.
Proof.
  intros H. rewrite !picks_field_iff. split; intros (t & args' & rest & -> & Hd & Ha & Hr);
    exists t, args', rest; repeat split; auto;
    (destruct Hr as [Hr|Hr]; [left; exact Hr|right]);
    (apply H; [destruct Hr as (s & _ & Hr); eapply picks_nonempty; exact Hr|exact Hr]).
Qed.
Lemma cross_inline tc dirs sub sub' p :
  (applies sc tc p -> (S0 sub p <-> S1 sub' p)) ->
  picks sc on env (NInline tc dirs sub) p <-> picks sc on env' (NInline tc dirs sub') p.
Proof. intros H. rewrite !picks_inline_iff. split; intros (Hd & Ha & Hs); repeat split; auto; apply H; auto. Qed.
Lemma applies_none p : p <> [] -> applies sc None p.
Proof. destruct p; cbn; auto. Qed.
Lemma applies_nonempty tc p : applies sc tc p -> p <> [].
Proof. destruct p; cbn; [tauto|discriminate]. Qed.
Lemma inlined_sel body ptc active s out :
  (forall q a l o, body q a l = Ok o -> forall p, applies sc q p -> (S0 l p <-> S1 o p)) ->
  inline_sel env body ptc active s = Ok out -> forall p, applies sc ptc p -> (picks sc on env s p <-> S1 out p).
Proof.
  intros Hb. revert ptc out. induction s as [al fn args dirs sub IH|fn dirs|tc dirs sub IH] using nsel_ind';
    intros ptc out H p Hp; try rewrite Forall_forall in IH.
  - rewrite inline_sel_field in H. apply bind_ok in H as (o & H & Ho); injection Ho as <-.
    rewrite selects_one. apply cross_field. intros q Hq.
    eapply each_same with (Q := applies sc None); [exact H| |apply applies_none; exact Hq].
    intros s o' Hs Eo r Hr. eapply IH; [exact Hs|exact Eo|exact Hr].
  - cbn [inline_sel] in H. apply bind_ok in H as ([[n' dirs'] d] & Hw & H).
    destruct (walk_same _ _ _ _ _ _ _ p Hw Hp) as (Hd & ->).
    destruct (existsb (String.eqb n') active); [discriminate|].
    assert (picks sc on env (NSpread n' dirs') p <-> all_on on dirs' /\ applies sc (Some (fr_tc d)) p /\ S0 (fr_sels d) p) as ->.
    { rewrite picks_spread_iff. split; [intros (f & Ef & Hr)|intros Hr; exists d; auto].
      rewrite Hd in Ef; injection Ef as <-; exact Hr. }
    destruct (opt_is ptc (fr_tc d) && empty dirs') eqn:Ei.
    + apply andb_true_iff in Ei as [E1 E2]. apply opt_is_true in E1. apply empty_nil in E2. subst dirs' ptc.
      rewrite <- (Hb _ _ _ _ H p Hp). split; [tauto|]. intros Hs; repeat split; auto.
    + apply bind_ok in H as (o & H & Ho); injection Ho as <-. rewrite selects_one, picks_inline_iff.
      split; intros (H1 & H2 & H3); repeat split; auto; eapply Hb; eauto.
  - rewrite inline_sel_inline in H. apply bind_ok in H as (o & H & Ho); injection Ho as <-.
    rewrite selects_one. apply cross_inline. intros Ha.
    eapply each_same with (Q := applies sc tc); [exact H| |exact Ha].
    intros s o' Hs Eo r Hr. eapply IH; [exact Hs|exact Eo|exact Hr].
Qed.
Lemma inlined_sels fuel ptc active l out : inline_sels env fuel ptc active l = Ok out ->
  forall p, applies sc ptc p -> (S0 l p <-> S1 out p).
Proof.
  revert ptc active l out; induction fuel as [|fuel IH]; cbn [inline_sels]; intros ptc active l out H p Hp; [discriminate|].
  eapply each_same with (Q := applies sc ptc); [exact H| |exact Hp].
  intros s o Hs Eo r Hr. eapply inlined_sel; [|exact Eo|exact Hr]. intros q a l' o' E. eapply IH; exact E.
Qed.
End Inlined.
