(** Every error of an answer is reported. *)
From Coq Require Import String List NArith Bool Arith Lia Permutation.
From Verif Require Import StrOrd JsonModel MergeModel MergeSpec Ast TraverseModel TraverseSpec TraverseProofs RewriteModel
  RequiresModel EntityModel EntitySpec ExecModel ExecSpec ExecRun.
Import ListNotations.
Local Open Scope list_scope.

(** Every index in the map has a position. *)
Definition placed_somewhere (m : emap) : Prop := forall i, eget i m <> Some [].
Lemma epush_placed i p m : placed_somewhere m -> placed_somewhere (epush i p m).
Proof.
  intros H k. specialize (H k). revert H. induction m as [|[j ps] m IH]; cbn; [destruct (Nat.eqb k i); discriminate|].
  intros H. destruct (Nat.eqb i j); cbn; destruct (Nat.eqb k j); auto. destruct ps; discriminate.
Qed.

Lemma call_each_inv {St} (cb : value -> option (list eseg) -> St -> value * St) (I : St -> Prop) path ts :
  (forall v e s, I s -> I (snd (cb v e s))) -> forall s, I s -> I (snd (call_each cb path ts s)).
Proof.
  intros H. induction ts as [|[q x] ts IH]; intros s Hs; [exact Hs|]. cbn.
  specialize (H x (path q) s Hs). destruct (cb x (path q) s) as [w s1]. specialize (IH s1 H).
  destruct (call_each cb path ts s1) as [us s2]. exact IH.
Qed.
Lemma visit_inv {St} (cb : value -> option (list eseg) -> St -> value * St) (I : St -> Prop) pt p v e s :
  (forall v e s, I s -> I (snd (cb v e s))) -> I s -> I (snd (visit_mut St cb pt p v e s)).
Proof.
  intros H Hs. rewrite visit_mut_ok. unfold result.
  pose proof (call_each_inv cb I (at_ e) (targets pt p v) H s Hs) as K.
  destruct (call_each cb (at_ e) (targets pt p v) s). exact K.
Qed.
Lemma place_placed hashes index ents v e s : placed_somewhere (snd s) -> placed_somewhere (snd (snd (place hashes index ents v e s))).
Proof.
  destruct s as [i m]. cbn [snd]. intros H. unfold place. destruct (nth_error hashes i) as [[h|]|]; try exact H.
  destruct (nget h index) as [j|]; [|exact H].
  assert (placed_somewhere (match e with Some p => epush j p m | None => m end)) as H'
    by (destruct e; [apply epush_placed|]; exact H).
  destruct (nth_error ents j); exact H'.
Qed.
Lemma empty_placed : placed_somewhere [].
Proof. intros i; discriminate. Qed.

Definition maybe_placed (m : option emap) : Prop := match m with Some m => placed_somewhere m | None => True end.
Lemma handle_errors_copies name aff es m x : maybe_placed m -> In x es ->
  exists y, In y (handle_errors name aff (Some es) m) /\ copied name x y.
Proof.
  intros Hm Hx. unfold handle_errors.
  set (e1 := match aff with Some p => add_affected_path p (add_subgraph_name name x) | None => add_subgraph_name name x end).
  assert (copied name x e1) as Hc by (subst e1; unfold copied; destruct aff; cbn; destruct (e_code x), (e_service x); repeat split).
  assert (exists y, In y (match m with Some m => normalize_entity_error m e1 | None => [e1] end) /\ copied name x y) as (y & Hy & Hcy).
  { destruct m as [m|]; [|exists e1; split; [left; reflexivity|exact Hc]]. unfold normalize_entity_error.
    destruct (entity_index_and_path e1) as [[i rest]|]; [|exists e1; split; [left; reflexivity|exact Hc]].
    destruct (eget i m) as [paths|] eqn:E; [|exists e1; split; [left; reflexivity|exact Hc]].
    destruct paths as [|p paths]; [exfalso; exact (Hm i E)|].
    eexists. split; [left; reflexivity|]. exact Hc. }
  exists y. split; [|exact Hcy]. apply in_flat_map. exists x. split; [exact Hx|exact Hy].
Qed.
Lemma copied_path name x x' y : e_message x' = e_message x -> e_locations x' = e_locations x -> e_ext x' = e_ext x ->
  e_service x' = e_service x -> e_code x' = e_code x -> copied name x' y -> copied name x y.
Proof. unfold copied. intros -> -> -> -> ->. auto. Qed.

Section E.
Variable pt : ptypes.
Lemma flatten_reports name aff p j out r data d es : process_flatten pt name aff p j out r data = Some (d, es) ->
  forall x, In x (match r_errors r with Some xs => xs | None => [] end) -> exists y, In y es /\ copied name x y.
Proof.
  unfold process_flatten. destruct (take_entities_by_key _ (r_data r)) as [ents|].
  - destruct (map_opt _ ents) as [ents'|]; [|discriminate].
    destruct (visit_mut _ _ _ _ _ _ _) as [d' [i m]] eqn:E. intros H; injection H as <- <-.
    destruct (r_errors r) as [xs|]; [|intros x []]. intros x Hx. apply handle_errors_copies; [|exact Hx]. cbn.
    pose proof (visit_inv (place (j_hashes j) (j_index j) ents') (fun s => placed_somewhere (snd s)) pt p data (Some []) (0, [])) as K.
    rewrite E in K. apply K; [intros v e s; apply place_placed|exact empty_placed].
  - intros H; injection H as <- <-. destruct (r_errors r) as [xs|]; [|intros x []].
    intros x Hx. apply handle_errors_copies; [exact I|exact Hx].
Qed.
Lemma place_paths_placed index ents e0 ps : forall data m, placed_somewhere m ->
  placed_somewhere (snd (place_paths pt index ents ps e0 data m)).
Proof.
  induction ps as [|[p hashes] ps IH]; intros data m Hm; [exact Hm|]. cbn [place_paths].
  pose proof (visit_inv (place hashes index ents) (fun s => placed_somewhere (snd s)) pt p data e0 (0, m)) as K.
  destruct (visit_mut _ _ _ _ _ _ _) as [d' [i m']]. apply IH. apply K; [intros v e s; apply place_placed|exact Hm].
Qed.
Lemma merge_alias_placed a ents he data d m : merge_alias pt a ents he data = Some (d, m) -> maybe_placed m.
Proof.
  unfold merge_alias. destruct ents as [l|]; [|intros H; injection H as <- <-; destruct he; [exact empty_placed|exact I]].
  destruct (map_opt _ l) as [l'|]; [|discriminate].
  destruct (is_nil (as_index a)); [intros H; injection H as <- <-; destruct he; [exact empty_placed|exact I]|].
  pose proof (place_paths_placed (as_index a) l' (if he then Some [] else None) (as_paths a) data [] empty_placed) as K.
  destruct (place_paths _ _ _ _ _ _ _) as [d' m']. intros H; injection H as <- <-. destruct he; [exact K|exact I].
Qed.
Lemma merge_aliases_reports name affected all es al : forall i data d errs,
  merge_aliases pt name affected all es al i data = Some (d, errs) ->
  forall j x, In x (errors_of_alias all j es) -> i <= j < i + length al -> exists y, In y errs /\ copied name x y.
Proof.
  induction al as [|[a ents] al IH]; intros i data d errs H j x Hx Hj; [cbn in Hj; lia|].
  cbn [merge_aliases] in H.
  destruct (merge_alias pt a ents (negb (is_nil (errors_of_alias all i es))) data) as [[data' m]|] eqn:Em; [|discriminate].
  destruct (merge_aliases pt name affected all es al (S i) data') as [[d2 errs2]|] eqn:Er; [|discriminate].
  injection H as <- <-. destruct (Nat.eq_dec i j) as [->|Hne].
  - destruct (errors_of_alias all j es) as [|x0 l] eqn:El; [destruct Hx|]. cbn [is_nil].
    destruct (handle_errors_copies name (match as_paths a with [(p, _)] => Some (affected p) | _ => None end) (x0 :: l) m x) as (y & Hy & Hc).
    + eapply merge_alias_placed; exact Em.
    + exact Hx.
    + exists y. split; [apply in_or_app; left; exact Hy|exact Hc].
  - cbn [length] in Hj. destruct (IH _ _ _ _ Er j x Hx) as (y & Hy & Hc); [lia|].
    exists y. split; [apply in_or_app; right; exact Hy|exact Hc].
Qed.
Lemma alias_index_bound n al : forall i found k, alias_index n al i found = Some k ->
  found = Some k \/ i <= k < i + length al.
Proof.
  induction al as [|a al IH]; intros i found k H; cbn in H; [left; exact H|]. cbn [length].
  apply IH in H as [H|H]; [|right; lia]. destruct (String.eqb n _); [injection H as <-; right; lia|left; exact H].
Qed.
Lemma collect_length al : forall data, length (collect_entities al data) = length al.
Proof. induction al as [|a al IH]; intros data; [reflexivity|]. cbn. f_equal. apply IH. Qed.
Lemma batch_reports name affected al r data d es : process_batch pt name affected al r data = Some (d, es) ->
  forall x, In x (match r_errors r with Some xs => xs | None => [] end) -> exists y, In y es /\ copied name x y.
Proof.
  unfold process_batch. set (xs := match r_errors r with Some es0 => es0 | None => [] end).
  destruct (merge_aliases _ _ _ _ _ _ _ _) as [[d' errs]|] eqn:E; [|discriminate]. intros H; injection H as <- <-.
  intros x Hx. destruct (error_alias al x) as [j|] eqn:Ea.
  - assert (j < length al) as Hj.
    { unfold error_alias in Ea. destruct (e_path x) as [[|[n|n] path]|]; try discriminate.
      apply alias_index_bound in Ea as [Ea|Ea]; [discriminate|lia]. }
    destruct (merge_aliases_reports _ _ _ _ _ _ _ _ _ E j (to_entities_path x)) as (y & Hy & Hc).
    + unfold errors_of_alias. apply in_map. apply filter_In. split; [exact Hx|]. rewrite Ea. apply Nat.eqb_refl.
    + rewrite combine_length, collect_length. lia.
    + exists y. split; [apply in_or_app; left; exact Hy|].
      unfold to_entities_path in Hc. destruct (e_path x) as [[|[n|n] path]|]; try exact Hc.
  - destruct (handle_errors_copies name None (unmatched_errors al xs) None x I) as (y & Hy & Hc).
    + unfold unmatched_errors. apply filter_In. split; [exact Hx|]. rewrite Ea. reflexivity.
    + exists y. split; [apply in_or_app; right; exact Hy|exact Hc].
Qed.

Variable show : list fseg -> string.
Lemma job_reports k o c c' : process_job pt show k o c = Some c' -> exists es, c_errors c' = c_errors c ++ es /\ reported k o es.
Proof.
  destruct o as [pre e|pre r]; unfold process_job.
  - intros E; injection E as <-. exists (pre ++ [e]). split; [reflexivity|apply incl_refl].
  - assert (forall es, (forall x, In x (match r_errors r with Some xs => xs | None => [] end) -> exists y, In y es /\ copied (service_of k) x y) ->
      reported k (OOk pre r) (pre ++ es)) as R.
    { intros es H. split; [apply incl_appl, incl_refl|]. intros x Hx. destruct (H x Hx) as (y & Hy & Hc).
      exists y. split; [apply in_or_app; right; exact Hy|exact Hc]. }
    assert (forall name aff, (forall x, In x (match r_errors r with Some xs => xs | None => [] end) ->
       exists y, In y (handle_errors name aff (r_errors r) None) /\ copied name x y)) as Hh.
    { intros name aff x Hx. destruct (r_errors r) as [xs|]; [|destruct Hx]. apply handle_errors_copies; [exact I|exact Hx]. }
    destruct k as [f [p|]|f p j|b vs sts].
    + destruct (apply_rewrites pt (f_out f) (r_data r)); [|discriminate]. destruct (visit_mut _ _ _ _ _ _ _) as [d' s].
      intros E; injection E as <-. cbn [c_errors snd]. eexists. split; [reflexivity|]. apply R, Hh.
    + destruct (apply_rewrites pt (f_out f) (r_data r)); [|discriminate].
      intros E; injection E as <-. cbn [c_errors snd]. eexists. split; [reflexivity|]. apply R, Hh.
    + destruct (process_flatten _ _ _ _ _ _ _ _) as [[d es]|] eqn:E; [|discriminate].
      intros H; injection H as <-. cbn [c_errors snd]. eexists. split; [reflexivity|]. apply R. eapply flatten_reports; exact E.
    + destruct (process_batch _ _ _ _ _ _) as [[d es]|] eqn:E; [|discriminate].
      intros H; injection H as <-. cbn [c_errors snd]. eexists. split; [reflexivity|]. apply R. eapply batch_reports; exact E.
Qed.
Lemma reported_incl k o es es' : incl es es' -> reported k o es -> reported k o es'.
Proof.
  intros Hi. destruct o as [pre e|pre r]; cbn; [intros H; eapply incl_tran; eassumption|].
  intros [H1 H2]. split; [eapply incl_tran; eassumption|]. intros x Hx. destruct (H2 x Hx) as (y & Hy & Hc). eauto.
Qed.
Lemma all_reports answer ks : forall c c', process_all pt show answer ks c = Some c' ->
  exists es, c_errors c' = c_errors c ++ es /\ forall k, In k ks -> reported k (answer k) es.
Proof.
  induction ks as [|k ks IH]; intros c c' E; cbn [process_all] in E.
  - injection E as <-. exists []. rewrite app_nil_r. split; [reflexivity|intros k []].
  - destruct (process_job pt show k (answer k) c) as [c1|] eqn:E1; [|discriminate E].
    destruct (job_reports _ _ _ _ E1) as (es1 & H1 & R1). destruct (IH _ _ E) as (es2 & H2 & R2).
    exists (es1 ++ es2). split; [rewrite H2, H1, app_assoc; reflexivity|].
    intros k' [<-|Hk]; [eapply reported_incl; [apply incl_appl, incl_refl|exact R1]|eapply reported_incl; [apply incl_appr, incl_refl|auto]].
Qed.
End E.

Lemma run_all_reported ryu pt xxh show vars answer n c tr c' : run ryu pt xxh show vars answer n c tr c' ->
  Permutation (sent tr) (finished tr) /\
  exists es, c_errors c' = c_errors c ++ es /\ forall k, In k (sent tr) -> reported k (answer k) es.
Proof.
  intros R. pose proof (proj1 (proj1 (run_reports ryu pt xxh show vars answer) _ _ _ _ R)) as P. split; [exact P|].
  destruct (all_reports _ _ _ _ _ _ (proj1 (run_processed ryu pt xxh show vars answer) _ _ _ _ R)) as (es & H & F).
  exists es. split; [exact H|]. intros k Hk. apply F. eapply Permutation_in; eassumption.
Qed.
