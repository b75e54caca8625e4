From Coq Require Import String List Bool NArith Lia.
From Verif Require Import StrOrd Ast JsonModel MergeModel TraverseModel RewriteModel ProjModel RequiresModel EntityModel CoerceModel AuthModel ExecModel QplanModel CondModel CondSpec.
Import ListNotations.
Local Open Scope string_scope.

Lemma skip_include : String.eqb "skip" "include" = false.
Proof. reflexivity. Qed.

(** ** Directives *)
Lemma extract_named n ds : extract_condition_directive n ds = extract_condition_directive n (named n ds).
Proof.
  unfold named. induction ds as [|d ds IH]; [reflexivity|]. cbn [extract_condition_directive filter].
  destruct (String.eqb (d_name d) n) eqn:E; [|exact IH].
  cbn [extract_condition_directive]. rewrite E. destruct (if_literal (d_args d)); [reflexivity|exact IH].
Qed.

Definition last_variable (n : string) (ds : list directive) : option string :=
  fold_left (fun acc d => match if_variable d with Some v => Some v | None => acc end) (named n ds) None.

Lemma pair_named ds :
  conditions_pair ds = (last_variable "skip" ds, last_variable "include" ds).
Proof.
  unfold conditions_pair, last_variable.
  assert (G : forall a b,
    fold_left (fun p d =>
      if String.eqb (d_name d) "skip"
      then match if_variable d with Some v => (Some v, snd p) | None => p end
      else if String.eqb (d_name d) "include"
      then match if_variable d with Some v => (fst p, Some v) | None => p end
      else p) ds (a, b) =
    (fold_left (fun acc d => match if_variable d with Some v => Some v | None => acc end) (named "skip" ds) a,
     fold_left (fun acc d => match if_variable d with Some v => Some v | None => acc end) (named "include" ds) b)).
  { unfold named. induction ds as [|d ds IH]; intros a b; [reflexivity|]. cbn [fold_left filter].
    destruct (String.eqb_spec (d_name d) "skip") as [E|E].
    - rewrite E. change (String.eqb "skip" "include") with false. cbv iota.
      cbn [fold_left]. destruct (if_variable d); cbn [snd]; apply IH.
    - destruct (String.eqb (d_name d) "include"); cbn [fold_left].
      + destruct (if_variable d); cbn [fst]; apply IH.
      + apply IH. }
  apply G.
Qed.

Lemma in_named n ds d : In d (named n ds) <-> In d ds /\ d_name d = n.
Proof.
  unfold named. rewrite filter_In. rewrite String.eqb_eq. reflexivity.
Qed.

Lemma active_named is_true ds :
  active is_true ds <->
  (forall d, In d (named "skip" ds) -> argument_true is_true d = false) /\
  (forall d, In d (named "include" ds) -> argument_true is_true d = true).
Proof.
  unfold active. split.
  - intro H. split; intros d Hd; apply in_named in Hd; destruct Hd as [Hi Hn]; apply (H d Hi); exact Hn.
  - intros [H1 H2] d Hi. split; intro Hn; [apply H1|apply H2]; apply in_named; split; assumption.
Qed.

Lemma keep_and_pair ds is_true :
  valid_directives ds ->
  (active is_true ds <->
   should_keep ds = true /\ active_pair is_true (fst (conditions_pair ds)) (snd (conditions_pair ds))).
Proof.
  intros [L1 [L2 V]]. rewrite active_named, pair_named. cbn [fst snd].
  unfold should_keep. rewrite (extract_named "skip"), (extract_named "include").
  unfold last_variable, active_pair.
  assert (V1 : forall d, In d (named "skip" ds) ->
    (exists b, d_args d = [("if", GBool b)]) \/ (exists v, d_args d = [("if", GVar v)])).
  { intros d Hd. apply in_named in Hd. destruct Hd as [Hi Hn]. apply (V d Hi). left. exact Hn. }
  assert (V2 : forall d, In d (named "include" ds) ->
    (exists b, d_args d = [("if", GBool b)]) \/ (exists v, d_args d = [("if", GVar v)])).
  { intros d Hd. apply in_named in Hd. destruct Hd as [Hi Hn]. apply (V d Hi). right. exact Hn. }
  assert (N1 : forall d, In d (named "skip" ds) -> d_name d = "skip") by (intros d Hd; apply in_named in Hd; tauto).
  assert (N2 : forall d, In d (named "include" ds) -> d_name d = "include") by (intros d Hd; apply in_named in Hd; tauto).
  destruct (named "skip" ds) as [|s [|s' ss]]; [| |cbn [length] in L1; lia];
  destruct (named "include" ds) as [|i [|i' is]]; try (cbn [length] in L2; lia);
  clear L1 L2 V.
  - split; [|intros _; split; intros d []].
    intros _. split; [reflexivity|]. split; intros v H; discriminate.
  - specialize (N2 i (or_introl eq_refl)).
    cbn [extract_condition_directive fold_left]. rewrite N2, String.eqb_refl.
    destruct (V2 i (or_introl eq_refl)) as [[b A]|[v A]]; unfold argument_true, if_variable; 
      rewrite ?A; cbn [if_literal kget]; rewrite ?String.eqb_refl.
    + split.
      * intros [_ H]. specialize (H i (or_introl eq_refl)). rewrite A in H. cbn [kget] in H.
        rewrite String.eqb_refl in H. rewrite H. split; [reflexivity|]. split; intros v E; discriminate.
      * intros [H _]. split; [intros d []|]. intros d [<-|[]]. rewrite A. cbn [kget]. rewrite String.eqb_refl.
        destruct b; [reflexivity|discriminate].
    + split.
      * intros [_ H]. specialize (H i (or_introl eq_refl)). rewrite A in H. cbn [kget] in H.
        rewrite String.eqb_refl in H. split; [reflexivity|]. split; intros w E; [discriminate|].
        injection E as <-. exact H.
      * intros [_ [_ H]]. split; [intros d []|]. intros d [<-|[]]. rewrite A. cbn [kget]. rewrite String.eqb_refl.
        apply H. reflexivity.
  - specialize (N1 s (or_introl eq_refl)).
    cbn [extract_condition_directive fold_left]. rewrite N1, String.eqb_refl.
    destruct (V1 s (or_introl eq_refl)) as [[b A]|[v A]]; unfold argument_true, if_variable; 
      rewrite ?A; cbn [if_literal kget]; rewrite ?String.eqb_refl.
    + split.
      * intros [H _]. specialize (H s (or_introl eq_refl)). rewrite A in H. cbn [kget] in H.
        rewrite String.eqb_refl in H. rewrite H. split; [reflexivity|]. split; intros v E; discriminate.
      * intros [H _]. split; [|intros d []]. intros d [<-|[]]. rewrite A. cbn [kget]. rewrite String.eqb_refl.
        destruct b; [discriminate|reflexivity].
    + split.
      * intros [H _]. specialize (H s (or_introl eq_refl)). rewrite A in H. cbn [kget] in H.
        rewrite String.eqb_refl in H. split; [reflexivity|]. split; intros w E; [|discriminate].
        injection E as <-. exact H.
      * intros [_ [H _]]. split; [|intros d []]. intros d [<-|[]]. rewrite A. cbn [kget]. rewrite String.eqb_refl.
        apply H. reflexivity.
  - specialize (N1 s (or_introl eq_refl)). specialize (N2 i (or_introl eq_refl)).
    cbn [extract_condition_directive fold_left]. rewrite N1, N2, !String.eqb_refl.
    destruct (V1 s (or_introl eq_refl)) as [[b A]|[v A]];
    destruct (V2 i (or_introl eq_refl)) as [[b' A']|[v' A']]; unfold argument_true, if_variable; 
      rewrite ?A, ?A'; cbn [if_literal kget]; rewrite ?String.eqb_refl.
    + split.
      * intros [H H']. specialize (H s (or_introl eq_refl)). specialize (H' i (or_introl eq_refl)).
        rewrite A in H. rewrite A' in H'. cbn [kget] in H, H'. rewrite String.eqb_refl in H, H'. subst b b'.
        split; [reflexivity|]. split; intros w E; discriminate.
      * intros [H _]. destruct b; [discriminate|]. destruct b'; [|discriminate].
        split; intros d [<-|[]]; rewrite ?A, ?A'; cbn [kget]; rewrite String.eqb_refl; reflexivity.
    + split.
      * intros [H H']. specialize (H s (or_introl eq_refl)). specialize (H' i (or_introl eq_refl)).
        rewrite A in H. rewrite A' in H'. cbn [kget] in H, H'. rewrite String.eqb_refl in H, H'. subst b.
        split; [reflexivity|]. split; intros w E; [discriminate|]. injection E as <-. exact H'.
      * intros [H [_ H']]. destruct b; [discriminate|].
        split; intros d [<-|[]]; rewrite ?A, ?A'; cbn [kget]; rewrite String.eqb_refl; [reflexivity|].
        apply H'. reflexivity.
    + split.
      * intros [H H']. specialize (H s (or_introl eq_refl)). specialize (H' i (or_introl eq_refl)).
        rewrite A in H. rewrite A' in H'. cbn [kget] in H, H'. rewrite String.eqb_refl in H, H'. subst b'.
        split; [reflexivity|]. split; intros w E; [|discriminate]. injection E as <-. exact H.
      * intros [H [H' _]]. destruct b'; [|discriminate].
        split; intros d [<-|[]]; rewrite ?A, ?A'; cbn [kget]; rewrite String.eqb_refl; [|reflexivity].
        apply H'. reflexivity.
    + split.
      * intros [H H']. specialize (H s (or_introl eq_refl)). specialize (H' i (or_introl eq_refl)).
        rewrite A in H. rewrite A' in H'. cbn [kget] in H, H'. rewrite String.eqb_refl in H, H'.
        split; [reflexivity|]. split; intros w E; injection E as <-; assumption.
      * intros [_ [H H']].
        split; intros d [<-|[]]; rewrite ?A, ?A'; cbn [kget]; rewrite String.eqb_refl.
        -- apply H. reflexivity.
        -- apply H'. reflexivity.
Qed.

(** ** The four places *)
Lemma filter_active is_true s i : is_ignored is_true s i = false <-> active_pair is_true s i.
Proof.
  unfold is_ignored, active_pair. rewrite orb_false_iff. split.
  - intros [H1 H2]. split; intros v ->; [exact H1|]. apply negb_false_iff. exact H2.
  - intros [H1 H2]. split.
    + destruct s as [v|]; [apply H1; reflexivity|reflexivity].
    + destruct i as [v|]; [apply negb_false_iff, H2; reflexivity|reflexivity].
Qed.

Lemma check_and vtrue a b parent field v :
  check vtrue (CAnd a b) parent field v = COk <->
  check vtrue a parent field v = COk /\ check vtrue b parent field v = COk.
Proof. cbn [check]. destruct (check vtrue a parent field v); split; try tauto; intros H; discriminate || (destruct H; discriminate). Qed.

Lemma and_include vtrue c x parent field v :
  (match and_optional c (Some (ProjModel.CInclude x)) with None => True | Some c => check vtrue c parent field v = COk end) <->
  (match c with None => True | Some c => check vtrue c parent field v = COk end) /\ vtrue x = true.
Proof.
  destruct c as [c|]; cbn [and_optional].
  - replace (ProjModel.cand c (ProjModel.CInclude x)) with (CAnd c (ProjModel.CInclude x)) by (destruct c; reflexivity).
    rewrite check_and. cbn [check]. destruct (vtrue x); split; intros [H1 H2]; try discriminate; split; auto.
  - cbn [check]. destruct (vtrue x); split; try tauto; try discriminate. intros [_ H]. discriminate.
Qed.
Lemma and_skip vtrue c x parent field v :
  (match and_optional c (Some (ProjModel.CSkip x)) with None => True | Some c => check vtrue c parent field v = COk end) <->
  (match c with None => True | Some c => check vtrue c parent field v = COk end) /\ vtrue x = false.
Proof.
  destruct c as [c|]; cbn [and_optional].
  - replace (ProjModel.cand c (ProjModel.CSkip x)) with (CAnd c (ProjModel.CSkip x)) by (destruct c; reflexivity).
    rewrite check_and. cbn [check]. destruct (vtrue x); split; intros [H1 H2]; try discriminate; split; auto.
  - cbn [check]. destruct (vtrue x); split; try tauto; try discriminate. intros [_ H]. discriminate.
Qed.

Lemma projection_active vtrue c s i parent field v :
  (match apply_directives c i s with None => True | Some c => passes (check vtrue c parent field v) end) <->
  (match c with None => True | Some c => passes (check vtrue c parent field v) end) /\ active_pair vtrue s i.
Proof.
  unfold passes, apply_directives, active_pair.
  destruct i as [x|]; destruct s as [y|]; rewrite ?and_skip, ?and_include.
  - split.
    + intros [[H1 H2] H3]. split; [exact H1|]. split; intros w E; injection E as <-; assumption.
    + intros [H1 [H2 H3]]. split; [split; [exact H1|apply H3; reflexivity]|apply H2; reflexivity].
  - split.
    + intros [H1 H2]. split; [exact H1|]. split; intros w E; [discriminate|injection E as <-; assumption].
    + intros [H1 [H2 H3]]. split; [exact H1|apply H3; reflexivity].
  - split.
    + intros [H1 H2]. split; [exact H1|]. split; intros w E; [injection E as <-; assumption|discriminate].
    + intros [H1 [H2 H3]]. split; [exact H1|apply H2; reflexivity].
  - split; [intro H; split; [exact H|]; split; intros w E; discriminate|tauto].
Qed.

Lemma cost_active vars s i : conditionally_included vars i s = true <-> active_pair (variable_equals_true vars) s i.
Proof.
  unfold conditionally_included, active_pair. destruct s as [y|]; [destruct (variable_equals_true vars y) eqn:E|].
  - split; [discriminate|]. intros [H _]. rewrite (H y eq_refl) in E. discriminate.
  - destruct i as [x|].
    + split; [intro H; split; intros w Ew; injection Ew as <-; assumption|intros [_ H]; apply H; reflexivity].
    + split; [intros _; split; intros w Ew; [injection Ew as <-; exact E|discriminate]|reflexivity].
  - destruct i as [x|].
    + split; [intro H; split; intros w Ew; [discriminate|injection Ew as <-; assumption]|intros [_ H]; apply H; reflexivity].
    + split; [intros _; split; intros w Ew; discriminate|reflexivity].
Qed.

Lemma estimate_active vars s i c :
  (active_pair (variable_equals_true vars) s i -> conditional_cost vars i s c = c) /\
  (~ active_pair (variable_equals_true vars) s i -> conditional_cost vars i s c = 0%N).
Proof.
  rewrite <- cost_active. unfold conditional_cost, conditionally_included.
  destruct s as [y|]; destruct i as [x|];
    try (destruct (variable_equals_true vars y)); try (destruct (variable_equals_true vars x));
    split; intro H; try reflexivity; try discriminate; exfalso; apply H; reflexivity.
Qed.

(** ** The plan *)
Section Run.
Context (ryu : N -> string) (pt : ptypes) (xxh : list N -> N) (show : list fseg -> string)
  (vars : option (list (string * value))) (answer : job_kind -> outcome).
Notation run := (run ryu pt xxh show vars answer).

Lemma branch_true v i e : variable_equals_true vars v = true -> condition_branch vars v i e = i.
Proof.
  unfold variable_equals_true, condition_branch. destruct vars as [vs|]; [|discriminate].
  destruct (get v vs) as [[ | | | |b| | | | ]|]; try discriminate. intros ->. reflexivity.
Qed.
Lemma branch_false v i e :
  variable_equals_true vars v = false -> defined vars (Some v) -> condition_branch vars v i e = e.
Proof.
  intros F D. destruct (D v eq_refl) as [vs [x [Ev Eg]]]. unfold variable_equals_true, condition_branch in *.
  rewrite Ev, Eg in *. destruct x as [ | | | |b| | | | ]; try reflexivity. rewrite F. reflexivity.
Qed.

Lemma run_cond v i e c tr c' :
  run (NCondition v i e) c tr c' <->
  match condition_branch vars v i e with Some n => run n c tr c' | None => tr = [] /\ c' = c end.
Proof.
  split.
  - intro H. inversion H; subst; try contradiction.
    + match goal with E : condition_branch _ _ _ _ = Some _ |- _ => rewrite E end. assumption.
    + match goal with E : condition_branch _ _ _ _ = None |- _ => rewrite E end. split; reflexivity.
  - destruct (condition_branch vars v i e) as [n|] eqn:E.
    + intro H. eapply run_branch; eassumption.
    + intros [-> ->]. apply run_no_branch. exact E.
Qed.

Lemma plan_active path f sub s i c tr c' :
  defined vars s -> defined vars i ->
  (active_pair (variable_equals_true vars) s i ->
     (run (from_fetch_step path f sub (to_condition s i)) c tr c' <-> run (from_fetch_step path f sub None) c tr c')) /\
  (~ active_pair (variable_equals_true vars) s i ->
     (run (from_fetch_step path f sub (to_condition s i)) c tr c' <-> tr = [] /\ c' = c)).
Proof.
  intros Ds Di. set (n := from_fetch_step path f sub None).
  destruct s as [y|]; destruct i as [x|]; cbn [to_condition].
  - change (from_fetch_step path f sub (Some (QplanModel.CSkipAndInclude y x)))
      with (NCondition y None (Some (NCondition x (Some n) None))).
    split; intro A.
    + destruct A as [A1 A2]. rewrite run_cond, branch_false by (try apply A1; auto).
      rewrite run_cond, branch_true by (apply A2; reflexivity). reflexivity.
    + destruct (variable_equals_true vars y) eqn:E1.
      * rewrite run_cond, branch_true by exact E1. reflexivity.
      * rewrite run_cond, branch_false by assumption.
        destruct (variable_equals_true vars x) eqn:E2.
        -- exfalso. apply A. split; intros w E; injection E as <-; assumption.
        -- rewrite run_cond, branch_false by assumption. reflexivity.
  - change (from_fetch_step path f sub (Some (QplanModel.CSkip y))) with (NCondition y None (Some n)).
    split; intro A.
    + destruct A as [A1 A2]. rewrite run_cond, branch_false by (try apply A1; auto). reflexivity.
    + destruct (variable_equals_true vars y) eqn:E1.
      * rewrite run_cond, branch_true by exact E1. reflexivity.
      * exfalso. apply A. split; intros w E; [injection E as <-; assumption|discriminate].
  - change (from_fetch_step path f sub (Some (QplanModel.CInclude x))) with (NCondition x (Some n) None).
    split; intro A.
    + destruct A as [A1 A2]. rewrite run_cond, branch_true by (apply A2; reflexivity). reflexivity.
    + destruct (variable_equals_true vars x) eqn:E1.
      * exfalso. apply A. split; intros w E; [discriminate|injection E as <-; assumption].
      * rewrite run_cond, branch_false by assumption. reflexivity.
  - fold n. split; intro A; [reflexivity|].
    exfalso. apply A. split; intros w E; discriminate.
Qed.
End Run.

(** ** Coerced variables are defined *)
Lemma collect_keys fin m defs vars r d :
  collect_each fin m defs vars = CoerceModel.Ok r -> In d defs ->
  CoerceModel.is_non_null (vd_type d) = true \/ vd_default d <> None ->
  In (vd_name d) (map fst r).
Proof.
  revert vars r. induction defs as [|d0 defs IH]; intros vars r E Hd Hn; [destruct Hd|].
  cbn [collect_each] in E.
  destruct (kget (vd_name d0) vars) as [v|] eqn:K.
  - destruct (validate_runtime_value m v (vd_type d0)); [discriminate|].
    destruct (collect_each fin m defs (kremove (vd_name d0) vars)) as [r'|] eqn:E'; [|discriminate].
    injection E as <-. cbn [map fst]. destruct Hd as [->|Hd]; [left; reflexivity|].
    right. exact (IH _ _ E' Hd Hn).
  - destruct (vd_default d0) as [g|] eqn:G.
    + destruct (validate_runtime_value m (value_to_json fin g) (vd_type d0)); [discriminate|].
      destruct (collect_each fin m defs vars) as [r'|] eqn:E'; [|discriminate].
      injection E as <-. cbn [map fst]. destruct Hd as [->|Hd]; [left; reflexivity|].
      right. exact (IH _ _ E' Hd Hn).
    + destruct (CoerceModel.is_non_null (vd_type d0)) eqn:NN; [discriminate|].
      destruct Hd as [->|Hd]; [|exact (IH _ _ E Hd Hn)].
      exfalso. destruct Hn as [Hn|Hn]; congruence.
Qed.

Lemma coerced_defined fin m op vars r d defs :
  collect_variables fin m op vars = CoerceModel.Ok r -> op_vars op = Some defs -> In d defs ->
  CoerceModel.is_non_null (vd_type d) = true \/ vd_default d <> None ->
  exists rs, r = Some rs /\
    forall vs : list (string * value), map fst vs = map fst rs -> defined (Some vs) (Some (vd_name d)).
Proof.
  unfold collect_variables. intros E Eo Hd Hn. rewrite Eo in E.
  destruct (collect_each fin m defs vars) as [rs|] eqn:C; [|discriminate].
  pose proof (collect_keys _ _ _ _ _ _ C Hd Hn) as K.
  destruct rs as [|x rs]; [destruct K|]. injection E as <-. exists (x :: rs). split; [reflexivity|].
  intros vs Hk v Ev. injection Ev as <-. rewrite <- Hk in K.
  destruct (get (vd_name d) vs) as [y|] eqn:G; [exists vs, y; split; [reflexivity|exact G]|].
  exfalso. apply get_none_notin in G. contradiction.
Qed.

Lemma undefined_variable :
  exists f s, active_pair (variable_equals_true None) (Some s) None /\
  forall ryu pt xxh show answer c tr c',
    ExecModel.run ryu pt xxh show None answer (from_fetch_step [] f false (to_condition (Some s) None)) c tr c' ->
    tr = [].
Proof.
  exists (mkfetch 1 "A" None [] []), "s". split.
  - split; intros w E; [reflexivity|discriminate].
  - intros. change (from_fetch_step [] (mkfetch 1 "A" None [] []) false (to_condition (Some "s") None))
      with (NCondition "s" None (Some (NFetch (mkfetch 1 "A" None [] [])))) in H.
    apply run_cond in H. cbn [condition_branch] in H. exact (proj1 H).
Qed.
