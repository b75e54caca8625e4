(* The rules on unused fragments and on variables. *)
From Coq Require Import String List Bool Arith Lia.
From Verif Require Import StrUtil Ast ConsumerModel IntroModel CondModel NormModel NormProofs WalkModel LocalModel LocalSpec WalkProofs LocalBase LocalRun LocalProofs LocalState ReachModel ReachSpec ReachBase ReachCalls.
Import ListNotations.
Local Open Scope string_scope.
Local Open Scope list_scope.

Definition scope_of (d : qdef) : scope := match d with QFrag n _ _ _ => InFragment n | QOp _ n _ _ _ => InOperation n end.
Definition first_ev (d : qdef) : event := match d with QFrag n tc ds set => EnterFrag n tc ds set | QOp k n ds vs set => EnterOp k n ds vs set end.
Definition last_ev (d : qdef) : event := match d with QFrag _ _ _ _ => LeaveFrag | QOp _ _ _ _ _ => LeaveOp end.
Lemma calls_shape : forall sch d ty, start_type sch d = Some ty ->
  exists b, calls sch d = (def_ctx ty, first_ev d) :: b ++ [(def_ctx ty, last_ev d)] /\ forall x, In x b -> deep (snd x) = true.
Proof.
  intros sch d ty S. rewrite (calls_eq _ _ _ S). destruct d as [n tc ds set|k n ds vs set]; cbn [head foot set_of first_ev last_ev].
  - exists (walk_directives sch (def_ctx ty) ds ++ walk_sub sch ty set). split; [cbn; now rewrite <- app_assoc|].
    intros x X. apply in_app_iff in X. destruct X as [X|X]; [now apply dirs_deep in X|now apply sub_deep in X].
  - exists (walk_directives sch (def_ctx ty) ds ++ flat_map (walk_variable sch (def_ctx ty)) vs ++ walk_sub sch ty set).
    split; [cbn; now rewrite <- !app_assoc|].
    intros x X. rewrite !in_app_iff in X. destruct X as [X|[X|X]]; [now apply dirs_deep in X|now apply vars_deep in X|now apply sub_deep in X].
Qed.

Lemma mput_same {K V} (eqb : K -> K -> bool) (EQ : forall a b, eqb a b = true <-> a = b) : forall (m : list (K * V)) k v v', mget eqb m k = Some v -> map fst (mput eqb m k v') = map fst m.
Proof.
  induction m as [|[k0 v0] m IH]; intros k v v'; cbn [mget mput]; [discriminate|]. destruct (eqb k k0) eqn:E; intros H.
  - apply EQ in E. now subst.
  - cbn. f_equal. eapply IH. exact H.
Qed.

(* What a visitor that only reports at the end reports *)
Lemma run_end : forall {E S} (step : S -> call -> S * list E) (next : S -> call -> S) (final : S -> list E) s0 sch doc l,
  (forall s x, snd x <> LeaveDocument -> step s x = (next s x, [])) -> (forall s x, snd x = LeaveDocument -> step s x = (s, final s)) ->
  (forall s, next s (no_ctx, EnterDocument) = s) ->
  walk sch doc = Some l -> out step s0 l = final (fold_left next (flat_map (calls sch) doc) s0).
Proof.
  intros E S step next final s0 sch doc l A B C W. destruct (walk_parts _ _ _ W) as [EQ T]. rewrite EQ.
  assert (P : forall b s, (forall x, In x b -> snd x <> LeaveDocument) -> out step s b = [] /\ fin step s b = fold_left next b s).
  { induction b as [|x b IH]; intros s H; [split; reflexivity|]. rewrite out_cons, fin_cons, (A s x (H x (or_introl eq_refl))).
    cbn. apply IH. intros y Y. apply H. now right. }
  rewrite out_cons, A by discriminate. cbn [fst snd app]. rewrite C, out_app.
  destruct (P (flat_map (calls sch) doc) s0) as [-> ->].
  - intros x X K. apply in_flat_map in X. destruct X as (d & D & X). destruct (start_type sch d) as [ty|] eqn:S0; [|now destruct (T d D)].
    destruct (calls_shape _ _ _ S0) as (b & EB & H). rewrite EB in X. destruct X as [<-|X]; [destruct d; discriminate K|].
    apply in_app_iff in X. destruct X as [X|[<-|[]]]; [|destruct d; discriminate K]. apply H in X. rewrite K in X. discriminate X.
  - cbn [app]. rewrite out_one, B by reflexivity. reflexivity.
Qed.

(* * Variables *)
Definition collects {S V} (sel : S -> list (scope * list V)) (ev : call -> list V) (next : S -> call -> S) (sc : S -> option scope) : Prop :=
  forall s x, (deep (snd x) = true \/ snd x = LeaveOp \/ snd x = LeaveFrag) -> forall c, sc s = Some c ->
    sc (next s x) = Some c /\ forall y v, In v (mlist scope_eqb (sel (next s x)) y) <-> In v (mlist scope_eqb (sel s) y) \/ (y = c /\ In v (ev x)).
Lemma collect_inside {S V} (sel : S -> list (scope * list V)) ev next sc : collects sel ev next sc ->
  forall b s c, (forall x, In x b -> deep (snd x) = true \/ snd x = LeaveOp \/ snd x = LeaveFrag) -> sc s = Some c ->
  sc (fold_left next b s) = Some c /\
  forall y v, In v (mlist scope_eqb (sel (fold_left next b s)) y) <-> In v (mlist scope_eqb (sel s) y) \/ (y = c /\ In v (flat_map ev b)).
Proof.
  intros C b. induction b as [|x b IH]; intros s c H SC; cbn [fold_left flat_map].
  - split; [exact SC|]. intros y v. cbn. tauto.
  - destruct (C s x (H x (or_introl eq_refl)) c SC) as [C1 C2].
    destruct (IH (next s x) c (fun z Z => H z (or_intror Z)) C1) as [I1 I2].
    split; [exact I1|]. intros y v. rewrite I2, C2, in_app_iff. tauto.
Qed.
Definition opens {S V} (sel : S -> list (scope * list V)) (next : S -> call -> S) (sc : S -> option scope) : Prop :=
  forall s c d, sc (next s (c, first_ev d)) = Some (scope_of d) /\ sel (next s (c, first_ev d)) = sel s.
Lemma collect_doc {S V} (sel : S -> list (scope * list V)) ev next sc sch :
  collects sel ev next sc -> opens sel next sc -> (forall c d, ev (c, first_ev d) = []) ->
  forall doc s, (forall d, In d doc -> start_type sch d <> None) ->
  forall y v, In v (mlist scope_eqb (sel (fold_left next (flat_map (calls sch) doc) s)) y) <->
    In v (mlist scope_eqb (sel s) y) \/ exists d, In d doc /\ y = scope_of d /\ In v (flat_map ev (calls sch d)).
Proof.
  intros C O N doc. induction doc as [|d doc IH]; intros s T y v; cbn [flat_map].
  - cbn. split; [now left|]. intros [K|(d & [] & _)]. exact K.
  - rewrite fold_left_app, IH by (intros d' D; apply T; now right).
    destruct (start_type sch d) as [ty|] eqn:SD; [|now destruct (T d (or_introl eq_refl))].
    destruct (calls_shape _ _ _ SD) as (b & EB & H).
    assert (P : In v (mlist scope_eqb (sel (fold_left next (calls sch d) s)) y) <-> In v (mlist scope_eqb (sel s) y) \/ (y = scope_of d /\ In v (flat_map ev (calls sch d)))).
    { rewrite EB. cbn [fold_left flat_map]. rewrite N. cbn [app]. destruct (O s (def_ctx ty) d) as [O1 O2].
      destruct (collect_inside sel ev next sc C (b ++ [(def_ctx ty, last_ev d)]) (next s (def_ctx ty, first_ev d)) (scope_of d)) as [_ I].
      - intros x X. apply in_app_iff in X. destruct X as [X|[<-|[]]]; [left; now apply H|right; destruct d; cbn; auto].
      - exact O1.
      - now rewrite I, O2. }
    rewrite P. split.
    + intros [[K|[-> K]]|(d' & D & K)]; [now left|right; exists d; split; [now left|now split]|right; exists d'; split; [now right|exact K]].
    + intros [K|(d' & [<-|D] & E & K)]; [left; now left|left; right; now split|right; exists d'; auto].
Qed.

Lemma ss_eq : forall a b, String.eqb a b = true <-> a = b.
Proof. exact String.eqb_eq. Qed.
Lemma add_in {V} : forall (m : list (scope * list V)) c l y v, In v (mlist scope_eqb (madd scope_eqb m c l) y) <-> In v (mlist scope_eqb m y) \/ (y = c /\ In v l).
Proof.
  intros m c l y v. rewrite (mlist_add _ scope_eqb_ok), in_app_iff. destruct (scope_eqb y c) eqn:E.
  - apply scope_eqb_ok in E. intuition.
  - split; [intros [K|[]]; now left|]. intros [K|[-> K]]; [now left|]. rewrite (proj2 (scope_eqb_ok c c) eq_refl) in E. discriminate E.
Qed.
Lemma spreads_collect : collects vs_spreads spread_ev variables_step vs_scope.
Proof.
  intros s [cx x] H c SC. unfold variables_step. cbn [snd]. unfold spread_ev. cbn [snd].
  destruct x; try (destruct H as [H|[H|H]]; discriminate H);
    try (split; [exact SC|]; intros y v'; cbn; tauto).
  - rewrite SC. destruct c as [n|n]; [destruct (mget name_eqb (vs_defined s) n)|]; (split; [first [exact SC|reflexivity]|]; intros y v'; cbn; tauto).
  - rewrite SC. split; [first [exact SC|reflexivity]|]. intros y v'. cbn. tauto.
  - rewrite SC. split; [first [exact SC|reflexivity]|]. intros y v'. cbn [vs_spreads]. apply add_in.
Qed.
Lemma used_collect : collects vs_used arg_ev variables_step vs_scope.
Proof.
  intros s [cx x] H c SC. unfold variables_step. cbn [snd]. unfold arg_ev. cbn [snd].
  destruct x; try (destruct H as [H|[H|H]]; discriminate H);
    try (split; [exact SC|]; intros y v'; cbn; tauto).
  - rewrite SC. destruct c as [n|n]; [destruct (mget name_eqb (vs_defined s) n)|]; (split; [first [exact SC|reflexivity]|]; intros y v'; cbn; tauto).
  - rewrite SC. split; [first [exact SC|reflexivity]|]. intros y v'. cbn [vs_used]. apply add_in.
  - rewrite SC. split; [first [exact SC|reflexivity]|]. intros y v'. cbn. tauto.
Qed.
Lemma spreads_open : opens vs_spreads variables_step vs_scope.
Proof. intros s c [n tc ds set|k n ds vs set]; split; reflexivity. Qed.
Lemma used_open : opens vs_used variables_step vs_scope.
Proof. intros s c [n tc ds set|k n ds vs set]; split; reflexivity. Qed.

(* the variables that operations define *)
Definition insert_all (vs : list vardef) (l : list string) : list string := fold_left (fun l v => sinsert (vd_name v) l) vs l.
Lemma insert_all_in : forall vs l x, In x (insert_all vs l) <-> In x l \/ In x (map vd_name vs).
Proof.
  induction vs as [|v vs IH]; intros l x; [cbn; tauto|]. unfold insert_all in *. cbn [fold_left map In]. rewrite IH, sinsert_in. intuition.
Qed.
Lemma defined_inside : forall b s c, (forall x, In x b -> deep (snd x) = true \/ snd x = LeaveOp \/ snd x = LeaveFrag) -> vs_scope s = Some c ->
  match c with
  | InFragment _ => vs_defined (fold_left variables_step b s) = vs_defined s
  | InOperation n => forall l, mget name_eqb (vs_defined s) n = Some l ->
      map fst (vs_defined (fold_left variables_step b s)) = map fst (vs_defined s) /\
      mget name_eqb (vs_defined (fold_left variables_step b s)) n = Some (insert_all (flat_map var_ev b) l) /\
      forall m, m <> n -> mget name_eqb (vs_defined (fold_left variables_step b s)) m = mget name_eqb (vs_defined s) m
  end.
Proof.
  induction b as [|x b IH]; intros s c H SC; cbn [fold_left flat_map].
  - destruct c; [|reflexivity]. intros l L. repeat split; assumption.
  - pose proof (proj1 (spreads_collect s x (H x (or_introl eq_refl)) c SC)) as SC'.
    specialize (IH (variables_step s x) c (fun z Z => H z (or_intror Z)) SC').
    destruct c as [n|n].
    + intros l L.
      assert (Q : (vs_defined (variables_step s x) = vs_defined s /\ var_ev x = []) \/
        exists v, var_ev x = [v] /\ vs_defined (variables_step s x) = mput name_eqb (vs_defined s) n (sinsert (vd_name v) l)).
      { unfold variables_step, var_ev. specialize (H x (or_introl eq_refl)). destruct (snd x); rewrite ?SC, ?L; try (left; split; reflexivity).
        - destruct H as [H|[H|H]]; discriminate H.
        - right. exists v. split; reflexivity. }
      destruct Q as [[Q1 Q2]|(v & Q1 & Q2)].
      * rewrite Q2. cbn [app]. rewrite Q1 in IH. now apply IH.
      * rewrite Q1. cbn [app insert_all fold_left]. rewrite Q2 in IH.
        destruct (IH (sinsert (vd_name v) l)) as (I1 & I2 & I3).
        { rewrite (mget_put _ name_eqb_ok). now rewrite (proj2 (name_eqb_ok n n) eq_refl). }
        split; [rewrite I1; eapply mput_same; [exact name_eqb_ok|exact L]|]. split; [exact I2|]. intros m M. rewrite (I3 m M), (mget_put _ name_eqb_ok).
        destruct (name_eqb m n) eqn:E; [apply name_eqb_ok in E; contradiction|reflexivity].
    + rewrite IH. unfold variables_step. specialize (H x (or_introl eq_refl)). destruct (snd x); rewrite ?SC; try reflexivity.
      destruct H as [H|[H|H]]; discriminate H.
Qed.
Lemma defined_doc : forall sch doc s, (forall d, In d doc -> start_type sch d <> None) -> NoDup (operation_ids doc) -> NoDup (map fst (vs_defined s)) ->
  let s' := fold_left variables_step (flat_map (calls sch) doc) s in
  NoDup (map fst (vs_defined s')) /\ (forall n, In n (map fst (vs_defined s')) -> In n (map fst (vs_defined s)) \/ In n (operation_ids doc)) /\
  (forall n, ~ In n (operation_ids doc) -> mget name_eqb (vs_defined s') n = mget name_eqb (vs_defined s) n) /\
  (forall k n ds vs set, In (QOp k n ds vs set) doc -> mget name_eqb (vs_defined s') n = Some (insert_all vs [])).
Proof.
  intros sch doc. induction doc as [|d doc IH]; intros s T ND K s'.
  - unfold s'. cbn. repeat split; try tauto. 
  - unfold s'. cbn [flat_map]. rewrite fold_left_app.
    destruct (start_type sch d) as [ty|] eqn:SD; [|now destruct (T d (or_introl eq_refl))].
    pose proof (calls_vars sch d ty SD) as CV.
    destruct (calls_shape _ _ _ SD) as (b & EB & H). rewrite EB in CV |- *. cbn [fold_left].
    assert (HB : forall x, In x (b ++ [(def_ctx ty, last_ev d)]) -> deep (snd x) = true \/ snd x = LeaveOp \/ snd x = LeaveFrag).
    { intros x X. apply in_app_iff in X. destruct X as [X|[<-|[]]]; [left; now apply H|right; destruct d; cbn; auto]. }
    destruct d as [n tc ds set|k n ds vs set]; cbn [first_ev last_ev operation_ids flat_map app] in *.
    + pose proof (defined_inside _ (variables_step s (def_ctx ty, EnterFrag n tc ds set)) (InFragment n) HB eq_refl) as D. cbn beta iota in D.
      destruct (IH (fold_left variables_step (b ++ [(def_ctx ty, LeaveFrag)]) (variables_step s (def_ctx ty, EnterFrag n tc ds set)))) as (A1 & A2 & A3 & A4).
      * intros d' D'. apply T. now right.
      * exact ND.
      * rewrite D. exact K.
      * rewrite D in A2, A3. split; [exact A1|]. split; [exact A2|]. split; [exact A3|]. intros k n' ds' vs set' [E|I]; [discriminate E|]. eapply A4. exact I.
    + inversion ND as [|a b' NI ND']; subst.
      pose proof (defined_inside _ (variables_step s (def_ctx ty, EnterOp k n ds vs set)) (InOperation n) HB eq_refl []) as D.
      assert (EV : vs_defined (variables_step s (def_ctx ty, EnterOp k n ds vs set)) = mput name_eqb (vs_defined s) n []) by reflexivity.
      cbv beta iota in D. rewrite EV in D. destruct D as (D1 & D2 & D3).
      { rewrite (mget_put _ name_eqb_ok). now rewrite (proj2 (name_eqb_ok n n) eq_refl). }
      destruct (mput_keys _ name_eqb_ok (vs_defined s) n [] K) as [P1 P2].
      destruct (IH (fold_left variables_step (b ++ [(def_ctx ty, LeaveOp)]) (variables_step s (def_ctx ty, EnterOp k n ds vs set)))) as (A1 & A2 & A3 & A4).
      * intros d' D'. apply T. now right.
      * exact ND'.
      * rewrite D1. exact P1.
      * split; [exact A1|]. split; [|split].
        -- intros m M. apply A2 in M. rewrite D1, P2 in M. cbn [In]. intuition.
        -- intros m M. rewrite A3 by (intros I; apply M; now right). rewrite D3 by (intros ->; apply M; now left).
           rewrite (mget_put _ name_eqb_ok). destruct (name_eqb m n) eqn:E; [|reflexivity]. apply name_eqb_ok in E. subst. destruct M. now left.
        -- intros k' n' ds' vs' set' [E|I]; [|eapply A4; exact I]. injection E as <- <- <- <- <-. rewrite A3 by exact NI. rewrite D2.
           cbn [flat_map var_ev snd app vars_of] in CV. now rewrite CV.
Qed.

(* Scopes and definitions *)
Section Scopes.
  Variable doc : list qdef.
  Hypothesis ND : NoDup (operation_ids doc).
  Variable spr : list (scope * list string).
  Hypothesis SPR : forall y n, In n (mlist scope_eqb spr y) <-> exists d, In d doc /\ y = scope_of d /\ spreads d n.
  Lemma one_operation : forall k n ds vs set k' ds' vs' set', In (QOp k n ds vs set) doc -> In (QOp k' n ds' vs' set') doc ->
    QOp k n ds vs set = QOp k' n ds' vs' set'.
  Proof.
    clear SPR. induction doc as [|d doc' IH]; intros k n ds vs set k' ds' vs' set' A B; [destruct A|].
    assert (ID : forall k n ds vs set, In (QOp k n ds vs set) doc' -> In n (operation_ids doc')).
    { intros. unfold operation_ids. apply in_flat_map. eexists. split; [eassumption|now left]. }
    destruct A as [A|A], B as [B|B].
    - congruence.
    - subst d. inversion ND as [|a b NI ND']; subst. destruct NI. eapply ID. exact B.
    - subst d. inversion ND as [|a b NI ND']; subst. destruct NI. eapply ID. exact A.
    - apply IH; try assumption. destruct d; [exact ND|]. now inversion ND.
  Qed.
  Lemma scopes : forall k n ds vs set, In (QOp k n ds vs set) doc ->
    (forall y, scope_reach spr (InOperation n) y -> forall d, In d doc -> scope_of d = y -> reaches doc (QOp k n ds vs set) d) /\
    (forall d, reaches doc (QOp k n ds vs set) d -> In d doc /\ scope_reach spr (InOperation n) (scope_of d)).
  Proof.
    intros k n ds vs set I. split.
    - intros y R. induction R as [|y m R IH J]; intros d D E.
      + destruct d as [n' tc ds' set'|k' n' ds' vs' set']; [discriminate E|]. injection E as ->.
        rewrite (one_operation _ _ _ _ _ _ _ _ _ D I). constructor.
      + apply SPR in J. destruct J as (e & J & -> & SP). destruct d as [n' tc ds' set'|k' n' ds' vs' set']; [|discriminate E]. injection E as ->.
        eapply reaches_spread; [exact (IH e J eq_refl)|exact SP|exact D].
    - intros d R. induction R as [|e m tc ds' set' R [IH1 IH2] SP J]; [split; [exact I|constructor]|].
      split; [exact J|]. cbn [scope_of]. eapply scope_next; [exact IH2|]. apply SPR. exists e. auto.
  Qed.
End Scopes.

Section Variables.
  Variable sch : list definition.
  Hypothesis WF : well_formed sch.
  Variable doc : list qdef.
  Variable l : list call.
  Hypothesis W : walk sch doc = Some l.
  Hypothesis ND : NoDup (operation_ids doc).
  Definition final : vstate := fold_left variables_step (flat_map (calls sch) doc) no_vstate.
  Lemma final_spreads : forall y n, In n (mlist scope_eqb (vs_spreads final) y) <-> exists d, In d doc /\ y = scope_of d /\ spreads d n.
  Proof.
    intros y n. unfold final. rewrite (collect_doc vs_spreads spread_ev variables_step vs_scope sch spreads_collect spreads_open).
    - cbn. split.
      + intros [[]|(d & D & E & K)]. exists d. split; [exact D|]. split; [exact E|]. destruct (start_type sch d) as [ty|] eqn:SD; [|now destruct (starts _ _ _ W d D)].
        now apply (calls_spreads _ WF _ _ SD) in K.
      + intros (d & D & E & K). right. exists d. split; [exact D|]. split; [exact E|]. destruct (start_type sch d) as [ty|] eqn:SD; [|now destruct (starts _ _ _ W d D)].
        now apply (calls_spreads _ WF _ _ SD).
    - now intros c [].
    - exact (starts _ _ _ W).
  Qed.
  Lemma final_used : forall y v, In v (mlist scope_eqb (vs_used final) y) <-> exists d, In d doc /\ y = scope_of d /\ uses d v.
  Proof.
    intros y v. unfold final. rewrite (collect_doc vs_used arg_ev variables_step vs_scope sch used_collect used_open).
    - cbn. split.
      + intros [[]|(d & D & E & K)]. exists d. split; [exact D|]. split; [exact E|]. destruct (start_type sch d) as [ty|] eqn:SD; [|now destruct (starts _ _ _ W d D)].
        now apply (calls_args _ WF _ _ SD) in K.
      + intros (d & D & E & K). right. exists d. split; [exact D|]. split; [exact E|]. destruct (start_type sch d) as [ty|] eqn:SD; [|now destruct (starts _ _ _ W d D)].
        now apply (calls_args _ WF _ _ SD).
    - now intros c [].
    - exact (starts _ _ _ W).
  Qed.
  Lemma final_defined : forall n vars, In (n, vars) (vs_defined final) <-> exists k ds vs set, In (QOp k n ds vs set) doc /\ vars = insert_all vs [].
  Proof.
    intros n vars. destruct (defined_doc sch doc no_vstate (starts _ _ _ W) ND ltac:(constructor)) as (A1 & A2 & A3 & A4). fold final in A1, A2, A3, A4.
    split.
    - intros I. assert (M : In n (map fst (vs_defined final))) by (change n with (fst (n, vars)); now apply in_map).
      apply A2 in M. destruct M as [[]|M]. apply in_flat_map in M. destruct M as (d & D & M). destruct d as [n' tc ds set|k n' ds vs set]; [destruct M|].
      destruct M as [->|[]]. exists k, ds, vs, set. split; [exact D|]. apply A4 in D. apply (in_mget _ name_eqb_ok _ _ _ A1) in I. congruence.
    - intros (k & ds & vs & set & I & ->). apply (mget_in _ name_eqb_ok). eapply A4. exact I.
  Qed.

  Lemma used_found : forall used defined order start v,
    In v (fold_left (fun a x => look_used used defined x a) order start) <-> In v start \/ (In v defined /\ exists x, In x order /\ In v (mlist scope_eqb used x)).
  Proof.
    intros used defined order. induction order as [|x order IH]; intros start v; cbn [fold_left].
    - split; [now left|]. intros [K|(_ & x & [] & _)]. exact K.
    - rewrite IH.
      assert (P : In v (look_used used defined x start) <-> In v start \/ (In v defined /\ In v (mlist scope_eqb used x))).
      { unfold look_used. generalize (mlist scope_eqb used x). intros m. revert start. induction m as [|w m IHm]; intros start; cbn [fold_left].
        - cbn. tauto.
        - rewrite IHm. destruct (smem w defined) eqn:M.
          + apply smem_iff in M. rewrite sinsert_in. cbn [In]. split; [intros [[->|K]|K]; tauto|]. intros [K|[K1 [<-|K2]]]; tauto.
          + apply smem_not in M. cbn [In]. split; [tauto|]. intros [K|[K1 [<-|K2]]]; tauto. }
      rewrite P. split.
      + intros [[K|[K1 K2]]|[K1 (y & I & K2)]]; [now left|right; split; [exact K1|]; exists x; split; [now left|exact K2]|right; split; [exact K1|]; exists y; split; [now right|exact K2]].
      + intros [K|[K1 (y & [<-|I] & K2)]]; [left; now left|left; right; now split|right; split; [exact K1|]; now exists y].
  Qed.
  Lemma undefined_found : forall used defined order start v,
    In v (fold_left (fun a x => look_undefined used defined x a) order start) <-> In v start \/ (~ In v defined /\ exists x, In x order /\ In v (mlist scope_eqb used x)).
  Proof.
    intros used defined order. induction order as [|x order IH]; intros start v; cbn [fold_left].
    - split; [now left|]. intros [K|(_ & x & [] & _)]. exact K.
    - rewrite IH.
      assert (P : In v (look_undefined used defined x start) <-> In v start \/ (~ In v defined /\ In v (mlist scope_eqb used x))).
      { unfold look_undefined. generalize (mlist scope_eqb used x). intros m. revert start. induction m as [|w m IHm]; intros start; cbn [fold_left].
        - cbn. tauto.
        - rewrite IHm. destruct (smem w defined) eqn:M.
          + apply smem_iff in M. cbn [In]. split; [tauto|]. intros [K|[K1 [<-|K2]]]; tauto.
          + apply smem_not in M. rewrite sinsert_in. cbn [In]. split; [intros [[->|K]|K]; tauto|]. intros [K|[K1 [<-|K2]]]; tauto. }
      rewrite P. split.
      + intros [[K|[K1 K2]]|[K1 (y & I & K2)]]; [now left|right; split; [exact K1|]; exists x; split; [now left|exact K2]|right; split; [exact K1|]; exists y; split; [now right|exact K2]].
      + intros [K|[K1 (y & [<-|I] & K2)]]; [left; now left|left; right; now split|right; split; [exact K1|]; now exists y].
  Qed.
  (* variables used by what an operation reaches *)
  Lemma reach_uses : forall k n ds vs set v order, In (QOp k n ds vs set) doc -> (forall x, In x order <-> scope_reach (vs_spreads final) (InOperation n) x) ->
    ((exists x, In x order /\ In v (mlist scope_eqb (vs_used final) x)) <-> exists d, reaches doc (QOp k n ds vs set) d /\ uses d v).
  Proof.
    intros k n ds vs set v order I O. destruct (scopes doc ND (vs_spreads final) final_spreads _ _ _ _ _ I) as [S1 S2]. split.
    - intros (x & X & U). apply O in X. apply final_used in U. destruct U as (d & D & -> & U). exists d. split; [|exact U]. now apply (S1 (scope_of d)).
    - intros (d & R & U). apply S2 in R. destruct R as [D R]. exists (scope_of d). split; [now apply O|]. apply final_used. now exists d.
  Qed.
  Lemma no_unused_variables_ok : forall e, In e (errors_of no_unused_variables l) <->
    exists k n ds vs set v, e = UnusedVariable v n /\ In (QOp k n ds vs set) doc /\ In v (map vd_name vs) /\
      forall d, reaches doc (QOp k n ds vs set) d -> ~ uses d v.
  Proof.
    intros e. change (errors_of no_unused_variables l) with (out (v_step no_unused_variables) no_vstate l).
    rewrite (run_end (v_step no_unused_variables) variables_step (fun s => flat_map (unused_in s) (vs_defined s)) _ sch doc).
    2:{ intros s [c x] H. cbn. destruct x; try reflexivity. now destruct H. }
    2:{ intros s [c x] H. cbn in *. rewrite H. reflexivity. }
    2:{ reflexivity. }
    2:{ exact W. }
    match goal with |- In _ ?L <-> _ => change L with (flat_map (unused_in final) (vs_defined final)) end. rewrite in_flat_map. split.
    - intros ([n vars] & I & K). apply final_defined in I. destruct I as (k & ds & vs & set & I & ->). unfold unused_in in K. cbn [fst snd] in K.
      destruct (explored (look_used (vs_used final) (insert_all vs [])) (vs_spreads final) (InOperation n) []) as (order & E & O). rewrite E in K.
      apply in_map_iff in K. destruct K as (v & <- & K). apply filter_In in K. destruct K as [K1 K2]. apply negb_true_iff, smem_not in K2.
      exists k, n, ds, vs, set, v. split; [reflexivity|]. split; [exact I|]. pose proof K1 as K3. apply insert_all_in in K3. destruct K3 as [[]|K3]. split; [exact K3|].
      intros d R U. apply K2, used_found. right. split; [exact K1|]. apply (reach_uses k n ds vs set v order I O). now exists d.
    - intros (k & n & ds & vs & set & v & -> & I & V & N). exists (n, insert_all vs []). split; [apply final_defined; now exists k, ds, vs, set|].
      unfold unused_in. cbn [fst snd]. destruct (explored (look_used (vs_used final) (insert_all vs [])) (vs_spreads final) (InOperation n) []) as (order & E & O). rewrite E.
      apply in_map_iff. exists v. split; [reflexivity|]. apply filter_In. split; [apply insert_all_in; now right|]. apply negb_true_iff, smem_not.
      intros K. apply used_found in K. destruct K as [[]|[_ K]]. apply (reach_uses k n ds vs set v order I O) in K. destruct K as (d & R & U). exact (N d R U).
  Qed.
  Lemma no_undefined_variables_ok : forall e, In e (errors_of no_undefined_variables l) <->
    exists k n ds vs set v d, e = UndefinedVariable v n /\ In (QOp k n ds vs set) doc /\ reaches doc (QOp k n ds vs set) d /\ uses d v /\ ~ In v (map vd_name vs).
  Proof.
    intros e. change (errors_of no_undefined_variables l) with (out (v_step no_undefined_variables) no_vstate l).
    rewrite (run_end (v_step no_undefined_variables) variables_step (fun s => flat_map (undefined_in s) (vs_defined s)) _ sch doc).
    2:{ intros s [c x] H. cbn. destruct x; try reflexivity. now destruct H. }
    2:{ intros s [c x] H. cbn in *. rewrite H. reflexivity. }
    2:{ reflexivity. }
    2:{ exact W. }
    match goal with |- In _ ?L <-> _ => change L with (flat_map (undefined_in final) (vs_defined final)) end. rewrite in_flat_map. split.
    - intros ([n vars] & I & K). apply final_defined in I. destruct I as (k & ds & vs & set & I & ->). unfold undefined_in in K. cbn [fst snd] in K.
      destruct (explored (look_undefined (vs_used final) (insert_all vs [])) (vs_spreads final) (InOperation n) []) as (order & E & O). rewrite E in K.
      apply in_map_iff in K. destruct K as (v & <- & K). apply undefined_found in K. destruct K as [[]|[K1 K2]].
      apply (reach_uses k n ds vs set v order I O) in K2. destruct K2 as (d & R & U). exists k, n, ds, vs, set, v, d.
      repeat (split; [assumption || reflexivity|]). intros V. apply K1, insert_all_in. now right.
    - intros (k & n & ds & vs & set & v & d & -> & I & R & U & N). exists (n, insert_all vs []). split; [apply final_defined; now exists k, ds, vs, set|].
      unfold undefined_in. cbn [fst snd]. destruct (explored (look_undefined (vs_used final) (insert_all vs [])) (vs_spreads final) (InOperation n) []) as (order & E & O). rewrite E.
      apply in_map_iff. exists v. split; [reflexivity|]. apply undefined_found. right. split; [intros K; apply insert_all_in in K; destruct K as [[]|K]; contradiction|].
      apply (reach_uses k n ds vs set v order I O). now exists d.
  Qed.
End Variables.
