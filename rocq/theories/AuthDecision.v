(** From the filter to the decision taken for a request. *)
From Coq Require Import String List Bool Arith Lia.
From Verif Require Import Ast TrieModel TrieProofs AuthModel AuthSpec AuthProofs AuthFilterProofs.
Import ListNotations.
Local Open Scope string_scope.
Local Open Scope list_scope.

(** The operation executed after a decision. *)
Definition executed (op : operation) (d : decision) : option operation :=
  match d with
  | NoChange => Some op
  | Modified op' _ _ => Some op'
  | Reject _ => None
  | FieldNotFound => None
  end.

Section Decide.
  Variable Sc : schema.
  Variable defs : list tydef.
  Variable m : meta.
  Hypothesis UN : unique_names defs.
  Hypothesis HB : build Sc defs = inl m.
  Variable vars : string -> bool.
  Variable j : jwt.
  Variable root : string.
  Variable op : operation.

  Notation u := (user_of m j).
  Notation vis := (visit_all Sc vars (keep_field m u) (keep_fragment m u) (op_sels op) root []).
  Notation occs := (occs Sc vars).
  Notation fragsl := (fragsl Sc vars).

  Lemma okf_allowed o : okf Sc (keep_field m u) o -> allowed Sc defs j (o_parent o) (o_name o).
  Proof. intros (out & nn & FI & K). apply (keep_field_iff Sc defs m UN HB j _ _ out nn FI). assumption. Qed.

  Lemma occ_known xs par p r o :
    visit_all Sc vars (keep_field m u) (keep_fragment m u) xs par p = Some r ->
    f_errors r = [] -> In o (occs xs par p) -> okf Sc (keep_field m u) o.
  Proof.
    intros V E Ho. apply (visit_all_no_errors _ _ _ _ _ _ _ _ V) in E. destruct E as [E _]. auto.
  Qed.

  Lemma early_exit_allowed par f :
    meta_is_empty m = true \/ (u_auth u && match scopes m with [] => true | _ => false end = true) ->
    allowed Sc defs j par f.
  Proof.
    intros [H|H]; [eapply empty_allows; eassumption|].
    apply andb_true_iff in H. destruct H as [H1 H2].
    eapply no_scopes_allows; [eassumption|eassumption| |assumption].
    destruct (scopes m); [reflexivity|discriminate].
  Qed.

  (** Type conditions may also be skipped. *)
  Lemma early_exit_types t :
    meta_is_empty m = true \/ (u_auth u && match scopes m with [] => true | _ => false end = true) ->
    type_allowed defs j t.
  Proof. intro H. apply (early_exit_allowed t "" H). Qed.

  Lemma decision_cases rm :
    let d := apply_authorization Sc m vars j root op rm in
    (d = NoChange /\ (meta_is_empty m = true \/ (u_auth u && match scopes m with [] => true | _ => false end = true)))
    \/ (vis = None /\ d = FieldNotFound)
    \/ (exists r, vis = Some r /\ f_errors r = [] /\ d = NoChange)
    \/ (exists r, vis = Some r /\ f_errors r <> [] /\
          d = if rm then Reject (f_errors r)
              else Modified (rebuild_operation (from_paths (f_paths r)) op) (from_paths (f_paths r)) (f_errors r)).
  Proof.
    cbv zeta. unfold apply_authorization.
    destruct (meta_is_empty m); [left; auto|].
    destruct (u_auth u && match scopes m with [] => true | _ => false end); [left; auto|].
    right. destruct vis as [r|] eqn:V; [|auto]. right.
    destruct (f_errors r) as [|e es] eqn:E.
    - left. exists r. auto.
    - right. exists r. rewrite E. split; [reflexivity|]. split; [discriminate|].
      destruct rm; reflexivity.
  Qed.

  Lemma filtered_only_allowed rm op' :
    executed op (apply_authorization Sc m vars j root op rm) = Some op' ->
    forall o, In o (occs (op_sels op') root []) -> allowed Sc defs j (o_parent o) (o_name o).
  Proof.
    intros X o Ho.
    destruct (decision_cases rm) as [[D H]|[[V D]|[(r & V & E & D)|(r & V & E & D)]]]; rewrite D in X.
    - apply early_exit_allowed. assumption.
    - discriminate.
    - injection X as <-. apply okf_allowed. eapply occ_known; eassumption.
    - destruct rm; [discriminate|]. injection X as <-.
      apply rebuild_operation_occ in Ho. destruct Ho as [Ho N].
      destruct (visit_all_covers _ _ _ _ _ _ _ _ V o Ho) as [K|(q & Hq & C)].
      + apply okf_allowed. assumption.
      + exfalso. eapply N; eassumption.
  Qed.

  Lemma filtered_is_subset rm op' :
    executed op (apply_authorization Sc m vars j root op rm) = Some op' ->
    forall o, In o (occs (op_sels op') root []) -> In o (occs (op_sels op) root []).
  Proof.
    intros X o Ho.
    destruct (decision_cases rm) as [[D H]|[[V D]|[(r & V & E & D)|(r & V & E & D)]]]; rewrite D in X;
      try discriminate; try (injection X as <-; assumption).
    destruct rm; [discriminate|]. injection X as <-. apply rebuild_operation_occ in Ho. tauto.
  Qed.

  Lemma fully_allowed_unchanged rm :
    (forall o, In o (occs (op_sels op) root []) -> field_info Sc (o_parent o) (o_name o) <> None) ->
    (forall o, In o (occs (op_sels op) root []) -> allowed Sc defs j (o_parent o) (o_name o)) ->
    (forall g, In g (fragsl (op_sels op) root []) -> type_allowed defs j (g_cond g)) ->
    apply_authorization Sc m vars j root op rm = NoChange.
  Proof.
    intros V0 HO HG. pose proof (visit_all_total Sc vars (keep_field m u) (keep_fragment m u) _ _ _ V0) as V1.
    destruct (decision_cases rm) as [[D H]|[[V D]|[(r & V & E & D)|(r & V & E & D)]]]; try assumption; [congruence|].
    exfalso. apply E. destruct (f_errors r) as [|e es] eqn:Er; [reflexivity|]. exfalso.
    destruct (visit_all_errors _ _ _ _ _ _ _ _ V) as (A & _ & _).
    destruct (A e) as [(o & Ho & (out & nn & FI & K) & _)|(g & Hg & N & _)].
    - rewrite Er. left. reflexivity.
    - specialize (HO o Ho). apply (keep_field_iff Sc defs m UN HB j _ _ out nn FI) in HO. congruence.
    - apply N. unfold okg. eapply keep_fragment_allowed; eauto.
  Qed.

  Lemma reject_complete :
    (forall o, In o (occs (op_sels op) root []) -> field_info Sc (o_parent o) (o_name o) <> None) ->
    ((exists o, In o (occs (op_sels op) root []) /\ ~ allowed Sc defs j (o_parent o) (o_name o)) \/
     (exists g, In g (fragsl (op_sels op) root []) /\ ~ type_allowed defs j (g_cond g) /\
                In (g_cond g) (g_parent g :: type_children Sc (g_parent g)))) ->
    exists errs, apply_authorization Sc m vars j root op true = Reject errs /\ errs <> [].
  Proof.
    intros V0 Hd. pose proof (visit_all_total Sc vars (keep_field m u) (keep_fragment m u) _ _ _ V0) as V1.
    destruct (decision_cases true) as [[D H]|[[V D]|[(r & V & E & D)|(r & V & E & D)]]]; [|congruence| |eauto].
    - exfalso. destruct Hd as [(o & _ & N)|(g & _ & N & _)]; apply N.
      + apply early_exit_allowed. assumption.
      + apply early_exit_types. assumption.
    - exfalso. apply (visit_all_no_errors _ _ _ _ _ _ _ _ V) in E. destruct E as [EO EG].
      destruct Hd as [(o & Ho & N)|(g & Hg & N & C)].
      + apply N. apply okf_allowed. auto.
      + specialize (EG g Hg). unfold okg in EG.
        rewrite (keep_fragment_denied Sc defs m UN HB j _ _ C N) in EG. discriminate.
  Qed.

  Lemma reject_sound errs :
    apply_authorization Sc m vars j root op true = Reject errs ->
    (exists o, In o (occs (op_sels op) root []) /\ ~ allowed Sc defs j (o_parent o) (o_name o)) \/
    (exists g, In g (fragsl (op_sels op) root []) /\ ~ type_allowed defs j (g_cond g)).
  Proof.
    intro X.
    destruct (decision_cases true) as [[D H]|[[V D]|[(r & V & E & D)|(r & V & E & D)]]]; try congruence.
    destruct (f_errors r) as [|e es] eqn:Er; [congruence|].
    destruct (visit_all_errors _ _ _ _ _ _ _ _ V) as (A & _ & _).
    destruct (A e) as [(o & Ho & (out & nn & FI & K) & _)|(g & Hg & N & _)].
    - rewrite Er. left. reflexivity.
    - left. exists o. split; [assumption|]. intro Al.
      apply (keep_field_iff Sc defs m UN HB j _ _ out nn FI) in Al. congruence.
    - right. exists g. split; [assumption|]. intro Al. apply N. eapply keep_fragment_allowed; eauto.
  Qed.

  Lemma reject_mode_never_modifies op' t errs :
    apply_authorization Sc m vars j root op true <> Modified op' t errs.
  Proof.
    destruct (decision_cases true) as [[D H]|[[V D]|[(r & V & E & D)|(r & V & E & D)]]]; congruence.
  Qed.

  Lemma filter_mode_never_rejects errs : apply_authorization Sc m vars j root op false <> Reject errs.
  Proof.
    destruct (decision_cases false) as [[D H]|[[V D]|[(r & V & E & D)|(r & V & E & D)]]]; congruence.
  Qed.

  (** What the filter keeps, in filter mode. *)
  Lemma modified_leaves op' t errs o :
    apply_authorization Sc m vars j root op false = Modified op' t errs -> o_leaf o = true ->
    (In o (occs (op_sels op') root []) <->
     In o (occs (op_sels op) root []) /\
     forall q, nulled Sc vars (keep_field m u) (keep_fragment m u) root [] (op_sels op) q ->
               ~ covers [] q (o_path o)).
  Proof.
    intros X L.
    destruct (decision_cases false) as [[D H]|[[V D]|[(r & V & E & D)|(r & V & E & D)]]]; try congruence.
    rewrite X in D. injection D as -> -> ->.
    destruct (visit_all_nulled _ _ _ _ _ _ _ _ V) as [_ NP]. split.
    - intro Ho. apply rebuild_operation_occ in Ho. destruct Ho as [Ho N]. split; [assumption|].
      intros q Hq. apply N. apply NP. assumption.
    - intros [Ho N]. apply rebuild_operation_keeps; auto. intros q Hq. apply N. apply NP. assumption.
  Qed.

  Lemma modified_errors op' t errs :
    apply_authorization Sc m vars j root op false = Modified op' t errs ->
    (forall o, In o (occs (op_sels op) root []) -> ~ allowed Sc defs j (o_parent o) (o_name o) ->
       exists e s, In e errs /\ field_keys (o_path o) = e ++ s) /\
    (forall e, In e errs ->
       (exists o, In o (occs (op_sels op) root []) /\ ~ allowed Sc defs j (o_parent o) (o_name o) /\
                  e = field_keys (o_path o)) \/
       (exists g, In g (fragsl (op_sels op) root []) /\ ~ type_allowed defs j (g_cond g) /\
                  e = field_keys (g_path g))).
  Proof.
    intros X.
    destruct (decision_cases false) as [[D H]|[[V D]|[(r & V & E & D)|(r & V & E & D)]]]; try congruence.
    rewrite X in D. injection D as -> -> ->.
    destruct (visit_all_errors _ _ _ _ _ _ _ _ V) as (A & B & _). split.
    - intros o Ho N. destruct (B o Ho) as [K|K]; [|assumption]. exfalso. apply N. apply okf_allowed. assumption.
    - intros e He. destruct (A e He) as [(o & Ho & (out & nn & FI & K) & Ee)|(g & Hg & N & Ee)].
      + left. exists o. split; [assumption|]. split; [|assumption]. intro Al.
        apply (keep_field_iff Sc defs m UN HB j _ _ out nn FI) in Al. congruence.
      + right. exists g. split; [assumption|]. split; [|assumption].
        intro Al. apply N. eapply keep_fragment_allowed; eauto.
  Qed.

  (** Nothing is nulled without an unauthorized selection at or below that path. *)
  Lemma bubbles_has_cause par xs :
    bubbles Sc vars (keep_field m u) (keep_fragment m u) par xs -> forall p,
    exists o, In o (occs xs par p) /\ ~ allowed Sc defs j (o_parent o) (o_name o).
  Proof.
    induction 1 as [par xs n a args inc skip om sub out Hin EX TN FI K
                   |par xs n a args inc skip om sub out Hin EX TN FI K B IH
                   |par xs t inc skip sub Hin EX K B IH]; intro p.
    - exists (mkocc (p ++ [SegField (response_key n a)]) par n (match sub with [] => true | _ => false end)).
      split.
      + unfold AuthSpec.occs. apply in_flat_map. eexists. split; [exact Hin|]. simpl.
        rewrite EX. apply String.eqb_neq in TN. rewrite TN. left. reflexivity.
      + cbn. intro Al. apply (keep_field_iff Sc defs m UN HB j _ _ out true FI) in Al. congruence.
    - destruct (IH (p ++ [SegField (response_key n a)])) as (o & Ho & N). exists o. split; [|assumption].
      unfold AuthSpec.occs. apply in_flat_map. eexists. split; [exact Hin|]. simpl.
      rewrite EX. apply String.eqb_neq in TN. rewrite TN, FI. right. exact Ho.
    - destruct (IH (p ++ [SegFrag t])) as (o & Ho & N). exists o. split; [|assumption].
      unfold AuthSpec.occs. apply in_flat_map. eexists. split; [exact Hin|]. simpl. rewrite EX. exact Ho.
  Qed.

  Lemma modified_vars op' t errs n d ds :
    apply_authorization Sc m vars j root op false = Modified op' t errs ->
    op_vars op = Some ds -> In d ds -> vd_name d = n -> In n (flat_map sel_vars (op_sels op')) ->
    exists ds', op_vars op' = Some ds' /\ In d ds'.
  Proof.
    intros X.
    destruct (decision_cases false) as [[D H]|[[V D]|[(r & V & E & D)|(r & V & E & D)]]]; try congruence.
    rewrite X in D. injection D as -> -> ->. apply rebuild_vars.
  Qed.
End Decide.

Lemma satisfies_monotone d l l' : incl l l' -> satisfies (Some (Some l)) d -> satisfies (Some (Some l')) d.
Proof.
  intros I. unfold satisfies. destruct (d_scopes d) as [|v vs].
  - intros _ _. discriminate.
  - intros [_ (gs & g & E & H & A)]. split; [discriminate|]. exists gs, g. split; [assumption|]. split; [assumption|].
    intros s Hs. apply I. apply A. assumption.
Qed.

Lemma unauthenticated_refused d : (d_scopes d <> [] \/ d_authenticated d = true) -> ~ satisfies None d.
Proof.
  intros H S. unfold satisfies in S. destruct (d_scopes d) as [|v vs].
  - destruct H as [H|H]; [congruence|]. apply (S H). reflexivity.
  - destruct S as [S _]. apply S. reflexivity.
Qed.

(** ** An emptied parent *)
Definition ep_schema : schema :=
  mkschema [("Query", [("me", ("User", false))]); ("User", [("email", ("String", false))])] [].
Definition ep_defs : list tydef :=
  [mktydef true "Query" (mkdirs false []) [("me", mkdirs false [])];
   mktydef true "User" (mkdirs false []) [("email", mkdirs true [])]].
Definition ep_meta : meta := match build ep_schema ep_defs with inl m => m | inr _ => mkmeta [] [] [] [] end.
Definition ep_op : operation :=
  mkop None (Some KQuery) [SField "me" None None None None false [SField "email" None None None None false []]] None.

Lemma emptied_parent :
  exists Sc defs m vars j root op op' t errs o,
    unique_names defs /\ build Sc defs = inl m /\
    apply_authorization Sc m vars j root op false = Modified op' t errs /\
    In o (occs Sc vars (op_sels op) root []) /\ allowed Sc defs j (o_parent o) (o_name o) /\
    (forall q, nulled Sc vars (keep_field m (user_of m j)) (keep_fragment m (user_of m j)) root [] (op_sels op) q ->
               ~ covers [] q (o_path o)) /\
    ~ In o (occs Sc vars (op_sels op') root []).
Proof.
  assert (U : unique_names ep_defs).
  { split; [|intros d [<-|[<-|[]]]]; simpl; repeat constructor; simpl; intuition discriminate. }
  exists ep_schema, ep_defs, ep_meta, (fun _ => false), None, "Query", ep_op.
  eexists _, _, _. exists (mkocc [SegField "me"] "Query" "me" false).
  split; [exact U|]. split; [reflexivity|]. split; [reflexivity|]. split; [left; reflexivity|].
  split.
  { apply (keep_field_iff ep_schema ep_defs ep_meta U eq_refl None "Query" "me" "User" false); reflexivity. }
  split.
  - intros q Hq C.
    assert (V : exists r, visit_all ep_schema (fun _ => false) (keep_field ep_meta (user_of ep_meta None))
                 (keep_fragment ep_meta (user_of ep_meta None)) (op_sels ep_op) "Query" [] = Some r /\
                 f_paths r = [[SegField "me"; SegField "email"]]) by (eexists; split; reflexivity).
    destruct V as (r & V & E).
    apply (visit_all_nulled _ _ _ _ _ _ _ _ V) in Hq. rewrite E in Hq. destruct Hq as [<-|[]].
    destruct C as [[s Hs] _]. cbn in Hs. discriminate.
  - intros [].
Qed.
