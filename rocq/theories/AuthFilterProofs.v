(** The operation filter and the rebuilt operation, for arbitrary verdicts. *)
From Coq Require Import String List Bool Arith Lia.
From Verif Require Import Ast TrieModel TrieProofs AuthModel AuthSpec.
Import ListNotations.
Local Open Scope string_scope.
Local Open Scope list_scope.

Lemma prefix_comparable (a b c : path) : prefix a c -> prefix b c -> length a <= length b -> prefix a b.
Proof.
  intros [r Hr] [s Hs]. subst c. revert b s Hs. induction a as [|x a IH]; intros b s Hs L.
  - exists b. reflexivity.
  - destruct b as [|y b]; simpl in *; [lia|]. injection Hs as -> Hs.
    destruct (IH b s Hs) as [t ->]; [lia|]. exists t. reflexivity.
Qed.

Lemma covers_prefix p q r : covers p q r -> prefix q r.
Proof. intros [H _]. exact H. Qed.

Lemma covers_below p p' q r : prefix p p' -> covers p' q r -> covers p q r.
Proof.
  intros [s ->] [H (mid & k & ->)]. split; [assumption|]. exists (s ++ mid), k.
  rewrite !app_assoc. reflexivity.
Qed.

Lemma covers_self p k : covers p (p ++ [SegField k]) (p ++ [SegField k]).
Proof. split; [exists []; rewrite app_nil_r; reflexivity|]. exists [], k. reflexivity. Qed.

Lemma covers_ext p q r r' : prefix r r' -> covers p q r -> covers p q r'.
Proof. intros X [H Y]. split; [eapply prefix_trans; eassumption|assumption]. Qed.

(** A cover of a path through [s] goes through [s]. *)
Lemma covers_through p s q r : covers p q r -> prefix (p ++ [s]) r -> prefix (p ++ [s]) q.
Proof.
  intros [H (mid & k & ->)] P. eapply prefix_comparable; [eassumption|exact H|].
  rewrite !app_length. simpl. lia.
Qed.

Lemma covers_step p s q r :
  covers p q r -> prefix (p ++ [s]) r -> q = p ++ [s] \/ covers (p ++ [s]) q r.
Proof.
  intros C P. pose proof (covers_through _ _ _ _ C P) as [t Ht].
  destruct C as [H (mid & k & E)]. destruct (rev t) as [|x t'] eqn:R.
  - left. apply (f_equal (@rev seg)) in R. rewrite rev_involutive in R. simpl in R. subst t.
    rewrite app_nil_r in Ht. assumption.
  - right. split; [assumption|]. apply (f_equal (@rev seg)) in R. rewrite rev_involutive in R. simpl in R. subst t.
    exists (rev t'), k. rewrite Ht. f_equal. f_equal.
    rewrite E, !app_assoc in Ht. apply app_inj_tail in Ht. destruct Ht as [_ ->]. reflexivity.
Qed.

Lemma not_covers_self p q : ~ covers p q p.
Proof.
  intros [[s Hs] (mid & k & ->)]. apply (f_equal (@length seg)) in Hs.
  rewrite !app_length in Hs. simpl in Hs. lia.
Qed.

(** ** Sequencing *)
Lemma sequence_in {A} (f : A -> option fout) xs r :
  sequence (map f xs) = Some r -> forall x, In x xs ->
  exists o, f x = Some o /\ incl (f_paths o) (f_paths r) /\ incl (f_errors o) (f_errors r) /\
            (f_prop o = true -> f_prop r = true).
Proof.
  revert r; induction xs as [|y xs IH]; intros r H x Hx; [destruct Hx|].
  simpl in H. destruct (f y) as [a|] eqn:E; [|discriminate].
  destruct (sequence (map f xs)) as [b|] eqn:E2; [|discriminate]. injection H as <-. cbn.
  destruct Hx as [->|Hx].
  - exists a. split; [assumption|]. split; [apply incl_appl, incl_refl|]. split; [apply incl_appl, incl_refl|].
    intros ->. reflexivity.
  - destruct (IH b eq_refl x Hx) as (o & F & P & R & Q). exists o. split; [assumption|].
    split; [apply incl_appr; assumption|]. split; [apply incl_appr; assumption|].
    intro Ho. rewrite (Q Ho). apply orb_true_r.
Qed.

Lemma sequence_from {A} (f : A -> option fout) xs r :
  sequence (map f xs) = Some r ->
  (forall q, In q (f_paths r) -> exists x o, In x xs /\ f x = Some o /\ In q (f_paths o)) /\
  (forall e, In e (f_errors r) -> exists x o, In x xs /\ f x = Some o /\ In e (f_errors o)) /\
  (f_prop r = true -> exists x o, In x xs /\ f x = Some o /\ f_prop o = true).
Proof.
  revert r; induction xs as [|y xs IH]; intros r H; simpl in H.
  - injection H as <-. cbn. split; [intros ? []|]. split; [intros ? []|discriminate].
  - destruct (f y) as [a|] eqn:E; [|discriminate].
    destruct (sequence (map f xs)) as [b|] eqn:E2; [|discriminate]. injection H as <-. cbn.
    destruct (IH b eq_refl) as (P & R & Q). split; [|split].
    + intros q Hq. apply in_app_or in Hq. destruct Hq as [Hq|Hq]; [exists y, a; auto|].
      destruct (P q Hq) as (x & o & ? & ? & ?). exists x, o. auto.
    + intros q Hq. apply in_app_or in Hq. destruct Hq as [Hq|Hq]; [exists y, a; auto|].
      destruct (R q Hq) as (x & o & ? & ? & ?). exists x, o. auto.
    + intro Hp. apply orb_true_iff in Hp. destruct Hp as [Hp|Hp]; [exists y, a; auto|].
      destruct (Q Hp) as (x & o & ? & ? & ?). exists x, o. auto.
Qed.

Section FilterProofs.
  Variable Sc : schema.
  Variable vars : string -> bool.
  Variable keepf : string -> string -> string -> bool.
  Variable keepg : string -> string -> bool.

  Notation visit := (visit Sc vars keepf keepg).
  Notation visit_all := (visit_all Sc vars keepf keepg).
  Notation occ := (occ Sc vars).
  Notation frags := (frags Sc vars).
  Notation occs := (occs Sc vars).
  Notation fragsl := (fragsl Sc vars).
  Notation excluded := (excluded vars).
  Notation nulled := (nulled Sc vars keepf keepg).
  Notation bubbles := (bubbles Sc vars keepf keepg).

  Lemma is_ignored_eq skip inc : is_ignored vars skip inc = excluded skip inc.
  Proof. reflexivity. Qed.

  (** The verdict on an occurrence. *)
  Definition okf (o : occurrence) : Prop :=
    exists out nn, field_info Sc (o_parent o) (o_name o) = Some (out, nn) /\
                   keepf (o_parent o) (o_name o) out = true.
  Definition deniedf (o : occurrence) : Prop :=
    exists out nn, field_info Sc (o_parent o) (o_name o) = Some (out, nn) /\
                   keepf (o_parent o) (o_name o) out = false.
  Lemma denied_not_ok o : deniedf o -> ~ okf o.
  Proof. intros (out & nn & A & B) (out' & nn' & A' & B'). congruence. Qed.
  Definition okg (g : fragocc) : Prop := keepg (g_parent g) (g_cond g) = true.

  Lemma occ_prefix : forall x par p o, In o (occ x par p) ->
    prefix p (o_path o) /\
    (forall n a args inc skip om sub, x = SField n a args inc skip om sub ->
       prefix (p ++ [SegField (response_key n a)]) (o_path o)) /\
    (forall t inc skip sub, x = SFrag t inc skip sub -> prefix (p ++ [SegFrag t]) (o_path o)).
  Proof.
    assert (T : forall p s r, prefix (p ++ [s]) r -> prefix p r).
    { intros p s r H. eapply prefix_trans; [|exact H]. apply prefix_app. }
    induction x as [n a args inc skip om sub IH|t inc skip sub IH|n] using sel_ind'; intros par p o H; simpl in H.
    - assert (G : prefix (p ++ [SegField (response_key n a)]) (o_path o)).
      { destruct (excluded skip inc); [destruct H|]. destruct (String.eqb n "__typename"); [destruct H|].
        destruct H as [<-|H]; [apply prefix_refl|].
        destruct (field_info Sc par n) as [[out nn]|]; [|destruct H].
        apply in_flat_map in H. destruct H as (y & Hy & H). rewrite Forall_forall in IH.
        apply (IH y Hy _ _ _ H). }
      split; [eapply T; exact G|]. split; [|intros; discriminate]. intros. congruence.
    - assert (G : prefix (p ++ [SegFrag t]) (o_path o)).
      { destruct (excluded skip inc); [destruct H|].
        apply in_flat_map in H. destruct H as (y & Hy & H). rewrite Forall_forall in IH.
        apply (IH y Hy _ _ _ H). }
      split; [eapply T; exact G|]. split; [intros; discriminate|]. intros. congruence.
    - destruct H.
  Qed.

  (** Fields known to the schema never abort the walk. *)
  Lemma sequence_total {A} (f : A -> option fout) xs : (forall x, In x xs -> f x <> None) -> sequence (map f xs) <> None.
  Proof.
    induction xs as [|x xs IH]; intro H; simpl; [discriminate|].
    destruct (f x) eqn:E; [|exfalso; apply (H x (or_introl eq_refl)); assumption].
    destruct (sequence (map f xs)); [discriminate|]. apply IH. intros y Hy. apply H. right. assumption.
  Qed.

  Definition known (o : occurrence) : Prop := field_info Sc (o_parent o) (o_name o) <> None.

  Lemma visit_total : forall x par p, (forall o, In o (occ x par p) -> known o) -> visit x par p <> None.
  Proof.
    induction x as [n a args inc skip om sub IH|t inc skip sub IH|n] using sel_ind'; intros par p H; simpl in *.
    - rewrite is_ignored_eq. destruct (excluded skip inc); [discriminate|].
      destruct (String.eqb n "__typename"); [discriminate|].
      destruct (field_info Sc par n) as [[out nn]|] eqn:FI.
      + destruct (keepf par n out); [|discriminate].
        destruct (sequence (map (fun y => visit y out (p ++ [SegField (response_key n a)])) sub)) eqn:E; [discriminate|].
        intros _. revert E. apply sequence_total. intros y Hy. rewrite Forall_forall in IH. apply (IH y Hy).
        intros o Ho. apply H. right. apply in_flat_map. eauto.
      + exfalso. apply (H _ (or_introl eq_refl)). assumption.
    - rewrite is_ignored_eq. destruct (excluded skip inc); [discriminate|].
      destruct (keepg par t); [|discriminate].
      apply sequence_total. intros y Hy. rewrite Forall_forall in IH. apply (IH y Hy).
      intros o Ho. apply H. apply in_flat_map. eauto.
    - discriminate.
  Qed.

  Lemma visit_all_total xs par p : (forall o, In o (occs xs par p) -> known o) -> visit_all xs par p <> None.
  Proof.
    intro H. apply sequence_total. intros y Hy. apply visit_total. intros o Ho. apply H.
    unfold AuthSpec.occs. apply in_flat_map. eauto.
  Qed.

  (** ** Collected paths *)
  Lemma collect_covers : forall x par p o, In o (occ x par p) ->
    exists q, In q (collect x p) /\ covers p q (o_path o).
  Proof.
    induction x as [n a args inc skip om sub IH|t inc skip sub IH|n] using sel_ind'; intros par p o H.
    - exists (p ++ [SegField (response_key n a)]). split; [simpl; auto|].
      apply occ_prefix in H. destruct H as (_ & H & _).
      eapply covers_ext; [|apply covers_self]. eapply H. reflexivity.
    - simpl in H. destruct (excluded skip inc); [destruct H|].
      apply in_flat_map in H. destruct H as (y & Hy & H). rewrite Forall_forall in IH.
      destruct (IH y Hy _ _ _ H) as (q & Hq & C). exists q. split.
      + simpl. apply in_flat_map. eauto.
      + eapply covers_below; [apply prefix_app|exact C].
    - destruct H.
  Qed.

  (** ** Denied occurrences are below a rejected path *)
  Lemma visit_covers : forall x par p r, visit x par p = Some r ->
    forall o, In o (occ x par p) -> okf o \/ exists q, In q (f_paths r) /\ covers p q (o_path o).
  Proof.
    induction x as [n a args inc skip om sub IH|t inc skip sub IH|n] using sel_ind'; intros par p r V o H;
      simpl in V, H; [| |destruct H].
    - rewrite is_ignored_eq in V. destruct (excluded skip inc); [destruct H|].
      destruct (String.eqb n "__typename"); [destruct H|].
      destruct (field_info Sc par n) as [[out nn]|] eqn:FI; [|discriminate].
      set (p' := p ++ [SegField (response_key n a)]) in *.
      destruct (keepf par n out) eqn:K.
      + destruct (sequence (map (fun y => visit y out p') sub)) as [r'|] eqn:Sq; [|discriminate].
        injection V as <-. destruct H as [<-|H].
        * left. exists out, nn. auto.
        * apply in_flat_map in H. destruct H as (y & Hy & H).
          destruct (sequence_in _ _ _ Sq y Hy) as (ry & Vy & IP & _).
          rewrite Forall_forall in IH. destruct (IH y Hy _ _ _ Vy o H) as [|(q & Hq & C)]; [auto|].
          right. exists q. split; [|eapply covers_below; [apply prefix_app|exact C]].
          cbn. destruct (f_prop r'); [apply in_or_app; left|]; apply IP; assumption.
      + injection V as <-. right. exists p'. split; [simpl; auto|].
        destruct H as [<-|H]; [apply covers_self|].
        apply in_flat_map in H. destruct H as (y & Hy & H). apply occ_prefix in H. destruct H as [H _].
        eapply covers_ext; [exact H|]. apply covers_self.
    - rewrite is_ignored_eq in V. destruct (excluded skip inc); [destruct H|].
      apply in_flat_map in H. destruct H as (y & Hy & H).
      destruct (keepg par t).
      + destruct (sequence_in _ _ _ V y Hy) as (ry & Vy & IP & _).
        rewrite Forall_forall in IH. destruct (IH y Hy _ _ _ Vy o H) as [|(q & Hq & C)]; [auto|].
        right. exists q. split; [apply IP; assumption|]. eapply covers_below; [apply prefix_app|exact C].
      + injection V as <-. right. destruct (collect_covers _ _ _ _ H) as (q & Hq & C). exists q. split.
        * cbn. apply in_flat_map. eauto.
        * eapply covers_below; [apply prefix_app|exact C].
  Qed.

  Lemma visit_all_covers xs par p r : visit_all xs par p = Some r ->
    forall o, In o (occs xs par p) -> okf o \/ exists q, In q (f_paths r) /\ covers p q (o_path o).
  Proof.
    intros V o H. unfold AuthSpec.occs in H. apply in_flat_map in H. destruct H as (y & Hy & H).
    destruct (sequence_in _ _ _ V y Hy) as (ry & Vy & IP & _).
    destruct (visit_covers _ _ _ _ Vy o H) as [|(q & Hq & C)]; [auto|]. right. exists q. auto.
  Qed.

  (** ** Errors *)
  Lemma visit_errors_from : forall x par p r, visit x par p = Some r ->
    forall e, In e (f_errors r) ->
      (exists o, In o (occ x par p) /\ deniedf o /\ e = field_keys (o_path o)) \/
      (exists g, In g (frags x par p) /\ ~ okg g /\ e = field_keys (g_path g)).
  Proof.
    induction x as [n a args inc skip om sub IH|t inc skip sub IH|n] using sel_ind'; intros par p r V e He;
      simpl in V |- *.
    - rewrite is_ignored_eq in V. destruct (excluded skip inc); [injection V as <-; destruct He|].
      destruct (String.eqb n "__typename"); [injection V as <-; destruct He|].
      destruct (field_info Sc par n) as [[out nn]|] eqn:FI; [|discriminate].
      set (p' := p ++ [SegField (response_key n a)]) in *.
      destruct (keepf par n out) eqn:K.
      + destruct (sequence (map (fun y => visit y out p') sub)) as [r'|] eqn:Sq; [|discriminate].
        injection V as <-. cbn in He. destruct (sequence_from _ _ _ Sq) as (_ & FE & _).
        destruct (FE e He) as (y & ry & Hy & Vy & Hey). rewrite Forall_forall in IH.
        destruct (IH y Hy _ _ _ Vy e Hey) as [(o & Ho & N & E)|(g & Hg & N & E)].
        * left. exists o. split; [|auto]. right. apply in_flat_map. eauto.
        * right. exists g. split; [|auto]. apply in_flat_map. eauto.
      + injection V as <-. destruct He as [<-|[]]. left. eexists. split; [left; reflexivity|].
        split; [|reflexivity]. exists out, nn. auto.
    - rewrite is_ignored_eq in V. destruct (excluded skip inc); [injection V as <-; destruct He|].
      destruct (keepg par t) eqn:K.
      + destruct (sequence_from _ _ _ V) as (_ & FE & _).
        destruct (FE e He) as (y & ry & Hy & Vy & Hey). rewrite Forall_forall in IH.
        destruct (IH y Hy _ _ _ Vy e Hey) as [(o & Ho & N & E)|(g & Hg & N & E)].
        * left. exists o. split; [|auto]. apply in_flat_map. eauto.
        * right. exists g. split; [|auto]. right. apply in_flat_map. eauto.
      + injection V as <-. destruct He as [<-|[]]. right. eexists. split; [left; reflexivity|].
        split; [|reflexivity]. unfold okg. cbn. congruence.
    - injection V as <-. destruct He.
  Qed.

  Lemma field_keys_app p q : field_keys (p ++ q) = field_keys p ++ field_keys q.
  Proof. unfold field_keys. apply flat_map_app. Qed.

  Lemma field_keys_prefix p q : prefix p q -> exists s, field_keys q = field_keys p ++ s.
  Proof. intros [r ->]. rewrite field_keys_app. eauto. Qed.

  (** Every denied occurrence is reported at or above its own path. *)
  Lemma visit_reports : forall x par p r, visit x par p = Some r ->
    (forall o, In o (occ x par p) -> okf o \/
       exists e s, In e (f_errors r) /\ field_keys (o_path o) = e ++ s) /\
    (forall g, In g (frags x par p) -> okg g \/
       exists e s, In e (f_errors r) /\ field_keys (g_path g) = e ++ s).
  Proof.
    assert (GP : forall x par p g, In g (frags x par p) -> prefix p (g_path g)).
    { induction x as [n a args inc skip om sub IH|t inc skip sub IH|n] using sel_ind'; intros par p g H; simpl in H.
      - destruct (excluded skip inc); [destruct H|]. destruct (String.eqb n "__typename"); [destruct H|].
        destruct (field_info Sc par n) as [[out nn]|]; [|destruct H].
        apply in_flat_map in H. destruct H as (y & Hy & H). rewrite Forall_forall in IH.
        apply (IH y Hy) in H. eapply prefix_trans; [apply prefix_app|exact H].
      - destruct (excluded skip inc); [destruct H|]. destruct H as [<-|H]; [apply prefix_refl|].
        apply in_flat_map in H. destruct H as (y & Hy & H). rewrite Forall_forall in IH.
        apply (IH y Hy) in H. eapply prefix_trans; [apply prefix_app|exact H].
      - destruct H. }
    induction x as [n a args inc skip om sub IH|t inc skip sub IH|n] using sel_ind'; intros par p r V;
      simpl in V |- *; [| |split; intros ? []].
    - rewrite is_ignored_eq in V. destruct (excluded skip inc); [split; intros ? []|].
      destruct (String.eqb n "__typename"); [split; intros ? []|].
      destruct (field_info Sc par n) as [[out nn]|] eqn:FI; [|discriminate].
      set (p' := p ++ [SegField (response_key n a)]) in *.
      destruct (keepf par n out) eqn:K.
      + destruct (sequence (map (fun y => visit y out p') sub)) as [r'|] eqn:Sq; [|discriminate].
        injection V as <-. cbn. rewrite Forall_forall in IH. split.
        * intros o [<-|H]; [left; exists out, nn; auto|].
          apply in_flat_map in H. destruct H as (y & Hy & H).
          destruct (sequence_in _ _ _ Sq y Hy) as (ry & Vy & _ & IE & _).
          destruct (proj1 (IH y Hy _ _ _ Vy) o H) as [|(e & s & He & E)]; [auto|]. right. exists e, s. auto.
        * intros g H. apply in_flat_map in H. destruct H as (y & Hy & H).
          destruct (sequence_in _ _ _ Sq y Hy) as (ry & Vy & _ & IE & _).
          destruct (proj2 (IH y Hy _ _ _ Vy) g H) as [|(e & s & He & E)]; [auto|]. right. exists e, s. auto.
      + injection V as <-. cbn. split.
        * intros o [<-|H].
          -- right. exists (field_keys p'), []. cbn. rewrite app_nil_r. auto.
          -- apply in_flat_map in H. destruct H as (y & Hy & H). apply occ_prefix in H. destruct H as [H _].
             apply field_keys_prefix in H. destruct H as [s Hs]. right. exists (field_keys p'), s. auto.
        * intros g H. apply in_flat_map in H. destruct H as (y & Hy & H). apply GP in H.
          apply field_keys_prefix in H. destruct H as [s Hs]. right. exists (field_keys p'), s. auto.
    - rewrite is_ignored_eq in V. destruct (excluded skip inc); [split; intros ? []|].
      destruct (keepg par t) eqn:K.
      + rewrite Forall_forall in IH. split.
        * intros o H. apply in_flat_map in H. destruct H as (y & Hy & H).
          destruct (sequence_in _ _ _ V y Hy) as (ry & Vy & _ & IE & _).
          destruct (proj1 (IH y Hy _ _ _ Vy) o H) as [|(e & s & He & E)]; [auto|]. right. exists e, s. auto.
        * intros g [<-|H]; [left; exact K|]. apply in_flat_map in H. destruct H as (y & Hy & H).
          destruct (sequence_in _ _ _ V y Hy) as (ry & Vy & _ & IE & _).
          destruct (proj2 (IH y Hy _ _ _ Vy) g H) as [|(e & s & He & E)]; [auto|]. right. exists e, s. auto.
      + injection V as <-. cbn. split.
        * intros o H. apply in_flat_map in H. destruct H as (y & Hy & H). apply occ_prefix in H. destruct H as [H _].
          assert (H' : prefix p (o_path o)) by (eapply prefix_trans; [apply prefix_app|exact H]).
          apply field_keys_prefix in H'. destruct H' as [s Hs]. right. exists (field_keys p), s. auto.
        * intros g [<-|H].
          -- right. exists (field_keys p), []. cbn. rewrite app_nil_r. auto.
          -- apply in_flat_map in H. destruct H as (y & Hy & H). apply GP in H.
             assert (H' : prefix p (g_path g)) by (eapply prefix_trans; [apply prefix_app|exact H]).
             apply field_keys_prefix in H'. destruct H' as [s Hs]. right. exists (field_keys p), s. auto.
  Qed.

  Lemma visit_all_errors xs par p r : visit_all xs par p = Some r ->
    (forall e, In e (f_errors r) ->
      (exists o, In o (occs xs par p) /\ deniedf o /\ e = field_keys (o_path o)) \/
      (exists g, In g (fragsl xs par p) /\ ~ okg g /\ e = field_keys (g_path g))) /\
    (forall o, In o (occs xs par p) -> okf o \/
       exists e s, In e (f_errors r) /\ field_keys (o_path o) = e ++ s) /\
    (forall g, In g (fragsl xs par p) -> okg g \/
       exists e s, In e (f_errors r) /\ field_keys (g_path g) = e ++ s).
  Proof.
    intros V. unfold AuthSpec.occs, AuthSpec.fragsl. split; [|split].
    - intros e He. destruct (sequence_from _ _ _ V) as (_ & FE & _).
      destruct (FE e He) as (y & ry & Hy & Vy & Hey).
      destruct (visit_errors_from _ _ _ _ Vy e Hey) as [(o & Ho & N & E)|(g & Hg & N & E)].
      + left. exists o. split; [apply in_flat_map; eauto|auto].
      + right. exists g. split; [apply in_flat_map; eauto|auto].
    - intros o H. apply in_flat_map in H. destruct H as (y & Hy & H).
      destruct (sequence_in _ _ _ V y Hy) as (ry & Vy & _ & IE & _).
      destruct (proj1 (visit_reports _ _ _ _ Vy) o H) as [|(e & s & He & E)]; [auto|]. right. exists e, s. auto.
    - intros g H. apply in_flat_map in H. destruct H as (y & Hy & H).
      destruct (sequence_in _ _ _ V y Hy) as (ry & Vy & _ & IE & _).
      destruct (proj2 (visit_reports _ _ _ _ Vy) g H) as [|(e & s & He & E)]; [auto|]. right. exists e, s. auto.
  Qed.

  Lemma visit_all_no_errors xs par p r : visit_all xs par p = Some r ->
    (f_errors r = [] <->
     (forall o, In o (occs xs par p) -> okf o) /\ (forall g, In g (fragsl xs par p) -> okg g)).
  Proof.
    intro V. destruct (visit_all_errors _ _ _ _ V) as (A & B & C). split.
    - intro E. rewrite E in B, C. split.
      + intros o Ho. destruct (B o Ho) as [|(e & s & [] & _)]; assumption.
      + intros g Hg. destruct (C g Hg) as [|(e & s & [] & _)]; assumption.
    - intros [HO HG]. destruct (f_errors r) as [|e es]; [reflexivity|]. exfalso.
      destruct (A e (or_introl eq_refl)) as [(o & Ho & N & _)|(g & Hg & N & _)]; auto.
      apply denied_not_ok in N. auto.
  Qed.

  (** ** The rejected paths are exactly the nulled paths *)
  Lemma direct_field_collect : forall x p q, In q (collect x p) <-> direct_field p [x] q.
  Proof.
    assert (M : forall p xs q, direct_field p xs q -> forall ys, incl xs ys -> direct_field p ys q).
    { intros p xs q H. destruct H; intros ys I.
      - eapply DF_field. apply I. eassumption.
      - eapply DF_frag; [apply I; eassumption|assumption]. }
    induction x as [n a args inc skip om sub IH|t inc skip sub IH|n] using sel_ind'; intros p q; simpl; split; intro H.
    - destruct H as [<-|[]]. eapply DF_field. left. reflexivity.
    - inversion H as [? ? n' a' args' i' s' o' sub' Hin|? ? t' i' s' sub' q' Hin D]; subst.
      + destruct Hin as [Hin|[]]. injection Hin; intros; subst. auto.
      + destruct Hin as [Hin|[]]. discriminate.
    - apply in_flat_map in H. destruct H as (y & Hy & H). rewrite Forall_forall in IH.
      apply (IH y Hy) in H. eapply DF_frag; [left; reflexivity|]. eapply M; [exact H|].
      intros z [<-|[]]. assumption.
    - inversion H as [? ? n' a' args' i' s' o' sub' Hin|? ? t' i' s' sub' q' Hin D]; subst.
      + destruct Hin as [Hin|[]]. discriminate.
      + destruct Hin as [Hin|[]]. injection Hin; intros; subst. apply in_flat_map.
        rewrite Forall_forall in IH. inversion D as [? ? n' a' args' i'' s'' o' sub'' Hin'|? ? t'' i'' s'' sub'' q'' Hin' D']; subst.
        * eexists. split; [exact Hin'|]. simpl. auto.
        * eexists. split; [exact Hin'|]. apply (IH _ Hin'). eapply DF_frag; [left; reflexivity|exact D'].
    - destruct H.
    - inversion H as [? ? n' a' args' i' s' o' sub' Hin|? ? t' i' s' sub' q' Hin D]; subst;
        destruct Hin as [Hin|[]]; discriminate.
  Qed.

  Lemma direct_field_list xs p q : In q (flat_map (fun y => collect y p) xs) <-> direct_field p xs q.
  Proof.
    rewrite in_flat_map. split.
    - intros (y & Hy & H). apply direct_field_collect in H.
      inversion H as [? ? n' a' args' i' s' o' sub' Hin|? ? t' i' s' sub' q' Hin D]; subst; destruct Hin as [->|[]].
      + eapply DF_field. eassumption.
      + eapply DF_frag; eassumption.
    - intro H. inversion H as [? ? n' a' args' i' s' o' sub' Hin|? ? t' i' s' sub' q' Hin D]; subst.
      + eexists. split; [exact Hin|]. simpl. auto.
      + eexists. split; [exact Hin|]. apply direct_field_collect. eapply DF_frag; [left; reflexivity|exact D].
  Qed.

  Lemma bubbles_one par xs : bubbles par xs <-> exists x, In x xs /\ bubbles par [x].
  Proof.
    split.
    - intro H. inversion H; subst; eexists; (split; [eassumption|]).
      + eapply B_denied; eauto using in_eq.
      + eapply B_up; eauto using in_eq.
      + eapply B_frag; eauto using in_eq.
    - intros (x & Hx & H). inversion H; subst.
      + match goal with X : In _ [x] |- _ => destruct X as [X|[]]; subst x end. eapply B_denied; eauto.
      + match goal with X : In _ [x] |- _ => destruct X as [X|[]]; subst x end. eapply B_up; eauto.
      + match goal with X : In _ [x] |- _ => destruct X as [X|[]]; subst x end. eapply B_frag; eauto.
  Qed.

  Lemma nulled_one par p xs q : nulled par p xs q <-> exists x, In x xs /\ nulled par p [x] q.
  Proof.
    split.
    - intro H. inversion H; subst; eexists; (split; [eassumption|]).
      + eapply N_denied; eauto using in_eq.
      + eapply N_bubble; eauto using in_eq.
      + eapply N_in; eauto using in_eq.
      + eapply N_frag; eauto using in_eq.
      + eapply N_frag_denied; eauto using in_eq.
    - intros (x & Hx & H). inversion H; subst;
        match goal with X : In _ [x] |- _ => destruct X as [X|[]]; subst x end.
      + eapply N_denied; eauto.
      + eapply N_bubble; eauto.
      + eapply N_in; eauto.
      + eapply N_frag; eauto.
      + eapply N_frag_denied; eauto.
  Qed.

  Ltac same_info :=
    match goal with X : field_info ?a ?b ?c = Some _, Y : field_info ?a ?b ?c = Some _ |- _ =>
      rewrite X in Y; injection Y; intros; subst; clear Y end.
  Ltac one H := destruct H as [H|[]]; try discriminate H; injection H; intros; subst; clear H.

  Lemma visit_nulled : forall x par p r, visit x par p = Some r ->
    (f_prop r = true <-> bubbles par [x]) /\ (forall q, In q (f_paths r) <-> nulled par p [x] q).
  Proof.
    assert (SEQ : forall xs par p r,
      Forall (fun x => forall par p r, visit x par p = Some r ->
        (f_prop r = true <-> bubbles par [x]) /\ (forall q, In q (f_paths r) <-> nulled par p [x] q)) xs ->
      sequence (map (fun y => visit y par p) xs) = Some r ->
      (f_prop r = true <-> bubbles par xs) /\ (forall q, In q (f_paths r) <-> nulled par p xs q)).
    { intros xs par p r F V. rewrite Forall_forall in F. destruct (sequence_from _ _ _ V) as (FP & _ & FB).
      split.
      - rewrite bubbles_one. split.
        + intro H. destruct (FB H) as (x & o & Hx & Vx & Ho). exists x. split; [assumption|].
          apply (F x Hx _ _ _ Vx). assumption.
        + intros (x & Hx & H). destruct (sequence_in _ _ _ V x Hx) as (o & Vx & _ & _ & HP).
          apply HP. apply (F x Hx _ _ _ Vx). assumption.
      - intro q. rewrite nulled_one. split.
        + intro H. destruct (FP q H) as (x & o & Hx & Vx & Ho). exists x. split; [assumption|].
          apply (F x Hx _ _ _ Vx). assumption.
        + intros (x & Hx & H). destruct (sequence_in _ _ _ V x Hx) as (o & Vx & IP & _).
          apply IP. apply (F x Hx _ _ _ Vx). assumption. }
    induction x as [n a args inc skip om sub IH|t inc skip sub IH|n] using sel_ind'; intros par p r V; simpl in V.
    - rewrite is_ignored_eq in V.
      destruct (excluded skip inc) eqn:EX.
      { injection V as <-. cbn. split; [split; [discriminate|]|intro q; split; [intros []|]];
          intro H; inversion H; subst;
          match goal with X : In _ [_] |- _ => one X end; congruence. }
      destruct (String.eqb n "__typename") eqn:TN.
      { apply String.eqb_eq in TN. injection V as <-. cbn. split; [split; [discriminate|]|intro q; split; [intros []|]];
          intro H; inversion H; subst;
          match goal with X : In _ [_] |- _ => one X end; congruence. }
      apply String.eqb_neq in TN.
      destruct (field_info Sc par n) as [[out nn]|] eqn:FI; [|discriminate].
      set (p' := p ++ [SegField (response_key n a)]) in *.
      destruct (keepf par n out) eqn:K.
      + destruct (sequence (map (fun y => visit y out p') sub)) as [r'|] eqn:Sq; [|discriminate].
        injection V as <-. cbn. destruct (SEQ _ _ _ _ IH Sq) as [SB SN]. split.
        * rewrite andb_true_iff. split.
          -- intros [H1 ->]. eapply B_up; [left; reflexivity|eassumption|assumption|eassumption|assumption|].
             apply SB. assumption.
          -- intro H. inversion H; subst; match goal with X : In _ [_] |- _ => one X end.
             ++ congruence.
             ++ same_info.
                split; [apply SB; assumption|reflexivity].
        * intro q.
          assert (E : In q (if f_prop r' then f_paths r' ++ [p'] else f_paths r') <->
                      (nulled out p' sub q \/ (f_prop r' = true /\ q = p'))).
          { rewrite <- SN. destruct (f_prop r'); [rewrite in_app_iff; simpl|]; intuition congruence. }
          rewrite E. clear E. split.
          -- intros [H|[H ->]].
             ++ eapply N_in; [left; reflexivity|eassumption|assumption|eassumption|assumption|assumption].
             ++ eapply N_bubble; [left; reflexivity|eassumption|assumption|eassumption|assumption|].
                apply SB. assumption.
          -- intro H. inversion H; subst; match goal with X : In _ [_] |- _ => one X end.
             ++ congruence.
             ++ same_info.
                right. split; [apply SB; assumption|reflexivity].
             ++ same_info.
                left. assumption.
      + injection V as <-. cbn. split.
        * split.
          -- intros ->. eapply B_denied; [left; reflexivity|eassumption|assumption|eassumption|assumption].
          -- intro H. inversion H; subst; match goal with X : In _ [_] |- _ => one X end; congruence.
        * intro q. split.
          -- intros [<-|[]]. eapply N_denied; [left; reflexivity|eassumption|assumption|eassumption|assumption].
          -- intro H. inversion H; subst; match goal with X : In _ [_] |- _ => one X end; try congruence. auto.
    - rewrite is_ignored_eq in V.
      destruct (excluded skip inc) eqn:EX.
      { injection V as <-. cbn. split; [split; [discriminate|]|intro q; split; [intros []|]];
          intro H; inversion H; subst;
          match goal with X : In _ [_] |- _ => one X end; congruence. }
      destruct (keepg par t) eqn:K.
      + destruct (SEQ _ _ _ _ IH V) as [SB SN]. split.
        * rewrite SB. split.
          -- intro H. eapply B_frag; [left; reflexivity|eassumption|assumption|assumption].
          -- intro H. inversion H; subst; match goal with X : In _ [_] |- _ => one X end. assumption.
        * intro q. rewrite SN. split.
          -- intro H. eapply N_frag; [left; reflexivity|eassumption|assumption|assumption].
          -- intro H. inversion H; subst; match goal with X : In _ [_] |- _ => one X end; [assumption|congruence].
      + injection V as <-. cbn. split.
        * split; [discriminate|]. intro H. inversion H; subst; match goal with X : In _ [_] |- _ => one X end; congruence.
        * intro q. rewrite direct_field_list. split.
          -- intro H. eapply N_frag_denied; [left; reflexivity|eassumption|assumption|assumption].
          -- intro H. inversion H; subst; match goal with X : In _ [_] |- _ => one X end; [congruence|assumption].
    - injection V as <-. cbn. split; [split; [discriminate|]|intro q; split; [intros []|]];
          intro H; inversion H; subst;
          match goal with X : In _ [_] |- _ => one X end.
  Qed.

  Lemma visit_all_nulled xs par p r : visit_all xs par p = Some r ->
    (f_prop r = true <-> bubbles par xs) /\ (forall q, In q (f_paths r) <-> nulled par p xs q).
  Proof.
    intros V. destruct (sequence_from _ _ _ V) as (FP & _ & FB). split.
    - rewrite bubbles_one. split.
      + intro H. destruct (FB H) as (x & o & Hx & Vx & Ho). exists x. split; [assumption|].
        apply (visit_nulled _ _ _ _ Vx). assumption.
      + intros (x & Hx & H). destruct (sequence_in _ _ _ V x Hx) as (o & Vx & _ & _ & HP).
        apply HP. apply (visit_nulled _ _ _ _ Vx). assumption.
    - intro q. rewrite nulled_one. split.
      + intro H. destruct (FP q H) as (x & o & Hx & Vx & Ho). exists x. split; [assumption|].
        apply (visit_nulled _ _ _ _ Vx). assumption.
      + intros (x & Hx & H). destruct (sequence_in _ _ _ V x Hx) as (o & Vx & IP & _).
        apply IP. apply (visit_nulled _ _ _ _ Vx). assumption.
  Qed.

  (** ** The rebuilt operation *)
  Section Rebuilt.
    Variable ps : list path.
    Notation t := (from_paths ps).

    Lemma no_cover_below i p xs par o q :
      reaches ps i p -> has_children t i = false -> In o (occs xs par p) -> In q ps ->
      ~ covers p q (o_path o).
    Proof.
      intros Rc HC Ho Hq C. unfold AuthSpec.occs in Ho. apply in_flat_map in Ho. destruct Ho as (y & _ & Ho).
      apply occ_prefix in Ho. destruct Ho as ([r Hr] & _).
      destruct C as [C1 (mid & k & E)].
      assert (exists s, prefix (p ++ [s]) q) as [s Hs].
      { rewrite E. destruct mid as [|s mid]; [exists (SegField k); apply prefix_refl|].
        exists s. exists (mid ++ [SegField k]). rewrite <- app_assoc. reflexivity. }
      eapply find_segment_none; [exact Rc|apply no_children; exact HC|exact Hq|exact Hs].
    Qed.

    Definition sound_at (x : sel) : Prop :=
      forall par p i, reaches ps i p -> forall y, In y (rebuild t x i) -> forall o, In o (occ y par p) ->
        In o (occ x par p) /\ forall q, In q ps -> ~ covers p q (o_path o).

    Lemma rebuild_list_sound xs i p par :
      Forall sound_at xs -> reaches ps i p ->
      forall o, In o (occs (if has_children t i then flat_map (fun y => rebuild t y i) xs else xs) par p) ->
        In o (occs xs par p) /\ forall q, In q ps -> ~ covers p q (o_path o).
    Proof.
      intros F Rc o Ho. destruct (has_children t i) eqn:HC.
      - unfold AuthSpec.occs in Ho. apply in_flat_map in Ho. destruct Ho as (z & Hz & Ho).
        apply in_flat_map in Hz. destruct Hz as (x & Hx & Hz). rewrite Forall_forall in F.
        destruct (F x Hx par p i Rc z Hz o Ho) as [A B]. split; [|assumption].
        unfold AuthSpec.occs. apply in_flat_map. eauto.
      - split; [assumption|]. intros q Hq. eapply no_cover_below; eassumption.
    Qed.

    Lemma drop_empty_in orig filtered k y :
      In y (drop_empty orig filtered k) -> y = k filtered /\ (filtered = [] -> orig = []).
    Proof.
      unfold drop_empty. destruct filtered as [|a f], orig as [|b o]; simpl; intro H; try contradiction;
        destruct H as [<-|[]]; (split; [reflexivity|]); intro; try reflexivity; discriminate.
    Qed.

    Lemma rebuild_sound : forall x, sound_at x.
    Proof.
      induction x as [n a args inc skip om sub IH|c inc skip sub IH|n] using sel_ind'; intros par p i Rc y Hy o Ho.
      - cbn [rebuild] in Hy. set (s := SegField (response_key n a)) in *.
        destruct (find_segment t i s) as [[child m]|] eqn:FS.
        + destruct (find_segment_some _ _ _ _ _ _ Rc FS) as (Rc' & Mk & _).
          destruct m; [destruct Hy|].
          apply drop_empty_in in Hy. destruct Hy as [-> Hemp].
          assert (Hnot : ~ In (p ++ [s]) ps) by (intro X; apply Mk in X; discriminate).
          simpl in Ho |- *. destruct (excluded skip inc); [destruct Ho|].
          destruct (String.eqb n "__typename"); [destruct Ho|].
          fold s in Ho |- *.
          destruct Ho as [<-|Ho].
          * split.
            -- left. f_equal. destruct sub as [|z sub].
               ++ destruct (has_children t child); reflexivity.
               ++ set (F := if has_children t child then _ else _) in *.
                  destruct F; [|reflexivity]. specialize (Hemp eq_refl). discriminate.
            -- cbn. intros q Hq C. destruct (covers_step _ _ _ _ C (prefix_refl _)) as [->|C'].
               ++ contradiction.
               ++ apply not_covers_self in C'. assumption.
          * destruct (field_info Sc par n) as [[out nn]|]; [|destruct Ho].
            destruct (rebuild_list_sound _ _ _ out IH Rc' o Ho) as [A B]. split; [right; exact A|].
            intros q Hq C.
            assert (P : prefix (p ++ [s]) (o_path o)).
            { apply in_flat_map in A. destruct A as (z & _ & A). apply occ_prefix in A. apply A. }
            destruct (covers_step _ _ _ _ C P) as [->|C']; [contradiction|]. eapply B; eassumption.
        + destruct Hy as [<-|[]]. split; [assumption|]. intros q Hq C.
          eapply find_segment_none; [exact Rc|exact FS|exact Hq|].
          eapply covers_through; [exact C|]. apply occ_prefix in Ho. destruct Ho as (_ & Ho & _).
          eapply Ho. reflexivity.
      - cbn [rebuild] in Hy.
        destruct (find_segment t i (SegFrag c)) as [[child m]|] eqn:FS.
        + destruct (find_segment_some _ _ _ _ _ _ Rc FS) as (Rc' & Mk & _).
          apply drop_empty_in in Hy. destruct Hy as [-> Hemp].
          simpl in Ho |- *. destruct (excluded skip inc); [destruct Ho|].
          destruct (rebuild_list_sound _ _ _ c IH Rc' o Ho) as [A B]. split; [exact A|].
          intros q Hq C.
          assert (P : prefix (p ++ [SegFrag c]) (o_path o)).
          { apply in_flat_map in A. destruct A as (z & _ & A). apply occ_prefix in A. apply A. }
          destruct (covers_step _ _ _ _ C P) as [->|C']; [|eapply B; eassumption].
          destruct C as [_ (mid & k & E)]. rewrite app_assoc in E. apply app_inj_tail in E.
          destruct E as [_ E]. discriminate.
        + destruct Hy as [<-|[]]. split; [assumption|]. intros q Hq C.
          eapply find_segment_none; [exact Rc|exact FS|exact Hq|].
          eapply covers_through; [exact C|]. apply occ_prefix in Ho. destruct Ho as (_ & _ & Ho).
          eapply Ho. reflexivity.
      - destruct Hy.
    Qed.

    (** A leaf survives unless a rejected field path covers it. *)
    Definition complete_at (x : sel) : Prop :=
      forall par p i o, reaches ps i p -> In o (occ x par p) -> o_leaf o = true ->
        (forall q, In q ps -> ~ covers p q (o_path o)) ->
        exists y, In y (rebuild t x i) /\ In o (occ y par p).

    Lemma rebuild_list_complete xs i p par o :
      Forall complete_at xs -> reaches ps i p -> In o (occs xs par p) -> o_leaf o = true ->
      (forall q, In q ps -> ~ covers p q (o_path o)) ->
      In o (occs (if has_children t i then flat_map (fun y => rebuild t y i) xs else xs) par p).
    Proof.
      intros F Rc Ho L N. destruct (has_children t i); [|assumption].
      unfold AuthSpec.occs in *. apply in_flat_map in Ho. destruct Ho as (x & Hx & Ho). rewrite Forall_forall in F.
      destruct (F x Hx par p i o Rc Ho L N) as (y & Hy & Hoy). apply in_flat_map. exists y. split; [|assumption].
      apply in_flat_map. eauto.
    Qed.

    Lemma drop_empty_kept (orig filtered : list sel) k (o : occurrence) par p :
      In o (occs filtered par p) -> drop_empty orig filtered k = [k filtered].
    Proof. unfold drop_empty. destruct filtered; [intros []|reflexivity]. Qed.

    Lemma rebuild_complete : forall x, complete_at x.
    Proof.
      induction x as [n a args inc skip om sub IH|c inc skip sub IH|n] using sel_ind'; intros par p i o Rc Ho L N.
      - cbn [rebuild]. set (s := SegField (response_key n a)) in *.
        destruct (find_segment t i s) as [[child m]|] eqn:FS; [|exists (SField n a args inc skip om sub); simpl; auto].
        destruct (find_segment_some _ _ _ _ _ _ Rc FS) as (Rc' & Mk & _).
        assert (P : prefix (p ++ [s]) (o_path o)).
        { apply occ_prefix in Ho. destruct Ho as (_ & Ho & _). eapply Ho. reflexivity. }
        destruct m.
        { exfalso. apply (N (p ++ [s])); [apply Mk; reflexivity|].
          eapply covers_ext; [exact P|apply covers_self]. }
        simpl in Ho. destruct (excluded skip inc) eqn:EX; [destruct Ho|].
        destruct (String.eqb n "__typename") eqn:TN; [destruct Ho|].
        fold s in Ho. destruct Ho as [<-|Ho].
        + cbn in L. destruct sub as [|z sub]; [|discriminate].
          exists (SField n a args inc skip om []). split.
          * destruct (has_children t child); simpl; auto.
          * simpl. rewrite EX, TN. left. reflexivity.
        + destruct (field_info Sc par n) as [[out nn]|] eqn:FI; [|destruct Ho].
          assert (N' : forall q, In q ps -> ~ covers (p ++ [s]) q (o_path o)).
          { intros q Hq C. apply (N q Hq). eapply covers_below; [apply prefix_app|exact C]. }
          pose proof (rebuild_list_complete sub child (p ++ [s]) out o IH Rc' Ho L N') as K.
          rewrite (drop_empty_kept _ _ _ _ _ _ K). eexists. split; [left; reflexivity|].
          simpl. rewrite EX, TN, FI. right. exact K.
      - cbn [rebuild].
        destruct (find_segment t i (SegFrag c)) as [[child m]|] eqn:FS; [|exists (SFrag c inc skip sub); simpl; auto].
        destruct (find_segment_some _ _ _ _ _ _ Rc FS) as (Rc' & Mk & _).
        simpl in Ho. destruct (excluded skip inc) eqn:EX; [destruct Ho|].
        assert (N' : forall q, In q ps -> ~ covers (p ++ [SegFrag c]) q (o_path o)).
        { intros q Hq C. apply (N q Hq). eapply covers_below; [apply prefix_app|exact C]. }
        pose proof (rebuild_list_complete sub child (p ++ [SegFrag c]) c o IH Rc' Ho L N') as K.
        rewrite (drop_empty_kept _ _ _ _ _ _ K). eexists. split; [left; reflexivity|].
        simpl. rewrite EX. exact K.
      - destruct Ho.
    Qed.

    Lemma rebuild_operation_occ op root :
      forall o, In o (occs (op_sels (rebuild_operation t op)) root []) ->
        In o (occs (op_sels op) root []) /\ forall q, In q ps -> ~ covers [] q (o_path o).
    Proof.
      intros o Ho. unfold rebuild_operation in Ho. cbn [op_sels] in Ho. unfold rebuild_all in Ho.
      eapply rebuild_list_sound; [|apply reaches_root|exact Ho].
      apply Forall_forall. intros x _. apply rebuild_sound.
    Qed.

    Lemma rebuild_operation_keeps op root o :
      In o (occs (op_sels op) root []) -> o_leaf o = true ->
      (forall q, In q ps -> ~ covers [] q (o_path o)) ->
      In o (occs (op_sels (rebuild_operation t op)) root []).
    Proof.
      intros Ho L N. unfold rebuild_operation. cbn [op_sels]. unfold rebuild_all.
      eapply rebuild_list_complete; [|apply reaches_root|exact Ho|exact L|exact N].
      apply Forall_forall. intros x _. apply rebuild_complete.
    Qed.

    Lemma rebuild_vars op n d ds :
      op_vars op = Some ds -> In d ds -> vd_name d = n ->
      In n (flat_map sel_vars (op_sels (rebuild_operation t op))) ->
      exists ds', op_vars (rebuild_operation t op) = Some ds' /\ In d ds'.
    Proof.
      intros E Hd <- H. unfold rebuild_operation in *. cbn [op_vars op_sels] in *. rewrite E. simpl.
      eexists. split; [reflexivity|]. apply filter_In. split; [assumption|].
      unfold mem. apply existsb_exists. exists (vd_name d). split; [assumption|apply String.eqb_refl].
    Qed.
  End Rebuilt.
End FilterProofs.
