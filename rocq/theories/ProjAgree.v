(** The response depends only on the data its plan selects. *)
From Coq Require Import String Ascii List NArith ZArith Arith Bool Lia.
From Verif Require Import StrOrd StrUtil JsonModel JsonWriterModel ProjModel ProjSpec ProjProofs.
Import ListNotations.
Local Open Scope string_scope.

Inductive orel {A} (R : A -> A -> Prop) : option A -> option A -> Prop :=
| or_none : orel R None None
| or_some x y : R x y -> orel R (Some x) (Some y).

(** [agree p d d']: the two values look the same to a plan: same scalars, and in objects the same
    [__typename] and agreeing selected members; every other member may differ or be missing. *)
Inductive agree : plan -> value -> value -> Prop :=
| ag_same p v : agree p v v
| ag_arr p l l' : Forall2 (agree p) l l' -> agree p (VArr l) (VArr l')
| ag_null p o o' : p_val p = SNull -> get "__typename" o = get "__typename" o' -> agree p (VObj o) (VObj o')
| ag_obj p sels o o' :
    p_val p = SData (Some sels) -> get "__typename" o = get "__typename" o' ->
    (forall q, In q sels -> orel (agree q) (get (p_key q) o) (get (p_key q) o')) ->
    agree p (VObj o) (VObj o').

Section A.
  Variable ryu : N -> string.
  Variable M : meta.
  Variable vtrue : string -> bool.
  Local Notation prj := (project ryu M vtrue).

  Definition same (p : plan) : Prop := forall d d', agree p d d' ->
    forall nul pt buf errs, prj p d nul pt buf errs = prj p d' nul pt buf errs.

  Lemma agree_cases p d d' : agree p d d' ->
    d = d' \/
    (exists l l', d = VArr l /\ d' = VArr l' /\ Forall2 (agree p) l l') \/
    (exists o o', d = VObj o /\ d' = VObj o' /\ get "__typename" o = get "__typename" o' /\
       (p_val p = SNull \/ exists sels, p_val p = SData (Some sels) /\
          forall q, In q sels -> orel (agree q) (get (p_key q) o) (get (p_key q) o'))).
  Proof.
    destruct 1 as [p v|p l l' H|p o o' H1 H2|p sels o o' H1 H2 H3].
    - left. reflexivity.
    - right. left. eauto.
    - right. right. exists o, o'. eauto.
    - right. right. exists o, o'. repeat (split; [reflexivity || assumption|]). right. eauto.
  Qed.

  Lemma resolve_same p v v' pt : orel (agree p) v v' -> resolve_type_name M p v pt = resolve_type_name M p v' pt.
  Proof.
    intros H. destruct H as [|x y H]; [reflexivity|]. apply agree_cases in H.
    destruct H as [->|[(l & l' & -> & -> & _)|(o & o' & -> & -> & E & _)]]; try reflexivity.
    unfold resolve_type_name. rewrite E. reflexivity.
  Qed.

  Lemma check_same q c pt ft v v' : orel (agree q) v v' -> check vtrue c pt ft v = check vtrue c pt ft v'.
  Proof.
    intros H. induction c as [x|x|t|t|vs|a IHa b IHb|a IHa b IHb]; cbn [check]; try reflexivity.
    - destruct H as [|x y H]; [reflexivity|]. apply agree_cases in H.
      destruct H as [->|[(l & l' & -> & -> & _)|(o & o' & -> & -> & E & _)]]; reflexivity.
    - rewrite IHa, IHb. reflexivity.
    - rewrite IHa, IHb. reflexivity.
  Qed.

  Lemma with_map_same ps o o' pt : Forall same ps ->
    (forall q, In q ps -> orel (agree q) (get (p_key q) o) (get (p_key q) o')) ->
    forall first buf errs, with_map M vtrue prj o pt ps first buf errs = with_map M vtrue prj o' pt ps first buf errs.
  Proof.
    induction ps as [|q ps IH]; intros F A first buf errs; [reflexivity|].
    inversion F as [|? ? Hq Hps]; subst.
    assert (A' : forall r, In r ps -> orel (agree r) (get (p_key r) o) (get (p_key r) o')).
    { intros r Hr. apply A. right. exact Hr. }
    specialize (A q (or_introl eq_refl)). specialize (IH Hps A').
    cbn [with_map].
    rewrite (resolve_same q _ _ pt A).
    assert (E : match p_cond q with None => COk | Some c => check vtrue c pt (resolve_type_name M q (get (p_key q) o') pt) (get (p_key q) o) end
              = match p_cond q with None => COk | Some c => check vtrue c pt (resolve_type_name M q (get (p_key q) o') pt) (get (p_key q) o') end).
    { destruct (p_cond q); [|reflexivity]. eapply check_same. exact A. }
    rewrite E. clear E.
    destruct (match p_guard q with None => _ | Some _ => _ end) as [[|]|e]; try reflexivity; [|apply IH].
    destruct (match p_cond q with None => COk | Some _ => _ end); try apply IH; try reflexivity.
    - destruct (p_val q) as [s|].
      + destruct (p_typename q).
        * destruct pt; [|reflexivity]. destruct (_ && _)%bool; [reflexivity|apply IH].
        * destruct A as [|x y A].
          -- destruct (_ && _)%bool; [reflexivity|apply IH].
          -- rewrite (Hq _ _ A). destruct (prj q y _ _ _ _) as [pr b e|]; [|reflexivity].
             destruct (_ && _)%bool; [reflexivity|apply IH].
      + destruct (_ && _)%bool; [reflexivity|apply IH].
    - destruct (is_non_null (p_null q)); [reflexivity|apply IH].
    - destruct (is_non_null (p_null q)); [reflexivity|apply IH].
  Qed.

  Lemma project_same p : same p.
  Proof.
    induction p as [f k ty nl g c v IHp] using plan_ind'. set (p := Plan f k ty nl g c v) in *.
    intros d. induction d as [|fbits|iz|un|bb|str|raw|l IH|o IH] using value_ind';
      intros d' A nul pt buf errs;
      apply agree_cases in A; destruct A as [<-|[(l0 & l' & E & -> & F)|(o0 & o' & E & -> & E2 & H)]];
      try reflexivity; try discriminate E.
    - injection E as <-. cbn [project p].
      match goal with |- ?fx true l ?b errs = _ => set (go := fx); generalize b as b0 end.
      revert errs. generalize true as first. revert l' F.
      induction IH as [|x l Hx Hl IHl]; intros l' F first errs b.
      + inversion F. reflexivity.
      + inversion F as [|? y ? l2 Hxy F2]; subst. cbn [go]. fold go.
        specialize (Hx y Hxy (match list_item nul with Some i => i | None => nul end) pt (if first then b else b ++ ",") errs).
        match type of Hx with ?a = ?b => 
          match goal with |- match ?u with _ => _ end = match ?w with _ => _ end => change u with a; change w with b end end.
        rewrite Hx. destruct (prj p y _ _ _ _) as [pr b' e2|]; [|reflexivity].
        destruct (_ && _)%bool; [reflexivity|]. apply (IHl l2 F2).
    - injection E as <-. destruct H as [H|(sels & H & A)].
      + cbn in H. subst p. rewrite H. reflexivity.
      + cbn in H. pose proof (IHp _ H) as S0. subst p. cbn [project]. rewrite H.
        assert (R : resolve_type_name M (Plan f k ty nl g c (SData (Some sels))) (Some (VObj o)) pt
                  = resolve_type_name M (Plan f k ty nl g c (SData (Some sels))) (Some (VObj o')) pt).
        { unfold resolve_type_name. rewrite E2. reflexivity. }
        rewrite R. rewrite (with_map_same sels o o' _ S0 A). reflexivity.
  Qed.

  Lemma by_operation_same ej o o' errs ext root ps :
    (forall q, In q ps -> orel (agree q) (get (p_key q) o) (get (p_key q) o')) ->
    project_by_operation ryu M vtrue ej (VObj o) errs ext root ps =
    project_by_operation ryu M vtrue ej (VObj o') errs ext root ps.
  Proof.
    intros A. unfold project_by_operation.
    rewrite (with_map_same ps o o' (inl root)); [reflexivity| |exact A].
    apply Forall_forall. intros q _. apply project_same.
  Qed.
End A.
