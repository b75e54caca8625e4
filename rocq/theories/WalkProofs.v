(* The calls that the walk makes, by place. *)
From Coq Require Import String List Bool.
From Verif Require Import Ast ConsumerModel IntroModel CondModel NormModel NormProofs WalkModel LocalModel LocalSpec.
Import ListNotations.
Local Open Scope string_scope.
Local Open Scope list_scope.

Section Walk.
  Variable sch : list definition.

  Definition at_type (ty : option tnode) : ctx := mkctx ty (typed sch ty) None false.
  Definition found (ty : option tnode) (n : string) : option field :=
    match typed sch ty with Some t => field_by_name t n | None => None end.
  Definition sub_type (ty : option tnode) (n : string) : option tnode := option_map f_type (found ty n).
  Definition cond_type (ty : option tnode) (tc : option string) : option tnode :=
    match tc with Some t => Some (TNamed t) | None => ty end.
  Definition in_field (ty : option tnode) (n : string) : ctx := mkctx (sub_type ty n) (typed sch ty) None false.
  Definition in_inline (ty : option tnode) (tc : option string) : ctx := mkctx (cond_type ty tc) (typed sch ty) None false.
  Definition walk_sub (ty : option tnode) (l : list nsel) : list call := flat_map (walk_selection sch (at_type ty)) l.

  Lemma go_flat : forall (f : nsel -> list call) l,
    (fix go (l : list nsel) : list call := match l with [] => [] | y :: l' => f y ++ go l' end) l = flat_map f l.
  Proof. induction l as [|y l IH]; [reflexivity|]. cbn [flat_map]. now rewrite <- IH. Qed.
  Lemma walk_field : forall ty al n args ds sub,
    walk_selection sch (at_type ty) (NField al n args ds sub) =
    (in_field ty n, EnterField al n args ds sub) :: walk_arguments sch (in_field ty n) (option_map f_args (found ty n)) args
    ++ walk_directives sch (in_field ty n) ds ++ walk_sub (sub_type ty n) sub ++ [(in_field ty n, LeaveField)].
  Proof.
    intros. cbn [walk_selection]. rewrite (go_flat (walk_selection sch _)). reflexivity.
  Qed.

  Lemma walk_inline : forall ty tc ds sub,
    walk_selection sch (at_type ty) (NInline tc ds sub) =
    (in_inline ty tc, EnterInline tc ds sub) :: walk_directives sch (in_inline ty tc) ds ++ walk_sub (cond_type ty tc) sub
    ++ [(in_inline ty tc, LeaveInline)].
  Proof.
    intros. cbn [walk_selection]. rewrite (go_flat (walk_selection sch _)). destruct tc; reflexivity.
  Qed.

  Lemma walk_set_sub : forall c set, c_input c = None -> c_default c = false -> walk_set sch c set = walk_sub (c_type c) set.
  Proof. intros [ty p i d] set. cbn. intros -> ->. reflexivity. Qed.

  (* the calls for a selection itself *)
  Definition own (ty : option tnode) (x : nsel) : list call :=
    match x with
    | NField al n args ds sub =>
        (in_field ty n, EnterField al n args ds sub) :: walk_arguments sch (in_field ty n) (option_map f_args (found ty n)) args
        ++ walk_directives sch (in_field ty n) ds ++ [(in_field ty n, LeaveField)]
    | NSpread n ds => (at_type ty, EnterSpread n ds) :: walk_directives sch (at_type ty) ds ++ [(at_type ty, LeaveSpread)]
    | NInline tc ds sub =>
        (in_inline ty tc, EnterInline tc ds sub) :: walk_directives sch (in_inline ty tc) ds ++ [(in_inline ty tc, LeaveInline)]
    end.

  Inductive inner : option tnode -> list nsel -> option tnode -> list nsel -> Prop :=
  | inner_here ty set : inner ty set ty set
  | inner_field ty set al n args ds sub ty' set' :
      In (NField al n args ds sub) set -> inner (sub_type ty n) sub ty' set' -> inner ty set ty' set'
  | inner_inline ty set tc ds sub ty' set' :
      In (NInline tc ds sub) set -> inner (cond_type ty tc) sub ty' set' -> inner ty set ty' set'.

  Definition reached (ty : option tnode) (l : list nsel) (x : call) : Prop :=
    exists ty' set' y, inner ty l ty' set' /\ In y set' /\ In x (own ty' y).

  Lemma selection_in : forall s ty x, In x (walk_selection sch (at_type ty) s) <-> reached ty [s] x.
  Proof.
    assert (REST : forall sub, Forall (fun s => forall ty x, In x (walk_selection sch (at_type ty) s) <-> reached ty [s] x) sub ->
      forall ty x, In x (walk_sub ty sub) <-> reached ty sub x).
    { intros sub F ty x. rewrite Forall_forall in F. unfold walk_sub. rewrite in_flat_map. split.
      - intros (s & I & K). apply (F _ I) in K. destruct K as (ty' & set' & y & IN & Y & O).
        inversion IN as [a b|a b al n args ds sub' a' b' J IN'|a b tc ds sub' a' b' J IN']; subst.
        + destruct Y as [->|[]]. exists ty', sub, y. split; [constructor|]. split; assumption.
        + destruct J as [->|[]]. exists ty', set', y. split; [|split; assumption]. eapply inner_field; eassumption.
        + destruct J as [->|[]]. exists ty', set', y. split; [|split; assumption]. eapply inner_inline; eassumption.
      - intros (ty' & set' & y & IN & Y & O).
        inversion IN as [a b|a b al n args ds sub' a' b' J IN'|a b tc ds sub' a' b' J IN']; subst.
        + exists y. split; [exact Y|]. apply (F _ Y). exists ty', [y], y. split; [constructor|]. split; [now left|exact O].
        + eexists. split; [exact J|]. apply (F _ J). exists ty', set', y. split; [|split; assumption].
          eapply inner_field; [now left|exact IN'].
        + eexists. split; [exact J|]. apply (F _ J). exists ty', set', y. split; [|split; assumption].
          eapply inner_inline; [now left|exact IN']. }
    induction s as [al n args ds sub IH|n ds|tc ds sub IH] using nsel_ind'; intros ty x.
    - rewrite walk_field. specialize (REST sub IH (sub_type ty n) x).
      split.
      + intros K. cbn [In] in K. rewrite !in_app_iff in K. rewrite REST in K.
        assert (C : In x (own ty (NField al n args ds sub)) \/ reached (sub_type ty n) sub x).
        { cbn [own In]. rewrite !in_app_iff. tauto. }
        destruct C as [C|(ty' & set' & y & A & B & D)].
        * exists ty, [NField al n args ds sub], (NField al n args ds sub). split; [constructor|]. split; [now left|exact C].
        * exists ty', set', y. split; [|split; assumption]. eapply inner_field; [now left|exact A].
      + intros (ty' & set' & y & IN & Y & O).
        cbn [In]. rewrite !in_app_iff. rewrite REST.
        inversion IN as [a b|a b al' n' args' ds' sub' a' b' J IN'|a b tc ds' sub' a' b' J IN']; subst.
        * destruct Y as [<-|[]]. cbn [own In] in O. rewrite !in_app_iff in O. tauto.
        * destruct J as [E|[]]. injection E as -> -> -> -> ->. right; right; right; left. exists ty', set', y. repeat split; assumption.
        * destruct J as [E|[]]. discriminate E.
    - cbn [walk_selection]. split.
      + intros K. exists ty, [NSpread n ds], (NSpread n ds). split; [constructor|]. split; [now left|exact K].
      + intros (ty' & set' & y & IN & Y & O).
        inversion IN as [a b|a b al' n' args' ds' sub' a' b' J IN'|a b tc ds' sub' a' b' J IN']; subst.
        * destruct Y as [<-|[]]. exact O.
        * destruct J as [E|[]]. discriminate E.
        * destruct J as [E|[]]. discriminate E.
    - rewrite walk_inline. specialize (REST sub IH (cond_type ty tc) x).
      split.
      + intros K. cbn [In] in K. rewrite !in_app_iff in K. rewrite REST in K.
        assert (C : In x (own ty (NInline tc ds sub)) \/ reached (cond_type ty tc) sub x).
        { cbn [own In]. rewrite !in_app_iff. tauto. }
        destruct C as [C|(ty' & set' & y & A & B & D)].
        * exists ty, [NInline tc ds sub], (NInline tc ds sub). split; [constructor|]. split; [now left|exact C].
        * exists ty', set', y. split; [|split; assumption]. eapply inner_inline; [now left|exact A].
      + intros (ty' & set' & y & IN & Y & O).
        cbn [In]. rewrite !in_app_iff. rewrite REST.
        inversion IN as [a b|a b al' n' args' ds' sub' a' b' J IN'|a b tc' ds' sub' a' b' J IN']; subst.
        * destruct Y as [<-|[]]. cbn [own In] in O. rewrite !in_app_iff in O. tauto.
        * destruct J as [E|[]]. discriminate E.
        * destruct J as [E|[]]. injection E as -> -> ->. right; right; left. exists ty', set', y. repeat split; assumption.
  Qed.

  Lemma sub_in : forall l ty x, In x (walk_sub ty l) <-> reached ty l x.
  Proof.
    intros l ty x. unfold walk_sub. rewrite in_flat_map. split.
    - intros (s & I & K). apply selection_in in K. destruct K as (ty' & set' & y & IN & Y & O).
      inversion IN as [a b|a b al n args ds sub' a' b' J IN'|a b tc ds sub' a' b' J IN']; subst.
      + destruct Y as [->|[]]. exists ty', l, y. split; [constructor|]. split; assumption.
      + destruct J as [->|[]]. exists ty', set', y. split; [|split; assumption]. eapply inner_field; eassumption.
      + destruct J as [->|[]]. exists ty', set', y. split; [|split; assumption]. eapply inner_inline; eassumption.
    - intros (ty' & set' & y & IN & Y & O).
      inversion IN as [a b|a b al n args ds sub' a' b' J IN'|a b tc ds sub' a' b' J IN']; subst.
      + exists y. split; [exact Y|]. apply selection_in. exists ty', [y], y. split; [constructor|]. split; [now left|exact O].
      + eexists. split; [exact J|]. apply selection_in. exists ty', set', y. split; [|split; assumption].
        eapply inner_field; [now left|exact IN'].
      + eexists. split; [exact J|]. apply selection_in. exists ty', set', y. split; [|split; assumption].
        eapply inner_inline; [now left|exact IN'].
  Qed.

  (* the calls for a definition itself *)
  Definition start_type (d : qdef) : option (option tnode) :=
    match d with
    | QFrag _ tc _ _ => Some (Some (TNamed tc))
    | QOp k _ _ _ _ => match root_of sch k with Some r => Some (option_map TNamed r) | None => None end
    end.
  Definition def_ctx (ty : option tnode) : ctx := mkctx ty None None false.
  Definition head (d : qdef) (ty : option tnode) : list call :=
    match d with
    | QFrag n tc ds set => (def_ctx ty, EnterFrag n tc ds set) :: walk_directives sch (def_ctx ty) ds
    | QOp k n ds vs set => (def_ctx ty, EnterOp k n ds vs set) :: walk_directives sch (def_ctx ty) ds ++ flat_map (walk_variable sch (def_ctx ty)) vs
    end.
  Definition foot (d : qdef) (ty : option tnode) : call :=
    (def_ctx ty, match d with QFrag _ _ _ _ => LeaveFrag | QOp _ _ _ _ _ => LeaveOp end).
  Lemma definition_walk : forall d, walk_definition sch d =
    match start_type d with Some ty => Some (head d ty ++ walk_sub ty (set_of d) ++ [foot d ty]) | None => None end.
  Proof.
    intros [n tc ds set|k n ds vs set]; unfold walk_definition, start_type.
    - cbn [head foot set_of]. rewrite walk_set_sub by reflexivity. cbn. reflexivity.
    - destruct (root_of sch k) as [r|]; [|reflexivity]. cbn [head foot set_of]. rewrite walk_set_sub by reflexivity.
      cbn -[walk_directives walk_variable]. now rewrite <- app_assoc.
  Qed.

  (* A definition with its calls *)
  Definition calls (d : qdef) : list call :=
    match walk_definition sch d with Some l => l | None => [] end.
  Lemma walk_parts : forall doc l, walk sch doc = Some l ->
    l = (no_ctx, EnterDocument) :: flat_map calls doc ++ [(no_ctx, LeaveDocument)] /\ forall d, In d doc -> start_type d <> None.
  Proof.
    intros doc l. unfold walk.
    assert (P : forall doc l, walk_definitions sch doc = Some l -> l = flat_map calls doc /\ forall d, In d doc -> start_type d <> None).
    { clear. induction doc as [|d doc IH]; intros l.
      - cbn. intros [= <-]. split; [reflexivity|]. intros d [].
      - cbn. destruct (walk_definition sch d) as [a|] eqn:A; [|discriminate]. destruct (walk_definitions sch doc) as [b|]; [|discriminate].
        intros [= <-]. destruct (IH _ eq_refl) as [-> R]. unfold calls at 2. rewrite A. split; [reflexivity|].
        intros d' [<-|I]; [|now apply R]. rewrite definition_walk in A. now destruct (start_type d). }
    destruct (walk_definitions sch doc) as [b|] eqn:B; [|discriminate]. intros [= <-]. destruct (P _ _ B) as [-> R]. now split.
  Qed.
  Lemma walk_total : forall doc, (forall d, In d doc -> start_type d <> None) -> walk sch doc <> None.
  Proof.
    intros doc H. unfold walk.
    assert (P : walk_definitions sch doc <> None).
    { induction doc as [|d doc IH]; [discriminate|]. cbn. rewrite definition_walk.
      destruct (start_type d) eqn:E; [|now destruct (H d (or_introl eq_refl))].
      destruct (walk_definitions sch doc); [discriminate|]. apply IH. intros d' I. apply H. now right. }
    destruct (walk_definitions sch doc); [discriminate|contradiction].
  Qed.

  Lemma calls_eq : forall d ty, start_type d = Some ty -> calls d = head d ty ++ walk_sub ty (set_of d) ++ [foot d ty].
  Proof. intros d ty E. unfold calls. rewrite definition_walk, E. reflexivity. Qed.

  (* All calls, by place *)
  Definition placed (doc : list qdef) (x : call) : Prop :=
    x = (no_ctx, EnterDocument) \/ x = (no_ctx, LeaveDocument) \/
    exists d ty, In d doc /\ start_type d = Some ty /\ (In x (head d ty) \/ x = foot d ty \/ reached ty (set_of d) x).
  Lemma walk_in : forall doc l, walk sch doc = Some l -> forall x, In x l <-> placed doc x.
  Proof.
    intros doc l W x. destruct (walk_parts _ _ W) as [-> R]. cbn [In]. rewrite in_app_iff, in_flat_map. cbn [In]. unfold placed. split.
    - intros [<-|[(d & I & K)|[<-|[]]]]; [now left| |now right; left].
      destruct (start_type d) as [ty|] eqn:E; [|now destruct (R d I)].
      right; right. exists d, ty. split; [exact I|]. split; [exact E|].
      rewrite (calls_eq _ _ E), !in_app_iff, sub_in in K. cbn [In] in K. intuition.
    - intros [->|[->|(d & ty & I & E & K)]]; [now left|right; right; now left|].
      right; left. exists d. split; [exact I|]. rewrite (calls_eq _ _ E), !in_app_iff, sub_in. cbn [In]. intuition.
  Qed.
End Walk.
