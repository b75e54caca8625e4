(* The spreads, variables and arguments among the calls for a definition. *)
From Coq Require Import String List Bool Arith Lia.
From Verif Require Import StrUtil Ast ConsumerModel IntroModel CondModel NormModel NormProofs WalkModel LocalModel LocalSpec WalkProofs LocalBase LocalRun ReachModel ReachSpec ReachBase.
Import ListNotations.
Local Open Scope string_scope.
Local Open Scope list_scope.

Definition spread_ev (x : call) : list string := match snd x with EnterSpread n _ => [n] | _ => [] end.
Definition arg_ev (x : call) : list string := match snd x with EnterArgument _ v => variables_in_use v | _ => [] end.
Definition var_ev (x : call) : list vardef := match snd x with EnterVariable v => [v] | _ => [] end.
Definition use_ev (x : call) : list (string * tnode * bool) :=
  match snd x, c_input (fst x) with EnterUse v, Some t => [(v, t, c_default (fst x))] | _, _ => [] end.
Definition vars_of (d : qdef) : list vardef := match d with QOp _ _ _ vs _ => vs | QFrag _ _ _ _ => [] end.
Definition arg_ctx (c : ctx) (defs : option (list input_value)) (k : string) : ctx :=
  let def := match defs with Some l => input_by_name l k | None => None end in
  with_input c (option_map iv_type def) (match def with Some f => match iv_default f with Some _ => true | None => false end | None => false end).

Lemma variables_part : forall v x, In x (variables_in_use v) <-> part v (GVar x).
Proof.
  intros v. induction v as [nm|z|b|s|b| |s|l IH|o IH] using gvalue_ind'; intros x; cbn [variables_in_use];
    try solve [split; [intros []|intros K; inversion K]].
  - split; [intros [<-|[]]; constructor|]. intros K. inversion K; subst. now left.
  - rewrite Forall_forall in IH. rewrite in_flat_map. split.
    + intros (y & I & K). apply (IH _ I) in K. eapply part_list; eassumption.
    + intros K. inversion K as [|l' y v' I K'|]; subst. exists y. split; [exact I|]. now apply (IH _ I).
  - rewrite Forall_forall in IH. rewrite in_flat_map. split.
    + intros ([k y] & I & K). apply (IH _ I) in K. eapply part_object; eassumption.
    + intros K. inversion K as [| |o' k y v' I K']; subst. exists (k, y). split; [exact I|]. now apply (IH _ I).
Qed.

Section Calls.
  Variable sch : list definition.
  Hypothesis WF : well_formed sch.

  Section Doc.
    Variable doc : list qdef.
    Variable l : list call.
    Hypothesis W : walk sch doc = Some l.
    Definition block (c : ctx) (dir : directive) : Prop := forall x, In x (walk_directive sch c dir) -> In x l.
    Lemma directive_block : forall dir, directive_used doc dir -> exists c, block c dir.
    Proof.
      intros dir (loc & ds & K & I). apply directed_iff in K. destruct K as [(d0 & D & -> & ->)|(y & Y & -> & ->)].
      - destruct (start_type sch d0) as [ty|] eqn:S; [|now destruct (starts _ _ _ W _ D)].
        exists (def_ctx ty). intros x X. apply (walk_in _ _ _ W). right; right. exists d0, ty. split; [exact D|]. split; [exact S|]. left.
        destruct d0 as [n tc ds set|k n ds vs set]; cbn [head In def_dirs] in *; right.
        + apply in_flat_map. now exists dir.
        + apply in_app_iff. left. apply in_flat_map. now exists dir.
      - apply (item_iff _ WF _ (starts _ _ _ W)) in Y. destruct Y as (ty & set & O & Y). apply (occurs_iff _ WF _ (starts _ _ _ W)) in O.
        destruct O as (d0 & ty0 & D & S & N).
        assert (P : forall x, In x (own sch ty y) -> In x l).
        { intros x X. apply (walk_in _ _ _ W). right; right. exists d0, ty0. split; [exact D|]. split; [exact S|]. right; right. now exists ty, set, y. }
        destruct y as [al n args ds sub|n ds|tc ds sub]; cbn [dirs_of] in I.
        + exists (in_field sch ty n). intros x X. apply P. cbn [own In]. right. apply in_app_iff. right. apply in_app_iff. left. apply in_flat_map. now exists dir.
        + exists (at_type sch ty). intros x X. apply P. cbn [own In]. right. apply in_app_iff. left. apply in_flat_map. now exists dir.
        + exists (in_inline sch ty tc). intros x X. apply P. cbn [own In]. right. apply in_app_iff. left. apply in_flat_map. now exists dir.
    Qed.
    Definition argplace (c : ctx) (defs : option (list input_value)) (args : list (string * gvalue)) : Prop :=
      (exists ty set al n ds sub, occurs sch doc ty set /\ In (NField al n args ds sub) set /\ c = in_field sch ty n /\ defs = option_map f_args (found sch ty n)) \/
      (exists dir, directive_used doc dir /\ block c dir /\ args = d_args dir /\ defs = option_map dd_args (directive_by_name sch (d_name dir))).
    Lemma directives_args : forall c ds x, argued (snd x) = true -> In x (walk_directives sch c ds) ->
      exists dir, In dir ds /\ In x (walk_arguments sch c (option_map dd_args (directive_by_name sch (d_name dir))) (d_args dir)).
    Proof.
      intros c ds x A K. apply in_flat_map in K. destruct K as (dir & I & [<-|K]); [discriminate A|].
      apply in_app_iff in K. destruct K as [K|[<-|[]]]; [|discriminate A]. exists dir. now split.
    Qed.
    Lemma argued_in : forall x, argued (snd x) = true -> In x l ->
      (exists c defs args, argplace c defs args /\ In x (walk_arguments sch c defs args)) \/
      (exists y v c, variable_of doc y /\ vd_default y = Some v /\ In x (walk_value sch (with_input c (Some (vd_type y)) false) v)).
    Proof.
      intros x A K. pose proof K as K0. apply (walk_in _ _ _ W) in K.
      destruct K as [->|[->|(d & ty & D & S & [K|[->|K]])]]; try discriminate A.
      - assert (DIR : forall dir, In dir (def_dirs d) -> directive_used doc dir).
        { intros dir I. exists (def_loc d), (def_dirs d). split; [|exact I]. apply directed_iff. left. now exists d. }
        assert (BLK : forall dir, In dir (def_dirs d) -> block (def_ctx ty) dir).
        { intros dir I x' X. apply (walk_in _ _ _ W). right; right. exists d, ty. split; [exact D|]. split; [exact S|]. left.
          destruct d as [n tc ds set|k n ds vs set]; cbn [head In def_dirs] in *; right; [|apply in_app_iff; left]; apply in_flat_map; now exists dir. }
        destruct d as [n tc ds set|k n ds vs set]; cbn [head In] in K; (destruct K as [<-|K]; [discriminate A|]).
        + destruct (directives_args _ _ _ A K) as (dir & I & X). left. exists (def_ctx ty). do 2 eexists. split; [|exact X]. right. exists dir. auto.
        + apply in_app_iff in K. destruct K as [K|K].
          * destruct (directives_args _ _ _ A K) as (dir & I & X). left. exists (def_ctx ty). do 2 eexists. split; [|exact X]. right. exists dir. auto.
          * apply in_flat_map in K. destruct K as (v & I & [<-|K]); [discriminate A|]. destruct (vd_default v) as [y|] eqn:V; [|destruct K].
            right. exists v, y, (def_ctx ty). split; [now exists k, n, ds, vs, set|]. now split.
      - destruct d; discriminate A.
      - destruct K as (ty' & set' & y & N & Y & O).
        assert (OC : occurs sch doc ty' set') by (apply (occurs_iff _ WF _ (starts _ _ _ W)); now exists d, ty).
        assert (IT : item doc y) by (apply (item_iff _ WF _ (starts _ _ _ W)); now exists ty', set').
        assert (DIR : forall dir, In dir (dirs_of y) -> directive_used doc dir).
        { intros dir I. exists (loc_of y), (dirs_of y). split; [|exact I]. apply directed_iff. right. now exists y. }
        assert (BLK : forall x', In x' (own sch ty' y) -> In x' l).
        { intros x' X. apply (walk_in _ _ _ W). right; right. exists d, ty. split; [exact D|]. split; [exact S|]. right; right. now exists ty', set', y. }
        left. destruct y as [al n args ds sub|n ds|tc ds sub]; cbn [own In dirs_of] in *.
        + destruct O as [<-|O]; [discriminate A|]. rewrite !in_app_iff in O. destruct O as [O|[O|[<-|[]]]]; [| |discriminate A].
          * do 3 eexists. split; [|exact O]. left. exists ty', set', al, n, ds, sub. auto.
          * destruct (directives_args _ _ _ A O) as (dir & I & X). do 3 eexists. split; [|exact X]. right. exists dir. split; [auto|]. split; [|auto].
            intros x' X'. apply BLK. right. rewrite !in_app_iff. right; left. apply in_flat_map. now exists dir.
        + destruct O as [<-|O]; [discriminate A|]. rewrite !in_app_iff in O. destruct O as [O|[<-|[]]]; [|discriminate A].
          destruct (directives_args _ _ _ A O) as (dir & I & X). do 3 eexists. split; [|exact X]. right. exists dir. split; [auto|]. split; [|auto].
          intros x' X'. apply BLK. right. rewrite !in_app_iff. left. apply in_flat_map. now exists dir.
        + destruct O as [<-|O]; [discriminate A|]. rewrite !in_app_iff in O. destruct O as [O|[<-|[]]]; [|discriminate A].
          destruct (directives_args _ _ _ A O) as (dir & I & X). do 3 eexists. split; [|exact X]. right. exists dir. split; [auto|]. split; [|auto].
          intros x' X'. apply BLK. right. rewrite !in_app_iff. left. apply in_flat_map. now exists dir.
    Qed.
    Lemma in_argued : forall c defs args x, argplace c defs args -> In x (walk_arguments sch c defs args) -> In x l.
    Proof.
      intros c defs args x [(ty & set & al & n & ds & sub & O & Y & -> & ->)|(dir & U & B & -> & ->)] X.
      - apply (occurs_iff _ WF _ (starts _ _ _ W)) in O. destruct O as (d & ty0 & D & S & N).
        apply (walk_in _ _ _ W). right; right. exists d, ty0. split; [exact D|]. split; [exact S|]. right; right. exists ty, set, (NField al n args ds sub).
        split; [exact N|]. split; [exact Y|]. cbn [own In]. right. apply in_app_iff. now left.
      - apply B. unfold walk_directive. right. apply in_app_iff. now left.
    Qed.
  End Doc.

  (* the calls of one definition *)
  Variable d : qdef.
  Variable ty0 : option tnode.
  Hypothesis START : start_type sch d = Some ty0.
  Definition alone : list call := (no_ctx, EnterDocument) :: calls sch d ++ [(no_ctx, LeaveDocument)].
  Lemma alone_walk : walk sch [d] = Some alone.
  Proof.
    unfold walk, alone, calls. cbn [walk_definitions]. rewrite definition_walk, START. now rewrite app_nil_r.
  Qed.
  Lemma alone_in : forall x, snd x <> EnterDocument -> snd x <> LeaveDocument -> (In x alone <-> In x (calls sch d)).
  Proof.
    intros x A B. unfold alone. cbn [In]. rewrite in_app_iff. cbn [In]. split; [|tauto].
    intros [<-|[K|[<-|[]]]]; [now destruct A|exact K|now destruct B].
  Qed.
  Lemma item_one : forall y, item [d] y <-> within (set_of d) y.
  Proof. intros y. unfold item. split; [intros (d' & [<-|[]] & K); exact K|]. intros K. exists d. split; [now left|exact K]. Qed.
  Lemma calls_spreads : forall n, In n (flat_map spread_ev (calls sch d)) <-> spreads d n.
  Proof.
    intros n. rewrite in_flat_map. unfold spreads. split.
    - intros ([c x] & I & K). destruct x; try (destruct K; fail). cbn in K. destruct K as [->|[]].
      apply alone_in in I; [|discriminate|discriminate]. apply (ev_spread _ _ WF _ alone_walk) in I. destruct I as (ty & set & O & I & _).
      exists dirs. apply item_one. apply (item_iff _ WF _ (starts _ _ _ alone_walk)). now exists ty, set.
    - intros (ds & K). apply item_one, (item_iff _ WF _ (starts _ _ _ alone_walk)) in K. destruct K as (ty & set & O & I).
      exists (at_type sch ty, EnterSpread n ds). split; [|now left]. apply alone_in; [discriminate|discriminate|].
      apply (ev_spread _ _ WF _ alone_walk). exists ty, set. auto.
  Qed.
  Lemma calls_vars : flat_map var_ev (calls sch d) = vars_of d.
  Proof.
    rewrite (calls_eq _ _ _ START), !flat_map_app. cbn [flat_map].
    assert (NONE : forall b, (forall x, In x b -> directing (snd x) = true \/ is_enter (snd x) = true \/ snd x = LeaveField \/ snd x = LeaveSpread \/ snd x = LeaveInline) ->
      flat_map var_ev b = []).
    { induction b as [|x b IH]; intros H; [reflexivity|]. cbn [flat_map]. rewrite IH by (intros; apply H; now right).
      rewrite app_nil_r. specialize (H x (or_introl eq_refl)). unfold var_ev. destruct (snd x); try reflexivity. destruct H as [H|[H|[H|[H|H]]]]; discriminate. }
    rewrite (NONE (walk_sub sch ty0 (set_of d))).
    2:{ intros x X. apply sub_in in X. destruct X as (ty' & set' & y & _ & _ & O). rewrite own_pre in O. apply in_app_iff in O.
        destruct (directing (snd x)) eqn:DI; [now left|right]. destruct O as [O|[<-|[]]].
        - apply pre_high in O; [|exact DI]. subst x. left. now destruct y.
        - right. destruct y; cbn; auto. }
    assert (DN : forall c ds, flat_map var_ev (walk_directives sch c ds) = []).
    { intros c ds. apply NONE. intros x X. left. now apply directives_directing in X. }
    destruct d as [n tc ds set|k n ds vs set]; cbn [head foot flat_map vars_of app].
    - now rewrite DN.
    - rewrite flat_map_app, DN. cbn [var_ev snd app]. rewrite app_nil_r. induction vs as [|v vs IH]; [reflexivity|]. cbn [flat_map].
      unfold walk_variable at 1. cbv zeta. cbn [app flat_map]. rewrite flat_map_app.
      rewrite (NONE (match vd_default v with Some x => _ | None => [] end)).
      + cbn [var_ev snd app]. f_equal. exact (IH START).
      + intros x X. left. destruct (vd_default v); [|destruct X]. apply value_valued in X. now destruct (snd x).
  Qed.
  Lemma arguments_in : forall c defs args x, In x (walk_arguments sch c defs args) <->
    exists k v, In (k, v) args /\ (x = (arg_ctx c defs k, EnterArgument k v) \/ In x (walk_value sch (arg_ctx c defs k) v)).
  Proof.
    intros c defs args x. unfold walk_arguments. rewrite in_flat_map. split.
    - intros ([k v] & I & [<-|K]); exists k, v; split; try exact I; [now left|now right].
    - intros (k & v & I & [->|K]); exists (k, v); (split; [exact I|]); [now left|now right].
  Qed.
  Lemma calls_args : forall v, In v (flat_map arg_ev (calls sch d)) <-> uses d v.
  Proof.
    intros v. rewrite in_flat_map. unfold uses. split.
    - intros ([c x] & I & K). destruct x; try (destruct K; fail). cbn in K. apply variables_part in K.
      apply alone_in in I; [|discriminate|discriminate]. apply (argued_in _ _ alone_walk) in I; [|reflexivity].
      destruct I as [(c0 & defs & args & P & I)|(y & w & c0 & _ & _ & I)].
      2:{ apply value_valued in I. discriminate I. }
      apply arguments_in in I. destruct I as (k & w & J & [E|I]); [|apply value_valued in I; discriminate I].
      injection E as -> -> ->. destruct P as [(ty & set & al & f & ds & sub & O & Y & _ & _)|(dir & U & _ & -> & _)].
      + left. exists al, f, args, ds, sub, k, w. split; [|now split]. apply (item_iff _ WF _ (starts _ _ _ alone_walk)). now exists ty, set.
      + right. exists dir, k, w. auto.
    - intros [(al & n & args & ds & sub & k & x & I & J & P)|(dir & k & x & U & J & P)].
      + apply (item_iff _ WF _ (starts _ _ _ alone_walk)) in I. destruct I as (ty & set & O & I).
        exists (arg_ctx (in_field sch ty n) (option_map f_args (found sch ty n)) k, EnterArgument k x). split; [|now apply variables_part].
        apply alone_in; [discriminate|discriminate|]. apply (in_argued _ _ alone_walk (in_field sch ty n) (option_map f_args (found sch ty n)) args).
        * left. exists ty, set, al, n, ds, sub. auto.
        * apply arguments_in. exists k, x. auto.
      + destruct (directive_block _ _ alone_walk _ U) as (c & B).
        exists (arg_ctx c (option_map dd_args (directive_by_name sch (d_name dir))) k, EnterArgument k x). split; [|now apply variables_part].
        apply alone_in; [discriminate|discriminate|]. eapply (in_argued _ _ alone_walk c _ (d_args dir)).
        * right. exists dir. auto.
        * apply arguments_in. exists k, x. auto.
  Qed.

  (* typed uses *)
  Hypothesis IO : inputs_ok sch.
  Lemma value_uses : forall v c x t df, c_input c <> None ->
    ((exists c', In (c', EnterUse x) (walk_value sch c v) /\ c_input c' = Some t /\ c_default c' = df) <->
     exists u, c_input c = Some u /\ position sch true u (c_default c) v t df x).
  Proof.
    intros v. induction v as [nm|z|b|s|b| |s|l IH|o IH] using gvalue_ind'; intros c x t df C;
      try solve [split; [intros (c' & [K|[]] & _); discriminate K|intros (u & _ & K); inversion K]].
    - cbn [walk_value In]. split.
      + intros (c' & [K|[]] & E & <-). injection K as -> ->. exists t. split; [exact E|constructor].
      + intros (u & E & K). inversion K; subst. exists c. split; [now left|]. now split.
    - rewrite value_list. rewrite Forall_forall in IH. split.
      + intros (c' & [K|K] & E1 & E2); [discriminate K|]. apply in_flat_map in K. destruct K as (y & I & K).
        destruct (c_input c) as [u|]; [|now destruct C]. exists u. split; [reflexivity|]. destruct u as [n|u|u].
        * exfalso. clear -K E1. revert K. match goal with |- In _ (walk_value _ ?c0 _) -> _ => assert (N : c_input c0 = None) by reflexivity; revert N; generalize c0 end.
          revert c' E1. induction y as [nm|z|b|s|b| |s|l IH|o IH] using gvalue_ind'; intros c' E1 c0 N K;
            try solve [destruct K as [K|[]]; discriminate K].
          -- destruct K as [K|[]]. injection K as -> _. congruence.
          -- rewrite value_list in K. destruct K as [K|K]; [discriminate K|]. apply in_flat_map in K. destruct K as (y & I & K). rewrite Forall_forall in IH.
             eapply IH; [exact I|exact E1| |exact K]. rewrite N. reflexivity.
          -- rewrite value_object in K. destruct K as [K|K]; [discriminate K|]. apply in_flat_map in K. destruct K as (y & I & K). rewrite Forall_forall in IH.
             eapply IH; [exact I|exact E1| |exact K]. unfold entry_ctx. rewrite N. reflexivity.
        * eapply position_item; [exact I|now left|].
          destruct (proj1 (IH _ I (with_input c (Some u) false) x t df ltac:(discriminate))) as (u' & [= <-] & P); [now exists c'|exact P].
        * exfalso. clear -K E1. revert K. match goal with |- In _ (walk_value _ ?c0 _) -> _ => assert (N : c_input c0 = None) by reflexivity; revert N; generalize c0 end.
          revert c' E1. induction y as [nm|z|b|s|b| |s|l IH|o IH] using gvalue_ind'; intros c' E1 c0 N K;
            try solve [destruct K as [K|[]]; discriminate K].
          -- destruct K as [K|[]]. injection K as -> _. congruence.
          -- rewrite value_list in K. destruct K as [K|K]; [discriminate K|]. apply in_flat_map in K. destruct K as (y & I & K). rewrite Forall_forall in IH.
             eapply IH; [exact I|exact E1| |exact K]. rewrite N. reflexivity.
          -- rewrite value_object in K. destruct K as [K|K]; [discriminate K|]. apply in_flat_map in K. destruct K as (y & I & K). rewrite Forall_forall in IH.
             eapply IH; [exact I|exact E1| |exact K]. unfold entry_ctx. rewrite N. reflexivity.
      + intros (u & E & K). inversion K as [|t1 df1 l1 w y t2 df2 x2 I J P|]; subst. destruct J as [->|[J _]]; [|discriminate J]. rewrite E.
        destruct (proj2 (IH _ I (with_input c (Some w) false) x t df ltac:(discriminate))) as (c' & A & B); [now exists w|].
        exists c'. split; [|exact B]. right. apply in_flat_map. now exists y.
    - rewrite value_object. rewrite Forall_forall in IH. split.
      + intros (c' & [K|K] & E1 & E2); [discriminate K|]. apply in_flat_map in K. destruct K as ([k y] & I & K). cbn [fst snd] in K.
        destruct (c_input c) as [u|] eqn:CI; [|now destruct C]. exists u. split; [reflexivity|].
        destruct (c_input (entry_ctx sch c k)) as [w|] eqn:EC.
        * destruct (proj1 (IH _ I (entry_ctx sch c k) x t df ltac:(congruence))) as (u' & EU & P); [now exists c'|].
          unfold entry_ctx in EC, EU, P. rewrite CI in EC, EU, P. cbn [typed] in EC, EU, P.
          destruct (type_by_name sch (inner_type u)) as [td|] eqn:TD; [|discriminate EC].
          destruct (input_field_by_name td k) as [f|] eqn:F; [|discriminate EC]. cbn [with_input c_input c_default option_map] in *.
          injection EU as <-. apply (type_by_name_ok _ _ _ (wf_types _ WF)) in TD. rewrite base_inner in TD.
          assert (F' : In f (inputs_of td) /\ iv_name f = k).
          { unfold input_field_by_name in F. destruct td; try discriminate F. unfold input_by_name in F. apply find_some in F. destruct F as [F1 F2]. apply String.eqb_eq in F2. now split. }
          destruct F' as [F1 F2]. eapply position_entry; [exact I|exact TD|exact F1|exact F2|exact P].
        * exfalso. clear -K E1 EC. revert K EC. generalize (entry_ctx sch c k).
          revert c' E1. cbn [snd]. induction y as [nm|z|b|s|b| |s|l IH|o IH] using gvalue_ind'; intros c' E1 c0 K N;
            try solve [destruct K as [K|[]]; discriminate K].
          -- destruct K as [K|[]]. injection K as -> _. congruence.
          -- rewrite value_list in K. destruct K as [K|K]; [discriminate K|]. apply in_flat_map in K. destruct K as (y & I & K). rewrite Forall_forall in IH.
             eapply IH; [exact I|exact E1|exact K|]. rewrite N. reflexivity.
          -- rewrite value_object in K. destruct K as [K|K]; [discriminate K|]. apply in_flat_map in K. destruct K as (y & I & K). rewrite Forall_forall in IH.
             eapply IH; [exact I|exact E1|exact K|]. unfold entry_ctx. rewrite N. reflexivity.
      + intros (u & E & K). inversion K as [| |t1 df1 o1 k y td f t2 df2 x2 I N F FN P]; subst.
        apply (type_by_name_ok _ _ _ (wf_types _ WF)) in N. rewrite <- base_inner in N.
        assert (EC : entry_ctx sch c (iv_name f) = with_input c (Some (iv_type f)) (defaulted f)).
        { unfold entry_ctx. rewrite E. cbn [typed]. rewrite N.
          assert (G : input_field_by_name td (iv_name f) = Some f); [|rewrite G; reflexivity].
          destruct td; try contradiction. cbn [inputs_of] in F. cbn [input_field_by_name]. unfold input_by_name.
          apply find_name; [|now split]. apply (type_by_name_ok _ _ _ (wf_types _ WF)) in N. destruct N as [N _].
          exact (io_names _ IO _ (input_object _ _ N)). }
        destruct (proj2 (IH _ I (entry_ctx sch c (iv_name f)) x t df ltac:(rewrite EC; discriminate))) as (c' & A & B).
        { rewrite EC. exists (iv_type f). now split. }
        exists c'. split; [|exact B]. right. apply in_flat_map. exists (iv_name f, y). now split.
  Qed.
  Lemma untyped_uses : forall v c c' x, c_input c = None -> In (c', EnterUse x) (walk_value sch c v) -> c_input c' = None.
  Proof.
    intros v. induction v as [nm|z|b|s|b| |s|l IH|o IH] using gvalue_ind'; intros c c' x N K;
      try solve [destruct K as [K|[]]; discriminate K].
    - destruct K as [K|[]]. injection K as -> _. exact N.
    - rewrite value_list in K. destruct K as [K|K]; [discriminate K|]. apply in_flat_map in K. destruct K as (y & I & K). rewrite Forall_forall in IH.
      eapply IH; [exact I| |exact K]. rewrite N. reflexivity.
    - rewrite value_object in K. destruct K as [K|K]; [discriminate K|]. apply in_flat_map in K. destruct K as (y & I & K). rewrite Forall_forall in IH.
      eapply IH; [exact I| |exact K]. unfold entry_ctx. rewrite N. reflexivity.
  Qed.
  Lemma use_part : forall v c c' x, In (c', EnterUse x) (walk_value sch c v) -> part v (GVar x).
  Proof.
    intros v. induction v as [nm|z|b|s|b| |s|l IH|o IH] using gvalue_ind'; intros c c' x K;
      try solve [destruct K as [K|[]]; discriminate K].
    - destruct K as [K|[]]. injection K as _ ->. constructor.
    - rewrite value_list in K. destruct K as [K|K]; [discriminate K|]. apply in_flat_map in K. destruct K as (y & I & K). rewrite Forall_forall in IH.
      eapply part_list; [exact I|]. eapply IH; eassumption.
    - rewrite value_object in K. destruct K as [K|K]; [discriminate K|]. apply in_flat_map in K. destruct K as ([k y] & I & K). rewrite Forall_forall in IH.
      eapply part_object; [exact I|]. eapply (IH _ I); eassumption.
  Qed.
  Hypothesis CONST : constant_defaults [d].
  Lemma calls_uses : forall v t df, In (v, t, df) (flat_map use_ev (calls sch d)) <-> typed_use sch true d t df v.
  Proof.
    intros v t df. rewrite in_flat_map. split.
    - intros ([c x] & I & K). unfold use_ev in K. cbn [snd fst] in K. destruct x; try contradiction. destruct (c_input c) as [t'|] eqn:C; [|destruct K].
      destruct K as [[= -> -> <-]|[]].
      apply alone_in in I; [|discriminate|discriminate]. apply (argued_in _ _ alone_walk) in I; [|reflexivity].
      destruct I as [(c0 & defs & args & P & I)|(y & w & c0 & U & V & I)].
      2:{ exfalso. apply use_part in I. exact (CONST _ _ _ U V I). }
      apply arguments_in in I. destruct I as (k & w & J & [E|I]); [discriminate E|].
      assert (Q : exists l a, defs = Some l /\ input_by_name l k = Some a /\ position sch true (iv_type a) (defaulted a) w t (c_default c) v).
      { unfold arg_ctx in I. destruct defs as [l|]; [|apply untyped_uses in I; [congruence|reflexivity]].
        destruct (input_by_name l k) as [a|] eqn:A; [|apply untyped_uses in I; [congruence|reflexivity]].
        exists l, a. split; [reflexivity|]. split; [exact A|].
        destruct (proj1 (value_uses w (with_input c0 (Some (iv_type a)) (defaulted a)) v t (c_default c) ltac:(discriminate))) as (u & [= <-] & R); [exists c; now split|exact R]. }
      destruct Q as (l & a & DE & A & R). unfold input_by_name in A. apply find_some in A. destruct A as [A1 A2]. apply String.eqb_eq in A2. subst k.
      destruct P as [(ty & set & al & f & ds & sub & O & Y & _ & EQ)|(dir & U & _ & -> & EQ)].
      + destruct (found sch ty f) as [fd|] eqn:F; [|rewrite DE in EQ; discriminate EQ]. cbn in EQ. rewrite DE in EQ. injection EQ as ->.
        apply (found_ok _ WF) in F. eapply use_argument; [|exact F|exact A1|exact J|exact R]. exists set, al, ds. split; [exact O|exact Y].
      + destruct (directive_by_name sch (d_name dir)) as [dd|] eqn:F; [|rewrite DE in EQ; discriminate EQ]. cbn in EQ. rewrite DE in EQ. injection EQ as ->.
        apply (directive_by_name_ok _ _ _ (wf_directives _ WF)) in F. destruct F as [_ F]. eapply use_directive; [exact U|exact F|exact A1|exact J|exact R].
    - intros K.
      assert (Q : exists c0 defs args a w l, argplace [d] alone c0 defs args /\ defs = Some l /\ input_in sch l /\ In a l /\ In (iv_name a, w) args /\ position sch true (iv_type a) (defaulted a) w t df v).
      { destruct K as [ty n args sub f a w t df x F S A I P|dir defs rep ls a w t df x U DF A I P].
        - destruct F as (set & al & ds & O & Y). exists (in_field sch ty n), (option_map f_args (found sch ty n)), args, a, w, (f_args f).
          split; [left; exists ty, set, al, n, ds, sub; auto|]. pose proof S as (t0 & (u & _ & T0 & _) & FI & _). apply (found_ok _ WF) in S. rewrite S.
          split; [reflexivity|]. split; [eapply input_field; eassumption|]. auto.
        - destruct (directive_block _ _ alone_walk _ U) as (c & B).
          exists c, (option_map dd_args (directive_by_name sch (d_name dir))), (d_args dir), a, w, defs. split; [right; exists dir; auto|].
          assert (E : directive_by_name sch (d_name dir) = Some (mkddef (d_name dir) defs rep ls)) by (apply (directive_by_name_ok _ _ _ (wf_directives _ WF)); now split).
          rewrite E. split; [reflexivity|]. split; [eapply input_directive; eassumption|]. auto. }
      destruct Q as (c0 & defs & args & a & w & l & PL & -> & IN & A & J & P).
      assert (G : input_by_name l (iv_name a) = Some a).
      { unfold input_by_name. apply find_name; [|now split]. exact (io_names _ IO _ IN). }
      destruct (proj2 (value_uses w (with_input c0 (Some (iv_type a)) (defaulted a)) v t df ltac:(discriminate))) as (c' & I & E1 & E2); [exists (iv_type a); now split|].
      exists (c', EnterUse v). split.
      + apply alone_in; [discriminate|discriminate|]. apply (in_argued _ _ alone_walk _ _ _ _ PL). apply arguments_in. exists (iv_name a), w. split; [exact J|]. right.
        unfold arg_ctx. rewrite G. exact I.
      + unfold use_ev. cbn [snd fst]. rewrite E1, E2. now left.
  Qed.
End Calls.
