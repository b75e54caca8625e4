(* Proofs for the rule on values of arguments *)
From Coq Require Import String List Bool ZArith Lia.
From Verif Require Import StrUtil Ast ConsumerModel IntroModel CondModel NormModel NormProofs WalkModel LocalModel LocalSpec WalkProofs LocalBase LocalRun ReachModel ReachSpec ReachBase ReachCalls ValsModel ValsSpec.
Import ListNotations.
Local Open Scope string_scope.
Local Open Scope list_scope.

Lemma custom_iff : forall n, is_custom_scalar n = true <-> ~ builtin n.
Proof.
  intros n. unfold is_custom_scalar, builtin. rewrite negb_true_iff. split.
  - intros E K. apply not_true_iff_false in E. apply E. apply existsb_exists. exists n. split; [cbn in K |- *; tauto|apply String.eqb_refl].
  - intros N. apply not_true_iff_false. intros E. apply N. apply existsb_exists in E. destruct E as (m & I & E). apply String.eqb_eq in E. subst m. cbn in I |- *. tauto.
Qed.
Lemma accepts_iff : forall n v, simple v -> (scalar_accepts n v = true \/ is_custom_scalar n = true <-> scalar_kind n v).
Proof.
  intros n v SV. rewrite custom_iff. unfold scalar_kind, scalar_takes. destruct v; try destruct SV; cbn [scalar_accepts];
    rewrite ?orb_true_iff, ?String.eqb_eq.
  all: split.
  all: try solve [intros [A|A]; [|now left; left]; repeat (destruct A as [A|A]); subst; try discriminate A;
    solve [right; split; [reflexivity|eexists; reflexivity]
          |left; right; right; left; split; [reflexivity|]; first [left; eexists; reflexivity|right; eexists; reflexivity]
          |left; right; right; right; left; split; [reflexivity|]; eexists; reflexivity
          |left; right; right; right; right; left; split; [reflexivity|]; eexists; reflexivity
          |left; right; right; right; right; right; split; [reflexivity|]; first [left; eexists; reflexivity|right; eexists; reflexivity]]].
  all: intros [[A|[[A (y & B & _)]|[[A [(y & B)|(y & B)]]|[[A (y & B)]|[[A (y & B)]|[A [(y & B)|(y & B)]]]]]]]|[A (y & B)]]; try discriminate B; tauto.
Qed.
Lemma required_iff : forall f, input_required f = true <-> required f.
Proof.
  intros f. unfold input_required, required. destruct (iv_type f), (iv_default f); split; try discriminate; try (intros [[u K] D]; discriminate).
  intros _. split; [now eexists|reflexivity]. all: reflexivity.
Qed.

Section Faults.
  Variable sch : list definition.
  Hypothesis WF : well_formed sch.
  Lemma one_named : forall n t u, named sch n t -> named sch n u -> t = u.
  Proof. intros n t u A B. apply (type_by_name_ok _ _ _ (wf_types _ WF)) in A, B. congruence. Qed.

  Lemma simple_errors : forall c v t e, c_input c = Some t -> simple v -> (In e (validate_value sch c v) <-> fault sch t v e).
  Proof.
    intros c v t e C SV. unfold validate_value. rewrite C. rewrite base_inner. destruct (type_by_name sch (base t)) as [td|] eqn:T.
    2:{ split; [intros []|]. intros F. exfalso. pose proof (proj1 (type_by_name_none _ _ (wf_types _ WF)) T) as N.
        inversion F; subst; try destruct SV; eapply N; eassumption. }
    apply (type_by_name_ok _ _ _ (wf_types _ WF)) in T. pose proof (accepts_iff (base t) v SV) as AC.
    assert (NM : type_name td = base t) by apply T.
    rewrite in_app_iff. split.
    - intros [K|K].
      + destruct (leaf_type td) eqn:L; [destruct K|]. destruct K as [<-|[]]. apply fault_kind with td; [exact SV|exact T|]. now destruct td.
      + destruct td; try destruct K; cbn [type_name] in NM; subst name.
        * destruct (scalar_accepts (base t) v) eqn:A; [destruct K|]. destruct (is_custom_scalar (base t)) eqn:B; [destruct K|].
          destruct K as [<-|[]]. eapply fault_scalar; [exact SV|exact T|]. intros Q. apply AC in Q. destruct Q; discriminate.
        * destruct v; try destruct SV; try (destruct K as [<-|[]]; eapply fault_enum; [exact Logic.I|exact T|discriminate]).
          destruct (existsb (fun x => String.eqb (ev_name x) s) values) eqn:X; [destruct K|]. destruct K as [<-|[]].
          eapply fault_value; [exact T|]. intros J. apply in_map_iff in J. destruct J as (y & EY & J).
          apply not_true_iff_false in X. apply X. apply existsb_exists. exists y. split; [exact J|]. now apply String.eqb_eq.
    - intros F. inversion F as [u Et|w ty S1 N1 L1|w desc ds S1 N1 K1|s desc ds vs N1 K1|w desc ds vs S1 N1 K1|o desc ds fs f N1 F1 R1 K1|o desc ds fs k N1 F1 K1];
        subst; try destruct SV; pose proof (one_named _ _ _ T N1); subst.
      + left. destruct ty; try (now left); now destruct L1.
      + right. destruct (scalar_accepts (base t) v) eqn:A; [destruct K1; apply AC; now left|].
        destruct (is_custom_scalar (base t)) eqn:B; [destruct K1; apply AC; now right|]. now left.
      + right. destruct (existsb (fun x => String.eqb (ev_name x) s) vs) eqn:X; [|now left].
        destruct K1. apply existsb_exists in X. destruct X as (y & J & X). apply String.eqb_eq in X. subst s. now apply in_map.
      + right. destruct v; try (now left). now destruct (K1 s).
  Qed.
  Lemma null_errors : forall c t e, c_input c = Some t -> (In e (null_value c) <-> fault sch t GNull e).
  Proof.
    intros c t e C. unfold null_value. rewrite C. split.
    - destruct t; intros K; try destruct K as [<-|[]]; try destruct K. now apply fault_null with t.
    - intros F. inversion F; subst; try contradiction. now left.
  Qed.
  Lemma object_errors : forall c o t e, c_input c = Some t -> (In e (object_value sch c o) <-> fault sch t (GObj o) e).
  Proof.
    intros c o t e C. unfold object_value. rewrite C. cbn [typed]. rewrite base_inner. split.
    - destruct (type_by_name sch (base t)) as [td|] eqn:T; [|intros []]. apply (type_by_name_ok _ _ _ (wf_types _ WF)) in T.
      assert (NM : type_name td = base t) by apply T. destruct td; try (intros []; fail). cbn [type_name] in NM. subst name.
      intros K. apply in_app_iff in K. destruct K as [K|K]; apply in_flat_map in K.
      + destruct K as (f & I & K). destruct (input_required f) eqn:R; [|destruct K]. cbn [andb] in K.
        destruct (existsb _ o) eqn:X; [destruct K|]. destruct K as [<-|[]]. eapply fault_missing; [exact T|exact I|now apply required_iff|].
        intros J. apply in_map_iff in J. destruct J as (y & EY & J). apply not_true_iff_false in X. apply X. apply existsb_exists. exists y. split; [exact J|]. now apply String.eqb_eq.
      + destruct K as ([k y] & I & K). cbn [fst] in K. destruct (existsb _ fields) eqn:X; [destruct K|]. destruct K as [<-|[]].
        eapply fault_field; [exact T|apply in_map_iff; now exists (k, y)|].
        intros J. apply in_map_iff in J. destruct J as (f & EY & J). apply not_true_iff_false in X. apply X. apply existsb_exists. exists f. split; [exact J|]. now apply String.eqb_eq.
    - intros F. inversion F as [u Et|w ty S1 N1 L1|w desc ds S1 N1 K1|s desc ds vs N1 K1|w desc ds vs S1 N1 K1|o' desc ds fs f N1 F1 R1 K1|o' desc ds fs k N1 F1 K1];
        subst; try contradiction; apply (type_by_name_ok _ _ _ (wf_types _ WF)) in N1; rewrite N1; apply in_app_iff.
      + left. apply in_flat_map. exists f. split; [exact F1|]. apply required_iff in R1. rewrite R1. cbn [andb].
        destruct (existsb _ o) eqn:X; [|now left]. destruct K1. apply existsb_exists in X. destruct X as (y & J & X). apply String.eqb_eq in X. rewrite <- X. now apply in_map.
      + right. apply in_map_iff in F1. destruct F1 as ([k' y] & EK & J). cbn in EK. subst k'. apply in_flat_map. exists (k, y). split; [exact J|]. cbn [fst].
        destruct (existsb _ fs) eqn:X; [|now left]. destruct K1. apply existsb_exists in X. destruct X as (f & I & X). apply String.eqb_eq in X. rewrite <- X. now apply in_map.
  Qed.

  Definition wrong (l : list call) (e : verr) : Prop := exists x, In x l /\ In e (value_errors sch x).
  Lemma untyped_none : forall v c e, c_input c = None -> ~ wrong (walk_value sch c v) e.
  Proof.
    intros v. induction v as [nm|z|b|s|b| |s|l IH|o IH] using gvalue_ind'; intros c e N (x & K & E).
    all: try solve [destruct K as [<-|[]]; unfold value_errors, validate_value, null_value in E; cbn [snd fst] in E; try rewrite N in E; destruct E].
    - rewrite value_list in K. destruct K as [<-|K]; [destruct E|]. apply in_flat_map in K. destruct K as (y & I & K). rewrite Forall_forall in IH.
      refine (IH _ I _ e _ (ex_intro _ x (conj K E))). rewrite N. reflexivity.
    - rewrite value_object in K. destruct K as [<-|K].
      + unfold value_errors, object_value in E. cbn [snd fst] in E. rewrite N in E. destruct E.
      + apply in_flat_map in K. destruct K as (y & I & K). rewrite Forall_forall in IH.
        refine (IH _ I _ e _ (ex_intro _ x (conj K E))). unfold entry_ctx. rewrite N. reflexivity.
  Qed.
  Hypothesis IO : inputs_ok sch.
  Lemma value_faults : forall v c t e, c_input c = Some t ->
    (wrong (walk_value sch c v) e <-> exists u w, meets sch true t v u w /\ fault sch u w e).
  Proof.
    intros v. induction v as [nm|z|b|s|b| |s|l IH|o IH] using gvalue_ind'; intros c t e C.
    - split; [intros (x & [<-|[]] & [])|]. intros (u & w & M & F). inversion M; subst. inversion F; contradiction.
    - split; [intros (x & [<-|[]] & K); exists t, (GInt z); split; [constructor|]; now apply (simple_errors c)|].
      intros (u & w & M & F). inversion M; subst. eexists. split; [now left|]. now apply (simple_errors c _ u).
    - split; [intros (x & [<-|[]] & K); exists t, (GFloat b); split; [constructor|]; now apply (simple_errors c)|].
      intros (u & w & M & F). inversion M; subst. eexists. split; [now left|]. now apply (simple_errors c _ u).
    - split; [intros (x & [<-|[]] & K); exists t, (GStr s); split; [constructor|]; now apply (simple_errors c)|].
      intros (u & w & M & F). inversion M; subst. eexists. split; [now left|]. now apply (simple_errors c _ u).
    - split; [intros (x & [<-|[]] & K); exists t, (GBool b); split; [constructor|]; now apply (simple_errors c)|].
      intros (u & w & M & F). inversion M; subst. eexists. split; [now left|]. now apply (simple_errors c _ u).
    - split; [intros (x & [<-|[]] & K); exists t, GNull; split; [constructor|]; now apply (null_errors c)|].
      intros (u & w & M & F). inversion M; subst. eexists. split; [now left|]. now apply (null_errors c u).
    - split; [intros (x & [<-|[]] & K); exists t, (GEnum s); split; [constructor|]; now apply (simple_errors c)|].
      intros (u & w & M & F). inversion M; subst. eexists. split; [now left|]. now apply (simple_errors c _ u).
    - rewrite value_list, C. rewrite Forall_forall in IH. split.
      + intros (x & [<-|K] & E); [destruct E|]. apply in_flat_map in K. destruct K as (y & I & K). destruct t as [n|t|t].
        * exfalso. eapply untyped_none; [|exists x; split; [exact K|exact E]]. reflexivity.
        * destruct (proj1 (IH _ I (with_input c (Some t) false) t e eq_refl)) as (u & w & M & F); [now exists x|].
          exists u, w. split; [|exact F]. eapply meets_item; [exact I|now left|exact M].
        * exfalso. eapply untyped_none; [|exists x; split; [exact K|exact E]]. reflexivity.
      + intros (u & w & M & F). inversion M as [|t1 l1 t2 y u' w' I J P|]; subst; [inversion F; contradiction|].
        destruct J as [->|[J _]]; [|discriminate J].
        destruct (proj2 (IH _ I (with_input c (Some t2) false) t2 e eq_refl)) as (x & K & E); [now exists u, w|].
        exists x. split; [|exact E]. right. apply in_flat_map. now exists y.
    - rewrite value_object. rewrite Forall_forall in IH. split.
      + intros (x & [<-|K] & E); [exists t, (GObj o); split; [constructor|]; now apply (object_errors c)|].
        apply in_flat_map in K. destruct K as ([k y] & I & K). cbn [fst snd] in K.
        destruct (c_input (entry_ctx sch c k)) as [w|] eqn:EC; [|exfalso; exact (untyped_none _ _ _ EC (ex_intro _ x (conj K E)))].
        destruct (proj1 (IH _ I (entry_ctx sch c k) w e EC)) as (u & w' & M & F); [now exists x|].
        unfold entry_ctx in EC. rewrite C in EC. cbn [typed] in EC.
        destruct (type_by_name sch (inner_type t)) as [td|] eqn:TD; [|discriminate EC].
        destruct (input_field_by_name td k) as [f|] eqn:FD; [|discriminate EC]. cbn [with_input c_input option_map] in EC. injection EC as <-.
        apply (type_by_name_ok _ _ _ (wf_types _ WF)) in TD. rewrite base_inner in TD.
        assert (F' : In f (inputs_of td) /\ iv_name f = k).
        { unfold input_field_by_name in FD. destruct td; try discriminate FD. unfold input_by_name in FD. apply find_some in FD. destruct FD as [F1 F2]. apply String.eqb_eq in F2. now split. }
        destruct F' as [F1 <-]. exists u, w'. split; [|exact F]. eapply meets_entry; [exact I|exact TD|exact F1|exact M].
      + intros (u & w & M & F). inversion M as [| |t1 o1 y td f u' w' I N J P]; subst.
        { eexists. split; [now left|]. now apply (object_errors c o u). }
        apply (type_by_name_ok _ _ _ (wf_types _ WF)) in N. rewrite <- base_inner in N.
        assert (EC : entry_ctx sch c (iv_name f) = with_input c (Some (iv_type f)) (defaulted f)).
        { unfold entry_ctx. rewrite C. cbn [typed]. rewrite N.
          assert (G : input_field_by_name td (iv_name f) = Some f); [|rewrite G; reflexivity].
          destruct td; try contradiction. cbn [inputs_of] in J. cbn [input_field_by_name]. unfold input_by_name.
          apply find_name; [|now split]. apply (type_by_name_ok _ _ _ (wf_types _ WF)) in N. destruct N as [N _].
          exact (io_names _ IO _ (input_object _ _ N)). }
        destruct (proj2 (IH _ I (entry_ctx sch c (iv_name f)) (iv_type f) e ltac:(rewrite EC; reflexivity))) as (x & A & B); [now exists u, w|].
        exists x. split; [|exact B]. right. apply in_flat_map. exists (iv_name f, y). now split.
  Qed.

  Section Doc.
    Variable doc : list qdef.
    Variable l : list call.
    Hypothesis W : walk sch doc = Some l.
    Lemma default_in : forall y v, variable_of doc y -> vd_default y = Some v ->
      exists c, forall x, In x (walk_value sch (with_input c (Some (vd_type y)) false) v) -> In x l.
    Proof.
      intros y v (k & n & ds & vs & set & D & I) V. destruct (start_type sch (QOp k n ds vs set)) as [ty|] eqn:S; [|now destruct (starts _ _ _ W _ D)]. exists (def_ctx ty). intros x X.
      apply (walk_in _ _ _ W). right; right. exists (QOp k n ds vs set), ty. split; [exact D|]. split; [exact S|]. left.
      cbn [head]. right. apply in_app_iff. right. apply in_flat_map. exists y. split; [exact I|]. right. rewrite V. exact X.
    Qed.
    Lemma reports_ok : forall e, In e (errors_of (values_of_correct_type sch) l) <->
      exists t v u w, place sch doc t v /\ meets sch true t v u w /\ fault sch u w e.
    Proof.
      intros e. unfold values_of_correct_type. rewrite stateless_in. split.
      - intros (x & I & E). assert (A : argued (snd x) = true) by (unfold value_errors in E; destruct (snd x); try destruct E; reflexivity).
        apply (argued_in _ WF _ _ W _ A) in I. destruct I as [(c & defs & args & P & I)|(y & v & c & U & V & I)].
        + apply arguments_in in I. destruct I as (k & w & J & [->|I]); [destruct E|].
          destruct (c_input (arg_ctx c defs k)) as [t|] eqn:C; [|exfalso; exact (untyped_none _ _ _ C (ex_intro _ x (conj I E)))].
          destruct (proj1 (value_faults w _ t e C)) as (u & w' & M & F); [now exists x|].
          exists t, w, u, w'. split; [|now split]. unfold arg_ctx in C. destruct defs as [dl|]; [|discriminate C].
          destruct (input_by_name dl k) as [a|] eqn:A'; [|discriminate C]. cbn in C. injection C as <-.
          unfold input_by_name in A'. apply find_some in A'. destruct A' as [A1 A2]. apply String.eqb_eq in A2. subst k.
          destruct P as [(ty & set & al & f & ds & sub & O & Y & _ & EQ)|(dir & U & _ & -> & EQ)].
          * destruct (found sch ty f) as [fd|] eqn:FO; [|discriminate EQ]. cbn in EQ. injection EQ as ->.
            apply (found_ok _ WF) in FO. eapply place_argument; [|exact FO|exact A1|exact J]. exists set, al, ds. split; [exact O|exact Y].
          * destruct (directive_by_name sch (d_name dir)) as [dd|] eqn:FO; [|discriminate EQ]. cbn in EQ. injection EQ as ->.
            apply (directive_by_name_ok _ _ _ (wf_directives _ WF)) in FO. destruct FO as [_ FO]. eapply place_directive; [exact U|exact FO|exact A1|exact J].
        + destruct (proj1 (value_faults v (with_input c (Some (vd_type y)) false) (vd_type y) e eq_refl)) as (u & w' & M & F); [now exists x|].
          exists (vd_type y), v, u, w'. split; [now apply place_default|now split].
      - intros (t & v & u & w & P & M & F).
        assert (DO : forall c, c_input c = Some t -> (forall x, In x (walk_value sch c v) -> In x l) -> exists x, In x l /\ In e (value_errors sch x)).
        { intros c C H. destruct (proj2 (value_faults v c t e C)) as (x & I & E); [now exists u, w|]. exists x. split; [now apply H|exact E]. }
        destruct P as [ty n args sub f a v FA SE A I|dir defs rep ls a v U DF A I|y v U V].
        + destruct FA as (set & al & ds & O & Y). pose proof SE as (t0 & (u0 & _ & T0 & _) & FI & _).
          assert (G : input_by_name (f_args f) (iv_name a) = Some a).
          { unfold input_by_name. apply find_name; [|now split]. exact (io_names _ IO _ (input_field _ _ _ T0 FI)). }
          apply (found_ok _ WF) in SE.
          apply (DO (arg_ctx (in_field sch ty n) (Some (f_args f)) (iv_name a))); [unfold arg_ctx; rewrite G; reflexivity|].
          intros x X. apply (in_argued _ WF _ _ W (in_field sch ty n) (Some (f_args f)) args).
          * left. exists ty, set, al, n, ds, sub. split; [exact O|]. split; [exact Y|]. split; [reflexivity|]. rewrite SE. reflexivity.
          * apply arguments_in. exists (iv_name a), v. auto.
        + destruct (directive_block _ WF _ _ W _ U) as (c & B).
          assert (G : input_by_name defs (iv_name a) = Some a).
          { unfold input_by_name. apply find_name; [|now split]. exact (io_names _ IO _ (input_directive _ _ _ _ _ DF)). }
          assert (E : directive_by_name sch (d_name dir) = Some (mkddef (d_name dir) defs rep ls)) by (apply (directive_by_name_ok _ _ _ (wf_directives _ WF)); now split).
          apply (DO (arg_ctx c (Some defs) (iv_name a))); [unfold arg_ctx; rewrite G; reflexivity|].
          intros x X. apply (in_argued _ WF _ _ W c (Some defs) (d_args dir)).
          * right. exists dir. split; [exact U|]. split; [exact B|]. split; [reflexivity|]. rewrite E. reflexivity.
          * apply arguments_in. exists (iv_name a), v. auto.
        + destruct (default_in _ _ U V) as (c & H). now apply (DO (with_input c (Some (vd_type y)) false)).
    Qed.
  End Doc.
End Faults.
