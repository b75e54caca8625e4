(* Fragments that can apply, and all rules together. *)
From Coq Require Import String List Bool Arith Lia.
From Verif Require Import StrUtil Ast ConsumerModel IntroModel CondModel NormModel NormProofs WalkModel LocalModel LocalSpec WalkProofs LocalBase LocalRun.
Import ListNotations.
Local Open Scope string_scope.
Local Open Scope list_scope.

Lemma put_type_new : forall t m, ~ In (type_name t) (map type_name m) -> put_type t m = m ++ [t].
Proof.
  intros t m. induction m as [|u m IH]; intros N; [reflexivity|]. cbn. destruct (String.eqb (type_name t) (type_name u)) eqn:E.
  - apply String.eqb_eq in E. destruct N. rewrite E. now left.
  - f_equal. apply IH. intros K. apply N. now right.
Qed.
Lemma type_map_in : forall sch t, NoDup (type_names sch) -> (In t (type_map sch) <-> In (TypeDef t) sch).
Proof.
  intros sch t. unfold type_map.
  assert (G : forall m, NoDup (map type_name m ++ type_names sch) ->
    (In t (fold_left (fun m d => match d with TypeDef t => put_type t m | _ => m end) sch m) <-> In t m \/ In (TypeDef t) sch)).
  { induction sch as [|d sch IH]; intros m ND; cbn [fold_left]; [cbn; tauto|].
    destruct d as [ds a b c|u|x|x de i r ls]; try (rewrite IH by exact ND; cbn [In]; intuition discriminate).
    unfold type_names in ND. cbn [flat_map app] in ND. fold (type_names sch) in ND. rewrite put_type_new.
    - rewrite IH.
      + rewrite in_app_iff. cbn [In]. split.
        * intros [[K|[->|[]]]|K]; auto.
        * intros [K|[K|K]]; auto. injection K as ->. auto.
      + rewrite map_app, <- app_assoc. exact ND.
    - intros K. apply NoDup_remove_2 in ND. apply ND. apply in_app_iff. now left. }
  intros ND. rewrite G by exact ND. cbn. tauto.
Qed.

Section Overlap.
  Variable sch : list definition.
  Hypothesis WF : well_formed sch.
  Let ND := wf_types _ WF.

  Lemma one_type : forall t u, In (TypeDef t) sch -> In (TypeDef u) sch -> type_name t = type_name u -> t = u.
  Proof.
    intros t u I J E. assert (A : type_by_name sch (type_name u) = Some t) by (apply type_by_name_ok; [exact ND|now split]).
    assert (B : type_by_name sch (type_name u) = Some u) by (apply type_by_name_ok; [exact ND|now split]). congruence.
  Qed.
  Lemma possible_object : forall t o, is_abstract t = true -> can_be sch t o -> In o (possible_types sch t).
  Proof.
    intros t o A (O & I & K). destruct t; try discriminate A; cbn [possible_types].
    - apply filter_In. split; [now apply type_map_in|]. destruct o; try contradiction. apply smem_iff. exact K.
    - apply in_flat_map. exists (type_name o). split; [exact K|].
      assert (B : type_by_name sch (type_name o) = Some o) by (apply type_by_name_ok; [exact ND|now split]). rewrite B. now left.
  Qed.
  Lemma sub_object : forall t o, is_abstract t = true -> can_be sch t o -> has_sub_type t o = true.
  Proof.
    intros t o A (O & I & K). destruct t; try discriminate A; cbn [has_sub_type].
    - destruct o; try contradiction. now apply smem_iff.
    - now apply smem_iff.
  Qed.
  Lemma object_itself : forall t o, In (TypeDef t) sch -> composite t -> is_abstract t = false -> can_be sch t o -> o = t.
  Proof. intros t o I C A (O & J & K). destruct t; try discriminate A; try contradiction. now apply one_type. Qed.
  Lemma overlap_found : forall t u, In (TypeDef t) sch -> In (TypeDef u) sch -> composite t -> composite u ->
    overlap sch t u -> types_overlap sch t u = true.
  Proof.
    intros t u I J C D O. unfold types_overlap. destruct (String.eqb (type_name t) (type_name u)) eqn:E; [reflexivity|].
    destruct O as [O|(o & A & B)]; [apply String.eqb_eq in O; congruence|].
    destruct (is_abstract t) eqn:AT.
    - destruct (is_abstract u) eqn:AU.
      + apply existsb_exists. exists o. split; [now apply possible_object|now apply sub_object].
      + rewrite <- (object_itself _ _ J D AU B). now apply sub_object.
    - destruct (is_abstract u) eqn:AU.
      + rewrite <- (object_itself _ _ I C AT A). now apply sub_object.
      + pose proof (object_itself _ _ I C AT A) as X. pose proof (object_itself _ _ J D AU B) as Y. subst o. subst u. now rewrite String.eqb_refl in E.
  Qed.
  Lemma found_overlap : inhabited sch -> members_ok sch -> forall t u, In (TypeDef t) sch -> In (TypeDef u) sch -> composite t -> composite u ->
    types_overlap sch t u = true -> overlap sch t u.
  Proof.
    intros INH MEM t u I J C D. unfold types_overlap. destruct (String.eqb (type_name t) (type_name u)) eqn:E; [intros _; left; now apply String.eqb_eq|].
    assert (SELF : forall a b, In (TypeDef b) sch -> composite b -> is_abstract b = false -> has_sub_type a b = true -> can_be sch a b /\ can_be sch b b).
    { intros a b B CB AB H. destruct b; try discriminate AB; try contradiction. split; (split; [exact Logic.I|]; split; [exact B|]).
      - destruct a; try discriminate H; cbn in H; now apply smem_iff in H.
      - reflexivity. }
    destruct (is_abstract t) eqn:AT.
    - destruct (is_abstract u) eqn:AU.
      + intros K. apply existsb_exists in K. destruct K as (o & P & H). right.
        assert (IO : In (TypeDef o) sch).
        { destruct t; try discriminate AT; cbn in P.
          - apply filter_In in P. now apply type_map_in.
          - apply in_flat_map in P. destruct P as (m & _ & P). destruct (type_by_name sch m) as [o'|] eqn:B; [|destruct P]. destruct P as [->|[]]. now apply type_by_name_in in B. }
        destruct t as [| |n d1 im ds fs|n d1 ds ms| |]; try discriminate AT; cbn in P.
        * apply filter_In in P. destruct P as [_ P]. apply smem_iff in P.
          destruct u as [| |n' d2 im' ds' fs'|n' d2 ds' ms'| |]; try discriminate AU; cbn in H; apply smem_iff in H.
          -- destruct o as [|o1 o2 o3 o4 o5|o1 o2 o3 o4 o5| | |]; try destruct P.
             ++ exists (Object o1 o2 o3 o4 o5). split; (split; [exact Logic.I|]; split; [exact IO|]); assumption.
             ++ destruct (INH _ _ _ _ _ IO) as (m & a & b & c & e & IM & _ & ALL); [intros Z; cbn in P; rewrite Z in P; destruct P|].
                exists (Object m a b c e). split; (split; [exact Logic.I|]; split; [exact IM|]); apply ALL; assumption.
          -- assert (O : is_object o) by (eapply MEM; [exact J|exact H|]; split; [exact IO|reflexivity]).
             destruct o as [|o1 o2 o3 o4 o5| | | |]; try contradiction. exists (Object o1 o2 o3 o4 o5). split; (split; [exact Logic.I|]; split; [exact IO|]); assumption.
        * apply in_flat_map in P. destruct P as (m & M & P). destruct (type_by_name sch m) as [o'|] eqn:B; [|destruct P]. destruct P as [->|[]]. apply type_by_name_in in B.
          assert (O : is_object o) by (eapply MEM; [exact I|exact M|exact B]). destruct B as [_ BN].
          destruct o as [|o1 o2 o3 o4 o5| | | |]; try contradiction. exists (Object o1 o2 o3 o4 o5).
          split; (split; [exact Logic.I|]; split; [exact IO|]); [now rewrite BN|].
          destruct u as [| |n' d2 im' ds' fs'|n' d2 ds' ms'| |]; try discriminate AU; cbn in H; apply smem_iff in H; exact H.
      + intros K. right. exists u. destruct (SELF t u J D AU K). now split.
    - destruct (is_abstract u) eqn:AU; [|discriminate]. intros K. right. exists t. destruct (SELF u t I C AT K). now split.
  Qed.

  Variable doc : list qdef.
  Variable l : list call.
  Hypothesis W : walk sch doc = Some l.
  Hypothesis NF : NoDup (fragment_names doc).
  Lemma put_types : forall f t p, put sch doc f t p -> In (TypeDef t) sch /\ In (TypeDef p) sch.
  Proof.
    intros f t p (ty & set & _ & (u & _ & P & _) & K). split; [|exact P].
    destruct f as [n|]; [destruct K as (ds & tc & ds' & set' & _ & _ & K & _)|destruct K as (tc & ds & sub & _ & K & _)]; exact K.
  Qed.
  Lemma spreads_found : forall e, In e (errors_of (possible_fragment_spreads sch doc) l) <->
    exists f t p, e = Impossible f (type_name p) (type_name t) /\ put sch doc f t p /\ composite t /\ composite p /\ types_overlap sch t p = false.
  Proof.
    intros e. unfold possible_fragment_spreads. rewrite stateless_in.
    assert (IMP : forall f t p, In e (impossible sch f (Some t) (Some p)) <-> e = Impossible f (type_name p) (type_name t) /\ composite t /\ composite p /\ types_overlap sch t p = false).
    { intros f t p. unfold impossible.
      assert (C : forall t, is_composite t = true <-> composite t) by (intros []; cbn; split; easy).
      destruct (is_composite t) eqn:A, (is_composite p) eqn:B, (types_overlap sch t p) eqn:O; cbn [andb negb];
        try (split; [intros []|intros (_ & X & Y & Z); try discriminate Z; apply C in X; apply C in Y; congruence]).
      apply C in A. apply C in B. split; [intros [<-|[]]; auto|]. intros (-> & _). now left. }
    split.
    - intros ([c x] & I & K). destruct x; try destruct K; cbn [snd fst] in K.
      + apply (ev_spread _ _ WF _ W) in I. destruct I as (ty & set & O & J & ->). cbn [at_type c_parent] in K.
        destruct (known_fragment doc n None) as [d|] eqn:F; [|destruct K]. destruct d as [f tc ds' set'|]; [|destruct K].
        destruct (type_by_name sch tc) as [t|] eqn:TE; [|destruct K]. destruct (typed sch ty) as [p|] eqn:PE; [|destruct K]. apply IMP in K. destruct K as (-> & K).
        apply known_fragment_in in F. destruct F as [F|(tc2 & ds2 & set2 & F & FI)]; [discriminate F|]. injection F as -> <- <- <-.
        exists (Some n), t, p. split; [reflexivity|]. split; [|exact K]. exists ty, set. split; [exact O|]. split; [now apply (typed_ok _ WF)|].
        exists dirs, tc, ds', set'. split; [exact J|]. split; [exact FI|]. now apply type_by_name_in.
      + apply (ev_inline _ _ WF _ W) in I. destruct I as (ty & set & O & J & ->). cbn [in_inline c_type c_parent] in K.
        destruct tc as [tc|]; cbn [cond_type] in K.
        * destruct (typed sch (Some (TNamed tc))) as [t|] eqn:TE; [|destruct K]. destruct (typed sch ty) as [p|] eqn:PE; [|destruct K]. apply IMP in K. destruct K as (-> & K).
          exists None, t, p. split; [reflexivity|]. split; [|exact K]. exists ty, set. split; [exact O|]. split; [now apply (typed_ok _ WF)|].
          exists tc, dirs, sub. split; [exact J|]. cbn in TE. now apply type_by_name_in.
        * destruct (typed sch ty) as [p|] eqn:PE; [|destruct K]. apply IMP in K. destruct K as (_ & _ & _ & K). unfold types_overlap in K. now rewrite String.eqb_refl in K.
    - intros (f & t & p & -> & (ty & set & O & S & K) & C & D & Z). apply (typed_ok _ WF) in S. destruct f as [n|].
      + destruct K as (ds & tc & ds' & set' & J & FI & N). exists (at_type sch ty, EnterSpread n ds). split; [apply (ev_spread _ _ WF _ W); exists ty, set; auto|].
        cbn [snd fst at_type c_parent]. pose proof (proj2 (known_fragment_ok _ _ _ _ _ NF) FI) as FK. rewrite FK. pose proof (proj2 (type_by_name_ok _ _ _ ND) N) as NK. rewrite NK, S. now apply IMP.
      + destruct K as (tc & ds & sub & J & N). exists (in_inline sch ty (Some tc), EnterInline (Some tc) ds sub). split; [apply (ev_inline _ _ WF _ W); exists ty, set; auto|].
        cbn [snd fst in_inline c_type c_parent cond_type]. assert (TE : typed sch (Some (TNamed tc)) = Some t) by (cbn; now apply type_by_name_ok). rewrite TE, S. now apply IMP.
  Qed.
  Lemma possible_fragment_spreads_sound : forall e, In e (errors_of (possible_fragment_spreads sch doc) l) ->
    exists f t p, e = Impossible f (type_name p) (type_name t) /\ put sch doc f t p /\ composite t /\ composite p /\ ~ overlap sch t p.
  Proof.
    intros e K. apply spreads_found in K. destruct K as (f & t & p & E & P & C & D & Z). exists f, t, p. split; [exact E|]. split; [exact P|]. split; [exact C|]. split; [exact D|].
    intros O. destruct (put_types _ _ _ P) as [A B]. apply (overlap_found _ _ A B C D) in O. congruence.
  Qed.
  Lemma possible_fragment_spreads_complete : inhabited sch -> members_ok sch -> forall f t p,
    put sch doc f t p -> composite t -> composite p -> ~ overlap sch t p ->
    In (Impossible f (type_name p) (type_name t)) (errors_of (possible_fragment_spreads sch doc) l).
  Proof.
    intros INH MEM f t p P C D N. apply spreads_found. exists f, t, p. split; [reflexivity|]. split; [exact P|]. split; [exact C|]. split; [exact D|].
    destruct (types_overlap sch t p) eqn:O; [|reflexivity]. exfalso. apply N. destruct (put_types _ _ _ P) as [A B]. now apply found_overlap.
  Qed.
End Overlap.

(* all rules *)
Lemma errors_cons : forall {E} (v : visitor E) (s : v_state v) (l : list call), snd (run (v_step v) s l) = out (v_step v) s l.
Proof. reflexivity. Qed.
Lemma step_all_in : forall {E} (l : list call) (rules : list (started E)) e,
  In e (snd (run step_all rules l)) <-> exists r, In r rules /\ In e (snd (run (v_step (projT1 r)) (projT2 r) l)).
Proof.
  intros E l. induction l as [|x l IH]; intros rules e.
  - cbn. split; [intros []|]. intros (r & _ & []).
  - cbn [run]. destruct (step_all rules x) as [rules' es] eqn:S. destruct (run step_all rules' l) as [rs es'] eqn:R. cbn [snd].
    specialize (IH rules' e). rewrite R in IH. cbn [snd] in IH. rewrite in_app_iff, IH. clear IH R.
    revert rules' es S. induction rules as [|[v s] rules IHr]; intros rules' es S.
    + cbn in S. injection S as <- <-. split; [intros [[]|(r & [] & _)]|intros (r & [] & _)].
    + cbn [step_all] in S. unfold step_one in S. cbn [projT1 projT2] in S. destruct (v_step v s x) as [s' e1] eqn:V. destruct (step_all rules x) as [r2 e2] eqn:S2.
      injection S as <- <-. specialize (IHr _ _ eq_refl). rewrite in_app_iff. split.
      * intros [[K|K]|(r & [<-|I] & K)].
        -- exists (existT _ v s). split; [now left|]. cbn [projT1 projT2]. rewrite V. destruct (run (v_step v) s' l). cbn. apply in_app_iff. now left.
        -- destruct (proj1 IHr (or_introl K)) as (r & I & J). exists r. split; [now right|exact J].
        -- exists (existT _ v s). split; [now left|]. cbn [projT1 projT2] in *. rewrite V. destruct (run (v_step v) s' l). cbn in *. apply in_app_iff. now right.
        -- destruct (proj1 IHr (or_intror (ex_intro _ r (conj I K)))) as (r' & I' & J). exists r'. split; [now right|exact J].
      * intros (r & [<-|I] & K).
        -- cbn [projT1 projT2] in K. rewrite V in K. destruct (run (v_step v) s' l) as [q1 q2] eqn:Q. cbn [snd] in K. apply in_app_iff in K. destruct K as [K|K]; [left; now left|].
           right. exists (existT _ v s'). split; [now left|]. cbn [projT1 projT2]. now rewrite Q.
        -- destruct (proj2 IHr (ex_intro _ r (conj I K))) as [J|(r' & I' & J)]; [left; now right|right; exists r'; split; [now right|exact J]].
Qed.
Lemma validate_each : forall {E} sch (rules : list (visitor E)) doc l, walk sch doc = Some l ->
  exists es, validate sch rules doc = Some es /\ forall e, In e es <-> exists r, In r rules /\ In e (errors_of r l).
Proof.
  intros E sch rules doc l W. unfold validate. destruct rules as [|r rules].
  - exists []. split; [reflexivity|]. intros e. split; [intros []|]. intros (r & [] & _).
  - rewrite W. eexists. split; [reflexivity|]. intros e. rewrite step_all_in. split.
    + intros (s & I & K). apply in_map_iff in I. destruct I as (v & <- & I). exists v. now split.
    + intros (v & I & K). exists (start v). split; [now apply in_map|exact K].
Qed.
Lemma validate_ends : forall {E} sch (rules : list (visitor E)) doc, well_formed sch ->
  (validate sch rules doc = None <-> rules <> [] /\ (forall n, ~ root sch KQuery n) /\ exists n ds vs set, In (QOp KQuery n ds vs set) doc).
Proof.
  intros E sch rules doc WF.
  assert (ST : forall d, start_type sch d = None <-> (forall n, ~ root sch KQuery n) /\ exists n ds vs set, d = QOp KQuery n ds vs set).
  { intros [n tc ds set|k n ds vs set]; cbn.
    - split; [discriminate|]. intros (_ & a & b & c & d & K). discriminate K.
    - pose proof (proj2 (root_of_none sch WF k)) as R. split.
      + intros K. assert (Z : root_of sch k = None) by now destruct (root_of sch k). apply R in Z. destruct Z as [-> Z]. split; [exact Z|]. now exists n, ds, vs, set.
      + intros (Z & a & b & c & d & K). injection K as -> -> -> -> ->. destruct R as [_ R]. now rewrite R. }
  unfold validate. destruct rules as [|r rules]; [split; [discriminate|]; intros [N _]; contradiction|].
  destruct (walk sch doc) as [l|] eqn:W.
  - split; [discriminate|]. intros (_ & Z & n & ds & vs & set & I). apply (starts _ _ _ W) in I. destruct I. apply ST. split; [exact Z|]. now exists n, ds, vs, set.
  - split; [|reflexivity]. intros _. split; [discriminate|].
    assert (X : exists d, In d doc /\ start_type sch d = None).
    { clear -W. unfold walk in W. assert (N : walk_definitions sch doc = None) by now destruct (walk_definitions sch doc). clear W.
      induction doc as [|d doc IH]; [discriminate N|]. cbn in N. rewrite definition_walk in N. destruct (start_type sch d) as [ty|] eqn:S.
      - destruct (walk_definitions sch doc); [discriminate N|]. destruct IH as (d' & I & K); [reflexivity|]. exists d'. split; [now right|exact K].
      - exists d. split; [now left|exact S]. }
    destruct X as (d & I & K). apply ST in K. destruct K as (Z & n & ds & vs & set & ->). split; [exact Z|]. now exists n, ds, vs, set.
Qed.
