(* The rule on subscriptions with one field. *)
From Coq Require Import String List Bool Arith Lia.
From Verif Require Import StrUtil Ast ConsumerModel IntroModel CondModel NormModel NormProofs WalkModel LocalModel LocalSpec WalkProofs LocalBase LocalRun LocalProofs LocalState LocalMore ReachModel ReachSpec ReachBase ReachCalls ReachVars.
Import ListNotations.
Local Open Scope string_scope.
Local Open Scope list_scope.

Section Top.
  Variable sch : list definition.
  Hypothesis WF : well_formed sch.
  Variable doc : list qdef.
  Variable o : typedef.
  Hypothesis OB : is_object o.
  Hypothesis OI : In (TypeDef o) sch.

  Lemma same_name : forall t, In (TypeDef t) sch -> type_name t = type_name o -> t = o.
  Proof.
    intros t T E. assert (A : type_by_name sch (type_name o) = Some t) by (apply type_by_name_ok; [exact (wf_types _ WF)|now split]).
    assert (B : type_by_name sch (type_name o) = Some o) by (apply type_by_name_ok; [exact (wf_types _ WF)|now split]). congruence.
  Qed.
  Lemma matches_ok : forall tc, condition_matches sch o tc = true <-> applies sch o tc.
  Proof.
    intros [n|]; cbn [condition_matches applies]; [|split; auto].
    destruct (type_by_name sch n) as [t|] eqn:T.
    - apply (type_by_name_ok _ _ _ (wf_types _ WF)) in T.
      assert (U : forall t', named sch n t' -> t' = t).
      { intros t' N. apply (type_by_name_ok _ _ _ (wf_types _ WF)) in N. apply (type_by_name_ok _ _ _ (wf_types _ WF)) in T. congruence. }
      destruct (String.eqb (type_name t) (type_name o)) eqn:E.
      + apply String.eqb_eq in E. split; [|reflexivity]. intros _. exists t. split; [exact T|]. destruct T as [T1 T2]. rewrite (same_name t T1 E).
        split; [exact OB|]. split; [exact OI|]. destruct o; try (destruct OB; fail). reflexivity.
      + apply String.eqb_neq in E. split.
        * destruct (is_abstract t) eqn:AB; [|discriminate]. intros H. exists t. split; [exact T|]. split; [exact OB|]. split; [exact OI|].
          destruct t; try discriminate AB; cbn in H; [|now apply smem_iff]. destruct o; try (destruct OB; fail). cbn in H. now apply smem_iff.
        * intros (t' & N & C). rewrite (U t' N) in C. destruct (is_abstract t) eqn:AB.
          -- now apply (sub_object sch).
          -- destruct C as (_ & _ & C). destruct t; try discriminate AB; try (destruct C; fail). cbn in C, E. congruence.
    - split; [discriminate|]. intros (t & N & _). apply (type_by_name_ok _ _ _ (wf_types _ WF)) in N. congruence.
  Qed.

  (* through inline fragments only *)
  Inductive flat : list nsel -> nsel -> Prop :=
  | flat_here set x : In x set -> flat set x
  | flat_inline set tc ds sub x : In (NInline tc ds sub) set -> applies sch o tc -> flat sub x -> flat set x.
  Definition covered (s : collected) (set : list nsel) : Prop :=
    (forall al n args ds sub, flat set (NField al n args ds sub) -> In n (fst s)) /\ (forall n ds, flat set (NSpread n ds) -> In n (snd s)).
  Definition grows (s s' : collected) : Prop := (forall x, In x (fst s) -> In x (fst s')) /\ (forall x, In x (snd s) -> In x (snd s')).
  Definition news (s s' : collected) : Prop :=
    forall f, In f (snd s') -> In f (snd s) \/ forall tc ds set, In (QFrag f tc ds set) doc -> applies sch o (Some tc) -> covered s' set.
  Lemma grows_refl : forall s, grows s s.
  Proof. intros s. split; auto. Qed.
  Lemma grows_trans : forall a b c, grows a b -> grows b c -> grows a c.
  Proof. intros a b c [A1 A2] [B1 B2]. split; auto. Qed.
  Lemma covered_grows : forall s s' set, grows s s' -> covered s set -> covered s' set.
  Proof. intros s s' set [G1 G2] [C1 C2]. split; [intros al n args ds sub F; eapply G1, C1, F|intros n ds F; eapply G2, C2, F]. Qed.
  Lemma news_trans : forall a b c, grows b c -> news a b -> news b c -> news a c.
  Proof.
    intros a b c G A B f F. destruct (B f F) as [K|K]; [|now right]. destruct (A f K) as [J|J]; [now left|]. right.
    intros tc ds set I P. eapply covered_grows; [exact G|]. eapply J; eassumption.
  Qed.
  Lemma news_refl : forall s, news s s.
  Proof. intros s f F. now left. Qed.
  Lemma covered_nil : forall s, covered s [].
  Proof. intros s. split; intros; inversion H; subst; destruct H0. Qed.
  Lemma flat_cons : forall x set y, flat (x :: set) y -> flat [x] y \/ flat set y.
  Proof.
    intros x set y F. inversion F as [st z I|st tc ds sub z I A F']; subst.
    - destruct I as [->|I]; [left; apply flat_here; now left|right; now apply flat_here].
    - destruct I as [->|I]; [left; eapply flat_inline; [now left|exact A|exact F']|right; eapply flat_inline; eassumption].
  Qed.
  Lemma covered_cons : forall s x set, covered s [x] -> covered s set -> covered s (x :: set).
  Proof.
    intros s x set [A1 A2] [B1 B2]. split.
    - intros al n args ds sub F. apply flat_cons in F. destruct F as [F|F]; [eapply A1, F|eapply B1, F].
    - intros n ds F. apply flat_cons in F. destruct F as [F|F]; [eapply A2, F|eapply B2, F].
  Qed.

  Definition left_over (s : collected) : nat := List.length (filter (fun n => negb (smem n (snd s))) (fragment_names doc)).
  Lemma left_le : forall s s', grows s s' -> left_over s' <= left_over s.
  Proof.
    intros s s' [_ G]. unfold left_over. induction (fragment_names doc) as [|n l IH]; [reflexivity|]. cbn [filter].
    destruct (smem n (snd s)) eqn:A.
    - apply smem_iff in A. apply G, smem_iff in A. rewrite A. exact IH.
    - cbn. destruct (smem n (snd s')); cbn; lia.
  Qed.
  Lemma left_lt : forall names visited n, In n (fragment_names doc) -> ~ In n visited -> left_over (names, visited ++ [n]) < left_over (names, visited).
  Proof.
    intros names visited n I N. unfold left_over. cbn [snd]. induction (fragment_names doc) as [|m l IH]; [destruct I|]. cbn [filter].
    assert (LE : List.length (filter (fun n0 => negb (smem n0 (visited ++ [n]))) l) <= List.length (filter (fun n0 => negb (smem n0 visited)) l)).
    { clear. induction l as [|m l IH]; [reflexivity|]. cbn [filter]. destruct (smem m visited) eqn:A.
      - apply smem_iff in A. assert (B : smem m (visited ++ [n]) = true) by (apply smem_iff, in_app_iff; now left). rewrite B. exact IH.
      - cbn. destruct (smem m (visited ++ [n])); cbn; lia. }
    destruct (string_dec m n) as [->|NE].
    - assert (A : smem n visited = false) by now apply smem_not. assert (B : smem n (visited ++ [n]) = true) by (apply smem_iff, in_app_iff; right; now left).
      rewrite A, B. cbn. lia.
    - destruct I as [->|I]; [contradiction|]. specialize (IH I). assert (E : smem m (visited ++ [n]) = smem m visited).
      { destruct (smem m visited) eqn:A.
        - apply smem_iff in A. apply smem_iff, in_app_iff. now left.
        - apply smem_not in A. apply smem_not. intros K. apply in_app_iff in K. destruct K as [K|[K|[]]]; [contradiction|congruence]. }
      rewrite E. destruct (smem m visited); cbn; lia.
  Qed.

  Hypothesis UN : NoDup (fragment_names doc).
  Definition found_in (s : collected) (set : list nsel) (s' : collected) : Prop :=
    (forall x, In x (fst s') -> In x (fst s) \/ root_field sch doc o set x) /\ (NoDup (fst s) -> NoDup (fst s')).
  Definition done (s : collected) (set : list nsel) (s' : collected) : Prop := grows s s' /\ covered s' set /\ news s s' /\ found_in s set s'.
  Lemma root_cons : forall y set x, root_field sch doc o [y] x \/ root_field sch doc o set x -> root_field sch doc o (y :: set) x.
  Proof.
    assert (T : forall a b x, (forall y, In y a -> In y b) -> top sch doc o a x -> top sch doc o b x).
    { intros a b x H K. inversion K as [st z I|st tc ds sub z I A F|st n ds tc ds' set' z I J A F]; subst.
      - apply top_here. now apply H.
      - eapply top_inline; [apply H, I|exact A|exact F].
      - eapply top_spread; [apply H, I|exact J|exact A|exact F]. }
    intros y set x [(al & args & ds & sub & K)|(al & args & ds & sub & K)]; exists al, args, ds, sub; (eapply T; [|exact K]).
    - intros z [->|[]]. now left.
    - intros z Z. now right.
  Qed.
  Lemma done_nil : forall s, done s [] s.
  Proof. intros s. split; [apply grows_refl|]. split; [apply covered_nil|]. split; [apply news_refl|]. split; auto. Qed.
  Lemma done_cons : forall s y s1 set s2, done s [y] s1 -> done s1 set s2 -> done s (y :: set) s2.
  Proof.
    intros s y s1 set s2 (A1 & A2 & A3 & A4 & A5) (B1 & B2 & B3 & B4 & B5). split; [eapply grows_trans; eassumption|]. split; [|split].
    - apply covered_cons; [eapply covered_grows; eassumption|exact B2].
    - eapply news_trans; eassumption.
    - split; [|auto]. intros x X. apply B4 in X. destruct X as [X|X]; [|right; apply root_cons; now right].
      apply A4 in X. destruct X as [X|X]; [now left|right; apply root_cons; now left].
  Qed.
  Section Inside.
    Variable expand : list nsel -> collected -> option collected.
    Variable bound : nat.
    Hypothesis EX : forall set s, left_over s < bound -> exists s', expand set s = Some s' /\ done s set s'.
    Lemma selection_done : forall y s, left_over s <= bound -> exists s', collect_selection sch doc o expand y s = Some s' /\ done s [y] s'.
    Proof.
      induction y as [al n args ds sub IH|n ds|tc ds sub IH] using nsel_ind'; intros s L; cbn [collect_selection].
      - eexists. split; [reflexivity|]. split; [|split; [|split]].
        + split; cbn; [|auto]. intros x X. apply sinsert_in. now right.
        + split.
          * intros al' n' args' ds' sub' F. inversion F as [st z I|st tc ds0 sub0 z I A F']; subst; (destruct I as [I|[]]); [|discriminate I].
            injection I as <- <- <- <- <-. cbn. apply sinsert_in. now left.
          * intros n' ds' F. inversion F as [st z I|st tc ds0 sub0 z I A F']; subst; (destruct I as [I|[]]); discriminate I.
        + intros f F. now left.
        + split; cbn; [|apply sinsert_nodup]. intros x X. apply sinsert_in in X. destruct X as [->|X]; [|now left]. right. exists al, args, ds, sub. apply top_here. now left.
      - assert (FL : forall y, flat [NSpread n ds] y -> y = NSpread n ds).
        { intros y F. inversion F as [st z I|st tc ds0 sub0 z I A F']; subst; (destruct I as [I|[]]); [now symmetry|discriminate I]. }
        assert (CO : forall s', In n (snd s') -> covered s' [NSpread n ds]).
        { intros s' I. split; [intros al n' args ds' sub F; apply FL in F; discriminate F|]. intros n' ds' F. apply FL in F. now injection F as -> ->. }
        destruct (smem n (snd s)) eqn:V.
        + apply smem_iff in V. exists s. split; [reflexivity|]. split; [apply grows_refl|]. split; [now apply CO|]. split; [apply news_refl|]. split; auto.
        + apply smem_not in V. set (s1 := (fst s, snd s ++ [n])).
          assert (G1 : grows s s1) by (split; cbn; [auto|]; intros x X; apply in_app_iff; now left).
          assert (V1 : In n (snd s1)) by (cbn; apply in_app_iff; right; now left).
          assert (PLAIN : (forall tc ds' set, In (QFrag n tc ds' set) doc -> ~ applies sch o (Some tc)) -> done s [NSpread n ds] s1).
          { intros NA. split; [exact G1|]. split; [now apply CO|]. split; [|split; auto]. intros f F. cbn in F. apply in_app_iff in F.
            destruct F as [F|[<-|[]]]; [now left|]. right. intros tc ds' set I A. destruct (NA _ _ _ I A). }
          destruct (known_fragment doc n None) as [d|] eqn:K.
          * pose proof K as K'. apply known_fragment_in in K'. destruct K' as [K'|(tc & ds' & set & -> & I)]; [discriminate K'|].
            assert (ONE : forall tc' ds'' set', In (QFrag n tc' ds'' set') doc -> tc' = tc /\ set' = set).
            { intros tc' ds'' set' J. apply (known_fragment_ok _ _ _ _ _ UN) in J. rewrite K in J. injection J as -> -> ->. now split. }
            destruct (condition_matches sch o (Some tc)) eqn:M.
            -- apply matches_ok in M. destruct (EX set s1) as (s' & -> & (D1 & D2 & D3 & D4 & D5)).
               { eapply Nat.lt_le_trans; [|exact L]. destruct s as [names visited]. apply left_lt; [|exact V]. apply in_flat_map. eexists. split; [exact I|now left]. }
               exists s'. split; [reflexivity|]. split; [eapply grows_trans; eassumption|]. split; [apply CO; now apply D1|]. split; [|split].
               ++ intros f F. destruct (D3 f F) as [J|J]; [|now right]. cbn in J. apply in_app_iff in J. destruct J as [J|[<-|[]]]; [now left|]. right.
                  intros tc' ds'' set' J A. destruct (ONE _ _ _ J) as [_ ->]. exact D2.
               ++ intros x X. apply D4 in X. destruct X as [X|(al & args & ds0 & sub & X)]; [now left|]. right. exists al, args, ds0, sub.
                  eapply top_spread; [now left|exact I|exact M|exact X].
               ++ exact D5.
            -- exists s1. split; [reflexivity|]. apply PLAIN. intros tc' ds'' set' J A. destruct (ONE _ _ _ J) as [-> _]. apply matches_ok in A. congruence.
          * exists s1. split; [reflexivity|]. apply PLAIN. intros tc ds' set I A. apply known_fragment_none in K. apply K. apply in_flat_map. eexists. split; [exact I|now left].
      - destruct (condition_matches sch o tc) eqn:M.
        + apply matches_ok in M.
          assert (Q : forall l s, Forall (fun y => forall s, left_over s <= bound -> exists s', collect_selection sch doc o expand y s = Some s' /\ done s [y] s') l -> left_over s <= bound ->
            exists s', (fix go (l : list nsel) (s : collected) : option collected :=
                  match l with [] => Some s | y :: l' => match collect_selection sch doc o expand y s with Some s' => go l' s' | None => None end end) l s = Some s' /\ done s l s').
          { clear -EX. induction l as [|y l IHl]; intros s F L; [exists s; split; [reflexivity|apply done_nil]|]. inversion F as [|a b F1 F2]; subst.
            destruct (F1 s L) as (s1 & -> & D). destruct (IHl s1 F2) as (s2 & -> & D2).
            { eapply Nat.le_trans; [apply left_le; exact (proj1 D)|exact L]. }
            exists s2. split; [reflexivity|]. eapply done_cons; eassumption. }
          destruct (Q sub s IH L) as (s' & -> & (D1 & D2 & D3 & D4 & D5)). exists s'. split; [reflexivity|]. split; [exact D1|]. split; [|split; [exact D3|split; [|exact D5]]].
          * assert (FL : forall y, flat [NInline tc ds sub] y -> y = NInline tc ds sub \/ flat sub y).
            { intros y F. inversion F as [st z I|st tc0 ds0 sub0 z I A F']; subst; (destruct I as [I|[]]); [now left|]. injection I as <- <- <-. now right. }
            split; [intros al n args ds0 sub0 F|intros n ds0 F]; apply FL in F; (destruct F as [F|F]; [discriminate F|]).
            -- eapply (proj1 D2), F.
            -- eapply (proj2 D2), F.
          * intros x X. apply D4 in X. destruct X as [X|(al & args & ds0 & sub0 & X)]; [now left|]. right. exists al, args, ds0, sub0. eapply top_inline; [now left|exact M|exact X].
        + exists s. split; [reflexivity|]. split; [apply grows_refl|]. split; [|split; [apply news_refl|split; auto]].
          assert (FL : forall y, flat [NInline tc ds sub] y -> y = NInline tc ds sub).
          { intros y F. inversion F as [st z I|st tc0 ds0 sub0 z I A F']; subst; (destruct I as [I|[]]); [now symmetry|]. injection I as <- <- <-. apply matches_ok in A. congruence. }
          split; [intros al n args ds0 sub0 F|intros n ds0 F]; apply FL in F; discriminate F.
    Qed.
    Lemma set_done : forall l s, left_over s <= bound -> exists s', collect_set sch doc o expand l s = Some s' /\ done s l s'.
    Proof.
      induction l as [|y l IH]; intros s L; cbn [collect_set]; [exists s; split; [reflexivity|apply done_nil]|].
      destruct (selection_done y s L) as (s1 & -> & D). destruct (IH s1) as (s2 & -> & D2).
      { eapply Nat.le_trans; [apply left_le; exact (proj1 D)|exact L]. }
      exists s2. split; [reflexivity|]. eapply done_cons; eassumption.
    Qed.
  End Inside.
  Lemma collect_done : forall fuel set s, left_over s < fuel -> exists s', collect sch doc o fuel set s = Some s' /\ done s set s'.
  Proof.
    induction fuel as [|fuel IH]; intros set s L; [lia|]. cbn [collect]. apply (set_done _ fuel IH). lia.
  Qed.
  Lemma names_le : List.length (fragment_names doc) <= List.length doc.
  Proof.
    clear. unfold fragment_names. induction doc as [|d l IH]; [reflexivity|]. cbn [flat_map]. rewrite app_length. cbn [List.length].
    destruct d; cbn [List.length]; lia.
  Qed.
  Lemma filter_le {A} : forall (f : A -> bool) l, List.length (filter f l) <= List.length l.
  Proof. intros f l. induction l as [|x l IH]; [reflexivity|]. cbn. destruct (f x); cbn; lia. Qed.
  Lemma collected_all : forall set, exists names visited, collect sch doc o (S (List.length doc)) set ([], []) = Some (names, visited) /\
    NoDup names /\ forall x, In x names <-> root_field sch doc o set x.
  Proof.
    intros set. destruct (collect_done (S (List.length doc)) set ([], [])) as ([names visited] & E & (_ & C & N & F & ND)).
    { unfold left_over. pose proof names_le. pose proof (filter_le (fun n => negb (smem n (snd (@nil string, @nil string)))) (fragment_names doc)). lia. }
    exists names, visited. split; [exact E|]. split; [apply ND; constructor|]. intros x. split; [intros I; destruct (F x I) as [[]|K]; exact K|].
    assert (ALL : forall st y, top sch doc o st y -> covered (names, visited) st -> exists st', covered (names, visited) st' /\ flat st' y).
    { intros st y T. induction T as [st y I|st tc ds sub y I A T IH|st n ds tc ds' set' y I J A T IH]; intros CO.
      - exists st. split; [exact CO|now apply flat_here].
      - apply IH. destruct CO as [C1 C2]. split.
        + intros al n args ds0 sub0 FL. eapply C1, flat_inline; eassumption.
        + intros n ds0 FL. eapply C2, flat_inline; eassumption.
      - apply IH. destruct (N n) as [[]|K]; [eapply (proj2 CO); apply flat_here; exact I|]. eapply K; eassumption. }
    intros (al & args & ds & sub & T). destruct (ALL _ _ T C) as (st' & C' & FL). eapply (proj1 C'). exact FL.
  Qed.
End Top.

Lemma two_names {A} (dec : forall x y : A, {x = y} + {x <> y}) : forall l : list A, NoDup l -> Nat.ltb 1 (List.length l) = true <-> exists a b, a <> b /\ In a l /\ In b l.
Proof.
  intros l ND. rewrite Nat.ltb_lt. split.
  - destruct l as [|a [|b l]]; cbn; try lia. intros _. exists a, b. inversion ND as [|x y NI ND']; subst. split; [intros ->; apply NI; now left|]. auto.
  - intros (a & b & N & A1 & B1). destruct l as [|x [|y l]]; cbn; [destruct A1| |lia]. destruct A1 as [<-|[]], B1 as [<-|[]]. now destruct N.
Qed.
Lemma subscriptions_ok : forall sch doc l, well_formed sch -> walk sch doc = Some l -> NoDup (fragment_names doc) ->
  forall e, In e (errors_of (single_field_subscriptions sch doc) l) <->
    exists name ds vs set r o, In (QOp KSubscription name ds vs set) doc /\ root sch KSubscription r /\ named sch r o /\
      ((e = ManyFields name /\ exists a b, a <> b /\ root_field sch doc o set a /\ root_field sch doc o set b) \/
       (e = IntrospectionField name /\ exists a, reserved a /\ root_field sch doc o set a)).
Proof.
  intros sch doc l WF W UN e. unfold single_field_subscriptions. rewrite stateless_in.
  assert (ONE : forall name set, In e (single_field sch doc name set) <-> exists r o, root sch KSubscription r /\ named sch r o /\
      ((e = ManyFields name /\ exists a b, a <> b /\ root_field sch doc o set a /\ root_field sch doc o set b) \/
       (e = IntrospectionField name /\ exists a, reserved a /\ root_field sch doc o set a))).
  { intros name set. unfold single_field.
    assert (RO : forall r, object_named sch (subscription_type_name sch) = Some r <-> root sch KSubscription r).
    { intros r. rewrite <- (root_of_some _ WF). cbn [root_of]. split; [intros ->; reflexivity|congruence]. }
    destruct (object_named sch (subscription_type_name sch)) as [r|].
    - pose proof (proj1 (RO r) eq_refl) as R. destruct (type_by_name sch r) as [o|] eqn:T.
      + apply (type_by_name_ok _ _ _ (wf_types _ WF)) in T. pose proof R as [(o' & N & OB) _].
        assert (o' = o) by (apply (type_by_name_ok _ _ _ (wf_types _ WF)) in N; apply (type_by_name_ok _ _ _ (wf_types _ WF)) in T; congruence). subst o'.
        destruct (collected_all sch WF doc o OB (proj1 N) UN set) as (names & visited & E & ND & IN). rewrite E. rewrite in_app_iff. split.
        * intros H. exists r, o. split; [exact R|]. split; [exact T|]. destruct H as [H|H].
          -- destruct (Nat.ltb 1 (List.length names)) eqn:L; [|destruct H]. destruct H as [<-|[]]. left. split; [reflexivity|].
             apply (two_names string_dec _ ND) in L. destruct L as (a & b & NE & A & B). exists a, b. rewrite <- !IN. auto.
          -- apply in_map_iff in H. destruct H as (a & <- & A). apply filter_In in A. destruct A as [A S]. right. split; [reflexivity|]. exists a.
             split; [now apply starts_reserved|now apply IN].
        * intros (r' & o' & R' & N' & H). assert (r' = r) by (apply RO in R'; congruence). subst r'.
          assert (o' = o) by (apply (type_by_name_ok _ _ _ (wf_types _ WF)) in N'; apply (type_by_name_ok _ _ _ (wf_types _ WF)) in T; congruence). subst o'.
          destruct H as [(-> & a & b & NE & A & B)|(-> & a & S & A)].
          -- left. rewrite (proj2 (two_names string_dec _ ND)); [now left|]. exists a, b. rewrite !IN. auto.
          -- right. apply in_map_iff. exists a. split; [reflexivity|]. apply filter_In. split; [now apply IN|now apply starts_reserved].
      + split; [intros []|]. intros (r' & o' & R' & N' & _). assert (r' = r) by (apply RO in R'; congruence). subst r'.
        apply (type_by_name_ok _ _ _ (wf_types _ WF)) in N'. congruence.
    - split; [intros []|]. intros (r & o & R & _). apply RO in R. discriminate R. }
  split.
  - intros ([c x] & I & K). cbn [snd] in K. destruct x; try (destruct K; fail).
    match goal with k : opkind |- _ => destruct k end; try (destruct K; fail). apply ONE in K. destruct K as (r & o & K). do 4 eexists. exists r, o.
    split; [apply (ev_op _ _ _ W); exists c; exact I|]. exact K.
  - intros (name & ds & vs & set & r & o & I & K). apply (ev_op _ _ _ W) in I. destruct I as (c & I). exists (c, EnterOp KSubscription name ds vs set).
    split; [exact I|]. cbn [snd]. apply ONE. now exists r, o.
Qed.
