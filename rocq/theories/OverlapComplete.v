From Coq Require Import String List NArith ZArith Bool Lia PeanoNat.
From Verif Require Import Ast NormModel NormProofs OverlapModel OverlapSpec OverlapBase OverlapValues OverlapSteps OverlapSound OverlapTop.
Import ListNotations.
Local Open Scope string_scope.
Local Open Scope list_scope.

Section Justified.
  Variable sch : list tdef.
  Variable doc : list definition.
  Variable C : pair_set.

  (** two fields were compared and nothing was found *)
  Inductive jf : bool -> entry -> entry -> Prop :=
  | jf_intro : forall m e1 e2,
      (exclusive m (e_parent e1) (e_parent e2) = false ->
         f_name (e_field e1) = f_name (e_field e2) /\ same_arguments (f_args (e_field e1)) (f_args (e_field e2)) = true) ->
      (forall t1 t2, e_def e1 = Some t1 -> e_def e2 = Some t2 -> type_conflict sch t1 t2 = false) ->
      (f_sub (e_field e1) <> [] -> f_sub (e_field e2) <> [] ->
         js (exclusive m (e_parent e1) (e_parent e2)) (type_of_def sch (e_def e1)) (f_sub (e_field e1)) (type_of_def sch (e_def e2)) (f_sub (e_field e2))) ->
      jf m e1 e2
  with js : bool -> option tdef -> list nsel -> option tdef -> list nsel -> Prop :=
  | js_intro : forall m p1 s1 p2 s2 m1 n1 m2 n2,
      fields_and_fragments sch p1 s1 = (m1, n1) -> fields_and_fragments sch p2 s2 = (m2, n2) ->
      (forall k e1 e2, held m1 k e1 -> held m2 k e2 -> jf m e1 e2) ->
      (forall b, In b n2 -> jx m m1 b) -> (forall a, In a n1 -> jx m m2 a) ->
      (forall a b, In a n1 -> In b n2 -> a = b \/ exists m', (m' = false \/ m = true) /\ In (a, b, m') C) ->
      js m p1 s1 p2 s2
  with jx : bool -> field_map -> string -> Prop :=
  | jx_intro : forall m m1 a,
      (forall tc sub m2 n2, frag_get doc a = Some (tc, sub) -> fields_and_fragments sch (type_by_name sch tc) sub = (m2, n2) ->
         forall k e1 e2, held m1 k e1 -> held m2 k e2 -> jf m e1 e2) -> jx m m1 a.
  Definition jp (m : bool) (a b : string) : Prop := a = b \/ exists m', (m' = false \/ m = true) /\ In (a, b, m') C.
  Definition closed (x : string * string * bool) : Prop :=
    let '(a, b, m) := x in
    forall tc1 s1 m1 n1 tc2 s2 m2 n2, frag_get doc a = Some (tc1, s1) -> frag_get doc b = Some (tc2, s2) ->
      fields_and_fragments sch (type_by_name sch tc1) s1 = (m1, n1) -> fields_and_fragments sch (type_by_name sch tc2) s2 = (m2, n2) ->
      (forall k e1 e2, held m1 k e1 -> held m2 k e2 -> jf m e1 e2) \/ (forall k e1 e2, held m2 k e1 -> held m1 k e2 -> jf m e1 e2).
End Justified.

Section Run.
  Variable sch : list tdef.
  Variable doc : list definition.
  Hypothesis Hf : unique_fragments doc.
  Hypothesis Hflat : flat doc.

  Definition ran (st st' : state) (P : pair_set -> Prop) : Prop :=
    incl (compared st) (compared st')
    /\ forall C, incl (compared st') C -> P C /\ forall x, In x (compared st') -> In x (compared st) \/ closed sch doc C x.
  Lemma ran_refl : forall st (P : pair_set -> Prop), (forall C, incl (compared st) C -> P C) -> ran st st P.
  Proof. intros st P H. split; [apply incl_refl|]. intros C L. split; [now apply H|]. intros x I. now left. Qed.
  Lemma ran_trans : forall a b c P Q, ran a b P -> ran b c Q -> ran a c (fun C => P C /\ Q C).
  Proof.
    intros a b c P Q [L1 H1] [L2 H2]. split; [exact (incl_tran L1 L2)|]. intros C L.
    destruct (H1 C (incl_tran L2 L)) as [A A']. destruct (H2 C L) as [B B']. split; [now split|].
    intros x I. destruct (B' x I) as [J|J]; [apply A', J|now right].
  Qed.
  Lemma ran_weaken : forall a b (P Q : pair_set -> Prop), ran a b P -> (forall C, P C -> Q C) -> ran a b Q.
  Proof. intros a b P Q [L H] W. split; [exact L|]. intros C I. destruct (H C I) as [A B]. split; [now apply W|exact B]. Qed.
  Lemma each_ran : forall A (k : A -> state -> outcome) (P : A -> pair_set -> Prop) l,
    (forall x st st', In x l -> k x st = Some ([], st') -> ran st st' (P x)) ->
    forall st st', each k l st = Some ([], st') -> ran st st' (fun C => forall x, In x l -> P x C).
  Proof.
    intros A k P. induction l as [|x l IH]; intros H st st'; cbn.
    - intros E. injection E as <-. apply ran_refl. intros C _ x [].
    - destruct (k x st) as [[c1 s1]|] eqn:K; [|discriminate]. destruct (each k l s1) as [[c2 s2]|] eqn:E; [|discriminate].
      intros R. injection R as R <-. apply app_eq_nil in R. destruct R as [-> ->].
      refine (ran_weaken _ _ _ _ (ran_trans _ _ _ _ _ (H _ _ _ (or_introl eq_refl) K) (IH (fun y u v I => H y u v (or_intror I)) _ _ E)) _).
      intros C [B1 B2] y [<-|I]; [exact B1|now apply B2].
  Qed.
  Lemma andthen_ran : forall a b P Q,
    (forall st st', a st = Some ([], st') -> ran st st' P) -> (forall st st', b st = Some ([], st') -> ran st st' Q) ->
    forall st st', andthen a b st = Some ([], st') -> ran st st' (fun C => P C /\ Q C).
  Proof.
    intros a b P Q Ha Hb st st'. unfold andthen. destruct (a st) as [[c1 s1]|] eqn:K; [|discriminate].
    destruct (b s1) as [[c2 s2]|] eqn:E; [|discriminate]. intros R. injection R as R <-.
    apply app_eq_nil in R. destruct R as [-> ->]. exact (ran_trans _ _ _ _ _ (Ha _ _ K) (Hb _ _ E)).
  Qed.

  Definition done_find (n : nat) : Prop := forall name e1 e2 m st st',
    find_conflict sch doc n name e1 e2 m st = Some ([], st') -> ran st st' (fun C => jf sch doc C m e1 e2).
  Definition done_sets (n : nat) : Prop := forall m p1 s1 p2 s2 st st',
    between_sets sch doc n m p1 s1 p2 s2 st = Some ([], st') -> ran st st' (fun C => js sch doc C m p1 s1 p2 s2).
  Definition done_fields (n : nat) : Prop := forall m1 a m st st', NoDup (map fst m1) ->
    fields_fragment sch doc n m1 a m st = Some ([], st') -> ran st st' (fun C => jx sch doc C m m1 a).
  Definition done_frags (n : nat) : Prop := forall a b m st st',
    fragment_fragment sch doc n a b m st = Some ([], st') -> ran st st' (fun C => jp C m a b).

  Lemma pairs_ran : forall n m m1 m2, done_find n -> NoDup (map fst m1) -> forall st st',
    each_pair sch doc n m (pairs m1 m2) st = Some ([], st') ->
    ran st st' (fun C => forall k e1 e2, held m1 k e1 -> held m2 k e2 -> jf sch doc C m e1 e2).
  Proof.
    intros n m m1 m2 IH U st st' R. unfold each_pair in R.
    apply (each_ran _ _ (fun p C => let '(k, e1, e2) := p in jf sch doc C m e1 e2)) in R.
    - apply (ran_weaken _ _ _ _ R). intros C H k e1 e2 H1 H2. exact (H (k, e1, e2) (proj2 (pairs_ok _ _ _ _ _ U) (conj H1 H2))).
    - intros [[k e1] e2] s s' _ E. exact (IH _ _ _ _ _ _ E).
  Qed.
  Lemma flat_names : forall a tc sub m2 n2, frag_get doc a = Some (tc, sub) -> fields_and_fragments sch (type_by_name sch tc) sub = (m2, n2) -> n2 = [].
  Proof.
    intros a tc sub m2 n2 G F. destruct (fields_ok _ _ _ _ _ F) as (_ & A & _). destruct n2 as [|b n2]; [reflexivity|].
    exfalso. apply frag_get_ok in G; [|exact Hf]. apply (Hflat _ _ _ b G). apply A. now left.
  Qed.
  Lemma contains_in : forall a b m s, pair_contains a b m s = true -> exists m', (m' = false \/ m = true) /\ In (a, b, m') s.
  Proof.
    intros a b m s. unfold pair_contains. destruct (pair_get a b s) as [r|] eqn:G; [|discriminate]. intros H.
    exists r. split; [destruct m; [now right|left; destruct r; [discriminate|reflexivity]]|].
    clear H. induction s as [|[[x y] z] s IH]; cbn in G; [discriminate|].
    destruct (String.eqb_spec x a) as [->|]; cbn in G; [|right; now apply IH].
    destruct (String.eqb_spec y b) as [->|]; [|right; now apply IH]. injection G as ->. now left.
  Qed.

  Lemma done_all : forall n, done_find n /\ done_sets n /\ done_fields n /\ done_frags n.
  Proof.
    induction n as [|n (IH1 & IH2 & IH3 & IH4)]; [split; [|split; [|split]]; red; intros; discriminate|].
    split; [|split; [|split]].
    - intros name e1 e2 m st st' R. rewrite find_step in R. cbv zeta in R.
      set (x := exclusive m (e_parent e1) (e_parent e2)) in *.
      destruct (negb x && negb (String.eqb (f_name (e_field e1)) (f_name (e_field e2)))) eqn:Q1; [discriminate|].
      destruct (negb x && negb (same_arguments (f_args (e_field e1)) (f_args (e_field e2)))) eqn:Q2; [discriminate|].
      destruct (match e_def e1, e_def e2 with Some t1, Some t2 => if type_conflict sch t1 t2 then Some (t1, t2) else None | _, _ => None end) as [[t u]|] eqn:Q3; [discriminate|].
      assert (J1 : x = false -> f_name (e_field e1) = f_name (e_field e2) /\ same_arguments (f_args (e_field e1)) (f_args (e_field e2)) = true).
      { intros X. rewrite X in Q1, Q2. cbn in Q1, Q2. apply negb_false_iff in Q1, Q2. apply String.eqb_eq in Q1. now split. }
      assert (J2 : forall t1 t2, e_def e1 = Some t1 -> e_def e2 = Some t2 -> type_conflict sch t1 t2 = false).
      { intros t1 t2 D1 D2. rewrite D1, D2 in Q3. destruct (type_conflict sch t1 t2); [discriminate|reflexivity]. }
      destruct (f_sub (e_field e1)) as [|x1 l1] eqn:S1.
      { injection R as <-. apply ran_refl. intros C _. constructor; [exact J1|exact J2|]. rewrite S1. congruence. }
      destruct (f_sub (e_field e2)) as [|x2 l2] eqn:S2.
      { injection R as <-. apply ran_refl. intros C _. constructor; [exact J1|exact J2|]. rewrite S2. congruence. }
      destruct (between_sets sch doc n x _ _ _ _ st) as [[[|c0 c] s]|] eqn:E; [|discriminate|discriminate]. injection R as <-.
      apply IH2 in E. apply (ran_weaken _ _ _ _ E). intros C J. constructor; [exact J1|exact J2|]. rewrite S1, S2. intros _ _. exact J.
    - intros m p1 s1 p2 s2 st st' R. rewrite sets_step in R.
      destruct (fields_and_fragments sch p1 s1) as [m1 n1] eqn:F1. destruct (fields_and_fragments sch p2 s2) as [m2 n2] eqn:F2.
      destruct (fields_ok _ _ _ _ _ F1) as (_ & _ & U1 & _). destruct (fields_ok _ _ _ _ _ F2) as (_ & _ & U2 & _).
      eapply andthen_ran in R; [|apply (pairs_ran n m m1 m2 IH1 U1)|].
      2:{ apply andthen_ran.
          - apply (each_ran _ _ (fun b C => jx sch doc C m m1 b)). intros b s s' _ E. exact (IH3 _ _ _ _ _ U1 E).
          - apply andthen_ran.
            + apply (each_ran _ _ (fun b C => jx sch doc C m m2 b)). intros b s s' _ E. exact (IH3 _ _ _ _ _ U2 E).
            + apply (each_ran _ _ (fun a C => forall b, In b n2 -> jp C m a b)). intros a s s' _.
              apply (each_ran _ _ (fun b C => jp C m a b)). intros b t t' _ E. exact (IH4 _ _ _ _ _ E). }
      apply (ran_weaken _ _ _ _ R). intros C (A1 & A2 & A3 & A4).
      apply (js_intro _ _ _ _ _ _ _ _ _ _ _ _ F1 F2 A1 A2 A3). intros a b Ia Ib. exact (A4 a Ia b Ib).
    - intros m1 a m st st' U R. rewrite fields_step in R.
      destruct (frag_get doc a) as [[tc sub]|] eqn:G.
      2:{ injection R as <-. apply ran_refl. intros C _. constructor. intros tc sub m2 n2 G'. congruence. }
      destruct (fields_and_fragments sch (type_by_name sch tc) sub) as [m2 n2] eqn:F.
      rewrite (flat_names _ _ _ _ _ G F) in R. cbn [smem existsb until] in R.
      eapply (andthen_ran _ _ _ (fun _ => True)) in R; [|apply (pairs_ran n m m1 m2 IH1 U)|].
      2:{ intros s s' E. injection E as <-. now apply ran_refl. }
      apply (ran_weaken _ _ _ _ R). intros C [A _]. constructor. intros tc' sub' m2' n2' G' F'.
      rewrite G in G'. injection G' as <- <-. rewrite F in F'. injection F' as <- <-. exact A.
    - intros a b m st st' R. rewrite frags_step in R. cbv zeta in R.
      destruct (String.eqb_spec a b) as [->|E]; [injection R as <-; apply ran_refl; intros C _; now left|].
      destruct (pair_contains a b m (compared st)) eqn:P.
      { injection R as <-. apply ran_refl. intros C L. right. apply contains_in in P. destruct P as (m' & A & I).
        exists m'. split; [exact A|now apply L]. }
      set (st0 := mkstate (visited st) (pair_insert a b m (compared st))) in *.
      assert (K : exists Q, ran st0 st' Q /\ forall C, Q C -> closed sch doc C (a, b, m)).
      { destruct (frag_get doc a) as [[tc1 s1]|] eqn:Ga.
        2:{ exists (fun _ => True). split; [injection R as <-; now apply ran_refl|]. intros C _ tc1 s1 m1 n1 tc2 s2 m2 n2 G1. congruence. }
        destruct (frag_get doc b) as [[tc2 s2]|] eqn:Gb.
        2:{ exists (fun _ => True). split; [injection R as <-; now apply ran_refl|]. intros C _ tc1' s1' m1 n1 tc2 s2 m2 n2 G1 G2. congruence. }
        destruct (fields_and_fragments sch (type_by_name sch tc1) s1) as [m1 n1] eqn:F1.
        destruct (fields_and_fragments sch (type_by_name sch tc2) s2) as [m2 n2] eqn:F2.
        rewrite (flat_names _ _ _ _ _ Ga F1), (flat_names _ _ _ _ _ Gb F2) in R. cbn [each] in R.
        destruct (fields_ok _ _ _ _ _ F1) as (_ & _ & U1 & _).
        eapply (andthen_ran _ _ _ (fun _ => True)) in R; [|apply (pairs_ran n m m1 m2 IH1 U1)|].
        2:{ intros s s' X. injection X as <-. now apply ran_refl. }
        eexists. split; [exact R|]. intros C [A _]. intros tc1' s1' m1' n1' tc2' s2' m2' n2' G1 G2 F1' F2'.
        rewrite Ga in G1. injection G1 as <- <-. rewrite Gb in G2. injection G2 as <- <-.
        rewrite F1 in F1'. injection F1' as <- <-. rewrite F2 in F2'. injection F2' as <- <-. left. exact A. }
      destruct K as (Q & [L H] & K). split.
      + intros x I. apply L. cbn. right. now right.
      + intros C LC. destruct (H C LC) as [A B]. split.
        * right. exists m. split; [destruct m; [now right|now left]|]. apply LC, L. cbn. right. now left.
        * intros x I. destruct (B x I) as [J|J]; [|now right]. cbn in J. destruct J as [<-|[<-|J]].
          -- right. intros tc1 s1 m1 n1 tc2 s2 m2 n2 G1 G2 F1 F2. destruct (K C A _ _ _ _ _ _ _ _ G2 G1 F2 F1) as [Z|Z]; [now right|now left].
          -- right. exact (K C A).
          -- now left.
  Qed.

  Definition jw (C : pair_set) (p : option tdef) (set : list nsel) : Prop :=
    forall m1 n1, fields_and_fragments sch p set = (m1, n1) ->
      (forall k e1 e2, In (k, e1, e2) (pairs_within m1) -> jf sch doc C false e1 e2)
      /\ (forall a, In a n1 -> jx sch doc C false m1 a)
      /\ (forall a b, In (a, b) (later n1) -> jp C false a b).
  Lemma within_ran : forall n m1 names st st', NoDup (map fst m1) ->
    within_fragments sch doc n m1 names st = Some ([], st') ->
    ran st st' (fun C => (forall a, In a names -> jx sch doc C false m1 a) /\ (forall a b, In (a, b) (later names) -> jp C false a b)).
  Proof.
    intros n m1 names st st' U. destruct (done_all n) as (_ & _ & X3 & X4). revert st st'.
    induction names as [|a names IH]; intros st st' R.
    - injection R as <-. apply ran_refl. intros C _. split; [intros a []|intros a b []].
    - cbn [within_fragments] in R. eapply andthen_ran in R; [|intros s s' E; exact (X3 _ _ _ _ _ U E)|].
      2:{ apply andthen_ran; [|exact IH]. apply (each_ran _ _ (fun b C => jp C false a b)). intros b s s' _ E. exact (X4 _ _ _ _ _ E). }
      apply (ran_weaken _ _ _ _ R). intros C (A & B & D & E). split.
      + intros b [<-|I]; [exact A|now apply D].
      + intros x y I. cbn in I. apply in_app_iff in I. destruct I as [I|I]; [|now apply E].
        apply in_map_iff in I. destruct I as (z & Z & I). injection Z as <- <-. now apply B.
  Qed.
  Lemma set_ran : forall n x st st', within_set sch doc n x st = Some ([], st') -> ran st st' (fun C => jw C (fst x) (snd x)).
  Proof.
    intros n [p set] st st' R. unfold within_set in R. cbn [fst snd] in *.
    destruct (fields_and_fragments sch p set) as [m1 n1] eqn:F. destruct (fields_ok _ _ _ _ _ F) as (_ & _ & U & _).
    destruct (done_all n) as (X1 & _).
    eapply andthen_ran in R.
    - apply (ran_weaken _ _ _ (fun C => jw C p set)) in R; [exact R|]. intros C (A & B). intros m1' n1' F'. rewrite F in F'. injection F' as <- <-.
      split; [|exact B]. exact A.
    - intros s s' E. apply (each_ran _ _ (fun p C => let '(k, e1, e2) := p in jf sch doc C false e1 e2)) in E.
      + apply (ran_weaken _ _ _ _ E). intros C H k e1 e2 I. exact (H _ I).
      + intros [[k e1] e2] t t' _ E'. exact (X1 _ _ _ _ _ _ E').
    - intros s s'. now apply within_ran.
  Qed.
  Lemma validate_ran : forall n, validate sch doc n = Some [] ->
    exists C, (forall p set, In (p, set) (flat_map (sets_of sch) doc) -> jw C p set) /\ (forall x, In x C -> closed sch doc C x).
  Proof.
    intros n. unfold validate. destruct (each _ _ _) as [[c st]|] eqn:E; [|discriminate]. intros H. injection H as ->.
    apply (each_ran _ _ (fun x C => jw C (fst x) (snd x))) in E; [|intros x s s' _; apply set_ran].
    destruct E as [_ E]. destruct (E (compared st) (incl_refl _)) as [A B]. exists (compared st). split.
    - intros p set I. exact (A (p, set) I).
    - intros x I. destruct (B x I) as [[]|K]. exact K.
  Qed.
End Run.
