From Coq Require Import String List NArith ZArith Bool Lia PeanoNat.
From Verif Require Import Ast NormModel NormProofs OverlapModel OverlapSpec OverlapBase OverlapValues OverlapSteps.
Import ListNotations.
Local Open Scope string_scope.
Local Open Scope list_scope.

Lemma each_some : forall A (k : A -> state -> outcome) l st c st',
  each k l st = Some (c, st') -> c <> [] -> exists x s1 c1 s2, In x l /\ k x s1 = Some (c1, s2) /\ c1 <> [].
Proof.
  intros A k. induction l as [|x l IH]; intros st c st'; cbn.
  - intros H. injection H as <- _. contradiction.
  - destruct (k x st) as [[c1 s1]|] eqn:K; [|discriminate]. destruct (each k l s1) as [[c2 s2]|] eqn:E; [|discriminate].
    intros H N. injection H as <- <-. destruct c1 as [|y c1].
    + destruct (IH _ _ _ E N) as (x' & t1 & c' & t2 & I & R). exists x', t1, c', t2. split; [now right|exact R].
    + exists x, st, (y :: c1), s1. split; [now left|]. split; [exact K|discriminate].
Qed.
Lemma andthen_some : forall a b st c st', andthen a b st = Some (c, st') -> c <> [] ->
  (exists s1 c1 s2, a s1 = Some (c1, s2) /\ c1 <> []) \/ (exists s1 c1 s2, b s1 = Some (c1, s2) /\ c1 <> []).
Proof.
  intros a b st c st'. unfold andthen. destruct (a st) as [[c1 s1]|] eqn:K; [|discriminate].
  destruct (b s1) as [[c2 s2]|] eqn:E; [|discriminate]. intros H N. injection H as <- <-. destruct c1 as [|y c1].
  - right. exists s1, c2, s2. split; assumption.
  - left. exists st, (y :: c1), s1. split; [exact K|discriminate].
Qed.

Lemma until_some : forall k l st c st', until k l st = Some (c, st') -> c <> [] ->
  exists x s1 c1 s2, In x l /\ k x s1 = Some (c1, s2) /\ c1 <> [].
Proof.
  intros k. induction l as [|x l IH]; intros st c st'; cbn.
  - intros H. injection H as <- _. contradiction.
  - destruct (smem x (visited st)); [intros H; injection H as <- _; contradiction|].
    intros H N. apply andthen_some in H; [|exact N]. destruct H as [(s1 & c1 & s2 & K & M)|(s1 & c1 & s2 & K & M)].
    + exists x, s1, c1, s2. split; [now left|]. split; assumption.
    + destruct (IH _ _ _ K M) as (y & t1 & c' & t2 & I & R). exists y, t1, c', t2. split; [now right|exact R].
Qed.

Section Facts.
  Variable sch : list tdef.
  Variable doc : list definition.
  Hypothesis Ht : unique_types sch.
  Hypothesis Hf : unique_fragments doc.
  Hypothesis Hc : known_conditions sch doc.
  Hypothesis Ha : tidy_arguments sch doc.

  Lemma under_ok : forall p set tc ds sub q, stands sch doc p set -> In (NInline tc ds sub) set ->
    (under sch tc p q <-> q = cond sch tc p).
  Proof.
    intros p set tc ds sub q S I. destruct tc as [c|]; cbn; [|reflexivity].
    destruct (Hc _ _ _ _ _ S I) as [t T]. rewrite (type_by_name_ok sch c q Ht).
    apply type_by_name_ok in T; [|exact Ht]. unfold cond. rewrite T. split; congruence.
  Qed.

  Definition known (e : entry) : Prop :=
    e_def e = fdef (e_parent e) (f_name (e_field e)).
  Definition good (e : entry) : Prop :=
    known e /\ exists p set, stands sch doc p set /\ collected sch doc p set (e_parent e) (e_field e).

  Lemma direct_collected : forall p set e, direct sch p set e -> stands sch doc p set ->
    collected sch doc p set (e_parent e) (e_field e) /\ known e.
  Proof.
    intros p set e D. induction D as [p set al n args ds sub I|p set tc ds sub e I D IH]; intros S.
    - split; [now apply (collected_field _ _ _ _ al n args ds sub)|reflexivity].
    - pose proof (proj2 (under_ok _ _ _ _ _ _ S I) eq_refl) as U.
      destruct (IH (stands_inline _ _ _ _ _ _ _ _ S I U)) as [C K]. split; [|exact K].
      exact (collected_inline _ _ _ _ _ _ _ _ _ _ I U C).
  Qed.
  Lemma direct_good : forall p set e, direct sch p set e -> stands sch doc p set -> good e.
  Proof.
    intros p set e D S. destruct (direct_collected _ _ _ D S) as [C K]. split; [exact K|]. exists p, set. split; assumption.
  Qed.
  Lemma collected_below : forall p set r f, collected sch doc p set r f -> stands sch doc p set ->
    (forall q, inside sch r (f_name f) q -> stands sch doc q (f_sub f)) /\ tidy (GObj (f_args f)).
  Proof.
    intros p set r f C. induction C as [p set al n args ds sub I|p set tc ds sub q r f I U C IH|p set k ds tc sub q r f I F T C IH]; intros S.
    - split; [intros q Q; exact (stands_field _ _ _ _ _ _ _ _ _ _ S I Q)|exact (Ha _ _ _ _ _ _ _ S I)].
    - apply IH. exact (stands_inline _ _ _ _ _ _ _ _ S I U).
    - apply IH. exact (stands_fragment _ _ _ _ _ _ F T).
  Qed.
  Lemma fragment_stands : forall a tc sub, frag_get doc a = Some (tc, sub) -> stands sch doc (type_by_name sch tc) sub.
  Proof.
    intros a tc sub G. apply frag_get_ok in G; [|exact Hf]. apply (stands_fragment _ _ _ _ _ _ G). now apply type_by_name_ok.
  Qed.
  Lemma spread_collected : forall a set, spreads a set -> forall p tc sub r f, stands sch doc p set ->
    frag_get doc a = Some (tc, sub) -> collected sch doc (type_by_name sch tc) sub r f -> collected sch doc p set r f.
  Proof.
    intros a set S. induction S as [set ds I|set tc' ds sub' I S IH]; intros p tc sub r f St G C.
    - apply (collected_spread _ _ _ _ a ds tc sub (type_by_name sch tc)); [exact I|now apply frag_get_ok|now apply type_by_name_ok|exact C].
    - pose proof (proj2 (under_ok _ _ _ _ _ _ St I) eq_refl) as U.
      apply (collected_inline _ _ _ _ tc' ds sub' (cond sch tc' p)); [exact I|exact U|].
      apply (IH _ tc sub); [|exact G|exact C]. exact (stands_inline _ _ _ _ _ _ _ _ St I U).
  Qed.

  (** Clashes *)
  Lemma clash_iff : forall P p f q g, clash sch doc P p f q g -> forall Q : Prop, (P <-> Q) -> clash sch doc Q p f q g.
  Proof.
    intros P p f q g C.
    induction C as [E p f q g N A K|E p f q g N A K|E p f q g t u D1 D2 K|E p f q g p' q' k r a s b I1 I2 C1 C2 K1 K2 C IH]; intros Q H.
    - apply clash_name; tauto.
    - apply clash_args; tauto.
    - exact (clash_type _ _ _ _ _ _ _ _ _ D1 D2 K).
    - apply (clash_below _ _ _ _ _ _ _ p' q' k r a s b); try assumption. apply IH. tauto.
  Qed.
  Lemma shape_sym : forall t u, same_shape sch t u -> same_shape sch u t.
  Proof. intros t u H. induction H; constructor; assumption. Qed.
  Lemma apart_sym : forall p q, apart p q -> apart q p.
  Proof. intros p q (t & u & A & B & C & D & N). exists u, t. repeat split; congruence. Qed.
  Lemma clash_sym : forall P p f q g, clash sch doc P p f q g -> clash sch doc P q g p f.
  Proof.
    intros P p f q g C.
    induction C as [E p f q g N A K|E p f q g N A K|E p f q g t u D1 D2 K|E p f q g p' q' k r a s b I1 I2 C1 C2 K1 K2 C IH].
    - apply clash_name; [exact N|intros B; apply A; now apply apart_sym|congruence].
    - apply clash_args; [exact N|intros B; apply A; now apply apart_sym|]. intros B. apply K. now apply same_sym.
    - apply (clash_type _ _ _ _ _ _ _ u t); [exact D2|exact D1|]. intros B. apply K. now apply shape_sym.
    - apply (clash_below _ _ _ _ _ _ _ q' p' k s b r a); try assumption.
      apply (clash_iff _ _ _ _ _ IH). split; (intros [H|H]; [now left|right; now apply apart_sym]).
  Qed.

  Definition hits (m : bool) (p1 : option tdef) (s1 : list nsel) (p2 : option tdef) (s2 : list nsel) : Prop :=
    exists r a s b k, collected sch doc p1 s1 r a /\ collected sch doc p2 s2 s b /\ key a k /\ key b k /\ clash sch doc (m = true) r a s b.
  Definition hits_map (m : bool) (m1 : field_map) (p2 : option tdef) (s2 : list nsel) : Prop :=
    exists k e s b, held m1 k e /\ collected sch doc p2 s2 s b /\ key b k /\ clash sch doc (m = true) (e_parent e) (e_field e) s b.

  Definition sound_find (n : nat) : Prop := forall name e1 e2 m st c st',
    find_conflict sch doc n name e1 e2 m st = Some (c, st') -> c <> [] -> good e1 -> good e2 ->
    clash sch doc (m = true) (e_parent e1) (e_field e1) (e_parent e2) (e_field e2).
  Definition sound_sets (n : nat) : Prop := forall m p1 s1 p2 s2 st c st',
    between_sets sch doc n m p1 s1 p2 s2 st = Some (c, st') -> c <> [] ->
    stands sch doc p1 s1 -> stands sch doc p2 s2 -> hits m p1 s1 p2 s2.
  Definition sound_fields (n : nat) : Prop := forall m1 a m st c st',
    fields_fragment sch doc n m1 a m st = Some (c, st') -> c <> [] ->
    NoDup (map fst m1) -> (forall k e, held m1 k e -> good e) ->
    exists tc sub, frag_get doc a = Some (tc, sub) /\ hits_map m m1 (type_by_name sch tc) sub.
  Definition sound_frags (n : nat) : Prop := forall a b m st c st',
    fragment_fragment sch doc n a b m st = Some (c, st') -> c <> [] ->
    exists tc1 s1 tc2 s2, frag_get doc a = Some (tc1, s1) /\ frag_get doc b = Some (tc2, s2)
      /\ hits m (type_by_name sch tc1) s1 (type_by_name sch tc2) s2.

  Lemma pairs_hit : forall n m m1 p2 s2 m2 n2 st c st', sound_find n ->
    each_pair sch doc n m (pairs m1 m2) st = Some (c, st') -> c <> [] ->
    NoDup (map fst m1) -> (forall k e, held m1 k e -> good e) ->
    fields_and_fragments sch p2 s2 = (m2, n2) -> stands sch doc p2 s2 -> hits_map m m1 p2 s2.
  Proof.
    intros n m m1 p2 s2 m2 n2 st c st' IH E N U G F2 S2.
    destruct (each_some _ _ _ _ _ _ E N) as ([[k e1] e2] & t1 & c1 & t2 & I & R & N1).
    apply pairs_ok in I; [|exact U]. destruct I as [I1 I2].
    destruct (fields_ok _ _ _ _ _ F2) as (H2 & _). pose proof (proj1 (H2 _ _) I2) as [K D].
    exists k, e1, (e_parent e2), (e_field e2). split; [exact I1|].
    split; [exact (proj1 (direct_collected _ _ _ D S2))|]. split; [now apply key_ok|].
    exact (IH _ _ _ _ _ _ _ R N1 (G _ _ I1) (direct_good _ _ _ D S2)).
  Qed.
  Lemma hits_of_map : forall m p1 s1 m1 n1 p2 s2, fields_and_fragments sch p1 s1 = (m1, n1) -> stands sch doc p1 s1 ->
    hits_map m m1 p2 s2 -> hits m p1 s1 p2 s2.
  Proof.
    intros m p1 s1 m1 n1 p2 s2 F S (k & e & s & b & H & C & K & L).
    destruct (fields_ok _ _ _ _ _ F) as (H1 & _). apply H1 in H. destruct H as [E D].
    exists (e_parent e), (e_field e), s, b, k. split; [exact (proj1 (direct_collected _ _ _ D S))|].
    split; [exact C|]. split; [now apply key_ok|]. split; [exact K|exact L].
  Qed.
  Lemma map_good : forall p s m n, fields_and_fragments sch p s = (m, n) -> stands sch doc p s -> forall k e, held m k e -> good e.
  Proof.
    intros p s m n F S k e H. destruct (fields_ok _ _ _ _ _ F) as (H1 & _). apply H1 in H. exact (direct_good _ _ _ (proj2 H) S).
  Qed.

  Lemma sound_all : forall n, sound_find n /\ sound_sets n /\ sound_fields n /\ sound_frags n.
  Proof.
    induction n as [|n (IH1 & IH2 & IH3 & IH4)]; [repeat split; intros until 1; discriminate|].
    split; [|split; [|split]].
    - intros name e1 e2 m st c st' R N G1 G2. rewrite find_step in R. cbv zeta in R.
      destruct G1 as (K1 & p1 & s1 & S1 & C1). destruct G2 as (K2 & p2 & s2 & S2 & C2).
      destruct (collected_below _ _ _ _ C1 S1) as [B1 T1]. destruct (collected_below _ _ _ _ C2 S2) as [B2 T2].
      pose proof (exclusive_ok m (e_parent e1) (e_parent e2) (m = true) (iff_refl _)) as X.
      destruct (negb (exclusive m (e_parent e1) (e_parent e2)) && negb (String.eqb (f_name (e_field e1)) (f_name (e_field e2)))) eqn:Q1.
      { apply andb_true_iff in Q1. destruct Q1 as [Q Q']. apply negb_true_iff in Q, Q'. apply String.eqb_neq in Q'.
        apply clash_name; [| |exact Q']; intros Z; rewrite (proj2 X) in Q; try discriminate; tauto. }
      destruct (negb (exclusive m (e_parent e1) (e_parent e2)) && negb (same_arguments (f_args (e_field e1)) (f_args (e_field e2)))) eqn:Q2.
      { apply andb_true_iff in Q2. destruct Q2 as [Q Q']. apply negb_true_iff in Q, Q'.
        apply clash_args; [intros Z; rewrite (proj2 X) in Q; [discriminate|tauto]..|].
        intros Z. apply args_same in Z; [congruence|exact T1|exact T2]. }
      destruct (match e_def e1, e_def e2 with Some t1, Some t2 => if type_conflict sch t1 t2 then Some (t1, t2) else None | _, _ => None end) as [[t u]|] eqn:Q3.
      { destruct (e_def e1) as [t1|] eqn:D1; [|discriminate]. destruct (e_def e2) as [t2|] eqn:D2; [|discriminate].
        destruct (type_conflict sch t1 t2) eqn:Q; [|discriminate].
        apply (clash_type _ _ _ _ _ _ _ t1 t2).
        - apply declares_ok. unfold known in K1. congruence.
        - apply declares_ok. unfold known in K2. congruence.
        - rewrite (shape_ok sch Ht). congruence. }
      assert (R' : exists c1, between_sets sch doc n (exclusive m (e_parent e1) (e_parent e2)) (type_of_def sch (e_def e1)) (f_sub (e_field e1))
                                (type_of_def sch (e_def e2)) (f_sub (e_field e2)) st = Some (c1, st') /\ c1 <> []).
      { destruct (f_sub (e_field e1)) as [|x1 l1]; [congruence|]. destruct (f_sub (e_field e2)) as [|x2 l2]; [congruence|].
        destruct (between_sets _ _ _ _ _ _ _ _ _) as [[c1 t]|]; [|discriminate].
        exists c1. destruct c1 as [|y c1]; [injection R as <- _; now exfalso; apply N|].
        injection R as _ <-. split; [reflexivity|discriminate]. }
      clear R. destruct R' as (c1 & R & N1).
      assert (I1 : inside sch (e_parent e1) (f_name (e_field e1)) (type_of_def sch (e_def e1))) by (apply inside_ok; [exact Ht|]; unfold known in K1; congruence).
      assert (I2 : inside sch (e_parent e2) (f_name (e_field e2)) (type_of_def sch (e_def e2))) by (apply inside_ok; [exact Ht|]; unfold known in K2; congruence).
      destruct (IH2 _ _ _ _ _ _ _ _ R N1 (B1 _ I1) (B2 _ I2)) as (r & a & s & b & k & D1 & D2 & Y1 & Y2 & L).
      apply (clash_below _ _ _ _ _ _ _ _ _ k r a s b I1 I2 D1 D2 Y1 Y2). now apply (clash_iff _ _ _ _ _ L).
    - intros m p1 s1 p2 s2 st c st' R N S1 S2. rewrite sets_step in R.
      destruct (fields_and_fragments sch p1 s1) as [m1 n1] eqn:F1. destruct (fields_and_fragments sch p2 s2) as [m2 n2] eqn:F2.
      destruct (fields_ok _ _ _ _ _ F1) as (_ & A1 & U1 & _). destruct (fields_ok _ _ _ _ _ F2) as (_ & A2 & U2 & _).
      apply andthen_some in R; [|exact N]. destruct R as [(t & c1 & t' & R & N1)|(t & c1 & t' & R & N1)].
      { apply (hits_of_map _ _ _ _ _ _ _ F1 S1). exact (pairs_hit _ _ _ _ _ _ _ _ _ _ IH1 R N1 U1 (map_good _ _ _ _ F1 S1) F2 S2). }
      apply andthen_some in R; [|exact N1]. destruct R as [(t1 & c2 & t1' & R & N2)|(t1 & c2 & t1' & R & N2)].
      { destruct (each_some _ _ _ _ _ _ R N2) as (a & u & c3 & u' & I & R3 & N3).
        destruct (IH3 _ _ _ _ _ _ R3 N3 U1 (map_good _ _ _ _ F1 S1)) as (tc & sub & G & H).
        destruct (hits_of_map _ _ _ _ _ _ _ F1 S1 H) as (r & x & s & y & k & C1 & C2 & K1 & K2 & L).
        exists r, x, s, y, k. split; [exact C1|]. split; [|tauto]. apply A2 in I.
        exact (spread_collected _ _ I _ _ _ _ _ S2 G C2). }
      apply andthen_some in R; [|exact N2]. destruct R as [(t2 & c3 & t2' & R & N3)|(t2 & c3 & t2' & R & N3)].
      { destruct (each_some _ _ _ _ _ _ R N3) as (a & u & c4 & u' & I & R4 & N4).
        destruct (IH3 _ _ _ _ _ _ R4 N4 U2 (map_good _ _ _ _ F2 S2)) as (tc & sub & G & H).
        destruct (hits_of_map _ _ _ _ _ _ _ F2 S2 H) as (r & x & s & y & k & C1 & C2 & K1 & K2 & L).
        exists s, y, r, x, k. apply A1 in I. split; [exact (spread_collected _ _ I _ _ _ _ _ S1 G C2)|].
        split; [exact C1|]. split; [exact K2|]. split; [exact K1|]. now apply clash_sym. }
      destruct (each_some _ _ _ _ _ _ R N3) as (a & u & c4 & u' & I & R4 & N4).
      destruct (each_some _ _ _ _ _ _ R4 N4) as (b & v & c5 & v' & J & R5 & N5).
      destruct (IH4 _ _ _ _ _ _ R5 N5) as (tc1 & b1 & tc2 & b2 & G1 & G2 & (r & x & s & y & k & C1 & C2 & K1 & K2 & L)).
      apply A1 in I. apply A2 in J. exists r, x, s, y, k. split; [exact (spread_collected _ _ I _ _ _ _ _ S1 G1 C1)|].
      split; [exact (spread_collected _ _ J _ _ _ _ _ S2 G2 C2)|tauto].
    - intros m1 a m st c st' R N U G. rewrite fields_step in R.
      destruct (frag_get doc a) as [[tc sub]|] eqn:Fa; [|congruence]. exists tc, sub. split; [reflexivity|].
      destruct (fields_and_fragments sch (type_by_name sch tc) sub) as [m2 n2] eqn:F2.
      destruct (smem a n2); [congruence|]. pose proof (fragment_stands _ _ _ Fa) as S2.
      destruct (fields_ok _ _ _ _ _ F2) as (_ & A2 & _ & _).
      apply andthen_some in R; [|exact N]. destruct R as [(t & c1 & t' & R & N1)|(t & c1 & t' & R & N1)].
      { exact (pairs_hit _ _ _ _ _ _ _ _ _ _ IH1 R N1 U G F2 S2). }
      destruct (until_some _ _ _ _ _ R N1) as (b & u & c2 & u' & I & R2 & N2). apply A2 in I.
      destruct (IH3 _ _ _ _ _ _ R2 N2 U G) as (tc' & sub' & G' & (k & e & s & y & H & C & K & L)).
      exists k, e, s, y. split; [exact H|]. split; [|tauto]. exact (spread_collected _ _ I _ _ _ _ _ S2 G' C).
    - intros a b m st c st' R N. rewrite frags_step in R. cbv zeta in R.
      destruct (String.eqb a b); [congruence|]. destruct (pair_contains a b m (compared st)); [congruence|].
      destruct (frag_get doc a) as [[tc1 s1]|] eqn:Fa; [|congruence].
      destruct (frag_get doc b) as [[tc2 s2]|] eqn:Fb; [|congruence].
      exists tc1, s1, tc2, s2. split; [reflexivity|]. split; [reflexivity|].
      pose proof (fragment_stands _ _ _ Fa) as S1. pose proof (fragment_stands _ _ _ Fb) as S2.
      destruct (fields_and_fragments sch (type_by_name sch tc1) s1) as [m1 n1] eqn:F1.
      destruct (fields_and_fragments sch (type_by_name sch tc2) s2) as [m2 n2] eqn:F2.
      destruct (fields_ok _ _ _ _ _ F1) as (_ & A1 & U1 & _). destruct (fields_ok _ _ _ _ _ F2) as (_ & A2 & U2 & _).
      apply andthen_some in R; [|exact N]. destruct R as [(t & c1 & t' & R & N1)|(t & c1 & t' & R & N1)].
      { apply (hits_of_map _ _ _ _ _ _ _ F1 S1). exact (pairs_hit _ _ _ _ _ _ _ _ _ _ IH1 R N1 U1 (map_good _ _ _ _ F1 S1) F2 S2). }
      apply andthen_some in R; [|exact N1]. destruct R as [(t1 & c2 & t1' & R & N2)|(t1 & c2 & t1' & R & N2)].
      { destruct (each_some _ _ _ _ _ _ R N2) as (b' & u & c3 & u' & I & R3 & N3).
        destruct (IH4 _ _ _ _ _ _ R3 N3) as (tc1' & b1 & tc2' & b2 & G1 & G2 & (r & x & s & y & k & C1 & C2 & K1 & K2 & L)).
        rewrite Fa in G1. injection G1 as <- <-. apply A2 in I. exists r, x, s, y, k. split; [exact C1|].
        split; [exact (spread_collected _ _ I _ _ _ _ _ S2 G2 C2)|tauto]. }
      destruct (each_some _ _ _ _ _ _ R N2) as (a' & u & c3 & u' & I & R3 & N3).
      destruct (IH4 _ _ _ _ _ _ R3 N3) as (tc1' & b1 & tc2' & b2 & G1 & G2 & (r & x & s & y & k & C1 & C2 & K1 & K2 & L)).
      rewrite Fb in G2. injection G2 as <- <-. apply A1 in I. exists r, x, s, y, k.
      split; [exact (spread_collected _ _ I _ _ _ _ _ S1 G1 C1)|]. tauto.
  Qed.
End Facts.
