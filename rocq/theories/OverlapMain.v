From Coq Require Import String List NArith ZArith Bool Lia PeanoNat.
From Verif Require Import Ast NormModel NormProofs OverlapModel OverlapSpec OverlapBase OverlapValues OverlapSteps OverlapSound OverlapTop OverlapComplete.
Import ListNotations.
Local Open Scope string_scope.
Local Open Scope list_scope.

Section Complete.
  Variable sch : list tdef.
  Variable doc : list definition.
  Hypothesis Ht : unique_types sch.
  Hypothesis Hf : unique_fragments doc.
  Hypothesis Hc : known_conditions sch doc.
  Hypothesis Ha : tidy_arguments sch doc.
  Hypothesis Hl : listless_arguments sch doc.
  Hypothesis Hflat : flat doc.
  Variable C : pair_set.
  Hypothesis Hw : forall p set, In (p, set) (flat_map (sets_of sch) doc) -> jw sch doc C p set.
  Hypothesis Hclosed : forall x, In x C -> closed sch doc C x.

  Definition ent (r : option tdef) (f : field) : entry := mkentry r f (fdef r (f_name f)).
  Lemma collected_split : forall p set r f, collected sch doc p set r f -> stands sch doc p set ->
    direct sch p set (ent r f)
    \/ exists a tc sub, spreads a set /\ frag_get doc a = Some (tc, sub) /\ direct sch (type_by_name sch tc) sub (ent r f).
  Proof.
    intros p set r f H. induction H as [p set al n args ds sub I|p set tc ds sub q r f I U H IH|p set k ds tc sub q r f I F T H IH]; intros S.
    - left. exact (direct_field _ _ _ al n args ds sub I).
    - pose proof (proj1 (under_ok sch doc Ht Hc _ _ _ _ _ _ S I) U) as ->.
      destruct (IH (stands_inline _ _ _ _ _ _ _ _ S I U)) as [D|(a & tc' & sub' & P & G & D)].
      + left. exact (direct_inline _ _ _ _ _ _ _ I D).
      + right. exists a, tc', sub'. split; [exact (spreads_inline _ _ _ _ _ I P)|]. now split.
    - apply type_by_name_ok in T; [|exact Ht]. subst q. right. exists k, tc, sub. split; [exact (spreads_here _ _ _ I)|].
      pose proof (proj1 (frag_get_ok _ _ _ _ Hf) F) as G. split; [exact G|].
      destruct (IH (fragment_stands sch doc Ht Hf _ _ _ G)) as [D|(a & tc' & sub' & P & _)]; [exact D|].
      exfalso. exact (Hflat _ _ _ _ F P).
  Qed.

  Definition met (m : bool) (r : option tdef) (f : field) (s : option tdef) (g : field) : Prop :=
    (r = s /\ f = g) \/ exists m0, (m0 = false \/ m = true) /\ (jf sch doc C m0 (ent r f) (ent s g) \/ jf sch doc C m0 (ent s g) (ent r f)).
  Lemma met_sym : forall m r f s g, met m r f s g -> met m s g r f.
  Proof. intros m r f s g [[-> ->]|(m0 & A & B)]; [now left|]. right. exists m0. tauto. Qed.
  Lemma ent_inj : forall r f s g, ent r f = ent s g -> r = s /\ f = g.
  Proof. intros r f s g H. now injection H. Qed.
  Lemma set_justified : forall p set, stands sch doc p set -> jw sch doc C p set.
  Proof. intros p set S. apply Hw. now apply (sets_ok sch doc Ht (p, set)). Qed.

  Lemma met_direct : forall p set r f s g, stands sch doc p set ->
    direct sch p set (ent r f) -> direct sch p set (ent s g) -> response_name f = response_name g -> met false r f s g.
  Proof.
    intros p set r f s g S D1 D2 K. destruct (fields_and_fragments sch p set) as [m1 n1] eqn:F.
    destruct (set_justified _ _ S _ _ F) as (A & _). destruct (fields_ok _ _ _ _ _ F) as (H & _ & U & _).
    assert (H1 : held m1 (response_name f) (ent r f)) by (apply H; now split).
    assert (H2 : held m1 (response_name f) (ent s g)) by (apply H; now split).
    destruct (within_all _ _ _ _ U H1 H2) as [E|[I|I]].
    - left. now apply ent_inj.
    - right. exists false. split; [now left|]. left. exact (A _ _ _ I).
    - right. exists false. split; [now left|]. right. exact (A _ _ _ I).
  Qed.
  Lemma met_fragment : forall m m1 a p set n1 tc sub r f s g, fields_and_fragments sch p set = (m1, n1) -> jx sch doc C m m1 a ->
    frag_get doc a = Some (tc, sub) -> direct sch p set (ent r f) -> direct sch (type_by_name sch tc) sub (ent s g) ->
    response_name f = response_name g -> met m r f s g.
  Proof.
    intros m m1 a p set n1 tc sub r f s g F J G D1 D2 K. inversion J as [? ? ? X]; subst.
    destruct (fields_and_fragments sch (type_by_name sch tc) sub) as [m2 n2] eqn:F2.
    destruct (fields_ok _ _ _ _ _ F) as (H1 & _). destruct (fields_ok _ _ _ _ _ F2) as (H2 & _).
    right. exists m. split; [destruct m; tauto|]. left. apply (X _ _ _ _ G F2 (response_name f)); [apply H1|apply H2]; now split.
  Qed.
  Lemma met_fragments : forall m a b tc1 s1 tc2 s2 r f s g, jp C m a b ->
    frag_get doc a = Some (tc1, s1) -> frag_get doc b = Some (tc2, s2) ->
    direct sch (type_by_name sch tc1) s1 (ent r f) -> direct sch (type_by_name sch tc2) s2 (ent s g) ->
    response_name f = response_name g -> met m r f s g.
  Proof.
    intros m a b tc1 s1 tc2 s2 r f s g J G1 G2 D1 D2 K.
    destruct J as [->|(m' & M & I)].
    - rewrite G1 in G2. injection G2 as <- <-.
      destruct (met_direct _ _ _ _ _ _ (fragment_stands sch doc Ht Hf _ _ _ G1) D1 D2 K) as [E|(m0 & A & B)]; [now left|].
      right. exists m0. split; [|exact B]. destruct A as [A|A]; [now left|discriminate].
    - pose proof (Hclosed _ I) as X. cbn in X.
      destruct (fields_and_fragments sch (type_by_name sch tc1) s1) as [m1 n1] eqn:F1.
      destruct (fields_and_fragments sch (type_by_name sch tc2) s2) as [m2 n2] eqn:F2.
      destruct (fields_ok _ _ _ _ _ F1) as (H1 & _). destruct (fields_ok _ _ _ _ _ F2) as (H2 & _).
      right. exists m'. split; [exact M|]. destruct (X _ _ _ _ _ _ _ _ G1 G2 F1 F2) as [Y|Y].
      + left. apply (Y (response_name f)); [apply H1|apply H2]; now split.
      + right. apply (Y (response_name f)); [apply H2|apply H1]; now split.
  Qed.

  Lemma met_within : forall p set r f s g, stands sch doc p set -> collected sch doc p set r f -> collected sch doc p set s g ->
    response_name f = response_name g -> met false r f s g.
  Proof.
    intros p set r f s g S C1 C2 K.
    destruct (fields_and_fragments sch p set) as [m1 n1] eqn:F.
    destruct (set_justified _ _ S _ _ F) as (A1 & A2 & A3). destruct (fields_ok _ _ _ _ _ F) as (_ & N & _).
    destruct (collected_split _ _ _ _ C1 S) as [D1|(a & tc1 & s1 & P1 & G1 & D1)];
      destruct (collected_split _ _ _ _ C2 S) as [D2|(b & tc2 & s2 & P2 & G2 & D2)].
    - exact (met_direct _ _ _ _ _ _ S D1 D2 K).
    - apply N in P2. exact (met_fragment _ _ _ _ _ _ _ _ _ _ _ _ F (A2 _ P2) G2 D1 D2 K).
    - apply N in P1. apply met_sym. exact (met_fragment _ _ _ _ _ _ _ _ _ _ _ _ F (A2 _ P1) G1 D2 D1 (eq_sym K)).
    - apply N in P1, P2. destruct (later_all _ n1 a b P1 P2) as [E|[I|I]].
      + exact (met_fragments _ a b _ _ _ _ _ _ _ _ (or_introl E) G1 G2 D1 D2 K).
      + exact (met_fragments _ a b _ _ _ _ _ _ _ _ (A3 _ _ I) G1 G2 D1 D2 K).
      + apply met_sym. exact (met_fragments _ b a _ _ _ _ _ _ _ _ (A3 _ _ I) G2 G1 D2 D1 (eq_sym K)).
  Qed.
  Lemma met_between : forall m p1 s1 p2 s2 r f s g, js sch doc C m p1 s1 p2 s2 -> stands sch doc p1 s1 -> stands sch doc p2 s2 ->
    collected sch doc p1 s1 r f -> collected sch doc p2 s2 s g -> response_name f = response_name g -> met m r f s g.
  Proof.
    intros m p1 s1 p2 s2 r f s g J S1 S2 C1 C2 K. inversion J as [? ? ? ? ? m1 n1 m2 n2 F1 F2 A1 A2 A3 A4]; subst.
    destruct (fields_ok _ _ _ _ _ F1) as (H1 & N1 & _). destruct (fields_ok _ _ _ _ _ F2) as (H2 & N2 & _).
    destruct (collected_split _ _ _ _ C1 S1) as [D1|(a & tc1 & t1 & P1 & G1 & D1)];
      destruct (collected_split _ _ _ _ C2 S2) as [D2|(b & tc2 & t2 & P2 & G2 & D2)].
    - right. exists m. split; [destruct m; tauto|]. left. apply (A1 (response_name f)); [apply H1|apply H2]; now split.
    - apply N2 in P2. exact (met_fragment _ _ _ _ _ _ _ _ _ _ _ _ F1 (A2 _ P2) G2 D1 D2 K).
    - apply N1 in P1. apply met_sym. exact (met_fragment _ _ _ _ _ _ _ _ _ _ _ _ F2 (A3 _ P1) G1 D2 D1 (eq_sym K)).
    - apply N1 in P1. apply N2 in P2. exact (met_fragments _ a b _ _ _ _ _ _ _ _ (A4 _ _ P1 P2) G1 G2 D1 D2 K).
  Qed.

  Lemma listless_below : forall p set r f, collected sch doc p set r f -> stands sch doc p set -> listless (GObj (f_args f)).
  Proof.
    intros p set r f H. induction H as [p set al n args ds sub I|p set tc ds sub q r f I U H IH|p set k ds tc sub q r f I F T H IH]; intros S.
    - exact (Hl _ _ _ _ _ _ _ S I).
    - apply IH. exact (stands_inline _ _ _ _ _ _ _ _ S I U).
    - apply IH. exact (stands_fragment _ _ _ _ _ _ F T).
  Qed.
  Definition from (r : option tdef) (f : field) : Prop := exists p set, stands sch doc p set /\ collected sch doc p set r f.
  Lemma from_inside : forall r f, from r f -> forall q, inside sch r (f_name f) q -> stands sch doc q (f_sub f).
  Proof. intros r f (p & set & S & H). exact (proj1 (collected_below sch doc Ha _ _ _ _ H S)). Qed.
  Lemma from_args : forall r f, from r f -> tidy (GObj (f_args f)) /\ listless (GObj (f_args f)).
  Proof.
    intros r f (p & set & S & H). split; [exact (proj2 (collected_below sch doc Ha _ _ _ _ H S))|exact (listless_below _ _ _ _ H S)].
  Qed.
  Lemma shape_refl : forall t, same_shape sch t t.
  Proof. induction t; constructor; assumption. Qed.
  Lemma collected_nonempty : forall p set r f, collected sch doc p set r f -> set <> [].
  Proof. intros p set r f H. inversion H; intros ->; contradiction. Qed.

  Lemma jf_no_clash_local : forall m m0 r f s g (P : Prop), (m0 = false \/ m = true) -> (m = true <-> P) ->
    jf sch doc C m0 (ent r f) (ent s g) -> from r f -> from s g ->
    (~ P -> ~ apart r s -> f_name f = f_name g /\ same_args (f_args f) (f_args g))
    /\ (forall t u, declares r (f_name f) t -> declares s (f_name g) u -> same_shape sch t u).
  Proof.
    intros m m0 r f s g P M E J Fr Fs. inversion J as [? ? ? A1 A2 A3]; subst. cbn in *. split.
    - intros NP NA. assert (X : exclusive m0 r s = false).
      { destruct (exclusive m0 r s) eqn:X; [|reflexivity]. exfalso.
        destruct M as [-> |M]; [apply NA; now apply apart_ok|tauto]. }
      destruct (A1 X) as [N G]. split; [exact N|]. destruct (from_args _ _ Fr) as [T1 L1]. destruct (from_args _ _ Fs) as [T2 _].
      now apply same_args_ok.
    - intros t u D1 D2. apply declares_ok in D1, D2. apply shape_ok; [exact Ht|]. exact (A2 _ _ D1 D2).
  Qed.
  Lemma jf_below : forall m m0 r f s g (P : Prop), (m0 = false \/ m = true) -> (m = true <-> P) ->
    jf sch doc C m0 (ent r f) (ent s g) -> from r f -> from s g ->
    forall p' q' r' a s' b, inside sch r (f_name f) p' -> inside sch s (f_name g) q' ->
      collected sch doc p' (f_sub f) r' a -> collected sch doc q' (f_sub g) s' b -> response_name a = response_name b ->
      met (exclusive m r s) r' a s' b.
  Proof.
    intros m m0 r f s g P M E J Fr Fs p' q' r' a s' b I1 I2 C1 C2 K. inversion J as [? ? ? A1 A2 A3]; subst. cbn in *.
    specialize (A3 (collected_nonempty _ _ _ _ C1) (collected_nonempty _ _ _ _ C2)).
    pose proof (from_inside _ _ Fr _ I1) as S1. pose proof (from_inside _ _ Fs _ I2) as S2.
    apply inside_ok in I1, I2; try exact Ht. subst p' q'.
    destruct (met_between _ _ _ _ _ _ _ _ _ A3 S1 S2 C1 C2 K) as [X|(m1 & X & Y)]; [now left|]. right. exists m1. split; [|exact Y].
    destruct X as [X|X]; [now left|]. destruct M as [-> | ->]; [|right; reflexivity].
    right. destruct m; [reflexivity|exact X].
  Qed.

  Lemma met_no_clash : forall P r f s g, clash sch doc P r f s g -> forall m, (m = true <-> P) -> met m r f s g -> from r f -> from s g -> False.
  Proof.
    intros P r f s g H.
    induction H as [P r f s g N A K|P r f s g N A K|P r f s g t u D1 D2 K|P r f s g p' q' k r' a s' b I1 I2 C1 C2 K1 K2 H IH];
      intros m E M Fr Fs.
    - destruct M as [[-> ->]|(m0 & B & [J|J])]; [congruence| |].
      + destruct (jf_no_clash_local _ _ _ _ _ _ P B E J Fr Fs) as [X _]. now apply K, X.
      + destruct (jf_no_clash_local _ _ _ _ _ _ P B E J Fs Fr) as [X _].
        destruct X as [X _]; [exact N|intros Y; apply A; now apply apart_sym|]. congruence.
    - destruct M as [[-> ->]|(m0 & B & [J|J])]; [apply K, same_refl| |].
      + destruct (jf_no_clash_local _ _ _ _ _ _ P B E J Fr Fs) as [X _]. now apply K, X.
      + destruct (jf_no_clash_local _ _ _ _ _ _ P B E J Fs Fr) as [X _].
        destruct X as [_ X]; [exact N|intros Y; apply A; now apply apart_sym|]. apply K. now apply same_sym.
    - destruct M as [[-> ->]|(m0 & B & [J|J])].
      + apply K. apply declares_ok in D1, D2. assert (t = u) as -> by congruence. apply shape_refl.
      + destruct (jf_no_clash_local _ _ _ _ _ _ P B E J Fr Fs) as [_ X]. now apply K, X.
      + destruct (jf_no_clash_local _ _ _ _ _ _ P B E J Fs Fr) as [_ X]. apply K, shape_sym. now apply X.
    - apply key_ok in K1, K2. assert (K : response_name a = response_name b) by congruence.
      assert (F1 : from r' a) by (exists p', (f_sub f); split; [exact (from_inside _ _ Fr _ I1)|exact C1]).
      assert (F2 : from s' b) by (exists q', (f_sub g); split; [exact (from_inside _ _ Fs _ I2)|exact C2]).
      apply (IH (exclusive m r s)); [now apply exclusive_ok| |exact F1|exact F2].
      destruct M as [[-> ->]|(m0 & B & [J|J])].
      + apply inside_ok in I1; [|exact Ht]. pose proof I2 as I2'. apply inside_ok in I2'; [|exact Ht]. assert (p' = q') as -> by congruence.
        destruct (met_within _ _ _ _ _ _ (from_inside _ _ Fs _ I2) C1 C2 K) as [X|(m1 & X & Y)]; [now left|].
        right. exists m1. split; [|exact Y]. destruct X as [X|X]; [now left|discriminate].
      + exact (jf_below _ _ _ _ _ _ P B E J Fr Fs _ _ _ _ _ _ I1 I2 C1 C2 K).
      + rewrite exclusive_sym. apply met_sym.
        exact (jf_below _ _ _ _ _ _ P B E J Fs Fr _ _ _ _ _ _ I2 I1 C2 C1 (eq_sym K)).
  Qed.
  Lemma no_clash : ~ document_clash sch doc.
  Proof.
    intros (p & set & r & f & s & g & k & S & C1 & C2 & K1 & K2 & L). apply key_ok in K1, K2.
    apply (met_no_clash _ _ _ _ _ L false).
    - split; [discriminate|tauto].
    - apply (met_within _ _ _ _ _ _ S C1 C2). congruence.
    - exists p, set. now split.
    - exists p, set. now split.
  Qed.
End Complete.

Lemma silence_is_right : forall sch doc n, unique_types sch -> unique_fragments doc -> known_conditions sch doc ->
  tidy_arguments sch doc -> listless_arguments sch doc -> flat doc ->
  validate sch doc n = Some [] -> ~ document_clash sch doc.
Proof.
  intros sch doc n Ht Hf Hc Ha Hl Hflat R. destruct (validate_ran sch doc Hf Hflat n R) as (C & W & K).
  exact (no_clash sch doc Ht Hf Hc Ha Hl Hflat C W K).
Qed.
