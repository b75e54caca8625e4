From Coq Require Import String List NArith ZArith Bool Lia PeanoNat.
From Verif Require Import Ast NormModel NormProofs OverlapModel OverlapSpec OverlapBase OverlapValues OverlapSteps OverlapSound.
Import ListNotations.
Local Open Scope string_scope.
Local Open Scope list_scope.

Section Top.
  Variable sch : list tdef.
  Variable doc : list definition.
  Hypothesis Ht : unique_types sch.

  Lemma sets_stand : forall x p set, In x set -> stands sch doc p set ->
    forall y, In y (sets_one sch p x) -> stands sch doc (fst y) (snd y).
  Proof.
    induction x as [al n args ds sub IH|n ds|tc ds sub IH] using nsel_ind'; intros p set I S y; cbn [sets_one].
    - change (match p with Some t => field_by_name t n | None => None end) with (fdef p n).
      set (ty := type_of_def sch (fdef p n)).
      assert (S' : stands sch doc ty sub) by (apply (stands_field _ _ _ _ _ _ _ _ _ _ S I); now apply inside_ok).
      intros [<-|J]; [exact S'|]. apply in_flat_map in J. destruct J as (x & J & K).
      rewrite Forall_forall in IH. exact (IH _ J _ _ J S' _ K).
    - intros [].
    - set (ty := match tc with Some c => type_by_name sch c | None => p end).
      assert (S' : stands sch doc ty sub).
      { apply (stands_inline _ _ _ _ _ _ _ _ S I). destruct tc; cbn; [now apply type_by_name_ok|reflexivity]. }
      intros [<-|J]; [exact S'|]. apply in_flat_map in J. destruct J as (x & J & K).
      rewrite Forall_forall in IH. exact (IH _ J _ _ J S' _ K).
  Qed.
  Lemma sets_closed : forall x p y z, In y (sets_one sch p x) -> In z (snd y) -> incl (sets_one sch (fst y) z) (sets_one sch p x).
  Proof.
    induction x as [al n args ds sub IH|n ds|tc ds sub IH] using nsel_ind'; intros p y z; cbn [sets_one].
    - intros [<-|J] Iz w Iw; cbn [fst snd] in *; right; apply in_flat_map.
      + exists z. split; assumption.
      + apply in_flat_map in J. destruct J as (x & J & K). exists x. split; [exact J|]. rewrite Forall_forall in IH.
        exact (IH _ J _ _ _ K Iz w Iw).
    - intros [].
    - intros [<-|J] Iz w Iw; cbn [fst snd] in *; right; apply in_flat_map.
      + exists z. split; assumption.
      + apply in_flat_map in J. destruct J as (x & J & K). exists x. split; [exact J|]. rewrite Forall_forall in IH.
        exact (IH _ J _ _ _ K Iz w Iw).
  Qed.
  Definition root (d : definition) : option tdef * list nsel :=
    match d with
    | Frag _ tc set => (type_by_name sch tc, set)
    | Oper (Some r) set => (type_by_name sch r, set)
    | Oper None set => (None, set)
    end.
  Lemma sets_of_root : forall d, sets_of sch d = root d :: flat_map (sets_one sch (fst (root d))) (snd (root d)).
  Proof. intros [n tc set|[r|] set]; reflexivity. Qed.
  Lemma def_closed : forall d y z, In y (sets_of sch d) -> In z (snd y) -> incl (sets_one sch (fst y) z) (sets_of sch d).
  Proof.
    intros d y z. rewrite sets_of_root. intros [<-|J] Iz w Iw; right; apply in_flat_map.
    - exists z. split; assumption.
    - apply in_flat_map in J. destruct J as (x & J & K). exists x. split; [exact J|]. exact (sets_closed _ _ _ _ K Iz w Iw).
  Qed.
  Lemma root_stands : forall d, In d doc -> stands sch doc (fst (root d)) (snd (root d)).
  Proof.
    intros [n tc set|[r|] set] I; cbn.
    - apply (stands_fragment _ _ _ _ _ _ I). now apply type_by_name_ok.
    - apply (stands_operation _ _ _ _ _ I). now apply type_by_name_ok.
    - exact (stands_rootless _ _ _ I).
  Qed.
  Lemma sets_ok : forall y, In y (flat_map (sets_of sch) doc) <-> stands sch doc (fst y) (snd y).
  Proof.
    intros y. rewrite in_flat_map. split.
    - intros (d & I & J). rewrite sets_of_root in J. destruct J as [<-|J]; [exact (root_stands _ I)|].
      apply in_flat_map in J. destruct J as (x & J & K). exact (sets_stand _ _ _ J (root_stands _ I) _ K).
    - destruct y as [p set]. cbn [fst snd]. intros S.
      induction S as [n tc set p I T|r set p I T|set I|p set al n args ds sub q S IH I Q|p set tc ds sub q S IH I Q].
      + apply type_by_name_ok in T; [|exact Ht]. subst p. exists (Frag n tc set). split; [exact I|]. now left.
      + apply type_by_name_ok in T; [|exact Ht]. subst p. exists (Oper (Some r) set). split; [exact I|]. now left.
      + exists (Oper None set). split; [exact I|]. now left.
      + destruct IH as (d & Id & J). exists d. split; [exact Id|]. apply (def_closed _ _ _ J I).
        apply inside_ok in Q; [|exact Ht]. subst q. now left.
      + destruct IH as (d & Id & J). exists d. split; [exact Id|]. apply (def_closed _ _ _ J I).
        assert (q = match tc with Some c => type_by_name sch c | None => p end) as ->.
        { destruct tc; cbn in Q; [symmetry; now apply type_by_name_ok|exact Q]. }
        now left.
  Qed.

  Hypothesis Hf : unique_fragments doc.
  Hypothesis Hc : known_conditions sch doc.
  Hypothesis Ha : tidy_arguments sch doc.

  Lemma clash_false : forall p f q g, clash sch doc (false = true) p f q g -> clash sch doc False p f q g.
  Proof. intros p f q g C. apply (clash_iff _ _ _ _ _ _ _ C). split; [discriminate|tauto]. Qed.

  Lemma within_hits : forall fuel p set names m1 n1 st c st',
    fields_and_fragments sch p set = (m1, n1) -> stands sch doc p set -> incl names n1 ->
    within_fragments sch doc fuel m1 names st = Some (c, st') -> c <> [] -> hits sch doc false p set p set.
  Proof.
    intros fuel p set names m1 n1 st c st' F S. revert st c st'. destruct (fields_ok _ _ _ _ _ F) as (_ & A & U & _).
    pose proof (sound_all sch doc Ht Hf Hc Ha fuel) as (_ & _ & X3 & X4).
    induction names as [|a names IH]; intros st c st' L R N; cbn in R; [congruence|].
    apply incl_cons_inv in L. destruct L as [La L]. apply A in La.
    apply andthen_some in R; [|exact N]. destruct R as [(t & c1 & t' & R & N1)|(t & c1 & t' & R & N1)].
    { destruct (X3 _ _ _ _ _ _ R N1 U (map_good sch doc Ht Hc _ _ _ _ F S)) as (tc & sub & G & H).
      destruct (hits_of_map sch doc Ht Hc _ _ _ _ _ _ _ F S H) as (r & x & s & y & k & C1 & C2 & R1).
      exists r, x, s, y, k. split; [exact C1|]. split; [|exact R1]. exact (spread_collected sch doc Ht Hf Hc _ _ La _ _ _ _ _ S G C2). }
    apply andthen_some in R; [|exact N1]. destruct R as [(t1 & c2 & t1' & R & N2)|(t1 & c2 & t1' & R & N2)].
    { destruct (each_some _ _ _ _ _ _ R N2) as (b & u & c3 & u' & I & R3 & N3).
      destruct (X4 _ _ _ _ _ _ R3 N3) as (tc1 & s1 & tc2 & s2 & G1 & G2 & (r & x & s & y & k & C1 & C2 & R1)).
      apply L in I. apply A in I. exists r, x, s, y, k.
      split; [exact (spread_collected sch doc Ht Hf Hc _ _ La _ _ _ _ _ S G1 C1)|].
      split; [exact (spread_collected sch doc Ht Hf Hc _ _ I _ _ _ _ _ S G2 C2)|exact R1]. }
    exact (IH _ _ _ L R N2).
  Qed.

  Lemma no_false_alarm : forall fuel c, validate sch doc fuel = Some c -> c <> [] -> document_clash sch doc.
  Proof.
    intros fuel c. unfold validate. destruct (each _ _ _) as [[c' st]|] eqn:E; [|discriminate].
    intros H N. injection H as ->. destruct (each_some _ _ _ _ _ _ E N) as ([p set] & s1 & c1 & s2 & I & R & N1).
    apply sets_ok in I. cbn [fst snd] in I. unfold within_set in R. cbn [fst snd] in R.
    destruct (fields_and_fragments sch p set) as [m1 n1] eqn:F.
    apply andthen_some in R; [|exact N1]. destruct R as [(t & c2 & t' & R & N2)|(t & c2 & t' & R & N2)].
    - destruct (each_some _ _ _ _ _ _ R N2) as ([[k e1] e2] & u & c3 & u' & J & R3 & N3).
      destruct (fields_ok _ _ _ _ _ F) as (A & _ & U & _). apply within_in in J; [|exact U]. destruct J as [J1 J2].
      pose proof (sound_all sch doc Ht Hf Hc Ha fuel) as (X1 & _).
      pose proof (map_good sch doc Ht Hc _ _ _ _ F I) as G.
      pose proof (X1 _ _ _ _ _ _ _ R3 N3 (G _ _ J1) (G _ _ J2)) as C. apply A in J1, J2. destruct J1 as [K1 D1], J2 as [K2 D2].
      exists p, set, (e_parent e1), (e_field e1), (e_parent e2), (e_field e2), k.
      split; [exact I|]. split; [exact (proj1 (direct_collected sch doc Ht Hc _ _ _ D1 I))|].
      split; [exact (proj1 (direct_collected sch doc Ht Hc _ _ _ D2 I))|]. split; [now apply key_ok|]. split; [now apply key_ok|].
      now apply clash_false.
    - destruct (within_hits _ _ _ _ _ _ _ _ _ F I (incl_refl _) R N2) as (r & x & s & y & k & C1 & C2 & K1 & K2 & L).
      exists p, set, r, x, s, y, k. split; [exact I|]. split; [exact C1|]. split; [exact C2|]. split; [exact K1|]. split; [exact K2|].
      now apply clash_false.
  Qed.
End Top.
