(** Proofs about replacing groups of fetches in a parallel node. *)
From Coq Require Import String List NArith Bool Arith Lia Permutation.
From Verif Require Import StrOrd StrUtil Ast AstHashModel TraverseModel RewriteModel EntityModel EntityBatch ExecModel QplanModel QplanSpec QplanGroup.
Import ListNotations.
Local Open Scope nat_scope.
Local Open Scope list_scope.

Lemma incl_perm {A} (l1 : list A) : forall l2, NoDup l1 -> incl l1 l2 -> exists rest, Permutation l2 (rest ++ l1).
Proof.
  induction l1 as [|a l1 IH]; intros l2 N I; [exists l2; rewrite app_nil_r; apply Permutation_refl|].
  inversion N as [|? ? N1 N2]; subst. destruct (in_split a l2 (I a (or_introl eq_refl))) as (x & y & ->).
  destruct (IH (x ++ y) N2) as [rest P].
  - intros z Hz. assert (Hz' : In z (x ++ a :: y)) by (apply I; right; exact Hz). apply in_app_iff in Hz'. apply in_or_app.
    destruct Hz' as [H|[->|H]]; [left; exact H|contradiction|right; exact H].
  - exists rest. etransitivity; [symmetry; apply Permutation_middle|]. etransitivity; [apply perm_skip, P|]. apply Permutation_middle.
Qed.
Lemma NoDup_app_r {A} (l1 l2 : list A) : NoDup (l1 ++ l2) -> NoDup l2.
Proof. induction l1 as [|a l1 IH]; intros H; [exact H|]. inversion H; subst. auto. Qed.
Lemma NoDup_app_l {A} (l1 l2 : list A) : NoDup (l1 ++ l2) -> NoDup l1.
Proof.
  induction l1 as [|a l1 IH]; intros H; [constructor|]. inversion H as [|? ? H1 H2]; subst. constructor; [|auto].
  intros I. apply H1, in_or_app. left. exact I.
Qed.
Lemma NoDup_app_disj {A} (l1 l2 : list A) x : NoDup (l1 ++ l2) -> In x l1 -> In x l2 -> False.
Proof.
  induction l1 as [|a l1 IH]; intros H I J; [destruct I|]. inversion H as [|? ? H1 H2]; subst. destruct I as [<-|I]; [|apply IH; assumption].
  apply H1, in_or_app. right. exact J.
Qed.
Lemma all_some_ok {A B} (f : A -> option B) (P : A -> B -> Prop) l : (forall a, In a l -> exists b, f a = Some b /\ P a b) ->
  exists r, all_some (map f l) = Some r /\ Forall2 P l r.
Proof.
  induction l as [|a l IH]; intros H; [exists []; split; [reflexivity|constructor]|]. cbn [map all_some].
  destruct (H a (or_introl eq_refl)) as (b & E & Pb). destruct IH as (r & Er & Fr); [intros x I; apply H; right; exact I|].
  rewrite E, Er. exists (b :: r). split; [reflexivity|constructor; assumption].
Qed.
Lemma lookup_in {A} i (l : list (nat * A)) a : lookup i l = Some a -> In (i, a) l.
Proof.
  induction l as [|[j b] l IH]; cbn; [discriminate|]. destruct (Nat.eqb i j) eqn:E; [|auto]. intros H. injection H as <-. apply Nat.eqb_eq in E. left. congruence.
Qed.
Lemma lookup_none {A} i (l : list (nat * A)) : ~ In i (map fst l) -> lookup i l = None.
Proof.
  induction l as [|[j b] l IH]; cbn; intros H; [reflexivity|]. destruct (Nat.eqb i j) eqn:E; [exfalso; apply H; left; symmetry; apply Nat.eqb_eq, E|].
  apply IH. intros I. apply H. right. exact I.
Qed.
Lemma lookup_some {A} i a (l : list (nat * A)) : NoDup (map fst l) -> In (i, a) l -> lookup i l = Some a.
Proof.
  induction l as [|[j b] l IH]; cbn; intros N I; [destruct I|]. inversion N as [|? ? N1 N2]; subst. destruct I as [E|I].
  - injection E as -> ->. rewrite Nat.eqb_refl. reflexivity.
  - destruct (Nat.eqb i j) eqn:E; [|apply IH; assumption]. apply Nat.eqb_eq in E. subst j. exfalso. apply N1.
    apply (in_map fst) in I. exact I.
Qed.
Lemma lookup_perm {A} i (l l' : list (nat * A)) : NoDup (map fst l) -> Permutation l l' -> lookup i l = lookup i l'.
Proof.
  intros N P. assert (N' : NoDup (map fst l')) by (eapply Permutation_NoDup; [apply Permutation_map, P|exact N]).
  destruct (lookup i l) as [a|] eqn:E.
  - apply lookup_in in E. symmetry. apply lookup_some; [exact N'|]. eapply Permutation_in; eassumption.
  - destruct (lookup i l') as [a|] eqn:E'; [|reflexivity]. apply lookup_in in E'. apply Permutation_sym in P.
    apply (Permutation_in _ P) in E'. apply (lookup_some i a l N) in E'. congruence.
Qed.
Lemma existsb_perm {A} (f : A -> bool) l l' : Permutation l l' -> existsb f l = existsb f l'.
Proof.
  intros P. destruct (existsb f l) eqn:E.
  - symmetry. apply existsb_exists in E. destruct E as (x & I & H). apply existsb_exists. exists x. split; [eapply Permutation_in; eassumption|exact H].
  - destruct (existsb f l') eqn:E'; [|reflexivity]. apply existsb_exists in E'. destruct E' as (x & I & H).
    rewrite <- E. apply existsb_exists. exists x. split; [eapply Permutation_in; [symmetry; exact P|exact I]|exact H].
Qed.
Lemma all_some_perm {A} (l l' : list (option A)) : Permutation l l' -> forall r, all_some l = Some r ->
  exists r', all_some l' = Some r' /\ Permutation r r'.
Proof.
  assert (C : forall (a : option A) l r, all_some (a :: l) = Some r -> exists x s, a = Some x /\ all_some l = Some s /\ r = x :: s).
  { intros [a|] l0 r E; cbn in E; [|discriminate E]. destruct (all_some l0) as [s|]; [|discriminate E]. injection E as <-. eauto. }
  assert (B : forall (x : A) (l : list (option A)) s, all_some l = Some s -> all_some (Some x :: l) = Some (x :: s)).
  { intros x l0 s E. cbn. rewrite E. reflexivity. }
  induction 1 as [|a l l' P IH|a b l|l l' l'' P IH P' IH']; intros r E.
  - exists r. split; [exact E|apply Permutation_refl].
  - destruct (C a l r E) as (x & s & -> & Es & ->). destruct (IH s Es) as (r' & E' & Pr). exists (x :: r').
    split; [apply B, E'|apply perm_skip, Pr].
  - destruct (C b _ r E) as (x & s & -> & Es & ->). destruct (C a _ s Es) as (y & t & -> & Et & ->).
    exists (y :: x :: t). split; [|apply perm_swap]. apply B, B, Et.
  - destruct (IH r E) as (r1 & E1 & P1). destruct (IH' r1 E1) as (r2 & E2 & P2). exists r2. split; [exact E2|]. etransitivity; eassumption.
Qed.

Section P.
  Variables HF HX : list token -> N.
  Variable info : nat -> option (list sel * list vardef * list string).
  Variable alike : list sel -> list sel -> bool.

  Lemma vars_ok_perm l l' vs : Permutation l l' -> vars_ok (l, vs) -> vars_ok (l', vs).
  Proof.
    intros P [H1 H2]. split; [|exact H2]. cbn [fst snd] in *. intros v. rewrite <- H1.
    split; intros (c & I & J); exists c; (split; [|exact J]); eapply Permutation_in; try exact I; [symmetry|]; exact P.
  Qed.
  Lemma discerning_incl cs cs' : incl cs cs' -> discerning HF HX alike cs' -> discerning HF HX alike cs.
  Proof. intros I D a b Ia Ib. apply D; apply I; assumption. Qed.
  Lemma same_work_perm_l g g' b : Permutation g g' -> same_work g b -> same_work g' b.
  Proof.
    intros P [H1 H2]. split; [|exact H2]. intros t. rewrite <- H1. split; intros I; eapply Permutation_in; try exact I; apply Permutation_map; [symmetry|]; exact P.
  Qed.

  Definition group_ok (g : list cand * list vardef) : Prop :=
    vars_ok g /\ fst g <> [] /\ forall c c', In c (fst g) -> In c' (fst g) -> k_service c = k_service c'.
  Definition pairs_with (gb : list cand * built) (r : nat * built * list nat) : Prop :=
    exists c l, fst gb = c :: l /\ r = (k_index c, snd gb, map k_index (c :: l)).
  Definition outcome_of (cs : list cand) (gb : list cand * built) : Prop :=
    well_built (fst gb) (snd gb) /\ (discerning HF HX alike cs -> same_work (fst gb) (snd gb)).

  Lemma replacement_ok cs g : group_ok g -> incl (fst g) cs ->
    exists r, replacement HF HX alike g = Some r /\
      exists gb, pairs_with gb r /\ outcome_of cs gb /\ Permutation (fst gb) (fst g).
  Proof.
    intros (V & Ne & Sv) Sub. pose proof (by_shape_perm HF HX (fst g)) as P. pose proof (by_shape_ok HF HX (fst g)) as S.
    assert (Ns : by_shape HF HX (fst g) <> []).
    { intros E. rewrite E in P. cbn in P. apply Permutation_nil in P. contradiction. }
    destruct (build_ok HF HX info alike (by_shape HF HX (fst g)) (snd g) S Ns) as (b & Eb & W & Sw).
    - apply (vars_ok_perm (fst g)); [symmetry; exact P|]. destruct g; exact V.
    - intros c c' I I'. apply Sv; eapply Permutation_in; try eassumption.
    - unfold replacement. cbv zeta. destruct (by_shape HF HX (fst g)) as [|[|c l] gs]; [contradiction|inversion S as [|? ? F]; destruct F|].
      rewrite Eb.
      eexists. split; [reflexivity|]. exists (concat ((c :: l) :: gs), b). split; [|split].
      + exists c, (l ++ concat gs). split; reflexivity.
      + split; [exact W|]. intros D. apply Sw. apply (discerning_incl _ cs); [|exact D]. intros x Ix. apply Sub.
        eapply Permutation_in; eassumption.
      + exact P.
  Qed.

  Lemma filter_flat_perm {A B} (f : A -> list B) (p : A -> bool) l : exists rest,
    Permutation (flat_map f l) (flat_map f (filter p l) ++ rest).
  Proof.
    induction l as [|a l [rest IH]]; [exists []; apply Permutation_refl|]. cbn [flat_map filter]. destruct (p a).
    - exists rest. cbn [flat_map]. rewrite <- app_assoc. apply Permutation_app_head, IH.
    - exists (f a ++ rest). etransitivity; [apply Permutation_app_head, IH|]. rewrite !app_assoc. apply Permutation_app_tail, Permutation_app_comm.
  Qed.
  Lemma groups_of_ok m : Forall (fun sl => forall c, In c (snd sl) -> k_service c = fst sl) m ->
    Forall own_vars (flat_map snd m) ->
    Forall group_ok (groups_of m) /\ exists rest, Permutation (flat_map snd m) (flat_map fst (groups_of m) ++ rest).
  Proof.
    unfold groups_of. induction m as [|[s l] m IH]; intros Sv Ow; [split; [constructor|exists []; apply Permutation_refl]|].
    inversion Sv as [|? ? S1 S2]; subst. cbn [fst snd] in S1. cbn [flat_map snd] in *. apply Forall_app in Ow. destruct Ow as [O1 O2].
    destruct (IH S2 O2) as [G [rest P]]. cbn [fst snd]. set (tail := flat_map _ m) in *. destruct (Nat.ltb (length l) 2).
    - cbn [app]. split; [exact G|]. exists (l ++ rest). etransitivity; [apply Permutation_app_head, P|].
      rewrite !app_assoc. apply Permutation_app_tail, Permutation_app_comm.
    - pose proof (by_variables_ok l O1) as V. pose proof (by_variables_perm l) as Pv.
      destruct (filter_flat_perm fst (fun g => negb (Nat.ltb (length (fst g)) 2)) (by_variables l)) as [rest1 P1].
      split.
      + apply Forall_app. split; [|exact G]. rewrite Forall_forall in *. intros g Ig. apply filter_In in Ig. destruct Ig as [Ig Len].
        assert (In_l : forall c, In c (fst g) -> In c l).
        { intros c Ic. eapply Permutation_in; [exact Pv|]. apply in_flat_map. eauto. }
        split; [apply V, Ig|]. split.
        * intros E. rewrite E in Len. discriminate Len.
        * intros c c' Ic Ic'. rewrite (S1 c (In_l c Ic)), (S1 c' (In_l c' Ic')). reflexivity.
      + exists (rest1 ++ rest). rewrite flat_map_app. rewrite <- app_assoc.
        etransitivity; [apply Permutation_app; [symmetry; exact Pv|exact P]|].
        etransitivity; [apply Permutation_app_tail, P1|]. rewrite <- app_assoc. apply Permutation_app_head.
        rewrite !app_assoc. apply Permutation_app_tail, Permutation_app_comm.
  Qed.

  Lemma replacements_ok cs m : Permutation (flat_map snd m) cs ->
    Forall (fun sl => forall c, In c (snd sl) -> k_service c = fst sl) m -> Forall own_vars cs ->
    exists rs bs, replacements_of HF HX alike m = Some rs /\ Forall2 pairs_with bs rs /\ Forall (outcome_of cs) bs /\
      exists rest, Permutation cs (flat_map fst bs ++ rest).
  Proof.
    intros P Sv Ow. destruct (groups_of_ok m Sv) as [G [rest Pr]].
    { eapply Permutation_Forall; [symmetry; exact P|exact Ow]. }
    assert (Sub : forall g, In g (groups_of m) -> incl (fst g) cs).
    { intros g Ig c Ic. eapply Permutation_in; [exact P|]. eapply Permutation_in; [symmetry; exact Pr|]. apply in_or_app. left.
      apply in_flat_map. eauto. }
    destruct (all_some_ok (replacement HF HX alike)
      (fun g r => exists gb, pairs_with gb r /\ outcome_of cs gb /\ Permutation (fst gb) (fst g)) (groups_of m)) as (rs & Er & F).
    { intros g Ig. apply replacement_ok; [|apply Sub, Ig]. rewrite Forall_forall in G. apply G, Ig. }
    assert (B : exists bs, Forall2 pairs_with bs rs /\ Forall (outcome_of cs) bs /\
                  Permutation (flat_map fst bs) (flat_map fst (groups_of m))).
    { clear - F. induction F as [|g r gs rs (gb & A & B & C) F (bs & H1 & H2 & H3)].
      - exists []. split; [constructor|]. split; [constructor|apply Permutation_refl].
      - exists (gb :: bs). split; [constructor; assumption|]. split; [constructor; assumption|].
        cbn [flat_map]. apply Permutation_app; assumption. }
    destruct B as (bs & H1 & H2 & H3). exists rs, bs. split; [exact Er|]. split; [exact H1|]. split; [exact H2|].
    exists rest. etransitivity; [symmetry; exact P|]. etransitivity; [exact Pr|]. apply Permutation_app_tail. symmetry. exact H3.
  Qed.

  Definition place_of (c : cand) : nat * node := (k_index c, node_of c).
  Definition swap (rs : list (nat * built * list nat)) (t : nat * node) : list node :=
    match lookup (fst t) (map fst rs) with
    | Some b => [NBatch (bt_node b)]
    | None => if existsb (fun r => existsb (Nat.eqb (fst t)) (snd r)) rs then [] else [snd t]
    end.
  Lemma pairs_firsts bs rs : Forall2 pairs_with bs rs ->
    incl (map fst (map fst rs)) (map k_index (flat_map fst bs)) /\
    (forall x, existsb (fun r => existsb (Nat.eqb x) (snd r)) rs = true <-> In x (map k_index (flat_map fst bs))).
  Proof.
    induction 1 as [|gb r bs rs (c & l & E & ->) F [IH1 IH2]]; [split; [intros x []|intros x; split; [discriminate|intros []]]|].
    cbn [flat_map map fst snd]. rewrite map_app, E. split.
    - intros x [<-|I]; apply in_or_app; [left; left; reflexivity|right; apply IH1, I].
    - intros x. cbn [existsb snd]. rewrite orb_true_iff, IH2, in_app_iff. cbn [map]. split.
      + intros [H|H]; [left|right; exact H]. change (existsb (Nat.eqb x) (k_index c :: map k_index l) = true) in H. apply existsb_exists in H. destruct H as (y & I & Ey). apply Nat.eqb_eq in Ey. subst y. exact I.
      + intros [H|H]; [left|right; exact H]. change (existsb (Nat.eqb x) (k_index c :: map k_index l) = true). apply existsb_exists. exists x. split; [exact H|apply Nat.eqb_refl].
  Qed.
  Lemma swap_taken all bs rs : Forall2 pairs_with bs rs -> incl rs all -> NoDup (map k_index (flat_map fst bs)) ->
    (forall c r, In c (flat_map fst bs) -> In r all -> In (k_index c) (snd r) -> In r rs) ->
    NoDup (map fst (map fst all)) ->
    (forall r, In r all -> In (fst (fst r)) (snd r)) ->
    flat_map (swap all) (map place_of (flat_map fst bs)) = map (fun gb => NBatch (bt_node (snd gb))) bs.
  Proof.
    intros F. induction F as [|gb r bs rs (c & l & E & Er) F IH]; intros Sub N Own Nf Hd; [reflexivity|].
    cbn [flat_map] in *. rewrite map_app in *. rewrite flat_map_app. cbn [map]. rewrite E in *.
    destruct (pairs_firsts bs rs F) as [Pf Pe].
    assert (Rest : flat_map (swap all) (map place_of (flat_map fst bs)) = map (fun gb => NBatch (bt_node (snd gb))) bs).
    { apply IH; try assumption.
      - intros x I. apply Sub. right. exact I.
      - eapply NoDup_app_r. exact N.
      - intros c' r' Ic Ir Ik. destruct (Own c' r') as [<-|H]; try assumption; [apply in_or_app; right; exact Ic|].
        exfalso. subst r. cbn [snd] in Ik. eapply NoDup_app_disj; [exact N|exact Ik|apply in_map, Ic]. }
    rewrite Rest. clear Rest IH. cbn [map flat_map]. unfold swap at 1. cbn [place_of fst].
    assert (L : lookup (k_index c) (map fst all) = Some (snd gb)).
    { apply lookup_some; [exact Nf|]. apply in_map_iff. exists r. split; [rewrite Er; reflexivity|]. apply Sub. left. reflexivity. }
    rewrite L. cbn [app]. f_equal.
    replace (flat_map (swap all) (map place_of l)) with (@nil node); [reflexivity|]. symmetry.
    assert (Z : forall c', In c' l -> swap all (place_of c') = []).
    { intros c' Ic. unfold swap. cbn [place_of fst snd].
      assert (Ln : lookup (k_index c') (map fst all) = None).
      { apply lookup_none. intros I. apply in_map_iff in I. destruct I as ([i b] & Ei & I). cbn [fst] in Ei. subst i.
        apply in_map_iff in I. destruct I as (r' & Er' & I).
        assert (Ik : In (k_index c') (snd r')) by (rewrite <- (Hd r' I) || (specialize (Hd r' I); rewrite Er' in Hd; exact Hd)).
        destruct (Own c' r') as [<-|H]; try assumption; [apply in_or_app; left; right; exact Ic| |].
        - rewrite Er in Er'. cbn [fst] in Er'. injection Er' as Ec _. cbn [map app] in N. inversion N as [|? ? N1 _]; subst.
          apply N1. rewrite Ec. apply in_or_app. left. apply in_map. exact Ic.
        - assert (I2 : In (k_index c') (map k_index (flat_map fst bs))).
          { apply Pf. apply in_map_iff. exists (fst r'). rewrite Er'. split; [reflexivity|]. rewrite <- Er'. apply in_map. exact H. }
          eapply NoDup_app_disj; [exact N| |exact I2]. right. apply in_map. exact Ic. }
      rewrite Ln. replace (existsb (fun r0 => existsb (Nat.eqb (k_index c')) (snd r0)) all) with true; [reflexivity|].
      symmetry. apply existsb_exists. exists r. split; [apply Sub; left; reflexivity|]. apply existsb_exists. exists (k_index c').
      split; [rewrite Er; cbn [snd]; right; apply in_map; exact Ic|apply Nat.eqb_refl]. }
    clear - Z. induction l as [|x l IH]; [reflexivity|]. cbn [map flat_map]. rewrite Z by (left; reflexivity). cbn [app]. apply IH.
    intros c' I. apply Z. right. exact I.
  Qed.

  Lemma pairs_nodup bs rs : Forall2 pairs_with bs rs -> NoDup (map k_index (flat_map fst bs)) -> NoDup (map fst (map fst rs)).
  Proof.
    induction 1 as [|gb r bs rs (c & l & E & ->) F IH]; intros N; [constructor|]. cbn [flat_map map fst snd] in *.
    rewrite map_app, E in N. constructor.
    - intros I. destruct (pairs_firsts _ _ F) as [Pf _]. apply Pf in I. eapply NoDup_app_disj; [exact N| |exact I]. left. reflexivity.
    - apply IH. eapply NoDup_app_r. exact N.
  Qed.
  Lemma pairs_heads bs rs : Forall2 pairs_with bs rs -> forall r, In r rs -> In (fst (fst r)) (snd r).
  Proof. induction 1 as [|gb r bs rs (c & l & E & ->) F IH]; intros x I; [destruct I|]. destruct I as [<-|I]; [left; reflexivity|apply IH, I]. Qed.

  Lemma apply_ok nodes rs bs : Forall2 pairs_with bs rs -> (exists rest, Permutation (candidates info nodes) (flat_map fst bs ++ rest)) ->
    Forall (fun gb => well_built (fst gb) (snd gb)) bs ->
    regrouped nodes (apply_replacements rs nodes) bs.
  Proof.
    intros F [rest P] W. set (T := map place_of (flat_map fst bs)).
    assert (Nk : NoDup (map k_index (flat_map fst bs))).
    { eapply NoDup_app_l. rewrite <- map_app. eapply Permutation_NoDup; [apply Permutation_map; exact P|]. apply candidates_nodup. }
    assert (NT : NoDup (map fst T)) by (unfold T; rewrite map_map; exact Nk).
    assert (NT' : NoDup T) by (eapply NoDup_map_inv; exact NT).
    assert (Sub : incl T (enumerate 0 nodes)).
    { intros t It. unfold T in It. apply in_map_iff in It. destruct It as (c & <- & Ic). apply (candidates_in info).
      eapply Permutation_in; [symmetry; exact P|]. apply in_or_app. left. exact Ic. }
    destruct (incl_perm T (enumerate 0 nodes) NT' Sub) as [K PK].
    exists (map snd K). split; [|split; [|exact W]].
    - replace (map node_of (flat_map fst bs)) with (map snd T) by (unfold T; rewrite map_map; reflexivity).
      rewrite <- map_app. etransitivity; [|apply Permutation_map; exact PK]. rewrite enumerate_snd. apply Permutation_refl.
    - unfold apply_replacements. fold (swap rs).
      change (Permutation (flat_map (swap rs) (enumerate 0 nodes)) (map snd K ++ map (fun gb => NBatch (bt_node (snd gb))) bs)).
      etransitivity; [apply (Permutation_flat_map (swap rs)), PK|]. rewrite flat_map_app.
      replace (flat_map (swap rs) K) with (map snd K).
      + apply Permutation_app_head. unfold T. rewrite (swap_taken rs bs rs F (incl_refl _) Nk); [apply Permutation_refl|auto| |].
        * eapply pairs_nodup; eassumption.
        * eapply pairs_heads; eassumption.
      + symmetry. assert (Dis : forall t, In t K -> ~ In (fst t) (map k_index (flat_map fst bs))).
        { intros t It I. assert (NE : NoDup (map fst (K ++ T))).
          { eapply Permutation_NoDup; [apply Permutation_map; exact PK|]. rewrite enumerate_fst. apply seq_NoDup. }
          rewrite map_app in NE. eapply NoDup_app_disj; [exact NE|apply in_map, It|]. unfold T. rewrite map_map. exact I. }
        clear - F Dis. destruct (pairs_firsts bs rs F) as [Pf Pe]. induction K as [|t K IH]; [reflexivity|]. cbn [map flat_map].
        rewrite IH by (intros t' I; apply Dis; right; exact I). specialize (Dis t (or_introl eq_refl)).
        unfold swap. rewrite lookup_none by (intros I; apply Dis, Pf, I).
        destruct (existsb (fun r => existsb (Nat.eqb (fst t)) (snd r)) rs) eqn:X; [exfalso; apply Dis, Pe, X|]. reflexivity.
  Qed.

  Lemma optimize_parallel_ok nodes : Forall own_vars (candidates info nodes) ->
    exists rs bs, replacements_of HF HX alike (by_subgraph (candidates info nodes)) = Some rs /\
      optimize_parallel HF HX info alike nodes = Some (apply_replacements rs nodes) /\
      Forall2 pairs_with bs rs /\ Forall (outcome_of (candidates info nodes)) bs /\
      (exists rest, Permutation (candidates info nodes) (flat_map fst bs ++ rest)) /\
      regrouped nodes (apply_replacements rs nodes) bs.
  Proof.
    intros Ow. destruct (replacements_ok (candidates info nodes) (by_subgraph (candidates info nodes)) (by_subgraph_perm _) (by_subgraph_service _) Ow)
      as (rs & bs & Er & F & O & Pr).
    exists rs, bs. split; [exact Er|]. split; [unfold optimize_parallel; rewrite Er; reflexivity|]. split; [exact F|]. split; [exact O|].
    split; [exact Pr|]. apply apply_ok; try assumption. eapply Forall_impl; [|exact O]. intros gb [H _]. exact H.
  Qed.

  Lemma groups_of_perm m m' : Permutation m m' -> Permutation (groups_of m) (groups_of m').
  Proof. intros P. apply Permutation_flat_map. exact P. Qed.
  (** the order in which the map of subgraphs is walked makes no difference *)
  Lemma subgraph_order nodes m rs' : Forall own_vars (candidates info nodes) ->
    Permutation (by_subgraph (candidates info nodes)) m -> replacements_of HF HX alike m = Some rs' ->
    optimize_parallel HF HX info alike nodes = Some (apply_replacements rs' nodes).
  Proof.
    intros Ow Pm E'. destruct (optimize_parallel_ok nodes Ow) as (rs & bs & Er & Eo & F & _ & [rest P] & _). rewrite Eo. f_equal.
    destruct (all_some_perm _ (map (replacement HF HX alike) (groups_of m)) (Permutation_map _ (groups_of_perm _ _ Pm)) rs Er) as (r2 & E2 & P2).
    unfold replacements_of in E'. rewrite E2 in E'. injection E' as <-.
    assert (Nk : NoDup (map k_index (flat_map fst bs))).
    { eapply NoDup_app_l. rewrite <- map_app. eapply Permutation_NoDup; [apply Permutation_map; exact P|]. apply candidates_nodup. }
    unfold apply_replacements. apply flat_map_ext. intros t.
    rewrite (lookup_perm (fst t) (map fst rs) (map fst r2)); [|eapply pairs_nodup; eassumption|apply Permutation_map, P2].
    rewrite (existsb_perm _ rs r2 P2). reflexivity.
  Qed.
End P.
