(** The algebra of projection conditions. *)
From Coq Require Import String Ascii List NArith ZArith Arith Bool Lia.
From Verif Require Import StrOrd StrUtil JsonModel JsonWriterModel ProjModel.
Import ListNotations.
Local Open Scope string_scope.

Lemma smem_In x s : smem x s = true <-> In x s.
Proof.
  unfold smem. rewrite existsb_exists. split.
  - intros (y & H & E). apply String.eqb_eq in E. subst. exact H.
  - intros H. exists x. split; [exact H|apply String.eqb_refl].
Qed.
Lemma sinsert_In x y s : In x (sinsert y s) <-> x = y \/ In x s.
Proof.
  induction s as [|z s IH]; cbn; [intuition congruence|].
  destruct (String.compare y z) eqn:E; cbn.
  - apply String.compare_eq_iff in E. subst. intuition congruence.
  - intuition congruence.
  - rewrite IH. intuition congruence.
Qed.
Lemma sunion_In x a b : In x (sunion a b) <-> In x a \/ In x b.
Proof.
  unfold sunion. revert a. induction b as [|y b IH]; intros a; cbn; [intuition|].
  rewrite IH, sinsert_In. intuition congruence.
Qed.
Lemma smem_iff_eq x s y t : (In x s <-> In y t) -> smem x s = smem y t.
Proof.
  intros H. destruct (smem x s) eqn:E1, (smem y t) eqn:E2; try reflexivity; exfalso.
  - apply smem_In in E1. apply H in E1. apply smem_In in E1. congruence.
  - apply smem_In in E2. apply H in E2. apply smem_In in E2. congruence.
Qed.
Lemma smem_sinsert x y s : smem x (sinsert y s) = (String.eqb x y || smem x s)%bool.
Proof.
  apply Bool.eq_true_iff_eq. rewrite smem_In, sinsert_In, orb_true_iff, String.eqb_eq, smem_In. reflexivity.
Qed.
Lemma smem_sunion x a b : smem x (sunion a b) = (smem x a || smem x b)%bool.
Proof. apply Bool.eq_true_iff_eq. rewrite smem_In, sunion_In, orb_true_iff, !smem_In. reflexivity. Qed.
Lemma smem_sinter x a b : smem x (sinter a b) = (smem x a && smem x b)%bool.
Proof.
  apply Bool.eq_true_iff_eq. unfold sinter. rewrite smem_In, filter_In, andb_true_iff, !smem_In. reflexivity.
Qed.

Lemma matches_union a b t : tmatches (tunion a b) t = (tmatches a t || tmatches b t)%bool.
Proof.
  destruct a as [l|l], b as [r|r]; cbn [tunion tmatches].
  - destruct (String.eqb l r) eqn:E.
    + apply String.eqb_eq in E. subst. cbn. rewrite orb_diag. reflexivity.
    + cbn [tmatches]. rewrite !smem_sinsert. cbn. rewrite orb_false_r. apply orb_comm.
  - apply smem_sinsert.
  - rewrite smem_sinsert. apply orb_comm.
  - apply smem_sunion.
Qed.
Lemma matches_intersect a b t : tmatches (tintersect a b) t = (tmatches a t && tmatches b t)%bool.
Proof.
  destruct a as [l|l], b as [r|r]; cbn [tintersect tmatches].
  - destruct (String.eqb l r) eqn:E.
    + apply String.eqb_eq in E. subst. cbn. rewrite andb_diag. reflexivity.
    + cbn. destruct (String.eqb t l) eqn:E1; [|reflexivity]. destruct (String.eqb t r) eqn:E2; [|reflexivity].
      apply String.eqb_eq in E1. apply String.eqb_eq in E2. subst. rewrite String.eqb_refl in E. discriminate.
  - destruct (smem l r) eqn:E; cbn [tmatches]; destruct (String.eqb t l) eqn:E1; cbn; try reflexivity;
      apply String.eqb_eq in E1; subst; rewrite E; reflexivity.
  - destruct (smem r l) eqn:E; cbn [tmatches]; destruct (String.eqb t r) eqn:E1; cbn;
      try (apply String.eqb_eq in E1; subst; rewrite E; reflexivity); rewrite andb_false_r; reflexivity.
  - rewrite <- smem_sinter. destruct (sinter l r) as [|x [|y s]]; try reflexivity.
    cbn. rewrite orb_false_r. reflexivity.
Qed.

Lemma sset_eqb_eq a b : sset_eqb a b = true -> a = b.
Proof. unfold sset_eqb. destruct (list_eq_dec _ _ _); [auto|discriminate]. Qed.
Lemma tcond_eqb_eq a b : tcond_eqb a b = true -> a = b.
Proof.
  destruct a, b; cbn; try discriminate; intros H; f_equal; [apply String.eqb_eq|apply sset_eqb_eq]; exact H.
Qed.
Lemma cond_eqb_eq a b : cond_eqb a b = true -> a = b.
Proof.
  revert b. induction a as [x|x|t|t|vs|a1 IH1 a2 IH2|a1 IH1 a2 IH2]; intros b; destruct b; cbn; try discriminate; intros H;
    try (f_equal; first [apply String.eqb_eq|apply tcond_eqb_eq|apply sset_eqb_eq]; exact H);
    apply andb_prop in H; destruct H; f_equal; auto.
Qed.

Section C.
  Variable vtrue : string -> bool.
  (** a condition holds *)
  Definition holds (c : cond) (pt ft : rname) (v : option value) : bool :=
    match check vtrue c pt ft v with COk => true | _ => false end.
  Definition holds_opt (c : option cond) pt ft v : bool :=
    match c with None => true | Some c => holds c pt ft v end.

  Lemma holds_and a b pt ft v : holds (CAnd a b) pt ft v = (holds a pt ft v && holds b pt ft v)%bool.
  Proof. unfold holds. cbn. destruct (check vtrue a pt ft v); reflexivity. Qed.
  Lemma holds_or a b pt ft v : holds (COr a b) pt ft v = (holds a pt ft v || holds b pt ft v)%bool.
  Proof. unfold holds. cbn. destruct (check vtrue a pt ft v); reflexivity. Qed.
  Lemma holds_parent t n ft v : holds (CParent t) (inl n) ft v = tmatches t n.
  Proof. unfold holds. cbn. destruct (tmatches t n); reflexivity. Qed.

  Lemma holds_include x pt ft v : holds (CInclude x) pt ft v = vtrue x.
  Proof. unfold holds. cbn. destruct (vtrue x); reflexivity. Qed.
  Lemma holds_skip x pt ft v : holds (CSkip x) pt ft v = negb (vtrue x).
  Proof. unfold holds. cbn. destruct (vtrue x); reflexivity. Qed.

  Lemma cand_holds a b pt ft v : holds (cand a b) pt ft v = (holds a pt ft v && holds b pt ft v)%bool.
  Proof.
    destruct a, b; try apply holds_and; cbn [cand]; unfold holds; cbn [check].
    - destruct pt as [n|e]; [|reflexivity]. rewrite matches_intersect.
      destruct (tmatches t n), (tmatches t0 n); reflexivity.
    - destruct ft as [n|e]; [|reflexivity]. rewrite matches_intersect.
      destruct (tmatches t n), (tmatches t0 n); reflexivity.
    - destruct v as [[| | | | |s| | |]|]; try reflexivity. rewrite smem_sinter.
      destruct (smem s vs), (smem s vs0); reflexivity.
  Qed.

  Lemma cor_holds a b pt ft v : holds (cor a b) pt ft v = (holds a pt ft v || holds b pt ft v)%bool.
  Proof.
    unfold cor. destruct (cond_eqb a b) eqn:E.
    { apply cond_eqb_eq in E. subst. rewrite orb_diag. reflexivity. }
    destruct a, b; try apply holds_or; unfold holds; cbn [check].
    - destruct pt as [n|e]; [|reflexivity]. rewrite matches_union.
      destruct (tmatches t n), (tmatches t0 n); reflexivity.
    - destruct ft as [n|e]; [|reflexivity]. rewrite matches_union.
      destruct (tmatches t n), (tmatches t0 n); reflexivity.
    - destruct v as [[| | | | |s| | |]|]; try reflexivity. rewrite smem_sunion.
      destruct (smem s vs), (smem s vs0); reflexivity.
  Qed.

  Lemma and_optional_holds a b pt ft v :
    holds_opt (and_optional a b) pt ft v = (holds_opt a pt ft v && holds_opt b pt ft v)%bool.
  Proof.
    destruct a, b; cbn [and_optional holds_opt]; try reflexivity; try apply cand_holds; rewrite ?andb_true_r; reflexivity.
  Qed.
  Lemma or_optional_holds a b pt ft v :
    holds_opt (or_optional a b) pt ft v = (holds_opt a pt ft v || holds_opt b pt ft v)%bool.
  Proof.
    destruct a, b; cbn [or_optional holds_opt]; try reflexivity; try apply cor_holds; rewrite ?orb_true_r; reflexivity.
  Qed.

  Lemma directives_holds c inc skp pt ft v :
    holds_opt (apply_directives c inc skp) pt ft v =
    (holds_opt c pt ft v && match inc with Some x => vtrue x | None => true end
     && match skp with Some x => negb (vtrue x) | None => true end)%bool.
  Proof.
    unfold apply_directives.
    destruct inc as [x|], skp as [y|]; rewrite ?and_optional_holds; cbn [holds_opt];
      rewrite ?holds_include, ?holds_skip, ?andb_true_r; reflexivity.
  Qed.

  Lemma simplify_holds c g n ft v :
    match g with Some g => tmatches g n = true | None => True end ->
    holds_opt (simplify c g) (inl n) ft v = holds c (inl n) ft v.
  Proof.
    destruct g as [[t|ts]|]; try (intros; destruct c; reflexivity).
    cbn [tmatches]. intros E. apply String.eqb_eq in E. subst n.
    assert (K : forall u, String.eqb u t = true -> holds (CParent (TExact u)) (inl t) ft v = true).
    { intros u E. rewrite holds_parent. cbn. rewrite String.eqb_sym. exact E. }
    induction c as [x|x|tc|tc|vs|a IHa b IHb|a IHa b IHb]; cbn [simplify]; try reflexivity.
    - destruct tc as [u|[|u [|w r]]]; try reflexivity; destruct (String.eqb u t) eqn:E; try reflexivity; symmetry.
      + apply K. exact E.
      + rewrite holds_parent. cbn. rewrite String.eqb_sym, E. reflexivity.
    - rewrite or_optional_holds, IHa, IHb. symmetry. apply holds_or.
    - rewrite and_optional_holds, IHa, IHb. symmetry. apply holds_and.
  Qed.

  Lemma guard_eqb_eq a b : guard_eqb a b = true -> a = b.
  Proof. destruct a, b; cbn; try discriminate; auto. intros H. f_equal. apply tcond_eqb_eq. exact H. Qed.

  Definition guard_ok (g : option tcond) (n : string) : bool :=
    match g with None => true | Some g => tmatches g n end.
  Lemma with_guard_holds g c n ft v :
    holds_opt (with_guard g c) (inl n) ft v = (guard_ok g n && holds_opt c (inl n) ft v)%bool.
  Proof.
    destruct g as [g|], c as [c|]; cbn [with_guard holds_opt guard_ok]; try reflexivity.
    - rewrite cand_holds, holds_parent. reflexivity.
    - rewrite holds_parent, andb_true_r. reflexivity.
  Qed.

  (** merging two selections of a field keeps each condition in its own scope *)
  Lemma merge_conditions_holds lg lc rg rc n ft v :
    guard_eqb lg rg = false \/ guard_ok lg n = true ->
    holds_opt (merge_conditions lg lc rg rc) (inl n) ft v =
    ((guard_ok lg n && holds_opt lc (inl n) ft v) || (guard_ok rg n && holds_opt rc (inl n) ft v))%bool.
  Proof.
    unfold merge_conditions. intros H. destruct (guard_eqb lg rg) eqn:E.
    - destruct H as [H|H]; [discriminate|]. apply guard_eqb_eq in E. subst rg. rewrite or_optional_holds, H. reflexivity.
    - rewrite or_optional_holds, !with_guard_holds. reflexivity.
  Qed.

  (** conditions handed down to child selections are implied, and directive conditions survive *)
  Lemma child_conditions_implied c pt ft v :
    holds c pt ft v = true -> forall pt' ft' v', holds_opt (child_conditions c) pt' ft' v' = true.
  Proof.
    intros H pt' ft' v'. revert H.
    induction c as [x|x|tc|tc|vs|a IHa b IHb|a IHa b IHb]; cbn [child_conditions holds_opt]; auto.
    - rewrite holds_or, or_optional_holds, !orb_true_iff. intuition.
    - rewrite holds_and, and_optional_holds, !andb_true_iff. intuition.
  Qed.
  Fixpoint directives_only (c : cond) : bool :=
    match c with
    | CInclude _ | CSkip _ => true
    | CParent _ | CField _ | CEnum _ => false
    | COr a b | CAnd a b => directives_only a && directives_only b
    end.
  Lemma child_conditions_exact c pt ft v pt' ft' v' : directives_only c = true ->
    holds_opt (child_conditions c) pt' ft' v' = holds c pt ft v.
  Proof.
    induction c as [x|x|tc|tc|vs|a IHa b IHb|a IHa b IHb]; cbn [child_conditions directives_only]; try discriminate.
    - reflexivity.
    - reflexivity.
    - intros H. apply andb_prop in H. destruct H as [H1 H2].
      rewrite holds_or, or_optional_holds, IHa, IHb by assumption. reflexivity.
    - intros H. apply andb_prop in H. destruct H as [H1 H2].
      rewrite holds_and, and_optional_holds, IHa, IHb by assumption. reflexivity.
  Qed.

  Fixpoint or_free (c : cond) : bool :=
    match c with COr _ _ => false | CAnd a b => or_free a && or_free b | _ => true end.
  Lemma guard_sound c n ft v : or_free c = true -> holds c (inl n) ft v = true -> guard_ok (get_type_guard c) n = true.
  Proof.
    induction c as [x|x|tc|tc|vs|a IHa b IHb|a IHa b IHb]; cbn [get_type_guard or_free]; try reflexivity; try discriminate.
    - intros _. rewrite holds_parent. auto.
    - intros H. apply andb_prop in H. destruct H as [H1 H2]. rewrite holds_and, andb_true_iff. intros [A B].
      specialize (IHa H1 A). specialize (IHb H2 B).
      destruct (get_type_guard a) as [x|], (get_type_guard b) as [y|]; cbn [guard_ok] in *; auto.
      rewrite matches_intersect, IHa, IHb. reflexivity.
  Qed.
End C.
