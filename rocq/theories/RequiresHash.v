(** C15: what equal hash streams say about two entities. *)
From Coq Require Import String Ascii List NArith ZArith Bool Lia.
From Verif Require Import StrOrd StrUtil JsonModel Ast TraverseModel RequiresModel RequiresSpec.
Import ListNotations.
Local Open Scope list_scope.

Lemma le_inj w : forall a b r1 r2, (a < 256 ^ N.of_nat w)%N -> (b < 256 ^ N.of_nat w)%N ->
  le w a ++ r1 = le w b ++ r2 -> a = b /\ r1 = r2.
Proof.
  induction w as [|w IH]; intros a b r1 r2 Ha Hb E.
  - cbn in *. split; [lia|exact E].
  - cbn [le List.app] in E. injection E as E1 E2.
    rewrite Nat2N.inj_succ, N.pow_succ_r' in Ha, Hb.
    apply IH in E2; [|apply N.div_lt_upper_bound; lia|apply N.div_lt_upper_bound; lia].
    destruct E2 as [E2 E3]. split; [|exact E3].
    rewrite (N.div_mod a 256), (N.div_mod b 256) by lia. lia.
Qed.
Lemma le8_inj a b r1 r2 : (a < 2 ^ 64)%N -> (b < 2 ^ 64)%N -> le 8 a ++ r1 = le 8 b ++ r2 -> a = b /\ r1 = r2.
Proof. intros Ha Hb E. apply (le_inj 8); assumption. Qed.
Lemma le_length w : forall a, length (le w a) = w.
Proof. induction w as [|w IH]; intros a; cbn; [reflexivity|]. rewrite IH. reflexivity. Qed.
Lemma app_len_inj {A} (a b r1 r2 : list A) : length a = length b -> a ++ r1 = b ++ r2 -> a = b /\ r1 = r2.
Proof.
  revert b. induction a as [|x a IH]; intros [|y b] L E; try discriminate L; [auto|].
  injection L as L. cbn in E. injection E as -> E. destruct (IH b L E) as [-> ->]. auto.
Qed.

Lemma str_inj s1 : forall s2 r1 r2, no_ff s1 = true -> no_ff s2 = true ->
  str_bytes s1 ++ r1 = str_bytes s2 ++ r2 -> s1 = s2 /\ r1 = r2.
Proof.
  unfold str_bytes. induction s1 as [|c s1 IH]; intros [|d s2] r1 r2 H1 H2 E; cbn -[N_of_ascii] in *.
  - injection E as E. auto.
  - injection E as E1 E2. apply andb_prop in H2. destruct H2 as [H2 _]. rewrite <- E1 in H2. discriminate H2.
  - injection E as E1 E2. apply andb_prop in H1. destruct H1 as [H1 _]. rewrite E1 in H1. discriminate H1.
  - injection E as E1 E2. apply andb_prop in H1, H2. destruct H1 as [_ H1], H2 as [_ H2].
    destruct (IH s2 r1 r2 H1 H2 E2) as [-> ->]. split; [|reflexivity]. f_equal.
    rewrite <- (ascii_N_embedding c), <- (ascii_N_embedding d), E1. reflexivity.
Qed.
Lemma same_str_inj s r1 r2 : str_bytes s ++ r1 = str_bytes s ++ r2 -> r1 = r2.
Proof. intros E. apply app_inv_head in E. exact E. Qed.

Lemma z_bits_inj x y : (- 2 ^ 63 <= x < 2 ^ 63 -> - 2 ^ 63 <= y < 2 ^ 63 -> z_bits x = z_bits y -> x = y)%Z.
Proof.
  unfold z_bits. change 18446744073709551616%Z with (2 ^ 64)%Z. intros Hx Hy E.
  pose proof (Z.mod_pos_bound x (2 ^ 64) ltac:(lia)). pose proof (Z.mod_pos_bound y (2 ^ 64) ltac:(lia)).
  apply (f_equal Z.of_N) in E. rewrite !Z2N.id in E by lia.
  pose proof (Z.div_mod x (2 ^ 64) ltac:(lia)) as Dx. pose proof (Z.div_mod y (2 ^ 64) ltac:(lia)) as Dy.
  rewrite E in Dx. assert (x / 2 ^ 64 = -1 \/ x / 2 ^ 64 = 0)%Z by (destruct (Z_lt_le_dec x 0);
    [left; symmetry; apply Z.div_unique with (r := (x + 2^64)%Z); lia|right; apply Z.div_small; lia]).
  assert (y / 2 ^ 64 = -1 \/ y / 2 ^ 64 = 0)%Z by (destruct (Z_lt_le_dec y 0);
    [left; symmetry; apply Z.div_unique with (r := (y + 2^64)%Z); lia|right; apply Z.div_small; lia]).
  lia.
Qed.
Lemma z_bits_range x : (z_bits x < 2 ^ 64)%N.
Proof.
  unfold z_bits. change 18446744073709551616%Z with (2 ^ 64)%Z.
  pose proof (Z.mod_pos_bound x (2 ^ 64) ltac:(lia)). lia.
Qed.

(** The bytes of a value determine it among values of the same kind. *)
Lemma hash_value_inj a : forall b r1 r2, same_kind a b -> hash_value a ++ r1 = hash_value b ++ r2 -> a = b /\ r1 = r2.
Proof.
  induction a as [|fbits|iz|un|bb|str|raw|l IH|o IH] using value_ind'; intros b r1 r2 K E; destruct b; try (exfalso; exact K).
  - apply app_inv_head in E. auto.
  - cbn [hash_value] in E. destruct K as [K1 K2]. destruct (le8_inj _ _ _ _ K1 K2 E) as [-> ->]. auto.
  - cbn [hash_value] in E. destruct K as [K1 K2].
    destruct (le8_inj _ _ _ _ (z_bits_range _) (z_bits_range _) E) as [Ez ->]. apply z_bits_inj in Ez; [subst|exact K1|exact K2]. auto.
  - cbn [hash_value] in E. destruct K as [K1 K2]. destruct (le8_inj _ _ _ _ K1 K2 E) as [-> ->]. auto.
  - cbn [hash_value List.app] in E. injection E as E ->. destruct bb, b; try discriminate E; auto.
  - cbn [hash_value] in E. destruct K as [K1 K2]. destruct (str_inj _ _ _ _ K1 K2 E) as [-> ->]. auto.
  - cbn [hash_value] in E. rewrite <- !app_assoc in E.
    destruct (app_len_inj _ _ _ _ ltac:(rewrite !le_length; reflexivity) E) as [_ E']. clear E.
    assert (G : l = l0 /\ r1 = r2).
    { cbn [same_kind] in K. revert l0 r1 r2 K E'. induction IH as [|x l Hx Hl IHl]; intros [|y l0] r1 r2 K E; try contradiction.
      - auto.
      - cbn [flat_map] in E. rewrite <- !app_assoc in E. destruct K as [K1 K2].
        destruct (Hx y _ _ K1 E) as [-> E2]. destruct (IHl l0 r1 r2 K2 E2) as [-> ->]. auto. }
    destruct G as [-> ->]. auto.
  - cbn [hash_value] in E. rewrite <- !app_assoc in E.
    destruct (app_len_inj _ _ _ _ ltac:(rewrite !le_length; reflexivity) E) as [_ E']. clear E.
    assert (G : o = o0 /\ r1 = r2).
    { cbn [same_kind] in K. revert o0 r1 r2 K E'. induction IH as [|[k x] o Hx Hl IHl]; intros [|[k2 y] o0] r1 r2 K E; try contradiction.
      - auto.
      - cbn [flat_map fst snd] in E. rewrite <- !app_assoc in E. destruct K as (-> & K1 & K2).
        apply same_str_inj in E. destruct (Hx y _ _ K1 E) as [Ex E2]. cbn [snd] in Ex. subst y.
        destruct (IHl o0 r1 r2 K2 E2) as [-> ->]. auto. }
    destruct G as [-> ->]. auto.
Qed.

Section H.
  Variable pt : ptypes.
  Notation parts := (parts pt).

  Definition item_inj (x : sel) : Prop := forall o1 o2 h1 h2 r1 r2,
    typename_of o1 = typename_of o2 -> similar pt x o1 o2 ->
    hash_item pt x o1 = Some h1 -> hash_item pt x o2 = Some h2 -> h1 ++ r1 = h2 ++ r2 ->
    parts x o1 = parts x o2 /\ r1 = r2.

  Lemma cat_inj sels : Forall item_inj sels -> forall o1 o2 h1 h2 r1 r2,
    typename_of o1 = typename_of o2 -> all_similar pt sels o1 o2 ->
    cat_opt (fun y => hash_item pt y o1) sels = Some h1 ->
    cat_opt (fun y => hash_item pt y o2) sels = Some h2 -> h1 ++ r1 = h2 ++ r2 ->
    obj_parts pt sels o1 = obj_parts pt sels o2 /\ r1 = r2.
  Proof.
    intros F o1 o2 h1 h2 r1 r2 T S C1 C2 E.
    assert (G : flat_map (fun y => parts y o1) sels = flat_map (fun y => parts y o2) sels /\ r1 = r2).
    { revert h1 h2 r1 r2 S C1 C2 E. induction F as [|x sels Hx F IH]; intros h1 h2 r1 r2 S C1 C2 E.
      - cbn in *. injection C1 as <-. injection C2 as <-. auto.
      - cbn [cat_opt] in C1, C2. destruct S as [S1 S2].
        destruct (hash_item pt x o1) as [a1|] eqn:E1; [|discriminate].
        destruct (hash_item pt x o2) as [a2|] eqn:E2; [|discriminate].
        fold (cat_opt (fun y => hash_item pt y o1) sels) in C1. fold (cat_opt (fun y => hash_item pt y o2) sels) in C2.
        destruct (cat_opt (fun y => hash_item pt y o1) sels) as [b1|] eqn:E3; [|discriminate].
        destruct (cat_opt (fun y => hash_item pt y o2) sels) as [b2|] eqn:E4; [|discriminate].
        injection C1 as <-. injection C2 as <-. rewrite <- !app_assoc in E.
        destruct (Hx _ _ _ _ _ _ T S1 E1 E2 E) as [P1 Er].
        destruct (IH _ _ _ _ S2 eq_refl eq_refl Er) as [P2 ->]. split; [|reflexivity].
        cbn [flat_map]. rewrite P1, P2. reflexivity. }
    destruct G as [G ->]. split; [|reflexivity]. unfold obj_parts, parts_of. rewrite T, G. reflexivity.
  Qed.

  Lemma value_inj sub : sub <> [] -> Forall item_inj sub -> forall v1 v2 h1 h2 r1 r2,
    similar_with (all_similar pt sub) v1 v2 ->
    hash_with pt sub v1 = Some h1 -> hash_with pt sub v2 = Some h2 -> h1 ++ r1 = h2 ++ r2 ->
    rep pt sub v1 = rep pt sub v2 /\ is_null v1 = is_null v2 /\ r1 = r2.
  Proof.
    intros Ne F. destruct sub as [|s0 sub0] eqn:Es; [contradiction|]. rewrite <- Es in *. clear Ne.
    assert (Wh : is_nil sub = false) by (rewrite Es; reflexivity).
    assert (Hv : forall v, hash_with pt sub v = match v with
          | VObj o => cat_opt (fun y => hash_item pt y o) sub
          | VArr l => cat_opt (hash_with pt sub) l
          | _ => Some (hash_value v) end).
    { intros v. rewrite Es. destruct v; reflexivity. }
    clear Es s0 sub0.
    induction v1 as [|fbits|iz|un|bb|str|raw|l IH|o IH] using value_ind'; intros v2 h1 h2 r1 r2 S C1 C2 E;
      destruct v2; try (exfalso; exact S); rewrite Hv in C1, C2.
    1-6: injection C1 as <-; injection C2 as <-; destruct (hash_value_inj _ _ _ _ S E) as [Ev ->]; try rewrite Ev; auto.
    - (* arrays *)
      unfold rep. rewrite Wh. cbn [rep_with is_null].
      assert (G : map (rep pt sub) l = map (rep pt sub) l0 /\ r1 = r2).
      { cbn [similar_with] in S. revert l0 h1 h2 r1 r2 S C1 C2 E. induction IH as [|x l Hx Hl IHl]; intros [|y l0] h1 h2 r1 r2 S C1 C2 E; try contradiction.
        - cbn in *. injection C1 as <-. injection C2 as <-. auto.
        - destruct S as [S1 S2]. cbn [cat_opt] in C1, C2.
          destruct (hash_with pt sub x) as [a1|] eqn:E1; [|discriminate].
          destruct (hash_with pt sub y) as [a2|] eqn:E2; [|discriminate].
          fold (cat_opt (hash_with pt sub) l) in C1. fold (cat_opt (hash_with pt sub) l0) in C2.
          destruct (cat_opt (hash_with pt sub) l) as [b1|] eqn:E3; [|discriminate].
          destruct (cat_opt (hash_with pt sub) l0) as [b2|] eqn:E4; [|discriminate].
          injection C1 as <-. injection C2 as <-. rewrite <- !app_assoc in E.
          destruct (Hx _ _ _ _ _ S1 eq_refl E2 E) as (P1 & _ & Er).
          destruct (IHl _ _ _ _ _ S2 eq_refl E4 Er) as [P2 ->]. cbn [map]. rewrite P1, P2. auto. }
      destruct G as [G ->]. unfold rep in G. rewrite Wh in G. rewrite G. auto.
    - unfold rep. rewrite Wh. cbn [rep_with is_null]. destruct S as [T S].
      destruct (cat_inj sub F _ _ _ _ _ _ T S C1 C2 E) as [P ->]. rewrite T, P. auto.
  Qed.

  Lemma item_inj_all x : item_inj x.
  Proof.
    induction x as [n a args inc skip om sub IH|c inc skip sub IH|n] using sel_ind';
      intros o1 o2 h1 h2 r1 r2 T S H1 H2 E.
    - assert (Hf : forall o, hash_item pt (SField n a args inc skip om sub) o
          = match get n o with None => Some [] | Some v =>
              match hash_with pt sub v with Some b => Some (str_bytes n ++ b) | None => None end end).
      { intros o. cbn [hash_item]. destruct (get n o) as [v|]; [|reflexivity]. destruct sub; [destruct v; reflexivity|reflexivity]. }
      rewrite Hf in H1, H2. cbn [RequiresSpec.parts]. cbn [similar] in S.
      destruct (get n o1) as [v1|] eqn:G1; destruct (get n o2) as [v2|] eqn:G2; try contradiction.
      + destruct (hash_with pt sub v1) as [b1|] eqn:E1; [|discriminate]. destruct (hash_with pt sub v2) as [b2|] eqn:E2; [|discriminate].
        injection H1 as <-. injection H2 as <-. rewrite <- !app_assoc in E. apply same_str_inj in E.
        destruct sub as [|s0 sub0] eqn:Es.
        * assert (E1' : hash_value v1 = b1) by (destruct v1; injection E1 as <-; reflexivity).
          assert (E2' : hash_value v2 = b2) by (destruct v2; injection E2 as <-; reflexivity).
          subst b1 b2. destruct (hash_value_inj _ _ _ _ S E) as [-> ->]. auto.
        * rewrite <- Es in *.
          assert (Ne : sub <> []) by (rewrite Es; discriminate).
          destruct (value_inj sub Ne IH v1 v2 _ _ _ _ S E1 E2 E) as (R & N & ->). split; [|reflexivity].
          destruct (String.eqb (ident n a) "__typename"); [reflexivity|].
          change (rep_with (is_nil sub) (fun o' => parts_of (fun y => parts y o') sub o')) with (rep pt sub).
          destruct v1, v2; try discriminate N; try reflexivity; rewrite R; reflexivity.
      + injection H1 as <-. injection H2 as <-. cbn in E. destruct S as [-> ->]. auto.
    - cbn [hash_item similar RequiresSpec.parts] in *. destruct S as [D S].
      assert (Rel : related pt o2 c = related pt o1 c) by (unfold related; rewrite T; reflexivity).
      rewrite Rel. rewrite <- T in H2.
      assert (R : (let t := match typename_of o1 with Some t => t | None => c end in satisfies pt t c) = related pt o1 c).
      { unfold related, decided in *. destruct (typename_of o1) as [t|]; cbv zeta.
        - destruct (satisfies pt t c) eqn:E1; [reflexivity|]. cbn. destruct (satisfies pt c t) eqn:E2; [|reflexivity].
          rewrite (D t eq_refl E2) in E1. discriminate.
        - unfold satisfies. rewrite String.eqb_refl. reflexivity. }
      cbv zeta in R. rewrite R in H1, H2. destruct (related pt o1 c).
      + exact (cat_inj sub IH _ _ _ _ _ _ T S H1 H2 E).
      + injection H1 as <-. injection H2 as <-. auto.
    - discriminate H1.
  Qed.

  (** two objects of the same type *)
  Lemma same_type_inj sels o1 o2 h : sels <> [] -> typename_of o1 = typename_of o2 -> all_similar pt sels o1 o2 ->
    hash_with pt sels (VObj o1) = Some h -> hash_with pt sels (VObj o2) = Some h ->
    rep pt sels (VObj o1) = rep pt sels (VObj o2).
  Proof.
    intros Ne T S H1 H2.
    assert (F : Forall item_inj sels) by (apply Forall_forall; intros y _; apply item_inj_all).
    destruct (value_inj sels Ne F (VObj o1) (VObj o2) h h [] [] (conj T S) H1 H2 eq_refl) as (R & _). exact R.
  Qed.

  (** the first thing hashed for an entity is its type *)
  Lemma by_type_stream sels o t h : forallb by_type sels = true -> typename_of o = Some t ->
    hash_with pt sels (VObj o) = Some h -> sels <> [] ->
    h = [] /\ forallb (fun x => match x with SFrag c _ _ _ => negb (satisfies pt t c) | _ => true end) sels = true
    \/ exists r, h = str_bytes "__typename" ++ str_bytes t ++ r.
  Proof.
    intros B T H Ne. assert (C : cat_opt (fun y => hash_item pt y o) sels = Some h) by (destruct sels; [contradiction|exact H]).
    clear H Ne. revert h C. induction sels as [|x sels IH]; intros h C.
    - injection C as <-. left. auto.
    - cbn [forallb] in B. apply andb_prop in B. destruct B as [B1 B2]. cbn [cat_opt] in C.
      destruct (hash_item pt x o) as [a|] eqn:E1; [|discriminate].
      fold (cat_opt (fun y => hash_item pt y o) sels) in C.
      destruct (cat_opt (fun y => hash_item pt y o) sels) as [b|] eqn:E2; [|discriminate]. injection C as <-.
      destruct x as [n al args inc skip om sub|c inc skip sub|n]; try discriminate B1.
      destruct sub as [|[n al args inc2 skip2 om [|? ?]| |] sub]; try discriminate B1. cbn [by_type] in B1.
      apply String.eqb_eq in B1. subst n.
      cbn [hash_item] in E1. rewrite T in E1. cbn [forallb].
      destruct (satisfies pt t c) eqn:Es.
      + right. cbn [cat_opt hash_item] in E1.
        assert (G : get "__typename" o = Some (VStr t)).
        { unfold typename_of in T. destruct (get "__typename" o) as [v|]; [|discriminate]. destruct v; try discriminate.
          injection T as ->. reflexivity. }
        rewrite G in E1. cbv beta iota in E1. destruct (cat_opt (fun y => hash_item pt y o) sub) as [r|]; [|discriminate].
        assert (Ea : a = (str_bytes "__typename" ++ str_bytes t) ++ r) by (cbn [hash_value] in E1; congruence). rewrite Ea. exists (r ++ b). rewrite <- !app_assoc. reflexivity.
      + injection E1 as <-. cbn [negb andb List.app]. exact (IH B2 b eq_refl).
  Qed.

  (** entities of any types *)
  Lemma by_type_inj sels o1 o2 t1 t2 h : forallb by_type sels = true -> sels <> [] ->
    typename_of o1 = Some t1 -> typename_of o2 = Some t2 -> no_ff t1 = true -> no_ff t2 = true ->
    (forall c inc skip sub, In (SFrag c inc skip sub) sels -> decided pt o1 c /\ decided pt o2 c) ->
    (t1 = t2 -> all_similar pt sels o1 o2) ->
    hash_with pt sels (VObj o1) = Some h -> hash_with pt sels (VObj o2) = Some h ->
    rep pt sels (VObj o1) = rep pt sels (VObj o2).
  Proof.
    intros B Ne T1 T2 F1 F2 D S H1 H2.
    assert (Nothing : forall o t, typename_of o = Some t -> (forall c inc skip sub, In (SFrag c inc skip sub) sels -> decided pt o c) ->
      forallb (fun x => match x with SFrag c _ _ _ => negb (satisfies pt t c) | _ => true end) sels = true ->
      rep pt sels (VObj o) = None).
    { intros o t T Dc Al. assert (P : obj_parts pt sels o = []).
      { unfold obj_parts, parts_of. replace (only_typename sels) with false
          by (destruct sels as [|[| |] [|? ?]]; try reflexivity; discriminate B).
        assert (Fm : flat_map (fun y => parts y o) sels = []).
        { clear Ne H1 H2 S D. induction sels as [|x sels IH]; [reflexivity|]. cbn [forallb flat_map] in *.
          apply andb_prop in B, Al. destruct B as [B1 B2], Al as [A1 A2].
          rewrite IH; [|exact B2|intros; eapply Dc; right; eassumption|exact A2]. rewrite app_nil_r.
          destruct x as [n al args inc skip om sub|c inc skip sub|n]; try discriminate B1.
          cbn [RequiresSpec.parts]. unfold related. rewrite T. apply negb_true_iff in A1. rewrite A1. cbn [orb].
          destruct (satisfies pt c t) eqn:Ec; [|reflexivity].
          pose proof (Dc c inc skip sub (or_introl eq_refl) t T Ec) as X. rewrite A1 in X. discriminate X. }
        exact Fm. }
      unfold rep. replace (is_nil sels) with false by (destruct sels; [contradiction|reflexivity]).
      cbn [rep_with]. rewrite P. reflexivity. }
    destruct (by_type_stream _ _ _ _ B T1 H1 Ne) as [[-> A1]|[q1 E1]];
      destruct (by_type_stream _ _ _ _ B T2 H2 Ne) as [[E2 A2]|[q2 E2]].
    - rewrite (Nothing o1 t1), (Nothing o2 t2); auto; intros; eapply D; eassumption.
    - discriminate E2.
    - rewrite E1 in E2. discriminate E2.
    - rewrite E1 in E2. apply app_inv_head in E2. destruct (str_inj _ _ _ _ F1 F2 E2) as [Et _].
      subst t2. apply (same_type_inj sels o1 o2 h Ne); [congruence|apply S; reflexivity|exact H1|exact H2].
  Qed.
End H.
