From Coq Require Import String Ascii List NArith Bool Lia Permutation.
From Verif Require Import Ast AstHashModel PrintModel FragModel FragSpec FragProofs.
Import ListNotations.
Local Open Scope string_scope.

(** * Names *)
Fixpoint index_of (s : string) : N :=
  match s with
  | EmptyString => 0
  | String c s' => (if N_of_ascii c <? 97 then N_of_ascii c - 39 else N_of_ascii c - 97) + 52 * index_of s'
  end%N.
Lemma letter_cases : forall d, (d < 52)%N ->
  ((if N_of_ascii (letter d) <? 97 then N_of_ascii (letter d) - 39 else N_of_ascii (letter d) - 97) = d)%N /\ a_letter (letter d).
Proof.
  intros d Hd. unfold letter, a_letter. rewrite N_ascii_embedding by (destruct (N.ltb_spec d 26); lia).
  destruct (N.ltb_spec d 26) as [H|H].
  - destruct (N.ltb_spec (97 + d) 97); lia.
  - destruct (N.ltb_spec (39 + d) 97); lia.
Qed.
Lemma letters_index : forall k i, (i < 52 ^ N.of_nat k)%N -> index_of (letters k i) = i.
Proof.
  induction k as [|k IH]; intros i Hi; cbn [letters].
  - rewrite N.pow_0_r in Hi. cbn [index_of]. lia.
  - destruct (N.eqb_spec i 0) as [->|Hne]; [reflexivity|]. cbn [index_of].
    rewrite (proj1 (letter_cases (i mod 52) ltac:(apply N.mod_lt; lia))), IH.
    + pose proof (N.div_mod i 52 ltac:(lia)). lia.
    + apply N.div_lt_upper_bound; [lia|]. rewrite Nat2N.inj_succ, N.pow_succ_r' in Hi. lia.
Qed.
Lemma name_index : forall i, index_of (fragment_name i) = i.
Proof.
  intros i. unfold fragment_name. destruct (N.ltb_spec i 52) as [H|H].
  - cbn [index_of]. rewrite (proj1 (letter_cases i H)). lia.
  - apply letters_index. rewrite N2Nat.id. apply N.lt_le_trans with (2 ^ N.size i)%N; [apply N.size_gt|].
    apply N.pow_le_mono_l. lia.
Qed.
Lemma name_injective : forall i j, fragment_name i = fragment_name j -> i = j.
Proof. intros i j H. rewrite <- (name_index i), <- (name_index j). now f_equal. Qed.
Lemma letters_lettered : forall k i, lettered (letters k i).
Proof.
  induction k as [|k IH]; intros i; cbn [letters]; [exact I|].
  destruct (i =? 0)%N; [exact I|]. cbn [lettered]. split; [|apply IH].
  apply letter_cases. apply N.mod_lt. lia.
Qed.
Lemma name_lettered : forall i, lettered (fragment_name i) /\ fragment_name i <> "".
Proof.
  intros i. unfold fragment_name. destruct (N.ltb_spec i 52) as [H|H].
  - split; [|discriminate]. cbn [lettered]. split; [now apply letter_cases|exact I].
  - split; [apply letters_lettered|]. destruct (N.to_nat (N.size i)) as [|k] eqn:E.
    + destruct i; [lia|]. cbn [N.size] in E. lia.
    + cbn [letters]. destruct (N.eqb_spec i 0); [lia|discriminate].
Qed.

Section Sg.
  Variable sg : supergraph.
  Variable gid : string -> list sel -> N.
  Let types := definitions sg.

  (** * Counting succeeds *)
  Lemma walk_all_done : forall ty l, Forall (fun x => forall s, exists s', walk sg gid ty x s = Done s') l ->
    forall s, exists s', walk_all sg gid ty l s = Done s'.
  Proof.
    induction l as [|x l IH]; intros Hl s; [eexists; reflexivity|].
    destruct (Forall_inv Hl s) as [s1 H1]. destruct (IH (Forall_inv_tail Hl) s1) as [s2 H2].
    exists s2. change (walk_all sg gid ty (x :: l) s) with (then_ (walk sg gid ty x s) (walk_all sg gid ty l)).
    rewrite H1. exact H2.
  Qed.
  Lemma walk_set_done : forall ty l, selectable types ty l ->
    Forall (fun x => forall s, exists s', walk sg gid ty x s = Done s') l ->
    forall s, exists s', walk_set sg gid ty l s = Done s'.
  Proof.
    intros ty l Hsel Hl s. unfold walk_set, visit. destruct l as [|x l]; [eauto|].
    destruct (1 <? _)%N; [eauto|]. destruct Hsel as [|[fs Hk]]; [discriminate|].
    apply known_named in Hk. rewrite Hk. now apply walk_all_done.
  Qed.
  Lemma walk_done : forall x ty, fits types ty x -> forall s, exists s', walk sg gid ty x s = Done s'.
  Proof.
    induction x as [n a args i s o sub IH|t i s sub IH|n] using sel_ind'; intros ty Hf s0.
    - rewrite walk_field.
      inversion Hf as [? ? ? ? ? ? ? ? Hm|? ? ? ? ? ? ? ? t' Hm Hne Hd Hsel Hsub|? ? ? ? ? ? ? Hent|]; subst.
      + assert (Em := proj2 (meta_prefix n) Hm). rewrite Em. eauto.
      + assert (Em := proj2 (not_meta n) Hm). rewrite Em.
        assert (En : String.eqb n "_entities" = false) by now apply String.eqb_neq. rewrite En.
        apply declared_named in Hd as (fs & tt & Hn1 & Hn2 & Hn3). rewrite Hn1, Hn2, Hn3.
        apply walk_set_done; [exact Hsel|]. rewrite Forall_forall in IH, Hsub |- *. intros y Hy. now apply IH; auto.
      + rewrite entities_not_meta, String.eqb_refl. revert s0. clear Hf.
        induction sub as [|y sub IHs]; intros s0; [eexists; reflexivity|].
        specialize (IHs (Forall_inv_tail IH) (Forall_inv_tail Hent)).
        assert (Hy := Forall_inv Hent). assert (IHy := Forall_inv IH).
        destruct Hy as [t m a2 args2 i2 s2 o2 sub2 Hm|t t' i2 s2 sub2 Hsel Hsub].
        * cbn [walk_entities]. assert (Em := proj2 (meta_prefix m) Hm). rewrite Em. apply IHs.
        * change (walk_entities sg gid t (SFrag t' i2 s2 sub2 :: sub) s0) with
            (then_ (walk sg gid t (SFrag t' i2 s2 sub2) s0) (walk_entities sg gid t sub)).
          destruct (IHy t (fits_frag _ _ _ _ _ _ Hsel Hsub) s0) as [s1 ->]. cbn [then_]. apply IHs.
    - rewrite walk_frag. inversion Hf as [| | |? ? ? ? ? Hsel Hsub]; subst.
      apply walk_set_done; [exact Hsel|]. rewrite Forall_forall in IH, Hsub |- *. intros y Hy. now apply IH; auto.
    - inversion Hf.
  Qed.
  Lemma walk_root : forall root l, selectable types root l -> Forall (fits types root) l ->
    exists s, walk_set sg gid root l [] = Done s.
  Proof.
    intros root l Hsel Hf. apply walk_set_done; [exact Hsel|]. rewrite Forall_forall in Hf |- *.
    intros y Hy. apply walk_done. now apply Hf.
  Qed.

  (** * Without fragments a document means itself *)
  Lemma expands_self : forall d x ty, fits types ty x -> forall ty', is_frag x \/ ty' = ty ->
    forall l e, expands types d ty' l e -> expands types d ty' (x :: l) (x :: e).
  Proof.
    intros d. assert (Hset : forall ty l, Forall (fun x => fits types ty x -> forall ty', is_frag x \/ ty' = ty ->
      forall l e, expands types d ty' l e -> expands types d ty' (x :: l) (x :: e)) l -> Forall (fits types ty) l ->
      expands types d ty l l).
    { induction l as [|y l IH]; intros H Hf; [constructor|].
      apply (Forall_inv H); [exact (Forall_inv Hf)|now right|]. apply IH; [exact (Forall_inv_tail H)|exact (Forall_inv_tail Hf)]. }
    induction x as [n a args i s o sub IH|t i s sub IH|n] using sel_ind'; intros ty Hf ty' Hty l e He.
    - inversion Hf as [? ? ? ? ? ? ? ? Hm|? ? ? ? ? ? ? ? t' Hm Hne Hd Hsel Hsub|? ? ? ? ? ? ? Hent|]; subst.
      + now constructor.
      + destruct Hty as [[]| ->]. eapply expands_field; eauto. apply Hset; [|exact Hsub].
        eapply Forall_impl; [|exact IH]. intros x Hx. apply Hx.
      + apply expands_entities; [|exact He]. clear Hf He Hty.
        induction sub as [|y sub IHs]; [constructor|].
        specialize (IHs (Forall_inv_tail IH) (Forall_inv_tail Hent)).
        assert (Hy := Forall_inv Hent). assert (IHy := Forall_inv IH).
        destruct Hy as [t m a2 args2 i2 s2 o2 sub2 Hm|t t' i2 s2 sub2 Hsel Hsub]; [now constructor|].
        eapply IHy; [apply (fits_frag types t t' i2 s2 sub2 Hsel Hsub)|left; exact I|exact IHs].
    - inversion Hf as [| | |? ? ? ? ? Hsel Hsub]; subst. apply expands_frag; [|exact He].
      apply Hset; [|exact Hsub]. eapply Forall_impl; [|exact IH]. intros x Hx. apply Hx.
    - inversion Hf.
  Qed.
  Lemma expands_selves : forall d ty l, Forall (fits types ty) l -> expands types d ty l l.
  Proof.
    induction l as [|y l IH]; intros Hf; [constructor|].
    eapply expands_self; [exact (Forall_inv Hf)|now right|]. apply IH. exact (Forall_inv_tail Hf).
  Qed.

  (** * The names of the fragments *)
  Variable st : list (N * N).
  Definition names_fine (m : made) : Prop :=
    NoDup (map fst (table m)) /\
    exists js, map (fun p => fr_name (snd p)) (table m) = map fragment_name js /\ NoDup js /\ Forall (fun j => (j < next m)%N) js.
  Definition stable (m m' : made) : Prop :=
    (next m <= next m')%N /\
    forall id f, lookup id (table m) = Some f -> exists f', lookup id (table m') = Some f' /\ fr_name f' = fr_name f.

  Lemma lookup_none : forall id t, lookup id t = None -> ~ In id (map fst t).
  Proof.
    induction t as [|[k g] t IH]; cbn [lookup map fst]; [intros _ []|].
    destruct (N.eqb_spec id k) as [->|Hne]; [discriminate|]. intros H [E|Hin]; [congruence|now apply IH].
  Qed.
  Lemma put_new : forall id f t, lookup id t = None -> put id f t = (t ++ [(id, f)])%list.
  Proof.
    induction t as [|[k g] t IH]; cbn [lookup put]; [reflexivity|].
    destruct (N.eqb_spec id k) as [->|Hne]; [discriminate|]. intros H. now rewrite IH.
  Qed.
  Lemma put_old : forall id f g t, lookup id t = Some g -> fr_name f = fr_name g ->
    map fst (put id f t) = map fst t /\ map (fun p => fr_name (snd p)) (put id f t) = map (fun p => fr_name (snd p)) t.
  Proof.
    induction t as [|[k h] t IH]; cbn [lookup put]; [discriminate|].
    destruct (N.eqb_spec id k) as [->|Hne]; cbn [map fst snd].
    - intros [= ->] ->. now split.
    - intros H E. destruct (IH H E) as [-> ->]. now split.
  Qed.
  Lemma stable_refl : forall m, stable m m.
  Proof. intros m. split; [lia|]. eauto. Qed.
  Lemma stable_trans : forall a b c, stable a b -> stable b c -> stable a c.
  Proof.
    intros a b c [H1 H2] [H3 H4]. split; [lia|]. intros id f Hf.
    destruct (H2 id f Hf) as (f1 & Hf1 & E1). destruct (H4 id f1 Hf1) as (f2 & Hf2 & E2). exists f2. split; [exact Hf2|congruence].
  Qed.

  Lemma NoDup_snoc : forall A (l : list A) a, NoDup l -> ~ In a l -> NoDup (l ++ [a]).
  Proof.
    induction l as [|b l IH]; intros a Hl Hn; cbn [app]; [constructor; [auto|constructor]|].
    inversion Hl as [|? ? Hb Hl']; subst. constructor.
    - intros Hin. apply in_app_iff in Hin as [Hin|[->|[]]]; [now apply Hb|apply Hn; now left].
    - apply IH; [exact Hl'|]. intros Hin. apply Hn. now right.
  Qed.

  Definition names_kept {A} (run : made -> outcome (A * made)) : Prop :=
    forall m r m', run m = Done (r, m') -> names_fine m -> names_fine m' /\ stable m m'.
  Lemma share_names : forall ty l, names_kept (rewrite_all sg gid st ty l) -> names_kept (rewrite_set sg gid st ty l).
  Proof.
    intros ty l Hall m r m' Hrun Hm. unfold rewrite_set, share in Hrun.
    destruct (is_duplicated st (gid ty l)); [|now apply (Hall m r m')].
    unfold get_or_create in Hrun. set (id := gid ty l) in *.
    destruct (lookup id (table m)) as [f|] eqn:El.
    { cbn [then_ fst snd] in Hrun. injection Hrun as _ <-. split; [exact Hm|apply stable_refl]. }
    set (name := fragment_name (next m)) in *.
    set (m1 := mkmade (put id (mkfragment name ty []) (table m)) (next m + 1)) in *.
    destruct (rewrite_all sg gid st ty l m1) as [[l' m2]|e] eqn:Ei; [|discriminate].
    cbn [then_ fst snd] in Hrun. injection Hrun as _ <-.
    assert (Hm1 : names_fine m1).
    { destruct Hm as [Hk (js & Hn & Hd & Hlt)]. split.
      - cbn [m1 table]. rewrite (put_new _ _ _ El), map_app. cbn [map fst]. apply NoDup_snoc; [exact Hk|].
        now apply lookup_none.
      - exists (js ++ [next m])%list. cbn [m1 table next]. rewrite (put_new _ _ _ El), !map_app, Hn. cbn [map snd fr_name].
        split; [reflexivity|]. split.
        + apply NoDup_snoc; [exact Hd|]. intros Hin. rewrite Forall_forall in Hlt. apply Hlt in Hin. lia.
        + apply Forall_app. split; [|constructor; [lia|constructor]].
          eapply Forall_impl; [|exact Hlt]. cbn. intros j Hj. lia. }
    destruct (Hall m1 l' m2 Ei Hm1) as [Hm2 [Hn2 Hst]].
    destruct (Hst id (mkfragment name ty []) (lookup_put_same _ _ _)) as (g & Hg & Eg). cbn [fr_name] in Eg.
    destruct (put_old id (mkfragment name ty l') g (table m2) Hg) as [E1 E2]; [cbn [fr_name]; congruence|].
    split.
    - destruct Hm2 as [Hk (js & Hn & Hd & Hlt)]. split; cbn [table].
      + now rewrite E1.
      + exists js. rewrite E2. auto.
    - split; [cbn [next m1] in *; lia|]. intros id' f Hl. cbn [table].
      assert (Hne : id <> id') by (intros ->; congruence). rewrite lookup_put_other by exact Hne.
      apply Hst. cbn [m1 table]. now rewrite lookup_put_other.
  Qed.
  Lemma all_names : forall ty l, Forall (fun x => names_kept (rewrite sg gid st ty x)) l -> names_kept (rewrite_all sg gid st ty l).
  Proof.
    induction l as [|x l IH]; intros Hl m r m' Hrun Hm.
    - injection Hrun as _ <-. split; [exact Hm|apply stable_refl].
    - rewrite rewrite_all_cons in Hrun. destruct (rewrite sg gid st ty x m) as [[x' m1]|] eqn:E1; [|discriminate].
      cbn [then_ fst snd] in Hrun. destruct (rewrite_all sg gid st ty l m1) as [[l' m2]|] eqn:E2; [|discriminate].
      cbn [then_ fst snd] in Hrun. injection Hrun as _ <-.
      destruct (Forall_inv Hl m x' m1 E1 Hm) as [H1 S1]. destruct (IH (Forall_inv_tail Hl) m1 l' m2 E2 H1) as [H2 S2].
      split; [exact H2|eapply stable_trans; eassumption].
  Qed.
  Lemma rewrite_names : forall x ty, names_kept (rewrite sg gid st ty x).
  Proof.
    induction x as [n a args i s o sub IH|t i s sub IH|n] using sel_ind'; intros ty m r m' Hrun Hm.
    - rewrite rewrite_field in Hrun. destruct (is_introspection n).
      { injection Hrun as _ <-. split; [exact Hm|apply stable_refl]. }
      destruct (String.eqb n "_entities").
      + destruct (rewrite_entities sg gid st ty sub m) as [[l' m1]|] eqn:E; [|discriminate].
        cbn [then_ fst snd] in Hrun. injection Hrun as _ <-. revert m l' m1 E Hm.
        induction sub as [|y sub IHs]; intros m l' m1 E Hm.
        * injection E as _ <-. split; [exact Hm|apply stable_refl].
        * specialize (IHs (Forall_inv_tail IH)). assert (IHy := Forall_inv IH). destruct y as [k a2 args2 i2 s2 o2 sub2|t2 i2 s2 sub2|k].
          -- cbn [rewrite_entities] in E. destruct (is_introspection k); [|discriminate].
             fold (rewrite_entities sg gid st ty) in E.
             destruct (rewrite_entities sg gid st ty sub m) as [[l2 m2]|] eqn:E2; [|discriminate].
             cbn [then_ fst snd] in E. injection E as _ <-. eapply IHs; eassumption.
          -- change (rewrite_entities sg gid st ty (SFrag t2 i2 s2 sub2 :: sub) m) with
               (then_ (rewrite sg gid st ty (SFrag t2 i2 s2 sub2) m)
                  (fun r => then_ (rewrite_entities sg gid st ty sub (snd r)) (fun q => Done (fst r :: fst q, snd q)))) in E.
             destruct (rewrite sg gid st ty (SFrag t2 i2 s2 sub2) m) as [[x' m2]|] eqn:E1; [|discriminate].
             cbn [then_ fst snd] in E. destruct (rewrite_entities sg gid st ty sub m2) as [[l3 m3]|] eqn:E3; [|discriminate].
             cbn [then_ fst snd] in E. injection E as _ <-.
             destruct (IHy ty m x' m2 E1 Hm) as [H1 S1]. destruct (IHs m2 l3 m3 E3 H1) as [H2 S2].
             split; [exact H2|eapply stable_trans; eassumption].
          -- change (rewrite_entities sg gid st ty (SSpread k :: sub) m) with
               (then_ (rewrite_entities sg gid st ty sub m) (fun q => Done (SSpread k :: fst q, snd q))) in E.
             destruct (rewrite_entities sg gid st ty sub m) as [[l2 m2]|] eqn:E2; [|discriminate].
             cbn [then_ fst snd] in E. injection E as _ <-. eapply IHs; eassumption.
      + destruct (named ty (definitions sg)) as [fs|]; [|discriminate]. destruct (named n fs) as [tt|]; [|discriminate].
        destruct (rewrite_set sg gid st (inner_name tt) sub m) as [[l' m1]|] eqn:E; [|discriminate].
        cbn [then_ fst snd] in Hrun. injection Hrun as _ <-. eapply share_names; [|exact E|exact Hm].
        apply all_names. eapply Forall_impl; [|exact IH]. intros x Hx. apply Hx.
    - rewrite rewrite_frag in Hrun. destruct (rewrite_set sg gid st t sub m) as [[l' m1]|] eqn:E; [|discriminate].
      cbn [then_ fst snd] in Hrun. injection Hrun as _ <-. eapply share_names; [|exact E|exact Hm].
      apply all_names. eapply Forall_impl; [|exact IH]. intros x Hx. apply Hx.
    - injection Hrun as _ <-. split; [exact Hm|apply stable_refl].
  Qed.
  Lemma root_names : forall ty l r m, rewrite_set sg gid st ty l (mkmade [] 0) = Done (r, m) -> names_fine m.
  Proof.
    intros ty l r m H. eapply share_names; [|exact H|].
    - apply all_names. apply Forall_forall. intros x _. apply rewrite_names.
    - split; [constructor|]. exists []. repeat split; constructor.
  Qed.
End Sg.

(** * Sorting *)
Lemma place_perm : forall f l, Permutation (f :: l) (place f l).
Proof.
  induction l as [|g l IH]; cbn [place]; [reflexivity|].
  destruct (String.compare (fr_name g) (fr_name f)); try reflexivity.
  - rewrite perm_swap. now rewrite <- IH.
  - rewrite perm_swap. now rewrite <- IH.
Qed.
Lemma by_name_perm : forall l, Permutation l (by_name l).
Proof.
  induction l as [|f l IH]; [reflexivity|]. change (by_name (f :: l)) with (place f (by_name l)).
  rewrite <- place_perm. now constructor.
Qed.

(** * Relations of selection sets *)
Lemma shuffled_refl_item : forall x l l', shuffled l l' -> shuffled (x :: l) (x :: l').
Proof.
  assert (Hl : forall l, Forall (fun x => forall l l', shuffled l l' -> shuffled (x :: l) (x :: l')) l -> shuffled l l).
  { induction l as [|x l IH]; intros H; [constructor|]. apply (Forall_inv H). apply IH. exact (Forall_inv_tail H). }
  induction x as [n a args i s o sub IH|t i s sub IH|n] using sel_ind'; intros l l' H; constructor; auto.
Qed.
Lemma shuffled_refl : forall l, shuffled l l.
Proof. induction l as [|x l IH]; [constructor|]. now apply shuffled_refl_item. Qed.
Lemma shuffled_weight : forall a b, shuffled a b -> weights a = weights b.
Proof.
  induction 1 as [|n a args i s o sub sub' l l' H1 IH1 H2 IH2|t i s sub sub' l l' H1 IH1 H2 IH2|n l l' H IH|x y l|]; try lia; try congruence.
  - change (S (weights sub) + weights l = S (weights sub') + weights l'). lia.
  - change (S (weights sub) + weights l = S (weights sub') + weights l'). lia.
  - change (1 + weights l = 1 + weights l'). lia.
  - change (weight x + (weight y + weights l) = weight y + (weight x + weights l)). lia.
Qed.

Section Final.
  Variable sg : supergraph.
  Variable gid : string -> list sel -> N.
  Variable R : list sel -> list sel -> Prop.
  Hypothesis R_refl : forall l, R l l.
  Hypothesis R_trans : forall a b c, R a b -> R b c -> R a c.
  Hypothesis R_field : forall n a args i s o sub sub' l l',
    R sub sub' -> R l l' -> R (SField n a args i s o sub :: l) (SField n a args i s o sub' :: l').
  Hypothesis R_frag : forall t i s sub sub' l l',
    R sub sub' -> R l l' -> R (SFrag t i s sub :: l) (SFrag t i s sub' :: l').
  Hypothesis R_weight : forall a b, R a b -> weights a = weights b.

  Lemma rooted_root : forall k root, rooted sg k root <-> root_of sg k = Some root.
  Proof.
    intros k root. split.
    - destruct 1; cbn [root_of]; auto.
    - destruct k as [[]|]; cbn [root_of]; intros H; try (injection H as <-; constructor); now constructor.
  Qed.
  Lemma table_defines : forall m, NoDup (map fst (table m)) -> forall n t b,
    def_of [] (table m) n t b -> In (mkfragment n t b) (by_name (map snd (table m))).
  Proof.
    intros m _ n t b (id & Hl & _). eapply Permutation_in; [apply by_name_perm|].
    apply lookup_in in Hl. apply in_map_iff. now exists (id, mkfragment n t b).
  Qed.
  Lemma minify_kept : forall op root, sendable sg op root -> tells sg gid R root (op_sels op) ->
    exists d e, minify sg gid op = Done d /\ same_otherwise op d /\
      expands (definitions sg) (defines d) root (op_sels (doc_op d)) e /\ R e (op_sels op).
  Proof.
    intros op root (Hr & Hsel & Hf) Ht. unfold minify. apply rooted_root in Hr. rewrite Hr.
    destruct (walk_root sg gid root (op_sels op) Hsel Hf) as [st ->]. cbn [then_]. unfold transform.
    destruct (has_duplicates st).
    - destruct (root_kept sg gid st R (R_refl []) R_refl R_trans R_field R_frag R_weight root (op_sels op) Ht Hf)
        as (l' & m & e & Hrun & _ & He & HR).
      rewrite Hrun. cbn [then_ fst snd]. eexists. exists e. split; [reflexivity|]. split; [now repeat split|].
      split; [|exact HR]. cbn [doc_op op_sels]. eapply expands_mono; [|exact He].
      apply table_defines. exact (proj1 (root_names _ _ _ _ _ _ _ Hrun)).
    - eexists. exists (op_sels op). split; [reflexivity|]. split; [now repeat split|]. split; [|apply R_refl].
      cbn [doc_op]. now apply expands_selves.
  Qed.
End Final.

Lemma minify_names : forall sg gid op d, minify sg gid op = Done d ->
  NoDup (map fr_name (doc_frags d)) /\ Forall (fun f => lettered (fr_name f) /\ fr_name f <> "") (doc_frags d).
Proof.
  intros sg gid op d H. unfold minify in H. destruct (root_of sg (op_kind op)) as [root|]; [|discriminate].
  destruct (walk_set sg gid root (op_sels op) []) as [st|]; [|discriminate]. cbn [then_] in H.
  unfold transform in H. destruct (has_duplicates st).
  - destruct (rewrite_set sg gid st root (op_sels op) (mkmade [] 0)) as [[l' m]|] eqn:E; [|discriminate].
    cbn [then_ fst snd] in H. injection H as <-. cbn [doc_frags].
    destruct (root_names _ _ _ _ _ _ _ E) as [_ (js & Hn & Hd & _)].
    assert (Hp := by_name_perm (map snd (table m))).
    assert (En : map fr_name (map snd (table m)) = map fragment_name js) by (rewrite map_map; exact Hn).
    split.
    + eapply Permutation_NoDup; [apply Permutation_map; exact Hp|]. rewrite En.
      clear - Hd. induction js as [|j js IH]; [constructor|]. inversion Hd as [|? ? Hj Hd']; subst. cbn [map].
      constructor; [|now apply IH]. intros Hin. apply in_map_iff in Hin as (k & Ek & Hk). apply name_injective in Ek. congruence.
    + apply Forall_forall. intros f Hin. apply Permutation_sym in Hp. apply (Permutation_in _ Hp) in Hin.
      apply (in_map fr_name) in Hin. rewrite En in Hin. apply in_map_iff in Hin as (k & <- & _). apply name_lettered.
  - injection H as <-. cbn [doc_frags]. split; constructor.
Qed.

Lemma minify_shuffled : forall sg gid op root, sendable sg op root -> tells sg gid shuffled root (op_sels op) ->
  exists d e, minify sg gid op = Done d /\ same_otherwise op d /\
    expands (definitions sg) (defines d) root (op_sels (doc_op d)) e /\ shuffled e (op_sels op).
Proof.
  intros. eapply minify_kept; eauto; try (intros; now constructor).
  - apply shuffled_refl.
  - intros a b c. apply shuffled_trans.
  - apply shuffled_weight.
Qed.
Lemma minify_exact : forall sg gid op root, sendable sg op root -> tells sg gid eq root (op_sels op) ->
  exists d, minify sg gid op = Done d /\ same_otherwise op d /\
    expands (definitions sg) (defines d) root (op_sels (doc_op d)) (op_sels op).
Proof.
  intros sg gid op root Hs Ht. destruct (minify_kept sg gid eq) with (op := op) (root := root) as (d & e & H1 & H2 & H3 & H4);
    auto; try congruence. subst e. eauto.
Qed.
(** * Whatever the identifiers, an operation that may be sent is rewritten *)
Section Total.
  Variable sg : supergraph.
  Variable gid : string -> list sel -> N.
  Variable st : list (N * N).
  Let types := definitions sg.
  Lemma all_done : forall ty l, Forall (fun x => forall m, exists r, rewrite sg gid st ty x m = Done r) l ->
    forall m, exists r, rewrite_all sg gid st ty l m = Done r.
  Proof.
    induction l as [|x l IH]; intros Hl m; [eexists; reflexivity|].
    destruct (Forall_inv Hl m) as [[x' m1] H1]. destruct (IH (Forall_inv_tail Hl) m1) as [[l' m2] H2].
    exists (x' :: l', m2). rewrite rewrite_all_cons, H1. cbn [then_ fst snd]. now rewrite H2.
  Qed.
  Lemma set_done : forall ty l, Forall (fun x => forall m, exists r, rewrite sg gid st ty x m = Done r) l ->
    forall m, exists r, rewrite_set sg gid st ty l m = Done r.
  Proof.
    intros ty l Hl m. unfold rewrite_set, share, get_or_create.
    destruct (is_duplicated st (gid ty l)); [|now apply all_done].
    destruct (lookup (gid ty l) (table m)); [eexists; reflexivity|].
    destruct (all_done ty l Hl (mkmade (put (gid ty l) (mkfragment (fragment_name (next m)) ty []) (table m)) (next m + 1))) as [r ->].
    eexists; reflexivity.
  Qed.
  Lemma rewrite_done : forall x ty, fits types ty x -> forall m, exists r, rewrite sg gid st ty x m = Done r.
  Proof.
    induction x as [n a args i s o sub IH|t i s sub IH|n] using sel_ind'; intros ty Hf m.
    - rewrite rewrite_field.
      inversion Hf as [? ? ? ? ? ? ? ? Hm|? ? ? ? ? ? ? ? t' Hm Hne Hd Hsel Hsub|? ? ? ? ? ? ? Hent|]; subst.
      + assert (Em := proj2 (meta_prefix n) Hm). rewrite Em. eauto.
      + assert (Em := proj2 (not_meta n) Hm). rewrite Em.
        assert (En : String.eqb n "_entities" = false) by now apply String.eqb_neq. rewrite En.
        apply declared_named in Hd as (fs & tt & Hn1 & Hn2 & Hn3). rewrite Hn1, Hn2, Hn3.
        assert (Hall : Forall (fun x => forall m, exists r, rewrite sg gid st t' x m = Done r) sub).
        { rewrite Forall_forall in IH, Hsub |- *. intros y Hy. now apply IH; auto. }
        destruct (set_done t' sub Hall m) as [r ->]. eexists; reflexivity.
      + rewrite entities_not_meta, String.eqb_refl.
        assert (Hall : forall m, exists r, rewrite_entities sg gid st ty sub m = Done r).
        { clear Hf. induction sub as [|y sub IHs]; intros m0; [eexists; reflexivity|].
          specialize (IHs (Forall_inv_tail IH) (Forall_inv_tail Hent)).
          assert (Hy := Forall_inv Hent). assert (IHy := Forall_inv IH).
          destruct Hy as [t k a2 args2 i2 s2 o2 sub2 Hm|t t' i2 s2 sub2 Hsel Hsub].
          - cbn [rewrite_entities]. assert (Em := proj2 (meta_prefix k) Hm). rewrite Em.
            fold (rewrite_entities sg gid st t). destruct (IHs m0) as [r ->]. eexists; reflexivity.
          - change (rewrite_entities sg gid st t (SFrag t' i2 s2 sub2 :: sub) m0) with
              (then_ (rewrite sg gid st t (SFrag t' i2 s2 sub2) m0)
                 (fun r => then_ (rewrite_entities sg gid st t sub (snd r)) (fun q => Done (fst r :: fst q, snd q)))).
            destruct (IHy t (fits_frag _ _ _ _ _ _ Hsel Hsub) m0) as [r ->]. cbn [then_].
            destruct (IHs (snd r)) as [q ->]. eexists; reflexivity. }
        destruct (Hall m) as [r ->]. eexists; reflexivity.
    - rewrite rewrite_frag. inversion Hf as [| | |? ? ? ? ? Hsel Hsub]; subst.
      assert (Hall : Forall (fun x => forall m, exists r, rewrite sg gid st t x m = Done r) sub).
      { rewrite Forall_forall in IH, Hsub |- *. intros y Hy. now apply IH; auto. }
      destruct (set_done t sub Hall m) as [r ->]. eexists; reflexivity.
    - inversion Hf.
  Qed.
End Total.
Lemma minify_done : forall sg gid op root, sendable sg op root ->
  exists d, minify sg gid op = Done d /\ same_otherwise op d.
Proof.
  intros sg gid op root (Hr & Hsel & Hf). unfold minify. apply rooted_root in Hr. rewrite Hr.
  destruct (walk_root sg gid root (op_sels op) Hsel Hf) as [st ->]. cbn [then_]. unfold transform.
  destruct (has_duplicates st); [|eexists; split; [reflexivity|now repeat split]].
  destruct (set_done sg gid st root (op_sels op)) with (m := mkmade [] 0%N) as [r ->].
  - rewrite Forall_forall in Hf |- *. intros y Hy. apply rewrite_done. now apply Hf.
  - cbn [then_]. eexists. split; [reflexivity|now repeat split].
Qed.

(** * The order of selections does not enter the identifier *)
Lemma fold_lxor : forall l z, fold_left N.lxor l z = N.lxor z (fold_left N.lxor l 0%N).
Proof.
  induction l as [|x l IH]; intros z; cbn [fold_left]; [now rewrite N.lxor_0_r|].
  rewrite IH, (IH (N.lxor 0 x)), N.lxor_0_l, N.lxor_assoc. reflexivity.
Qed.
Lemma set_hash_cons : forall H x l, set_hash H (x :: l) = N.lxor (H (item_tokens H x)) (set_hash H l).
Proof. intros. unfold set_hash. cbn [map fold_left]. now rewrite fold_lxor, N.lxor_0_l. Qed.
Lemma shuffled_hash : forall H a b, shuffled a b -> set_hash H a = set_hash H b.
Proof.
  intros H a b Hs. induction Hs as [|n al args i s o sub sub' l l' H1 IH1 H2 IH2|t i s sub sub' l l' H1 IH1 H2 IH2|n l l' H1 IH|x y l|].
  - reflexivity.
  - rewrite !set_hash_cons, IH2. do 2 f_equal. cbn [item_tokens]. fold (set_hash H sub). fold (set_hash H sub'). now rewrite IH1.
  - rewrite !set_hash_cons, IH2. do 2 f_equal. cbn [item_tokens]. fold (set_hash H sub). fold (set_hash H sub'). now rewrite IH1.
  - now rewrite !set_hash_cons, IH.
  - rewrite !set_hash_cons. rewrite <- !N.lxor_assoc. f_equal. apply N.lxor_comm.
  - congruence.
Qed.
Lemma shuffled_id : forall H D ty a b, shuffled a b -> selection_id H D ty a = selection_id H D ty b.
Proof. intros. unfold selection_id. now rewrite (shuffled_hash H a b). Qed.
