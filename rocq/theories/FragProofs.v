From Coq Require Import String Ascii List NArith Bool Lia Permutation.
From Verif Require Import Ast AstHashModel PrintModel FragModel FragSpec.
Import ListNotations.
Local Open Scope string_scope.

(** * Lookups *)
Lemma named_find : forall A (l : list (string * A)) k a,
  named k l = Some a <-> find (fun p => String.eqb (fst p) k) l = Some (k, a).
Proof.
  induction l as [|[k' a'] l IH]; intros k a; cbn [named find fst]; [split; discriminate|].
  rewrite String.eqb_sym. destruct (String.eqb_spec k' k) as [->|Hne].
  - split; [intros [= ->]; reflexivity|intros H; injection H as ->; reflexivity].
  - apply IH.
Qed.
Lemma inner_base : forall t n, base t n <-> inner_name t = n.
Proof.
  intros t n. split.
  - induction 1; cbn [inner_name]; auto.
  - revert n. induction t as [m|t IH|t IH]; intros n H; cbn [inner_name] in H.
    + subst. constructor.
    + constructor. auto.
    + constructor. auto.
Qed.
Lemma meta_prefix : forall n, is_introspection n = true <-> meta n.
Proof.
  unfold is_introspection, meta. intros n. split.
  - destruct n as [|a [|b r]]; cbn [String.prefix]; try discriminate.
    + destruct (ascii_dec "_" a); discriminate.
    + destruct (ascii_dec "_" a) as [<-|]; [|discriminate].
      destruct (ascii_dec "_" b) as [<-|]; [|discriminate]. intros _. now exists r.
  - intros [r ->]. cbn [String.prefix]. destruct (ascii_dec "_" "_") as [_|c]; [|congruence].
    destruct r; reflexivity.
Qed.
Lemma not_meta : forall n, is_introspection n = false <-> ~ meta n.
Proof. intros n. rewrite <- meta_prefix. destruct (is_introspection n); split; intros; congruence. Qed.
Lemma entities_not_meta : is_introspection "_entities" = false.
Proof. reflexivity. Qed.

Section Sg.
  Variable sg : supergraph.
  Let types := definitions sg.
  Lemma known_named : forall t fs, known types t fs <-> named t (definitions sg) = Some fs.
  Proof. intros. unfold known, types. now rewrite named_find. Qed.
  Lemma declared_named : forall t n t', declared types t n t' <->
    exists fs ty, named t (definitions sg) = Some fs /\ named n fs = Some ty /\ inner_name ty = t'.
  Proof.
    intros t n t'. unfold declared. split.
    - intros (fs & ty & Hk & Hf & Hb). apply known_named in Hk. apply named_find in Hf. apply inner_base in Hb. eauto.
    - intros (fs & ty & Hk & Hf & Hb). apply known_named in Hk. apply named_find in Hf. apply inner_base in Hb. eauto.
  Qed.

  Variable gid : string -> list sel -> N.

  (** * Unfolding *)
  Definition walk_entities (ty : string) : list sel -> list (N * N) -> outcome (list (N * N)) :=
    fix each l st :=
      match l with
      | [] => Done st
      | y :: l' =>
          match y with
          | SField m _ _ _ _ _ _ => if is_introspection m then each l' st else Failed (UnsupportedField ty m)
          | SFrag _ _ _ _ => then_ (walk sg gid ty y st) (each l')
          | SSpread _ => Failed UnsupportedSpread
          end
      end.
  Lemma walk_field : forall ty n a args i s o sub st,
    walk sg gid ty (SField n a args i s o sub) st =
    if is_introspection n then Done st
    else if String.eqb n "_entities" then walk_entities ty sub st
    else match named ty (definitions sg) with
         | Some fs => match named n fs with
                      | Some t => walk_set sg gid (inner_name t) sub st
                      | None => Failed (FieldNotFound n ty)
                      end
         | None => Failed (FieldNotFound n ty)
         end.
  Proof. reflexivity. Qed.
  Lemma walk_frag : forall ty t i s sub st, walk sg gid ty (SFrag t i s sub) st = walk_set sg gid t sub st.
  Proof. reflexivity. Qed.

  Variable st : list (N * N).
  Definition rewrite_entities (ty : string) : list sel -> made -> outcome (list sel * made) :=
    fix each l m :=
      match l with
      | [] => Done ([], m)
      | y :: l' =>
          match y with
          | SField k _ _ _ _ _ _ =>
              if is_introspection k then then_ (each l' m) (fun r => Done (y :: fst r, snd r))
              else Failed (UnsupportedField ty k)
          | _ => then_ (rewrite sg gid st ty y m) (fun r => then_ (each l' (snd r)) (fun q => Done (fst r :: fst q, snd q)))
          end
      end.
  Lemma rewrite_field : forall ty n a args i s o sub m,
    rewrite sg gid st ty (SField n a args i s o sub) m =
    if is_introspection n then Done (SField n a args i s o sub, m)
    else if String.eqb n "_entities" then
      then_ (rewrite_entities ty sub m) (fun r => Done (SField n a args i s o (fst r), snd r))
    else match named ty (definitions sg) with
         | Some fs => match named n fs with
                      | Some t => then_ (rewrite_set sg gid st (inner_name t) sub m)
                                        (fun r => Done (SField n a args i s o (fst r), snd r))
                      | None => Failed (FieldNotFound n ty)
                      end
         | None => Failed (FieldNotFound n ty)
         end.
  Proof. reflexivity. Qed.
  Lemma rewrite_frag : forall ty t i s sub m,
    rewrite sg gid st ty (SFrag t i s sub) m =
    then_ (rewrite_set sg gid st t sub m) (fun r => Done (SFrag t i s (fst r), snd r)).
  Proof. reflexivity. Qed.
  Lemma rewrite_all_cons : forall ty y l m,
    rewrite_all sg gid st ty (y :: l) m =
    then_ (rewrite sg gid st ty y m)
      (fun r => then_ (rewrite_all sg gid st ty l (snd r)) (fun q => Done (fst r :: fst q, snd q))).
  Proof. reflexivity. Qed.

  (** * Tables *)
  Lemma lookup_put_same : forall id f t, lookup id (put id f t) = Some f.
  Proof.
    induction t as [|[id' f'] t IH]; cbn [put lookup]; [now rewrite N.eqb_refl|].
    destruct (N.eqb_spec id id') as [->|Hne]; cbn [lookup]; [now rewrite N.eqb_refl|].
    apply N.eqb_neq in Hne. now rewrite Hne.
  Qed.
  Lemma lookup_put_other : forall id id' f t, id <> id' -> lookup id' (put id f t) = lookup id' t.
  Proof.
    intros id id' f t Hne. induction t as [|[k g] t IH]; cbn [put lookup].
    - apply not_eq_sym in Hne. apply N.eqb_neq in Hne. now rewrite Hne.
    - destruct (N.eqb_spec id k) as [->|Hk]; cbn [lookup].
      + assert (E : (id' =? k)%N = false) by (apply N.eqb_neq; congruence). now rewrite E.
      + destruct (N.eqb_spec id' k); [reflexivity|apply IH].
  Qed.
  Lemma lookup_in : forall id f t, lookup id t = Some f -> In (id, f) t.
  Proof.
    induction t as [|[k g] t IH]; cbn [lookup]; [discriminate|].
    destruct (N.eqb_spec id k) as [->|]; [intros [= ->]; now left|right; auto].
  Qed.

  (** * Weights *)
  Fixpoint weight (x : sel) : nat :=
    match x with
    | SField _ _ _ _ _ _ sub => S (list_sum (map weight sub))
    | SFrag _ _ _ sub => S (list_sum (map weight sub))
    | SSpread _ => 1
    end.
  Definition is_frag (x : sel) : Prop := match x with SFrag _ _ _ _ => True | _ => False end.
  Definition weights (l : list sel) : nat := list_sum (map weight l).
  Lemma weight_in : forall x l, In x l -> weight x <= weights l.
  Proof.
    unfold weights. induction l as [|y l IH]; intros H; [contradiction|].
    cbn [map list_sum fold_right]. fold (list_sum (map weight l)). destruct H as [->|H]; [lia|].
    specialize (IH H). lia.
  Qed.
  Lemma opens_lighter : forall t x t' l', opens types t x t' l' -> weights l' < weight x.
  Proof.
    destruct 1 as [n a args i s o sub t' _ _ _|t' i s sub|a args i s o sub t' i' s' sub' Hin]; cbn [weight];
      fold (weights sub); try lia.
    apply weight_in in Hin. cbn [weight] in Hin. fold (weights sub') in Hin. lia.
  Qed.

  (** * The meaning is kept *)
  Variable R : list sel -> list sel -> Prop.
  Hypothesis R_nil : R [] [].
  Hypothesis R_refl : forall l, R l l.
  Hypothesis R_trans : forall a b c, R a b -> R b c -> R a c.
  Hypothesis R_field : forall n a args i s o sub sub' l l',
    R sub sub' -> R l l' -> R (SField n a args i s o sub :: l) (SField n a args i s o sub' :: l').
  Hypothesis R_frag : forall t i s sub sub' l l',
    R sub sub' -> R l l' -> R (SFrag t i s sub :: l) (SFrag t i s sub' :: l').
  Hypothesis R_weight : forall a b, R a b -> weights a = weights b.
  Variable root : string.
  Variable top : list sel.
  Hypothesis faithful : forall t l t' l',
    occurs types root top t l -> occurs types root top t' l' -> gid t l = gid t' l' -> t = t' /\ R l l'.

  Definition def_of (op : list N) (t : list (N * fragment)) (n on : string) (body : list sel) : Prop :=
    exists id, lookup id t = Some (mkfragment n on body) /\ ~ In id op.
  Definition sound (op : list N) (m : made) : Prop :=
    forall id f, lookup id (table m) = Some f -> ~ In id op ->
      exists l e, occurs types root top (fr_on f) l /\ gid (fr_on f) l = id /\
        expands types (def_of op (table m)) (fr_on f) (fr_sels f) e /\ R e l.
  Definition grows (op : list N) (m m' : made) : Prop :=
    forall id f, lookup id (table m) = Some f -> ~ In id op -> lookup id (table m') = Some f.
  Definition reach (op : list N) (w : nat) : Prop :=
    forall id, In id op -> exists t l, occurs types root top t l /\ gid t l = id /\ w <= weights l.

  Lemma expands_mono : forall (d d' : string -> string -> list sel -> Prop),
    (forall n t b, d n t b -> d' n t b) -> forall t l e, expands types d t l e -> expands types d' t l e.
  Proof.
    intros d d' Hd t l e H. induction H.
    - constructor.
    - now constructor.
    - econstructor; eassumption.
    - now constructor.
    - now constructor.
    - econstructor; eauto.
  Qed.
  Lemma grows_def : forall op m m', grows op m m' ->
    forall n t b, def_of op (table m) n t b -> def_of op (table m') n t b.
  Proof. intros op m m' H n t b (id & Hl & Hn). exists id. split; [now apply H|assumption]. Qed.
  Lemma grows_refl : forall op m, grows op m m.
  Proof. now intros op m id f. Qed.
  Lemma grows_trans : forall op a b c, grows op a b -> grows op b c -> grows op a c.
  Proof. intros op a b c H1 H2 id f Hl Hn. apply H2; [now apply H1|assumption]. Qed.

  Lemma occurs_trans : forall t l t' l', occurs types t l t' l' ->
    forall x t'' l'', In x l' -> opens types t' x t'' l'' -> occurs types t l t'' l''.
  Proof.
    induction 1 as [t l|t l y t1 l1 t2 l2 Hin Ho Hocc IH]; intros x t'' l'' Hx Hop.
    - eapply occurs_inside; [exact Hx|exact Hop|constructor].
    - eapply occurs_inside; [exact Hin|exact Ho|]. eapply IH; eassumption.
  Qed.

  (** What rewriting a selection set on [ty] must do *)
  Definition kept (ty : string) (l : list sel) (w : nat) (run : made -> outcome (list sel * made)) : Prop :=
    forall op m, sound op m -> reach op w ->
      exists l' m' e, run m = Done (l', m') /\ sound op m' /\ grows op m m' /\
        expands types (def_of op (table m')) ty l' e /\ R e l.
  Definition item_kept (ty : string) (x : sel) : Prop :=
    forall op m, sound op m -> reach op (weight x) ->
      exists x' m' xe, rewrite sg gid st ty x m = Done (x', m') /\ sound op m' /\ grows op m m' /\
        (forall d : string -> string -> list sel -> Prop, (forall n t b, def_of op (table m') n t b -> d n t b) ->
           forall ty' l e, (is_frag x \/ ty' = ty) -> expands types d ty' l e -> expands types d ty' (x' :: l) (xe :: e)) /\
        (forall l l', R l l' -> R (xe :: l) (x :: l')).

  Lemma reach_less : forall op w w', w' <= w -> reach op w -> reach op w'.
  Proof. intros op w w' Hw H id Hin. destruct (H id Hin) as (t & l & Ho & Hg & Hl). exists t, l. repeat split; auto. lia. Qed.

  Lemma share_kept : forall ty l, occurs types root top ty l ->
    kept ty l (weights l) (rewrite_all sg gid st ty l) -> kept ty l (S (weights l)) (rewrite_set sg gid st ty l).
  Proof.
    intros ty l Hocc Hitems op m Hs Ha. unfold rewrite_set, share.
    destruct (is_duplicated st (gid ty l)).
    2:{ apply Hitems; [exact Hs|]. eapply reach_less; [|exact Ha]. lia. }
    set (id := gid ty l). unfold get_or_create.
    assert (Hfresh : ~ In id op).
    { intros Hin. destruct (Ha id Hin) as (t & l0 & H1 & H2 & H3).
      destruct (faithful ty l t l0 Hocc H1 (eq_sym H2)) as [_ HR]. apply R_weight in HR. lia. }
    destruct (lookup id (table m)) as [f|] eqn:El.
    - cbn [then_ fst snd]. destruct (Hs id f El Hfresh) as (l0 & e & H1 & H2 & H3 & H4).
      destruct (faithful _ _ _ _ H1 Hocc H2) as [Ht HR].
      exists [SSpread (fr_name f)], m, (e ++ [])%list. split; [reflexivity|]. split; [exact Hs|].
      split; [apply grows_refl|]. split.
      + eapply expands_spread with (body := fr_sels f); [|rewrite <- Ht; exact H3|constructor].
        exists id. split; [|exact Hfresh]. rewrite El. destruct f as [n on b]. cbn [fr_on fr_name fr_sels] in *. now subst.
      + rewrite app_nil_r. eapply R_trans; eassumption.
    - set (name := fragment_name (next m)).
      set (m1 := mkmade (put id (mkfragment name ty []) (table m)) (next m + 1)).
      assert (Hs1 : sound (id :: op) m1).
      { intros id' f Hl Hn. assert (Hne : id <> id') by (intros ->; apply Hn; now left).
        assert (Hn' : ~ In id' op) by (intros H; apply Hn; now right).
        cbn [m1 table] in Hl. rewrite lookup_put_other in Hl by exact Hne.
        destruct (Hs id' f Hl Hn') as (l0 & e & H1 & H2 & H3 & H4). exists l0, e. repeat split; auto.
        eapply expands_mono; [|exact H3]. intros n t b (k & Hk & Hkn).
        assert (Hkne : id <> k) by (intros ->; congruence).
        exists k. split; [cbn [m1 table]; now rewrite lookup_put_other|]. intros [H|H]; [now apply Hkne|now apply Hkn]. }
      destruct (Hitems (id :: op) m1 Hs1) as (l' & m' & e & Hrun & Hs' & Hg & He & HR).
      { intros id' [<-|Hin]; [exists ty, l; repeat split; auto|].
        destruct (Ha id' Hin) as (t & l0 & H1 & H2 & H3). exists t, l0. repeat split; auto. lia. }
      rewrite Hrun. cbn [then_ fst snd].
      set (m2 := mkmade (put id (mkfragment name ty l') (table m')) (next m')).
      assert (Hdef : forall n t b, def_of (id :: op) (table m') n t b -> def_of op (table m2) n t b).
      { intros n t b (k & Hk & Hkn). assert (Hkne : id <> k) by (intros ->; apply Hkn; now left).
        exists k. split; [cbn [m2 table]; now rewrite lookup_put_other|]. intros H. apply Hkn. now right. }
      exists [SSpread name], m2, (e ++ [])%list. split; [reflexivity|].
      split; [|split; [|split]].
      + intros id' f Hl Hn. destruct (N.eq_dec id id') as [<-|Hne].
        * cbn [m2 table] in Hl. rewrite lookup_put_same in Hl. injection Hl as <-. cbn [fr_on fr_sels].
          exists l, e. repeat split; auto. eapply expands_mono; [exact Hdef|exact He].
        * cbn [m2 table] in Hl. rewrite lookup_put_other in Hl by exact Hne.
          assert (Hn2 : ~ In id' (id :: op)) by (intros [H|H]; [now apply Hne|now apply Hn]).
          destruct (Hs' id' f Hl Hn2) as (l0 & e0 & H1 & H2 & H3 & H4). exists l0, e0. repeat split; auto.
          eapply expands_mono; [exact Hdef|exact H3].
      + intros id' f Hl Hn. assert (Hne : id <> id') by (intros ->; congruence).
        cbn [m2 table]. rewrite lookup_put_other by exact Hne. apply Hg.
        * cbn [m1 table]. now rewrite lookup_put_other.
        * intros [H|H]; [now apply Hne|now apply Hn].
      + eapply expands_spread with (body := l'); [|eapply expands_mono; [exact Hdef|exact He]|constructor].
        exists id. split; [cbn [m2 table]; apply lookup_put_same|exact Hfresh].
      + now rewrite app_nil_r.
  Qed.

  Lemma all_kept : forall ty l, Forall (item_kept ty) l -> kept ty l (weights l) (rewrite_all sg gid st ty l).
  Proof.
    induction l as [|x l IH]; intros Hl op m Hs Ha.
    - exists [], m, []. repeat split; auto; [apply grows_refl|constructor].
    - assert (Ew : weights (x :: l) = weight x + weights l) by reflexivity.
      destruct (Forall_inv Hl op m Hs) as (x' & m1 & xe & Hrun & Hs1 & Hg1 & He1 & HR1);
        [eapply reach_less; [|exact Ha]; lia|].
      destruct (IH (Forall_inv_tail Hl) op m1 Hs1) as (l' & m2 & e & Hrun2 & Hs2 & Hg2 & He2 & HR2);
        [eapply reach_less; [|exact Ha]; lia|].
      exists (x' :: l'), m2, (xe :: e). rewrite rewrite_all_cons, Hrun. cbn [then_ fst snd].
      rewrite Hrun2. cbn [then_ fst snd]. split; [reflexivity|]. split; [exact Hs2|].
      split; [eapply grows_trans; eassumption|]. split.
      + apply He1; [|now right|exact He2]. apply grows_def. exact Hg2.
      + apply HR1. exact HR2.
  Qed.

  Lemma entities_kept : forall ty l, Forall (fits_entity types ty) l ->
    Forall (fun x => is_frag x -> item_kept ty x) l ->
    forall op m, sound op m -> reach op (weights l) ->
      exists l' m' e, rewrite_entities ty l m = Done (l', m') /\ sound op m' /\ grows op m m' /\
        expands types (def_of op (table m')) "_Entity" l' e /\ R e l.
  Proof.
    induction l as [|x l IH]; intros Hf Hl op m Hs Ha.
    - exists [], m, []. repeat split; auto; [apply grows_refl|constructor].
    - assert (Ew : weights (x :: l) = weight x + weights l) by reflexivity.
      assert (Hfx := Forall_inv Hf). assert (Hlx := Forall_inv Hl).
      destruct Hfx as [t n a args i s o sub Hm|t t' i s sub Hsel Hsub].
      + destruct (IH (Forall_inv_tail Hf) (Forall_inv_tail Hl) op m Hs) as (l' & m2 & e & Hrun2 & Hs2 & Hg2 & He2 & HR2);
          [eapply reach_less; [|exact Ha]; lia|].
        exists (SField n a args i s o sub :: l'), m2, (SField n a args i s o sub :: e).
        cbn [rewrite_entities]. assert (Em := proj2 (meta_prefix n) Hm). rewrite Em.
        fold (rewrite_entities t). rewrite Hrun2. cbn [then_ fst snd]. repeat split; auto. now constructor.
      + destruct (Hlx I op m Hs) as (x' & m1 & xe & Hrun & Hs1 & Hg1 & He1 & HR1);
          [eapply reach_less; [|exact Ha]; lia|].
        destruct (IH (Forall_inv_tail Hf) (Forall_inv_tail Hl) op m1 Hs1) as (l' & m2 & e & Hrun2 & Hs2 & Hg2 & He2 & HR2);
          [eapply reach_less; [|exact Ha]; lia|].
        exists (x' :: l'), m2, (xe :: e).
        change (rewrite_entities t (SFrag t' i s sub :: l) m) with
          (then_ (rewrite sg gid st t (SFrag t' i s sub) m)
             (fun r => then_ (rewrite_entities t l (snd r)) (fun q => Done (fst r :: fst q, snd q)))).
        rewrite Hrun. cbn [then_ fst snd]. rewrite Hrun2. cbn [then_ fst snd].
        split; [reflexivity|]. split; [exact Hs2|]. split; [eapply grows_trans; eassumption|]. split.
        * apply He1; [|left; exact I|exact He2]. apply grows_def. exact Hg2.
        * apply HR1. exact HR2.
  Qed.

  Lemma fits_kept : forall x ty, fits types ty x ->
    (forall t' l', opens types ty x t' l' -> occurs types root top t' l') -> item_kept ty x.
  Proof.
    induction x as [n a args i s o sub IH|t i s sub IH|n] using sel_ind'; intros ty Hf Hocc op m Hs Ha.
    - inversion Hf as [? ? ? ? ? ? ? ? Hm|? ? ? ? ? ? ? ? t' Hm Hne Hd Hsel Hsub|? ? ? ? ? ? ? Hent|]; subst.
      + exists (SField n a args i s o sub), m, (SField n a args i s o sub).
        rewrite rewrite_field. assert (Em := proj2 (meta_prefix n) Hm). rewrite Em.
        split; [reflexivity|]. split; [exact Hs|]. split; [apply grows_refl|]. split.
        * intros d _ ty' l e _ He. now constructor.
        * intros l l' HR. now apply R_field.
      + assert (Hset : kept t' sub (S (weights sub)) (rewrite_set sg gid st t' sub)).
        { assert (Ho : occurs types root top t' sub) by (apply Hocc; now constructor).
          apply share_kept; [exact Ho|]. apply all_kept. rewrite Forall_forall in IH, Hsub |- *.
          intros y Hy. apply IH; [exact Hy|now apply Hsub|]. intros t2 l2 Hop.
          eapply occurs_trans; eassumption. }
        destruct (Hset op m Hs Ha) as (l' & m' & e & Hrun & Hs' & Hg & He & HR).
        exists (SField n a args i s o l'), m', (SField n a args i s o e).
        rewrite rewrite_field. assert (Em := proj2 (not_meta n) Hm). rewrite Em.
        assert (En : String.eqb n "_entities" = false) by now apply String.eqb_neq. rewrite En.
        apply declared_named in Hd as (fs & tt & Hn1 & Hn2 & Hn3). rewrite Hn1, Hn2, Hn3, Hrun. cbn [then_ fst snd].
        split; [reflexivity|]. split; [exact Hs'|]. split; [exact Hg|]. split.
        * intros d Hd ty' l0 e0 [ [] | -> ] He0. eapply expands_field; eauto.
          -- apply declared_named. eauto.
          -- eapply expands_mono; [exact Hd|exact He].
        * intros l0 l1 HR0. now apply R_field.
      + destruct (entities_kept ty sub Hent) with (op := op) (m := m) as (l' & m' & e & Hrun & Hs' & Hg & He & HR).
        * rewrite Forall_forall in IH, Hent |- *. intros y Hy Hfr. apply IH; [exact Hy| |].
          -- destruct (Hent y Hy) as [? ? ? ? ? ? ? ? ?|t2 t3 i2 s2 sub2 Hsel Hsub]; [contradiction|].
             now constructor.
          -- destruct y as [| t2 i2 s2 sub2|]; try contradiction. intros t4 l4 Hop.
             inversion Hop; subst. apply Hocc. econstructor. exact Hy.
        * exact Hs.
        * eapply reach_less; [|exact Ha]. cbn [weight]. fold (weights sub). lia.
        * exists (SField "_entities" a args i s o l'), m', (SField "_entities" a args i s o e).
          rewrite rewrite_field, entities_not_meta, String.eqb_refl, Hrun. cbn [then_ fst snd].
          split; [reflexivity|]. split; [exact Hs'|]. split; [exact Hg|]. split.
          -- intros d Hd ty' l0 e0 _ He0. apply expands_entities; [|exact He0]. eapply expands_mono; [exact Hd|exact He].
          -- intros l0 l1 HR0. now apply R_field.
    - inversion Hf as [| | |? ? ? ? ? Hsel Hsub]; subst.
      assert (Hset : kept t sub (S (weights sub)) (rewrite_set sg gid st t sub)).
      { assert (Ho : occurs types root top t sub) by (apply Hocc; constructor).
        apply share_kept; [exact Ho|]. apply all_kept. rewrite Forall_forall in IH, Hsub |- *.
        intros y Hy. apply IH; [exact Hy|now apply Hsub|]. intros t2 l2 Hop.
        eapply occurs_trans; eassumption. }
      destruct (Hset op m Hs Ha) as (l' & m' & e & Hrun & Hs' & Hg & He & HR).
      exists (SFrag t i s l'), m', (SFrag t i s e). rewrite rewrite_frag, Hrun. cbn [then_ fst snd].
      split; [reflexivity|]. split; [exact Hs'|]. split; [exact Hg|]. split.
      + intros d Hd ty' l0 e0 _ He0. apply expands_frag; [|exact He0]. eapply expands_mono; [exact Hd|exact He].
      + intros l0 l1 HR0. now apply R_frag.
    - inversion Hf.
  Qed.

  Lemma root_kept : Forall (fits types root) top ->
    exists l' m' e, rewrite_set sg gid st root top (mkmade [] 0) = Done (l', m') /\ sound [] m' /\
      expands types (def_of [] (table m')) root l' e /\ R e top.
  Proof.
    intros Hf. assert (Hset : kept root top (S (weights top)) (rewrite_set sg gid st root top)).
    { apply share_kept; [constructor|]. apply all_kept. rewrite Forall_forall in Hf |- *. intros y Hy.
      apply fits_kept; [now apply Hf|]. intros t2 l2 Hop. eapply occurs_trans; [constructor|exact Hy|exact Hop]. }
    destruct (Hset [] (mkmade [] 0)) as (l' & m' & e & Hrun & Hs' & Hg & He & HR).
    - intros id f Hl. discriminate.
    - intros id [].
    - exists l', m', e. auto.
  Qed.
End Sg.
