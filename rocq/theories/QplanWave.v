(** Proof that a wave with batched fetches brings the same data as the wave it was made from. *)
From Coq Require Import String List NArith Bool Arith Lia Permutation.
From Verif Require Import StrOrd StrUtil JsonModel JsonWriterModel MergeModel MergeSpec MergeProofs Ast AstHashModel TraverseModel TraverseSpec TraverseProofs
  RewriteModel ProjModel ProjSpec RequiresModel RequiresProofs EntityModel EntitySpec EntityProofs EntityBatch ExecModel ExecSpec ExecProofs ExecRun
  QplanModel QplanSpec QplanGroup QplanParallel QplanRun.
Import ListNotations.
Local Open Scope nat_scope.
Local Open Scope list_scope.

(** ** Merging a set of answers *)
Section Set_.
  Variable t : value.
  Hypothesis Wt : wf t.
  Variable U : list value.
  Hypothesis WU : Forall wf U.
  Hypothesis At : forall a, In a U -> agree t a.
  Hypothesis Ap : forall a b, In a U -> In b U -> agree a b.

  Lemma merge_all_app a b : merge_all t (a ++ b) = merge_all (merge_all t a) b.
  Proof. unfold merge_all. apply fold_left_app. Qed.
  Lemma perm_in_U rs rs' : incl rs U -> Permutation rs rs' -> merge_all t rs = merge_all t rs'.
  Proof.
    intros I P. apply merge_all_perm; auto. rewrite Forall_forall in *. intros x Ix. apply WU, I, Ix.
  Qed.
  Lemma absorb_one rs r : incl rs U -> In r rs -> merge_all t (rs ++ [r]) = merge_all t rs.
  Proof.
    intros I Ir. apply in_split in Ir. destruct Ir as (l1 & l2 & ->).
    assert (Ir : In r U) by (apply I, in_or_app; right; left; reflexivity).
    assert (P1 : Permutation ((l1 ++ r :: l2) ++ [r]) (r :: r :: l1 ++ l2)).
    { etransitivity; [symmetry; apply Permutation_cons_append|]. apply perm_skip. symmetry. apply Permutation_middle. }
    assert (P2 : Permutation (l1 ++ r :: l2) (r :: l1 ++ l2)) by (symmetry; apply Permutation_middle).
    assert (I1 : incl ((l1 ++ r :: l2) ++ [r]) U).
    { intros x Hx. apply in_app_iff in Hx. destruct Hx as [Hx|[<-|[]]]; [apply I, Hx|exact Ir]. }
    rewrite (perm_in_U _ _ I1 P1).
    rewrite (perm_in_U _ _ I P2). unfold merge_all. cbn [fold_left]. f_equal.
    rewrite deep_merge_assoc; auto; try apply agree_refl; try (rewrite Forall_forall in WU; apply WU, Ir). rewrite deep_merge_idem. reflexivity.
  Qed.
  Lemma absorb rs l : incl rs U -> incl l rs -> merge_all t (rs ++ l) = merge_all t rs.
  Proof.
    intros I. induction l as [|r l IH] using rev_ind; intros J; [rewrite app_nil_r; reflexivity|].
    rewrite app_assoc. assert (Jl : incl l rs) by (intros x Hx; apply J, in_or_app; left; exact Hx).
    rewrite absorb_one.
    - apply IH, Jl.
    - intros x Hx. apply in_app_iff in Hx. destruct Hx as [Hx|Hx]; [apply I, Hx|apply I, Jl, Hx].
    - apply in_or_app. left. apply J, in_or_app. right. left. reflexivity.
  Qed.
  Lemma merge_all_set rs rs' : incl rs U -> (forall x, In x rs <-> In x rs') -> merge_all t rs = merge_all t rs'.
  Proof.
    intros I E. assert (I' : incl rs' U) by (intros x Hx; apply I, E, Hx).
    rewrite <- (absorb rs rs' I) by (intros x Hx; apply E, Hx).
    rewrite <- (absorb rs' rs I') by (intros x Hx; apply E, Hx).
    apply perm_in_U; [|apply Permutation_app_comm]. intros x Hx. apply in_app_iff in Hx. destruct Hx; auto.
  Qed.
End Set_.

Lemma placed_iff f qs : forall n u, In u (ExecSpec.placed f n qs) <-> exists i, nth_error qs i = Some (fst u) /\ f (n + i) = Some (snd u).
Proof.
  induction qs as [|q qs IH]; intros n u; cbn [ExecSpec.placed].
  - split; [intros []|]. intros ([|i] & H & _); discriminate H.
  - rewrite in_app_iff, IH. split.
    + intros [H|(i & H1 & H2)].
      * destruct (f n) as [a|] eqn:E; [|destruct H]. destruct H as [<-|[]]. exists 0. rewrite Nat.add_0_r. auto.
      * exists (S i). rewrite Nat.add_succ_r. auto.
    + intros ([|i] & H1 & H2).
      * rewrite Nat.add_0_r in H2. left. rewrite H2. injection H1 as ->. left. destruct u. reflexivity.
      * right. exists i. rewrite Nat.add_succ_r in H2. auto.
Qed.
Lemma map_opt_nth {A} (f : A -> option A) l : forall l', map_opt f l = Some l' -> forall j, nth_error l' j = match nth_error l j with Some x => f x | None => None end.
Proof.
  induction l as [|x l IH]; intros l' E j; cbn in E.
  - injection E as <-. destruct j; reflexivity.
  - destruct (f x) as [y|] eqn:Ey; [|discriminate E]. destruct (map_opt f l) as [r|]; [|discriminate E]. injection E as <-.
    destruct j as [|j]; [cbn; congruence|]. cbn. apply IH. reflexivity.
Qed.
Lemma nth_map {A B} (f : A -> B) l j : nth_error (map f l) j = option_map f (nth_error l j).
Proof. revert j. induction l as [|x l IH]; intros [|j]; try reflexivity. apply IH. Qed.

Section W.
  Variable ryu : N -> string.
  Variable pt : ptypes.
  Variable xxh : list N -> N.
  Variable show : list fseg -> string.
  Variable vars : option (list (string * value)).
  Variable answer : job_kind -> outcome.
  Variables HF HX : list token -> N.
  Variable info : nat -> option (list sel * list vardef * list string).
  Variable alike : list sel -> list sel -> bool.
  Variable resolve : string -> list sel -> value -> value.

  Notation run := (run ryu pt xxh show vars answer).
  Notation fit := (fit ryu pt xxh vars answer HF HX info alike resolve).
  Notation contributes := (contributes pt resolve).
  Notation pv := (print_value ryu).

  Variable d : value.
  Variable pos : list fseg -> list (list seg).
  Hypothesis L : listed pt d pos.

  Lemma placed_contributes sels rws out p index reps ents f u :
    (forall e, In e (visit pt p d) -> its_rep pt sels rws e = pick (own_in index (hash_of pt xxh sels e)) reps) ->
    map_opt (apply_rewrites pt out) (map f reps) = Some ents ->
    In u (ExecSpec.placed (answer_for (map (hash_of pt xxh sels) (visit pt p d)) index ents) 0 (pos p)) <->
    exists x r, selects pt p d (fst u) x /\ its_rep pt sels rws x = Some r /\ apply_rewrites pt out (f r) = Some (snd u).
  Proof.
    intros Own Me. rewrite placed_iff. rewrite <- (listed_targets pt d pos p L). rewrite targets_visit. rewrite targets_visit in Own.
    assert (Pk : forall i a, pick i ents = Some a <-> exists r, pick i reps = Some r /\ apply_rewrites pt out (f r) = Some a).
    { intros [j|] a; [|split; [discriminate|intros (r & H & _); discriminate H]]. cbn [pick].
      rewrite (map_opt_nth _ _ _ Me j), nth_map. destruct (nth_error reps j) as [r|]; cbn [option_map].
      - split; [eauto|]. intros (r' & E & H). injection E as <-. exact H.
      - split; [discriminate|]. intros (r & E & _). discriminate E. }
    split.
    - intros (i & H1 & H2). cbn [Nat.add] in H2. unfold answer_for in H2. rewrite !nth_map in *.
      destruct (nth_error (targets pt p d) i) as [[q x]|] eqn:En; [|discriminate H1]. cbn [option_map fst snd] in *. injection H1 as H1.
      assert (Ix : In (q, x) (targets pt p d)) by (eapply nth_error_In; exact En).
      specialize (Own x (in_map snd _ _ Ix)). exists x.
      assert (Hp : pick (own_in index (hash_of pt xxh sels x)) ents = Some (snd u)).
      { destruct (hash_of pt xxh sels x); [exact H2|discriminate H2]. }
      apply Pk in Hp. destruct Hp as (r & Hr & Ha). exists r. split; [|split; [congruence|exact Ha]].
      apply targets_selects. rewrite <- H1. exact Ix.
    - intros (x & r & Sx & Ir & Ha). apply targets_selects in Sx. apply In_nth_error in Sx. destruct Sx as [i En]. exists i.
      rewrite nth_map, En. split; [reflexivity|]. cbn [Nat.add]. unfold answer_for. rewrite !nth_map, En. cbn [option_map snd].
      assert (Ix : In (fst u, x) (targets pt p d)) by (eapply nth_error_In; exact En).
      specialize (Own x (in_map snd _ _ Ix)). rewrite Ir in Own.
      assert (Hp : pick (own_in index (hash_of pt xxh sels x)) ents = Some (snd u)) by (apply Pk; exists r; auto).
      destruct (hash_of pt xxh sels x); [exact Hp|discriminate Hp].
  Qed.

  (** what the request of a fetch node brings *)
  Definition given (m : node) (u : list seg * value) : Prop :=
    exists k us, prepare_leaf ryu pt xxh m d = PJob k /\ changes pt pos k (answer k) = Some us /\ In u us.

  Lemma sound_out c : sound (node_of c) = true -> forallb sound_rewrite (k_out c) = true /\ forallb sound_rewrite (k_in c) = true /\ forallb spreadless (k_requires c) = true.
  Proof.
    cbn. unfold sound_fetch. cbn. intros H. apply andb_prop in H. destruct H as [H H3]. apply andb_prop in H. tauto.
  Qed.

  Section F.
    Variable nodes : list node.
    Hypothesis F : fit nodes d.

    Lemma cand_node c : In c (candidates info nodes) -> In (node_of c) nodes.
    Proof. intros I. apply candidates_in in I. apply (in_map snd) in I. rewrite enumerate_snd in I. exact I. Qed.
    Lemma cand_sound c : In c (candidates info nodes) -> sound (node_of c) = true.
    Proof. intros I. pose proof (ft_sound _ _ _ _ _ _ _ _ _ _ _ _ F) as H. rewrite forallb_forall in H. apply H, cand_node, I. Qed.

    Lemma fetch_gives c : In c (candidates info nodes) -> forall u, given (node_of c) u <-> contributes (task_of c) d u.
    Proof.
      intros Ic u. unfold given. cbn [node_of prepare_leaf fetch_of f_requires f_in].
      assert (V : forall e, In e (visit pt (k_path c) d) -> exists c', In c' (candidates info nodes) /\ k_requires c' = k_requires c /\ k_in c' = k_in c /\ In e (visit pt (k_path c') d)).
      { intros e Ie. exists c. auto. }
      destruct (ft_faithful _ _ _ _ _ _ _ _ _ _ _ _ F c _ Ic V) as [Fa Ti]. pose proof (ft_plain _ _ _ _ _ _ _ _ _ _ _ _ F c Ic) as Pl.
      destruct (sound_out c (cand_sound c Ic)) as (So & Si & Sq).
      destruct (prepare_flatten ryu pt xxh (k_requires c) (k_in c) (k_path c) d) as [jo|] eqn:Ep.
      2: { exfalso. unfold prepare_flatten in Ep. pose proof (add_entities_total ryu pt xxh (k_requires c) (k_in c) Sq Si (visit pt (k_path c) d) (mkps [] [] 0 "[")) as T.
           destruct (add_entities _ _ _ _ _ _ _); [|contradiction]. destruct (is_nil _) in Ep; discriminate Ep. }
      destruct (prepare_ok ryu pt xxh _ _ _ _ jo Pl Fa Ti Ep) as (s & reps & In_ & Ej). pose proof (i_rep _ _ _ _ _ _ _ _ In_) as Own.
      destruct reps as [|r0 reps0] eqn:Er.
      - subst jo. split; [intros (k & us & E & _); discriminate E|]. intros (x & r & Sx & Ir & _). exfalso. cbn [t_requires t_in task_of t_path] in *.
        rewrite (Own x) in Ir by (eapply selects_visit; exact Sx). destruct (own_in _ _) as [[|n]|]; discriminate Ir.
      - rewrite <- Er in *. assert (Ejo : jo = Some (mkjob (pv (VArr reps)) (map (hash_of pt xxh (k_requires c)) (visit pt (k_path c) d)) (ps_index s))) by (rewrite Ej, Er; reflexivity).
        clear Ej. subst jo. set (j := mkjob _ _ _) in *.
        assert (Nu : numbered pt xxh d (k_requires c) (k_in c) (j_index j) [k_path c] reps).
        { split; [intros p e [<-|[]] Ie; apply (Own e Ie)|]. intros i Hi. destruct (i_owned _ _ _ _ _ _ _ _ In_ i Hi) as (e & Ie & Oe).
          exists (k_path c), e. split; [left; reflexivity|]. split; [exact Ie|exact Oe]. }
        destruct (ft_fetches _ _ _ _ _ _ _ _ _ _ _ _ F c Ic j reps Ep Nu eq_refl) as (pre & r & Ea & Et).
        pose proof (map_opt_total (apply_rewrites pt (k_out c)) (map (resolve (k_service c) (k_selection c)) reps) (rewrites_total pt _ So)) as T.
        destruct (map_opt (apply_rewrites pt (k_out c)) (map (resolve (k_service c) (k_selection c)) reps)) as [ents|] eqn:Em; [|contradiction].
        assert (Ch : changes pt pos (KFlatten (fetch_of c) (k_path c) j) (answer (KFlatten (fetch_of c) (k_path c) j)) =
          Some (ExecSpec.placed (answer_for (j_hashes j) (j_index j) ents) 0 (pos (k_path c)))).
        { rewrite Ea. cbn [changes]. rewrite Et. cbn [fetch_of f_out]. rewrite Em. reflexivity. }
        rewrite <- (placed_contributes (k_requires c) (k_in c) (k_out c) (k_path c) (ps_index s) reps ents (resolve (k_service c) (k_selection c)) u Own Em).
        split.
        + intros (k & us & E & C & I). injection E as <-. assert (Eu : Some us = Some (ExecSpec.placed (answer_for (j_hashes j) (j_index j) ents) 0 (pos (k_path c)))) by (rewrite <- C; exact Ch).
          injection Eu as ->. exact I.
        + intros I. eexists. eexists. split; [reflexivity|]. split; [exact Ch|exact I].
    Qed.

    Lemma combine_both {A B} (l : list A) : forall (m : list B) x, length l = length m -> In x l -> exists y, In (x, y) (combine l m).
    Proof.
      induction l as [|a l IH]; intros [|b m] x E I; try discriminate E; [destruct I|]. destruct I as [<-|I]; [exists b; left; reflexivity|].
      destruct (IH m x) as [y Hy]; [cbn in E; lia|exact I|]. exists y. right. exact Hy.
    Qed.
    Lemma alias_item g b a p : well_built g b -> same_work g b -> In a (b_aliases (bt_node b)) -> In p (a_paths a) ->
      exists c, In c g /\ k_path c = p /\ k_requires c = a_requires a /\ k_in c = a_in a /\ k_out c = a_out a.
    Proof.
      intros (_ & P & _) [Sw _] Ia Ip.
      assert (Len : length (b_aliases (bt_node b)) = length (bt_items b)) by (apply (f_equal (@length _)) in P; rewrite !map_length in P; exact P).
      destruct (combine_both _ _ a Len Ia) as [i Hi].
      assert (It : In (mktask (b_service (bt_node b)) p (a_requires a) (a_in a) (snd i) (a_out a)) (batch_tasks b)).
      { unfold batch_tasks. apply in_flat_map. exists (a, i). split; [exact Hi|]. cbn [fst snd]. apply (in_map (fun p => mktask _ p _ _ _ _)), Ip. }
      apply Sw in It. apply in_map_iff in It. destruct It as (c & E & Ic). exists c. unfold task_of in E. injection E as E1 E2 E3 E4 E5 E6. auto.
    Qed.
    Lemma alias_good g b a : well_built g b -> same_work g b -> incl g (candidates info nodes) -> In a (b_aliases (bt_node b)) ->
      good pt xxh d a /\ sound_alias a = true.
    Proof.
      intros Wb Sw Sub Ia. assert (Pa : exists p ps, a_paths a = p :: ps).
      { destruct Wb as (_ & _ & _ & _ & _ & _ & _ & _ & VP). rewrite Forall_forall in VP. apply VP, Ia. }
      destruct Pa as (p & ps & Ea). destruct (alias_item g b a p Wb Sw Ia) as (c & Ic & Ep & Er & Ei & Eo); [rewrite Ea; left; reflexivity|].
      apply Sub in Ic. destruct (sound_out c (cand_sound c Ic)) as (So & Si & Sq). rewrite Er, Ei, Eo in *. split.
      - unfold good. split; [rewrite <- Er; apply (ft_plain _ _ _ _ _ _ _ _ _ _ _ _ F c Ic)|].
        rewrite <- Er, <- Ei. apply (ft_faithful _ _ _ _ _ _ _ _ _ _ _ _ F c (entities pt d a) Ic).
        intros e Ie. unfold entities in Ie. apply in_flat_map in Ie. destruct Ie as (p' & Ip' & Ie).
        destruct (alias_item g b a p' Wb Sw Ia Ip') as (c' & Ic' & Ep' & Er' & Ei' & _). exists c'.
        split; [apply Sub, Ic'|]. split; [congruence|]. split; [congruence|]. rewrite Ep'. exact Ie.
      - unfold sound_alias. rewrite So, Si, Sq. reflexivity.
    Qed.

    Definition ready (a : alias) (x : astate * list value) : Prop := prepared pt xxh d a (fst x) (snd x).
    Lemma batch_changes_iff svc data al z items : Forall2 ready al z ->
      map (fun a => (a_alias a, a_var a)) al = map fst items ->
      (forall a, In a al -> sound_alias a = true) ->
      Forall2 (fun x i => take_entities_by_key (fst (fst i)) data = Some (map (resolve svc (snd i)) (snd x))) z items ->
      exists us, batch_changes pt pos (combine (map fst z) (map (fun a => take_entities_by_key (a_alias (as_alias a)) data) (map fst z))) = Some us /\
      forall u, In u us <-> exists t, In t (flat_map (fun ai => map (fun p => mktask svc p (a_requires (fst ai)) (a_in (fst ai)) (snd (snd ai)) (a_out (fst ai)))
                          (a_paths (fst ai))) (combine al items)) /\ contributes t d u.
    Proof.
      intros R. revert items. induction R as [|a [st reps] al z Ra R IH]; intros items Em So T.
      - exists []. split; [reflexivity|]. intros u. split; [intros []|]. intros (t & It & _). destruct It.
      - destruct items as [|[[n v] s] items]; [discriminate Em|]. cbn [map fst] in Em. injection Em as En Ev Em.
        inversion T as [|? ? ? ? Ti T']; subst. cbn [fst snd] in Ti.
        destruct (IH items Em (fun x Hx => So x (or_intror Hx)) T') as (us & E & Iu). clear IH.
        destruct Ra as (Es & Ep & Enil & Rep). cbn [fst snd] in *. destruct Rep as (Own & _).
        assert (Soa : forallb sound_rewrite (a_out a) = true).
        { specialize (So a (or_introl eq_refl)). unfold sound_alias in So. apply andb_prop in So. destruct So as [So _]. apply andb_prop in So. tauto. }
        pose proof (map_opt_total (apply_rewrites pt (a_out a)) (map (resolve svc s) reps) (rewrites_total pt _ Soa)) as Tt.
        destruct (map_opt (apply_rewrites pt (a_out a)) (map (resolve svc s) reps)) as [ents|] eqn:Em'; [|contradiction].
        cbn [map combine batch_changes fst]. rewrite Es, Ti, Em', E. eexists. split; [reflexivity|]. intros u.
        rewrite in_app_iff, Iu. cbn [flat_map fst snd]. rewrite Ep, EntityBatch.flat_map_of_map. cbn [fst snd].
        assert (Pl : forall p, In p (a_paths a) ->
          In u (ExecSpec.placed (answer_for (map (hash_of pt xxh (a_requires a)) (visit pt p d)) (as_index st) ents) 0 (pos p)) <->
          contributes (mktask svc p (a_requires a) (a_in a) s (a_out a)) d u).
        { intros p Ip. unfold QplanSpec.contributes. cbn [t_path t_requires t_in t_out t_service t_selection].
          apply (placed_contributes (a_requires a) (a_in a) (a_out a) p (as_index st) reps ents (resolve svc s) u); [|exact Em'].
          intros e Ie. apply visit_selects in Ie. destruct Ie as [q Sq]. rewrite (Own p q e Ip Sq). f_equal. eapply owner_selects. exact Sq. }
        split.
        + intros [H|(t & It & C)].
          * apply in_flat_map in H. destruct H as (p & Ip & H). eexists. split; [|apply (Pl p Ip), H]. apply in_or_app. left.
            apply (in_map (fun p => mktask svc p (a_requires a) (a_in a) s (a_out a))), Ip.
          * exists t. split; [apply in_or_app; right; exact It|exact C].
        + intros (t & It & C). apply in_app_iff in It. destruct It as [It|It]; [left|right; eauto].
          apply in_map_iff in It. destruct It as (p & <- & Ip). apply in_flat_map. exists p. split; [exact Ip|]. apply Pl; assumption.
    Qed.

    Lemma combine_map {A B} (l : list A) : forall (m : list B), length l = length m -> map fst (combine l m) = l /\ map snd (combine l m) = m.
    Proof.
      induction l as [|a l IH]; intros [|b m] E; try discriminate E; [split; reflexivity|]. cbn [combine map fst snd].
      destruct (IH m) as [E1 E2]; [cbn in E; lia|]. rewrite E1, E2. split; reflexivity.
    Qed.
    Lemma forall2_map_r {A B C} (R : A -> C -> Prop) (f : B -> C) l m : Forall2 (fun a b => R a (f b)) l m -> Forall2 R l (map f m).
    Proof. induction 1; constructor; assumption. Qed.

    Lemma forall2_mem {A B} (R : A -> B -> Prop) l m : Forall2 R l m -> Forall2 (fun a b => In a l /\ R a b) l m.
    Proof.
      induction 1 as [|a b l m H _ IH]; constructor; [split; [left; reflexivity|exact H]|].
      eapply EntityBatch.forall2_weaken; [|exact IH]. intros x y [I J]. split; [right; exact I|exact J].
    Qed.
    Lemma forall2_nth {A B} (R : A -> B -> Prop) l m : Forall2 R l m -> forall n a, nth_error l n = Some a -> exists b, nth_error m n = Some b /\ R a b.
    Proof.
      induction 1 as [|a b l m H _ IH]; intros [|n] x E; try discriminate E.
      - injection E as <-. exists b. auto.
      - apply (IH n x E).
    Qed.
    Lemma pairs_zip (al : list alias) (z : list (astate * list value)) items vs (Q : astate * list value -> string * string * list sel -> Prop) all :
      Forall2 ready al z -> Forall2 (fun a x => get (a_var a) vs = Some (pv (VArr (snd x)))) al z ->
      map (fun a => (a_alias a, a_var a)) al = map fst items -> incl items all ->
      (forall a x n v s, In x z -> In (n, v, s) all -> a_alias a = n -> a_var a = v -> ready a x -> get v vs = Some (pv (VArr (snd x))) -> Q x (n, v, s)) ->
      Forall2 Q z items.
    Proof.
      intros Fr Fa. revert items Fa. induction Fr as [|a x al z H Hz IH]; intros [|[[n v] s] items] Fa E I HQ; try discriminate E; constructor.
      - cbn [map fst] in E. injection E as E1 E2 E3. inversion Fa; subst.
        apply (HQ a); auto; [left; reflexivity|apply I; left; reflexivity].
      - cbn [map fst] in E. injection E as E1 E2 E3. inversion Fa; subst.
        apply IH; [assumption|exact E3|intros y Hy; apply I; right; exact Hy|]. intros a' x' n' v' s' Ix. apply HQ. right. exact Ix.
    Qed.

    Lemma batch_gives g b : well_built g b -> same_work g b -> incl g (candidates info nodes) ->
      honest_batch ryu pt xxh answer resolve d b -> forall u, given (NBatch (bt_node b)) u <-> exists c, In c g /\ contributes (task_of c) d u.
    Proof.
      intros Wb Sw Sub Hb u. assert (Gd : Forall (good pt xxh d) (b_aliases (bt_node b))).
      { rewrite Forall_forall. intros a Ia. apply (alias_good g b a Wb Sw Sub Ia). }
      assert (Sd : forall a, In a (b_aliases (bt_node b)) -> sound_alias a = true) by (intros a Ia; apply (alias_good g b a Wb Sw Sub Ia)).
      assert (Ts : (exists c, In c g /\ contributes (task_of c) d u) <-> exists t, In t (batch_tasks b) /\ contributes t d u).
      { split.
        - intros (c & Ic & C). exists (task_of c). split; [apply (proj1 Sw), in_map, Ic|exact C].
        - intros (t & It & C). apply (proj1 Sw) in It. apply in_map_iff in It. destruct It as (c & <- & Ic). exists c. auto. }
      rewrite Ts. clear Ts.
      destruct (prepare_batch_total ryu pt xxh (b_aliases (bt_node b)) d) with (vs := @nil (string * string)) as (vs & sts & Ep & _).
      { rewrite forallb_forall. exact Sd. }
      destruct (prepare_batch_ok ryu pt xxh d (b_aliases (bt_node b)) [] vs sts Gd Ep) as (_ & repss & Fz & Len).
      set (z := combine sts repss) in *. destruct (combine_map sts repss (eq_sym Len)) as [Ez1 Ez2]. fold z in Ez1, Ez2.
      pose proof Wb as (Sv & P & Nd & _).
      assert (Rz : Forall2 ready (b_aliases (bt_node b)) z) by (eapply EntityBatch.forall2_weaken; [|exact Fz]; intros a x (H & _); exact H).
      assert (Tx : Forall2 (fun a x => get (a_var a) vs = Some (pv (VArr (snd x)))) (b_aliases (bt_node b)) z).
      { eapply EntityBatch.forall2_weaken; [|apply forall2_mem, Fz]. intros a x (Ia & _ & Pa & t & Gt & [C|(a' & st' & Ia' & Ev & Pa')]); [discriminate C|].
        rewrite Gt. f_equal. destruct (proj2 Sw a' a Ia' Ia Ev) as (E1 & E2 & E3). unfold prepare_alias in Pa, Pa'. rewrite E1, E2, E3 in Pa'.
        destruct (walk_groups _ _ _ _ _ _ _ _) as [[hs s]|]; [|discriminate Pa].
        apply (f_equal (fun o => match o with Some y => snd y | None => EmptyString end)) in Pa, Pa'. cbn [snd] in Pa, Pa'. congruence. }
      unfold given. cbn [prepare_leaf]. rewrite Ep. destruct (forallb (fun s => is_nil (as_index s)) sts) eqn:En.
      - split; [intros (k & us & E & _); discriminate E|]. intros (t & It & (x & r & Sx & Ir & _)). exfalso.
        unfold batch_tasks in It. apply in_flat_map in It. destruct It as ([a i] & Ia & It). apply in_map_iff in It. destruct It as (p & <- & Ip).
        cbn [fst snd t_path t_requires t_in] in *. apply in_combine_l in Ia. apply In_nth_error in Ia. destruct Ia as [n Hn].
        destruct (forall2_nth _ _ _ Rz n a Hn) as ([st reps] & Hz & (Es & Epp & Enil & (Own & _))). cbn [fst snd] in *.
        rewrite (Own p (fst u) x Ip Sx) in Ir.
        assert (Hi : as_index st = []).
        { rewrite forallb_forall in En. assert (Ist : In st sts).
          { rewrite <- Ez1. apply nth_error_In in Hz. apply (in_map fst) in Hz. exact Hz. }
          specialize (En st Ist). destruct (as_index st); [reflexivity|discriminate En]. }
        apply Enil in Hi. subst reps. destruct (owner _ _ _ _ _ _) as [[|m]|]; discriminate Ir.
      - destruct (Hb vs sts Ep) as (pre & r & Ea & Hr).
        assert (Tz : Forall2 (fun x i => take_entities_by_key (fst (fst i)) (r_data r) = Some (map (resolve (b_service (bt_node b)) (snd i)) (snd x))) z (bt_items b)).
        { apply (pairs_zip (b_aliases (bt_node b)) z (bt_items b) vs _ (bt_items b) Rz Tx P (incl_refl _)).
          intros a [st reps] n v s Iz Ii Ea' Ev (Es & _ & _ & (Own & Lt & Use & _)) Gx. cbn [fst snd] in *. rewrite <- Ea', <- Ev in *. subst a.
          apply (Hr st s reps); try assumption; [rewrite <- Ez1; apply (in_map fst) in Iz; exact Iz|]. split.
          - intros p e Ip Ie. apply visit_selects in Ie. destruct Ie as [q Sq]. rewrite (Own p q e Ip Sq). f_equal. eapply owner_selects. exact Sq.
          - intros i Hi. destruct (Use i Hi) as (p & q & e & Ip & Sq & Oq). exists p, e. split; [exact Ip|]. split; [eapply selects_visit; exact Sq|].
            rewrite <- Oq. symmetry. apply (owner_selects pt xxh _ p d (as_index st) q e Sq). }
        assert (Nd' : NoDup (map (fun a => a_alias (as_alias a)) sts)).
        { replace (map (fun a => a_alias (as_alias a)) sts) with (map a_alias (b_aliases (bt_node b))); [exact Nd|].
          rewrite <- Ez1. clear - Rz. induction Rz as [|a x al z (E & _) _ IH]; [reflexivity|]. cbn [map]. rewrite E, IH. reflexivity. }
        destruct (batch_changes_iff (b_service (bt_node b)) (r_data r) _ z (bt_items b) Rz P Sd Tz) as (us & E & Iu).
        assert (Ch : changes pt pos (KBatch (bt_node b) vs sts) (answer (KBatch (bt_node b) vs sts)) = Some us).
        { rewrite Ea. cbn [changes]. rewrite (collect_ok sts (r_data r) Nd'), <- E, Ez1. reflexivity. }
        split.
        + intros (k & us' & Ek & C & I). injection Ek as <-. rewrite C in Ch. injection Ch as ->. apply Iu, I.
        + intros H. exists (KBatch (bt_node b) vs sts), us. split; [reflexivity|]. split; [exact Ch|]. apply Iu, H.
    Qed.

    (** ** The wave *)
    Hypothesis Ow : Forall own_vars (candidates info nodes).
    Lemma chosen_patches l ks : forallb leaf l = true -> prepare_all ryu pt xxh vars l d = Some ks ->
      forall v, In v (patches pt pos d answer ks) <->
        exists m u, In m (flat_map (chosen vars) l) /\ given m u /\ v = lift (fst u) d (snd u).
    Proof.
      intros Lf E v. destruct (prepare_all_asked ryu pt xxh vars l d Lf ks E) as [A1 A2]. unfold patches. rewrite in_flat_map. split.
      - intros (k & Ik & Iv). destruct (changes pt pos k (answer k)) as [us|] eqn:C; [|destruct Iv]. apply in_map_iff in Iv. destruct Iv as (u & <- & Iu).
        destruct (A2 k Ik) as (m & Im & Pm). exists m, u. split; [exact Im|]. split; [|reflexivity]. exists k, us. auto.
      - intros (m & u & Im & (k & us & Pm & C & Iu) & ->). specialize (A1 m Im). rewrite Pm in A1. exists k. split; [exact A1|]. rewrite C.
        apply (in_map (fun u => lift (fst u) d (snd u))), Iu.
    Qed.
    Lemma jobs_sound l ks : forallb sound l = true -> prepare_all ryu pt xxh vars l d = Some ks -> forallb job_sound ks = true.
    Proof. intros S E. destruct (prepare_all_total ryu pt xxh vars l d S) as (ks' & E' & J). congruence. Qed.
    Lemma batch_changes_total al : forallb (fun a : astate * option (list value) => sound_alias (as_alias (fst a))) al = true ->
      exists us, batch_changes pt pos al = Some us.
    Proof.
      induction al as [|[a [ents|]] al IH]; intros S; cbn [batch_changes]; [eexists; reflexivity| |].
      - cbn [forallb fst] in S. apply andb_prop in S. destruct S as [Sa Sl]. destruct (IH Sl) as [us E]. rewrite E.
        unfold sound_alias in Sa. apply andb_prop in Sa. destruct Sa as [Sa _]. apply andb_prop in Sa. destruct Sa as [_ So].
        pose proof (map_opt_total (apply_rewrites pt (a_out (as_alias a))) ents (rewrites_total pt _ So)) as T.
        destruct (map_opt _ ents); [eexists; reflexivity|contradiction].
      - cbn [forallb fst] in S. apply andb_prop in S. apply IH, S.
    Qed.
    Lemma changes_total k o : job_sound k = true -> exists us, changes pt pos k o = Some us.
    Proof.
      intros S. destruct o as [pre e|pre r]; [eexists; reflexivity|]. cbn [changes].
      assert (R : forall f, sound_fetch f = true -> forallb sound_rewrite (f_out f) = true).
      { intros f Sf. unfold sound_fetch in Sf. apply andb_prop in Sf. destruct Sf as [Sf _]. apply andb_prop in Sf. tauto. }
      destruct k as [f [p|]|f p j|b vs sts]; cbn [job_sound] in S.
      - pose proof (rewrites_total pt _ (R f S) (r_data r)) as T. destruct (apply_rewrites pt (f_out f) (r_data r)); [eexists; reflexivity|contradiction].
      - pose proof (rewrites_total pt _ (R f S) (r_data r)) as T. destruct (apply_rewrites pt (f_out f) (r_data r)); [eexists; reflexivity|contradiction].
      - destruct (take_entities_by_key "_entities" (r_data r)) as [l|]; [|eexists; reflexivity].
        pose proof (map_opt_total (apply_rewrites pt (f_out f)) l (rewrites_total pt _ (R f S))) as T. destruct (map_opt _ l); [eexists; reflexivity|contradiction].
      - apply batch_changes_total. generalize (collect_entities sts (r_data r)) as l. revert S. clear.
        induction sts as [|s sts IH]; intros S [|x l]; try reflexivity. cbn [forallb combine fst] in *. apply andb_prop in S. destruct S as [S1 S2].
        rewrite S1. apply IH, S2.
    Qed.
    Lemma leaf_paths m k : prepare_leaf ryu pt xxh m d = PJob k -> forall p, In p (job_paths k) ->
      match m with NFlatten p' _ => p = p' | NBatch b => In p (flat_map a_paths (b_aliases b)) | _ => False end.
    Proof.
      destruct m as [f|b|p m|l|l|v i e|]; cbn [prepare_leaf]; intros E q I; try discriminate E.
      - injection E as <-. destruct I.
      - destruct (prepare_batch ryu pt xxh (b_aliases b) d []) as [[vs sts]|] eqn:Ep; [|discriminate E]. destruct (forallb _ sts) in E; [discriminate E|].
        injection E as <-. cbn [job_paths] in I. clear - Ep I. revert Ep I. generalize (@nil (string * string)). revert vs sts.
        induction (b_aliases b) as [|a al IH]; intros vs sts vs0 E I; cbn [prepare_batch] in E; [injection E as _ <-; destruct I|].
        destruct (prepare_alias ryu pt xxh a d) as [[st text]|] eqn:Ea; [|discriminate E].
        match type of E with match prepare_batch _ _ _ _ _ ?v with _ => _ end = _ => destruct (prepare_batch ryu pt xxh al d v) as [[vs1 sts1]|] eqn:Eb; [|discriminate E] end.
        injection E as _ <-. cbn [flat_map] in *. apply in_app_iff in I. apply in_or_app. destruct I as [I|I]; [left|right; eapply IH; eassumption].
        unfold prepare_alias in Ea. destruct (walk_groups _ _ _ _ _ _ _ _) as [[hs s]|]; [|discriminate Ea]. injection Ea as <- _. cbn [as_paths] in I.
        rewrite map_map, map_id in I. exact I.
      - destruct m as [f|b|p' m|l|l|v i e|]; try discriminate E. destruct (f_requires f).
        + destruct (prepare_flatten _ _ _ _ _ _ _) as [[j|]|]; try discriminate E. injection E as <-. destruct I as [<-|[]]. reflexivity.
        + injection E as <-. destruct I as [<-|[]]. reflexivity.
    Qed.

    Lemma chosen_cand c : chosen vars (node_of c) = [node_of c].
    Proof. reflexivity. Qed.

    Lemma paths_of l ks : forallb leaf l = true -> prepare_all ryu pt xxh vars l d = Some ks ->
      forall k p, In k ks -> In p (job_paths k) -> exists n, In n l /\ In p (node_paths vars n).
    Proof.
      intros Lf E k p Ik Ip. destruct (prepare_all_asked ryu pt xxh vars l d Lf ks E) as [_ A2]. destruct (A2 k Ik) as (m & Im & Pm).
      apply in_flat_map in Im. destruct Im as (n & In_ & Im). exists n. split; [exact In_|]. unfold node_paths. apply in_flat_map. exists m. split; [exact Im|].
      pose proof (leaf_paths m k Pm p Ip) as H. destruct m; try contradiction; [exact H|left; symmetry; exact H].
    Qed.

    Hypothesis Cmp : forall ks, prepare_all ryu pt xxh vars nodes d = Some ks ->
      let R := patches pt pos d answer ks in
      Forall wf R /\ (forall a, In a R -> agree d a) /\ (forall a b, In a R -> In b R -> agree a b) /\
      (forall rs n p, incl rs R -> In n nodes -> In p (node_paths vars n) -> same_positions pt p d (merge_all d rs)).

    Lemma wave_same c tr c1 tr' c2 : c_data c = d -> run (NParallel nodes) c tr c1 ->
      run (NParallel (new_wave HF HX info alike nodes)) c tr' c2 -> c_data c1 = c_data c2.
    Proof.
      intros Ec R1 R2. apply run_parallel' in R1, R2. destruct R1 as (ks & ks1 & P1 & Pm1 & E1 & _). destruct R2 as (ks' & ks2 & P2 & Pm2 & E2 & _).
      rewrite Ec in P1, P2. unfold new_wave in P2.
      destruct (optimize_parallel_ok HF HX info alike nodes Ow) as (rs & bs & Er & Eo & F2 & Out & (rest & Prest) & (kept & PP1 & PP2 & WB)).
      rewrite Eo in P2. set (nodes' := apply_replacements rs nodes) in *.
      pose proof (ft_leaf _ _ _ _ _ _ _ _ _ _ _ _ F) as Lf. apply step_leaves in Lf. pose proof (ft_sound _ _ _ _ _ _ _ _ _ _ _ _ F) as Sd.
      assert (Bt : forall gb, In gb bs -> well_built (fst gb) (snd gb) /\ same_work (fst gb) (snd gb) /\ incl (fst gb) (candidates info nodes) /\
                              honest_batch ryu pt xxh answer resolve d (snd gb)).
      { intros gb Ib. rewrite Forall_forall in Out. destruct (Out gb Ib) as [W S]. split; [exact W|].
        split; [apply S, (ft_discerning _ _ _ _ _ _ _ _ _ _ _ _ F)|]. split.
        - intros x Ix. eapply Permutation_in; [symmetry; exact Prest|]. apply in_or_app. left. apply in_flat_map. eauto.
        - apply In_nth_error in Ib. destruct Ib as [n Hn]. destruct (forall2_nth _ _ _ F2 n gb Hn) as (r & Hr & (c0 & l & _ & ->)).
          apply nth_error_In in Hr. eapply (ft_batches _ _ _ _ _ _ _ _ _ _ _ _ F); eassumption. }
      assert (In1 : forall n, In n nodes <-> In n kept \/ exists gb c, In gb bs /\ In c (fst gb) /\ n = node_of c).
      { intros n. split.
        - intros I. apply (Permutation_in _ PP1) in I. apply in_app_iff in I. destruct I as [I|I]; [left; exact I|right].
          apply in_map_iff in I. destruct I as (x & <- & I). apply in_flat_map in I. destruct I as (gb & I1 & I2). exists gb, x. auto.
        - intros [I|(gb & x & I1 & I2 & ->)]; (eapply Permutation_in; [symmetry; exact PP1|]); apply in_or_app; [left; exact I|right].
          apply in_map, in_flat_map. eauto. }
      assert (In2 : forall n, In n nodes' <-> In n kept \/ exists gb, In gb bs /\ n = NBatch (bt_node (snd gb))).
      { intros n. split.
        - intros I. apply (Permutation_in _ PP2) in I. apply in_app_iff in I. destruct I as [I|I]; [left; exact I|right].
          apply in_map_iff in I. destruct I as (gb & <- & I). exists gb. auto.
        - intros [I|(gb & I1 & ->)]; (eapply Permutation_in; [symmetry; exact PP2|]); apply in_or_app; [left; exact I|right].
          apply (in_map (fun gb => NBatch (bt_node (snd gb)))), I1. }
      rewrite forallb_forall in Lf, Sd.
      assert (Lf' : forallb leaf nodes' = true).
      { rewrite forallb_forall. intros n I. apply In2 in I. destruct I as [I|(gb & _ & ->)]; [apply Lf, In1; left; exact I|reflexivity]. }
      assert (Sd' : forallb sound nodes' = true).
      { rewrite forallb_forall. intros n I. apply In2 in I. destruct I as [I|(gb & I & ->)]; [apply Sd, In1; left; exact I|].
        destruct (Bt gb I) as (W & S & Sub & _). cbn [sound]. rewrite forallb_forall. intros a Ia. apply (alias_good _ _ a W S Sub Ia). }
      rewrite <- forallb_forall in Lf, Sd.
      assert (Same : forall v, In v (patches pt pos d answer ks) <-> In v (patches pt pos d answer ks')).
      { intros v. rewrite (chosen_patches nodes ks Lf P1), (chosen_patches nodes' ks' Lf' P2). split; intros (m & u & Im & G & ->).
        - apply in_flat_map in Im. destruct Im as (n & I & Im). apply In1 in I. destruct I as [I|(gb & x & I1 & I2 & ->)].
          + exists m, u. split; [|auto]. apply in_flat_map. exists n. split; [apply In2; left; exact I|exact Im].
          + destruct Im as [<-|[]]. destruct (Bt gb I1) as (W & S & Sub & Hb). exists (NBatch (bt_node (snd gb))), u. split; [|split; [|reflexivity]].
            * apply in_flat_map. exists (NBatch (bt_node (snd gb))). split; [apply In2; right; eauto|left; reflexivity].
            * apply (batch_gives _ _ W S Sub Hb). exists x. split; [exact I2|]. apply fetch_gives; [apply Sub, I2|exact G].
        - apply in_flat_map in Im. destruct Im as (n & I & Im). apply In2 in I. destruct I as [I|(gb & I1 & ->)].
          + exists m, u. split; [|auto]. apply in_flat_map. exists n. split; [apply In1; left; exact I|exact Im].
          + destruct Im as [<-|[]]. destruct (Bt gb I1) as (W & S & Sub & Hb). apply (batch_gives _ _ W S Sub Hb) in G. destruct G as (x & I2 & G).
            exists (node_of x), u. split; [|split; [|reflexivity]].
            * apply in_flat_map. exists (node_of x). split; [apply In1; right; eauto|left; reflexivity].
            * apply fetch_gives; [apply Sub, I2|exact G]. }
      destruct (Cmp ks P1) as (Wf & A1 & A2 & St).
      assert (C1 : compatible pt pos d answer ks).
      { split; [exact Wf|]. split; [exact A1|]. split; [exact A2|]. intros rs0 k p Hi Ik Ip. destruct (paths_of nodes ks Lf P1 k p Ik Ip) as (n & I & J).
        eapply St; eassumption. }
      assert (C2 : compatible pt pos d answer ks').
      { split; [rewrite Forall_forall in *; intros x Ix; apply Wf, Same, Ix|]. split; [intros a Ia; apply A1, Same, Ia|].
        split; [intros a b Ia Ib; apply A2; apply Same; assumption|]. intros rs0 k p Hi Ik Ip.
        assert (Hi' : incl rs0 (patches pt pos d answer ks)) by (intros x Ix; apply Same, Hi, Ix).
        destruct (paths_of nodes' ks' Lf' P2 k p Ik Ip) as (n & I & J). apply In2 in I. destruct I as [I|(gb & I1 & ->)].
        - eapply St; [exact Hi'| |exact J]. apply In1. left. exact I.
        - unfold node_paths in J. cbn [chosen flat_map] in J. rewrite app_nil_r in J. apply in_flat_map in J. destruct J as (a & Ia & J).
          destruct (Bt gb I1) as (W & S & Sub & _). destruct (alias_item _ _ a p W S Ia J) as (x & Ix & Ep & _).
          eapply (St rs0 (node_of x) p Hi'); [apply In1; right; eauto|]. left. exact Ep. }
      pose proof (ft_wf _ _ _ _ _ _ _ _ _ _ _ _ F) as Wd.
      assert (Ok1 : forall k, In k ks -> exists us, changes pt pos k (answer k) = Some us).
      { intros k Ik. apply changes_total. pose proof (jobs_sound nodes ks Sd P1) as J. rewrite forallb_forall in J. apply J, Ik. }
      assert (Ok2 : forall k, In k ks' -> exists us, changes pt pos k (answer k) = Some us).
      { intros k Ik. apply changes_total. pose proof (jobs_sound nodes' ks' Sd' P2) as J. rewrite forallb_forall in J. apply J, Ik. }
      destruct (any_order pt show answer pos d Wd L ks Ok1 C1 (c_errors c) ks1 Pm1) as (x1 & y1 & _ & F1 & D1 & D1' & _).
      destruct (any_order pt show answer pos d Wd L ks' Ok2 C2 (c_errors c) ks2 Pm2) as (x2 & y2 & _ & F2' & D2 & D2' & _).
      replace (mkctx d (c_errors c)) with c in F1, F2' by (rewrite <- Ec; destruct c; reflexivity).
      assert (c1 = y1) by congruence. assert (c2 = y2) by congruence. subst y1 y2. rewrite D1', D2', D1, D2.
      apply (merge_all_set d Wd (patches pt pos d answer ks) Wf A1 A2); [apply incl_refl|exact Same].
    Qed.
  End F.
End W.

Section P.
  Variable ryu : N -> string.
  Variable pt : ptypes.
  Variable xxh : list N -> N.
  Variable show : list fseg -> string.
  Variable vars : option (list (string * value)).
  Variable answer : job_kind -> outcome.
  Variables HF HX : list token -> N.
  Variable info : nat -> option (list sel * list vardef * list string).
  Variable alike : list sel -> list sel -> bool.
  Variable resolve : string -> list sel -> value -> value.
  Notation run := (run ryu pt xxh show vars answer).

  Theorem wave_data nodes c tr c1 tr' c2 : Forall own_vars (candidates info nodes) ->
    fit ryu pt xxh vars answer HF HX info alike resolve nodes (c_data c) ->
    run (NParallel nodes) c tr c1 -> run (NParallel (new_wave HF HX info alike nodes)) c tr' c2 -> c_data c1 = c_data c2.
  Proof.
    intros Ow F R1 R2. destruct (ft_compatible _ _ _ _ _ _ _ _ _ _ _ _ F) as (pos & L & Cmp).
    eapply wave_same; try eassumption. reflexivity.
  Qed.

  Theorem plan_data waves : forall c c', c_data c = c_data c' -> Forall (fun w => Forall own_vars (candidates info w)) waves ->
    all_fit ryu pt xxh show vars answer HF HX info alike resolve waves (c_data c) ->
    forall tr c1 tr' c2, run_list ryu pt xxh show vars answer (map NParallel waves) c tr c1 ->
    run_list ryu pt xxh show vars answer (map (fun w => NParallel (new_wave HF HX info alike w)) waves) c' tr' c2 -> c_data c1 = c_data c2.
  Proof.
    induction waves as [|w ws IH]; intros c c' Ed Ow Fit tr c1 tr' c2 R1 R2; cbn [map] in R1, R2.
    - inversion R1; inversion R2; subst. exact Ed.
    - inversion Ow as [|? ? Ow1 Ow2]; subst. destruct Fit as [Fw Fs].
      inversion R1 as [|? ? ? trA cA trB ? A1 A2]; subst. inversion R2 as [|? ? ? trC cC trD ? B1 B2]; subst.
      (* the second run, started from the same context *)
      assert (B1' : exists cC', run (NParallel (new_wave HF HX info alike w)) c trC cC' /\ c_data cC' = c_data cC).
      { apply run_parallel' in B1. destruct B1 as (ks & ks' & P & Pm & E & Et). rewrite <- Ed in P.
        destruct (process_all_split pt show answer ks' c' cC E) as (es & _ & _ & Sp). specialize (Sp (c_errors c)). rewrite <- Ed in Sp.
        exists (mkctx (c_data cC) (c_errors c ++ es)). split; [|reflexivity]. apply run_parallel'. exists ks, ks'. split; [exact P|]. split; [exact Pm|].
        split; [|exact Et]. destruct c; exact Sp. }
      destruct B1' as (cC' & B1' & Ec'). pose proof (wave_data w c trA cA trC cC' Ow1 Fw A1 B1') as Ew.
      eapply (IH cA cC); [congruence|exact Ow2|eapply Fs; [reflexivity|exact A1]|exact A2|exact B2].
  Qed.
End P.
