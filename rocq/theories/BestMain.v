(** The results about the search, put together *)
From Coq Require Import String List NArith ZArith Bool Arith Lia Permutation.
From Verif Require Import Ast QplanModel BestModel BestSpec BestTree BestProofs.
Import ListNotations.
Local Open Scope list_scope.

Lemma setup_choice g m groups sorted mins cs ts u : setup g m groups sorted mins cs ts u ->
  exists cs', picks (leaves m groups) cs' /\ Permutation cs cs'.
Proof.
  intros [Hs Ha Hm Hp Ht Hj Hi Hl Hb _]. subst sorted.
  pose proof (proj1 (picks_same _ _ (sort_candidates_same g (prepare_alternatives m groups)) cs) Hp) as Hp'. clear Hp.
  rename Hp' into Hp. exact (picks_perm _ _ (prepare_perm m groups) cs Hp).
Qed.
Lemma asked_once g m groups : sound g groups -> leaves m groups <> [] -> affordable g (leaves m groups) ->
  exists t n, initial_plan g (sort_candidates g (prepare_alternatives m groups)) None 0%N = Done (Some (n, t))
    /\ forall token, find_best g token m groups = match token 0 with Some e => Failed e | None => Done t end.
Proof.
  intros S L A. destruct (setup_exists g m groups S L A) as (sorted & mins & cs & ts & u & H).
  exists u, (weight g u). split; [|intros token; now apply (find_best_of g token m groups sorted mins cs ts u)].
  rewrite <- (su_sorted _ _ _ _ _ _ _ _ H). exact (su_initial _ _ _ _ _ _ _ _ H).
Qed.
Lemma plan_good g token m groups : sound g groups -> leaves m groups <> [] -> affordable g (leaves m groups) -> token 0 = None ->
  exists t cs, find_best g token m groups = Done t
    /\ picks (leaves m groups) cs
    /\ tidy t
    /\ (forall q, reaches t q <-> exists c, In c cs /\ on_path g (snd c) (p_segments (fst c)) q)
    /\ (forall r, Forall (fun c => p_root (fst c) = r) cs ->
          exists rs kids, t = Tree (mklabel r None None None None) rs kids)
    /\ (forall n ns, costs g cs n -> apart g (leaves m groups) ns -> (n + N.of_nat (length (leaves m groups)) <= total ns + 1)%N).
Proof.
  intros S L A T. destruct (setup_exists g m groups S L A) as (sorted & mins & cs & ts & u & H).
  destruct (setup_choice _ _ _ _ _ _ _ _ H) as (cs' & P & Q). pose proof (find_best_of g token m groups _ _ _ _ _ S H) as E.
  rewrite T in E. destruct H as [Hs Ha Hm Hp Ht Hj Hi Hl (k & l & Hb1 & Hb2 & Hb3) HS].
  destruct (joins_places g cs ts u Ht Hj) as (T1 & D1 & R).
  assert (R' : forall q, reaches u q <-> exists c, In c cs' /\ on_path g (snd c) (p_segments (fst c)) q).
  { intros q. rewrite R. split; intros (c & Hc & Hq); exists c; (split; [|exact Hq]);
      [now apply (Permutation_in c Q)|apply (Permutation_in c (Permutation_sym Q)), Hc]. }
  exists u, cs'. split; [exact E|]. split; [exact P|]. split; [exact T1|]. split; [exact R'|]. split.
  - intros r Hr. assert (X : label_of u = mklabel r None None None None).
    { apply (joins_label ts None u); [exact Hj|intros t Et; discriminate Et|]. apply Forall_forall. intros t Hti.
      destruct (in_forall2' _ _ _ Ht t Hti) as (c & Hc & Et & _). destruct (from_path_reaches _ _ _ _ Et) as [-> _].
      rewrite Forall_forall in Hr. now rewrite (Hr c (Permutation_in c Q Hc)). }
    destruct u as [x rs kids]. cbn in X. subst x. eauto.
  - intros n ns Hn Hns. apply (costs_tree g cs' u T1 R') in Hn. subst n.
    assert (Len : length sorted = length (leaves m groups)).
    { subst sorted. unfold sort_candidates. rewrite map_length. apply Permutation_length, prepare_perm. }
    rewrite Len in Hb2.
    destruct (N.lt_ge_cases (total ns) u64_max) as [Hlt|Hge]; [|lia].
    destruct (sound_leaves g m groups S) as [SL _].
    destruct (forall2_perm _ _ _ (Permutation_sym (prepare_perm m groups)) _ (apart_cheap g _ _ SL Hns)) as (ns' & Hc' & Pn).
    rewrite (total_perm _ _ Pn) in *.
    assert (Hc2 : Forall2 (cheap g) sorted ns').
    { subst sorted. eapply forall2_same_l; [apply sort_candidates_same| |exact Hc']. intros x y z Ex. apply cheap_same. intros c. symmetry. apply Ex. }
    destruct (initial_ok g sorted HS ns' Hc2 None) as (cs2 & ts2 & u2 & _ & _ & _ & I2 & B2).
    + intros t X. discriminate X.
    + cbn. lia.
    + right. subst sorted. unfold sort_candidates. destruct (prepare_alternatives m groups); [congruence|discriminate].
    + cbn [weight_of] in *. rewrite Hi in I2. injection I2 as I2 I3. rewrite Len in B2. rewrite <- I2 in B2. lia.
Qed.

(** One leaf at most with a choice *)
Lemma trees_exist g sorted cs : Forall (Forall (sound_candidate g)) sorted -> picks sorted cs -> exists ts, Forall2 (tree_for g) cs ts.
Proof.
  intros H P. induction P as [|alts c sorted cs Hc _ IH]; [exists []; constructor|]. inversion H; subst.
  destruct (IH H3) as (ts & Hts). rewrite Forall_forall in H2. destruct (candidate_tree g c (H2 c Hc)) as (t & Ht).
  exists (t :: ts). now constructor.
Qed.
Lemma cheapest_one g token m groups t cs n : sound g groups -> affordable g (leaves m groups) ->
  (exists a alts b, leaves m groups = a ++ alts :: b /\ Forall (fun x => length x = 1) (a ++ b)) ->
  find_best g token m groups = Done t ->
  (forall q, reaches t q <-> exists c, In c cs /\ on_path g (snd c) (p_segments (fst c)) q) ->
  costs g cs n -> forall cs' n', picks (leaves m groups) cs' -> costs g cs' n' -> (n <= n')%N.
Proof.
  intros S A (a & alts & b & El & Hab) F R Hn cs' n' Hp' Hn'.
  assert (L : leaves m groups <> []) by (rewrite El; destruct a; discriminate).
  destruct (setup_exists g m groups S L A) as (sorted & mins & cs0 & ts & u & H).
  pose proof (find_best_of g token m groups _ _ _ _ _ S H) as E. rewrite F in E.
  destruct (token 0); [discriminate E|]. injection E as <-.
  destruct H as [Hs Ha Hm Hp Ht Hj Hi Hl Hb HS].
  destruct (joins_places g cs0 ts t Ht Hj) as (T1 & D1 & R0).
  apply (costs_tree g cs t T1 R) in Hn. subst n.
  assert (Sh : exists pre last, sorted = pre ++ [last] /\ Forall (fun x => length x = 1) pre).
  { assert (Sh0 : exists pre last, prepare_alternatives m groups = pre ++ [last] /\ Forall (fun x => length x = 1) pre).
    { destruct (Nat.eq_dec (length alts) 1) as [E1|E1].
      - assert (All : Forall (fun x => length x = 1) (prepare_alternatives m groups)).
        { eapply Permutation_Forall; [symmetry; apply prepare_perm|]. rewrite El. apply Forall_app in Hab. destruct Hab.
          apply Forall_app. split; [assumption|]. now constructor. }
        destruct (exists_last Ha) as (pre & last & E2). exists pre, last. split; [exact E2|]. rewrite E2 in All.
        apply Forall_app in All. exact (proj1 All).
      - assert (E0 : 1 < length alts).
        { destruct (sound_leaves g m groups S) as [_ Ne]. rewrite El in Ne. apply Forall_app in Ne. destruct Ne as [_ Ne].
          inversion Ne; subst. destruct alts as [|? [|? ?]]; cbn in *; [congruence|lia|lia]. }
        unfold prepare_alternatives. rewrite leaves_ok, El, sort_last.
        + eexists _, _. split; [reflexivity|]. eapply Permutation_Forall; [symmetry; apply sort_perm|exact Hab].
        + eapply Forall_impl; [|exact Hab]. intros x Hx. cbn beta in Hx. rewrite Hx. lia. }
    destruct Sh0 as (pre & last & E2 & H2). subst sorted. rewrite E2. unfold sort_candidates. rewrite map_app.
    eexists _, _. split; [reflexivity|]. apply Forall_map. eapply Forall_impl; [|exact H2]. intros x Hx.
    rewrite <- Hx. apply Permutation_length, sort_perm. }
  destruct Sh as (pre & last & E2 & H2).
  destruct (picks_perm _ _ (Permutation_sym (prepare_perm m groups)) cs' Hp') as (cs2 & P2 & Q2).
  assert (P3 : picks sorted cs2) by (subst sorted; exact (proj2 (picks_same _ _ (sort_candidates_same g (prepare_alternatives m groups)) cs2) P2)).
  destruct (trees_exist g sorted cs2 HS P3) as (ts2 & Ht2).
  assert (Nz : ts2 <> []).
  { intros ->. inversion Ht2; subst. rewrite E2 in P3. inversion P3 as [X|]. destruct pre; discriminate X. }
  destruct (joins_none ts2 Nz) as (v & Hv). destruct (joins_places g cs2 ts2 v Ht2 Hv) as (T2 & D2 & R2).
  apply (costs_perm g cs' cs2 n' Q2) in Hn'. apply (costs_tree g cs2 v T2 R2) in Hn'. subst n'.
  rewrite E2 in Hi, P3, HS. apply Forall_app in HS. destruct HS as [HS1 HS2]. inversion HS2 as [|? ? HS3 _]; subst.
  apply (initial_last g pre last H2 HS1 HS3 None (weight g t) t (fun x X => ltac:(discriminate X)) Hi cs2 ts2 v P3 Ht2 Hv).
Qed.

(** No plan *)
Lemma no_plan g token m groups :
  groups = [] \/ (exists leaf, In leaf groups /\ In [] leaf) \/ leaves m groups = [] ->
  find_best g token m groups = Failed EmptyPlan.
Proof.
  intros H. unfold find_best.
  destruct (match groups with [] => true | _ => false end
   || existsb (existsb (fun paths : list path => match paths with [] => true | _ => false end)) groups)%bool eqn:E; [reflexivity|].
  destruct H as [->|[(leaf & H1 & H2)|H]].
  - discriminate E.
  - exfalso. apply orb_false_iff in E. destruct E as [_ E]. rewrite <- not_true_iff_false in E. apply E.
    apply existsb_exists. exists leaf. split; [exact H1|]. apply existsb_exists. now exists [].
  - pose proof (prepare_perm m groups) as P. rewrite H in P. apply Permutation_sym, Permutation_nil in P. now rewrite P.
Qed.

(** Mutations *)
Lemma leaves_in m groups alts : In alts (leaves m groups) ->
  exists i leaf paths, nth_error groups i = Some leaf /\ In paths leaf /\ alts = map (fun p => (p, if m then Some i else None)) paths.
Proof.
  rewrite <- leaves_ok.
  assert (G : forall k, In alts (with_positions m k groups) ->
    exists i leaf paths, nth_error groups i = Some leaf /\ In paths leaf /\ alts = map (fun p => (p, if m then Some (k + i) else None)) paths).
  { induction groups as [|leaf groups IH]; intros k H; cbn in H; [easy|]. apply in_app_or in H. destruct H as [H|H].
    - apply in_map_iff in H. destruct H as (paths & <- & Hp). exists 0, leaf, paths. rewrite Nat.add_0_r. repeat split. exact Hp.
    - destruct (IH (S k) H) as (i & l & paths & H1 & H2 & ->). exists (S i), l, paths. rewrite Nat.add_succ_r. now repeat split. }
  exact (G 0).
Qed.
Lemma position_first g pos segs st p : on_path g pos segs (st :: p) -> l_position (snd st) = pos.
Proof. inversion 1; reflexivity. Qed.
Lemma mutation_apart g token groups t : sound g groups -> leaves true groups <> [] -> affordable g (leaves true groups) ->
  find_best g token true groups = Done t ->
  forall st p, reaches t (st :: p) ->
  exists i leaf paths path, l_position (snd st) = Some i /\ nth_error groups i = Some leaf /\ In paths leaf /\ In path paths
    /\ on_path g (Some i) (p_segments path) (st :: p).
Proof.
  intros S L A F st p H.
  destruct (token 0) as [e|] eqn:T.
  { destruct (asked_once g true groups S L A) as (u & n & _ & X). rewrite X, T in F. discriminate F. }
  destruct (plan_good g token true groups S L A T) as (t' & cs & F' & P & _ & R & _). rewrite F in F'. injection F' as <-.
  apply R in H. destruct H as (c & Hc & Hp). destruct (in_forall2' _ _ _ P c Hc) as (alts & Ha & Hi).
  destruct (leaves_in true groups alts Ha) as (i & leaf & paths & H1 & H2 & ->). apply in_map_iff in Hi.
  destruct Hi as (path & <- & Hi). cbn [fst snd] in Hp. exists i, leaf, paths, path.
  repeat split; try assumption. exact (position_first _ _ _ _ _ Hp).
Qed.

(** Two leaves [a] and [b], where [a] is in subgraphs A and B and [b] in B and C *)
Definition three : graph :=
  [mkedge 1 true; mkedge 2 true; mkedge 3 true; mkedge 4 false; mkedge 5 false; mkedge 6 false; mkedge 7 false].
Definition along (e : nat) : segment := mkseg e None None None.
Definition field (e : nat) : segment := mkseg e None (Some (None, None)) None.
Definition two : list (list (list path)) :=
  [[[mkpath 0 [along 0; field 3]; mkpath 0 [along 1; field 4]]];
   [[mkpath 0 [along 1; field 5]; mkpath 0 [along 2; field 6]]]].
Lemma tree_for_intro g c t : sound_candidate g c -> get_tree g c = Done t -> tree_for g c t.
Proof. intros H E. destruct (candidate_tree g c H) as (u & Hu). pose proof Hu as [Eu _]. rewrite E in Eu. injection Eu as ->. exact Hu. Qed.
Lemma two_sound : sound three two.
Proof.
  split; [discriminate|]. repeat constructor; try discriminate; cbn; discriminate.
Qed.
Lemma costs_of g cs ts u n : Forall2 (tree_for g) cs ts -> joins None ts = Some u -> weight g u = n -> costs g cs n.
Proof. intros H J <-. destruct (joins_places g cs ts u H J) as (T & _ & R). now apply (costs_tree g cs u T R). Qed.
Lemma two_costs e f n : In e [0; 1] -> In f [1; 2] -> (if Nat.eqb e f then n = 1004 else n = 2005)%N ->
  costs three [(mkpath 0 [along e; field (3 + e)], None); (mkpath 0 [along f; field (4 + f)], None)] n.
Proof.
  intros He Hf Hn.
  assert (S1 : sound_candidate three (mkpath 0 [along e; field (3 + e)], None)).
  { destruct He as [<-|[<-|[]]]; repeat constructor; cbn; discriminate. }
  assert (S2 : sound_candidate three (mkpath 0 [along f; field (4 + f)], None)).
  { destruct Hf as [<-|[<-|[]]]; repeat constructor; cbn; discriminate. }
  destruct (candidate_tree _ _ S1) as (t1 & H1). destruct (candidate_tree _ _ S2) as (t2 & H2).
  eapply costs_of; [constructor; [exact H1|constructor; [exact H2|constructor]]|reflexivity|].
  destruct H1 as [E1 _], H2 as [E2 _]. destruct He as [<-|[<-|[]]], Hf as [<-|[<-|[]]]; cbn in E1, E2, Hn;
    injection E1 as <-; injection E2 as <-; subst n; reflexivity.
Qed.
Lemma two_affordable : affordable three (leaves false two).
Proof.
  exists [1003%N; 1003%N]. split; [|reflexivity].
  assert (G : forall c n, sound_candidate three c -> (forall t, get_tree three c = Done t -> weight three t = n) -> costs three [c] n).
  { intros c n Hs Hw. destruct (candidate_tree _ _ Hs) as (t & Ht). apply (costs_one _ _ _ Ht). symmetry. apply Hw. apply Ht. }
  repeat constructor.
  - exists (mkpath 0 [along 0; field 3], None). split; [now left|]. apply G.
    + repeat constructor; cbn; discriminate.
    + intros t E. cbn in E. injection E as <-. reflexivity.
  - exists (mkpath 0 [along 1; field 5], None). split; [now left|]. apply G.
    + repeat constructor; cbn; discriminate.
    + intros t E. cbn in E. injection E as <-. reflexivity.
Qed.
Lemma two_not_cheapest : exists g m groups t cs n, sound g groups /\ affordable g (leaves m groups)
  /\ find_best g (fun _ => None) m groups = Done t
  /\ picks (leaves m groups) cs
  /\ (forall q, reaches t q <-> exists c, In c cs /\ on_path g (snd c) (p_segments (fst c)) q)
  /\ costs g cs n
  /\ exists cs' n', picks (leaves m groups) cs' /\ costs g cs' n' /\ (n' + 1001 = n)%N.
Proof.
  exists three, false, two.
  pose (c1 := (mkpath 0 [along 0; field 3], None : option nat)). pose (c2 := (mkpath 0 [along 1; field 5], None : option nat)).
  destruct (candidate_tree three c1) as (t1 & H1); [repeat constructor; cbn; discriminate|].
  destruct (candidate_tree three c2) as (t2 & H2); [repeat constructor; cbn; discriminate|].
  assert (J : Forall2 (tree_for three) [c1; c2] [t1; t2]) by (repeat constructor; apply H1 || apply H2).
  exists (merge_nodes t2 t1), [c1; c2], 2005%N.
  split; [exact two_sound|]. split; [exact two_affordable|]. split; [|split; [|split; [|split]]].
  - destruct H1 as [E1 _], H2 as [E2 _]. cbn in E1, E2. injection E1 as <-. injection E2 as <-. vm_compute. reflexivity.
  - constructor; [left; reflexivity|]. constructor; [left; reflexivity|constructor].
  - exact (proj2 (proj2 (joins_places three _ _ _ J eq_refl))).
  - exact (two_costs 0 1 2005 ltac:(now left) ltac:(now left) eq_refl).
  - exists [(mkpath 0 [along 1; field 4], None); (mkpath 0 [along 1; field 5], None)], 1004%N. split; [|split; [|reflexivity]].
    + constructor; [right; left; reflexivity|]. constructor; [left; reflexivity|constructor].
    + exact (two_costs 1 1 1004 ltac:(right; now left) ltac:(now left) eq_refl).
Qed.
