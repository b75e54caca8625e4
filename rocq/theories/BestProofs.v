(** The search for the cheapest combination of paths *)
From Coq Require Import String List NArith ZArith Bool Arith Lia Permutation.
From Verif Require Import Ast QplanModel BestModel BestSpec BestTree.
Import ListNotations.
Local Open Scope list_scope.

(** Trees of paths *)
Definition opt_list {A} (o : option A) : list A := match o with Some x => [x] | None => [] end.
Lemma from_segments_reaches g segs : forall pos sub, from_segments g segs pos = Done sub ->
  forall l q, reaches (Tree l [] (opt_list sub)) q <-> on_path g pos segs q.
Proof.
  induction segs as [|s segs IH]; intros pos sub H l q; cbn in H.
  - injection H as <-. rewrite reaches_iff. split.
    + destruct q as [|[[|] x] p]; intros K; [constructor| |]; now apply among_nil in K.
    + now inversion 1.
  - destruct (nth_error g (s_edge s)) as [e|] eqn:E; [|discriminate H].
    destruct (from_segments g segs None) as [sub'| |] eqn:E'; try discriminate H. injection H as <-.
    specialize (IH None sub' E'). fold (opt_list sub'). fold (opt_list (s_requirement s)).
    set (x := mklabel (e_tail e) (Some (s_edge s)) (s_attrs s) pos (s_condition s)) in *.
    rewrite reaches_iff. split.
    + destruct q as [|[[|] y] p]; intros K; [constructor| |now apply among_nil in K].
      unfold opt_list at 1 in K. apply among_cons in K. destruct K as [[<- K]|K]; [|now apply among_nil in K].
      cbn [label_of]. apply reaches_iff in K. destruct p as [|[[|] z] p'].
      * apply op_along; [exact E|constructor].
      * apply op_along; [exact E|]. apply (IH x). now apply reaches_iff.
      * destruct (s_requirement s) as [r|] eqn:Er; [|now apply among_nil in K]. cbn [opt_list] in K.
        apply among_cons in K. destruct K as [[<- K]|K]; [|now apply among_nil in K].
        destruct r as [z rs cs]. now apply (op_aside g pos s segs e z rs cs p').
    + intros K. inversion K as [|? ? ? e' p He Hp|? ? ? e' l0 rs cs p He Hr Hq]; subst; [exact Logic.I| |]; rewrite E in He;
        injection He as <-; apply among_cons; left; (split; [reflexivity|]).
      * apply (IH x) in Hp. rewrite reaches_iff in *. destruct p as [|[[|] z] p']; [easy|exact Hp|].
        now apply among_nil in Hp.
      * rewrite reaches_iff, Hr. cbn [opt_list]. apply among_cons. left. split; [reflexivity|assumption].
Qed.
Lemma from_path_reaches g p pos t : from_path g p pos = Done t ->
  label_of t = mklabel (p_root p) None None None None /\ forall q, reaches t q <-> on_path g pos (p_segments p) q.
Proof.
  unfold from_path. destruct (from_segments g (p_segments p) pos) as [sub| |] eqn:E; try discriminate.
  injection 1 as <-. split; [reflexivity|]. intros q. fold (opt_list sub). now apply from_segments_reaches.
Qed.
Lemma single_nodup {A B} (f : A -> B) (o : option A) : NoDup (map f (opt_list o)).
Proof. destruct o; cbn; repeat constructor. intros []. Qed.
Lemma from_segments_sound g segs : forall pos, Forall (sound_segment g) segs ->
  exists sub, from_segments g segs pos = Done sub
    /\ Forall (fun c => tidy c /\ drawn g c /\ edge_known g (label_of c)) (opt_list sub).
Proof.
  induction segs as [|s segs IH]; intros pos H; [exists None; split; [reflexivity|constructor]|].
  inversion H; subst. destruct H2 as [He Hr]. cbn.
  destruct (nth_error g (s_edge s)) as [e|] eqn:E; [|congruence]. destruct (IH None H3) as (sub & -> & Hs).
  eexists. split; [reflexivity|]. cbn [opt_list]. constructor; [|constructor]. split; [|split].
  - apply tidy_iff. fold (opt_list (s_requirement s)) (opt_list sub). repeat split.
    + apply single_nodup.
    + apply single_nodup.
    + destruct (s_requirement s) as [r|]; [|constructor]. constructor; [|constructor]. now apply Hr.
    + eapply Forall_impl; [|exact Hs]. intros c (A & _). exact A.
  - apply drawn_iff. fold (opt_list (s_requirement s)) (opt_list sub). repeat split.
    + eapply Forall_impl; [|exact Hs]. intros c (_ & _ & A). exact A.
    + destruct (s_requirement s) as [r|]; [|constructor]. constructor; [|constructor]. now apply Hr.
    + eapply Forall_impl; [|exact Hs]. intros c (_ & A & _). exact A.
  - intros x. cbn. injection 1 as <-. congruence.
Qed.
Lemma from_path_sound g p pos : sound_path g p -> exists t, from_path g p pos = Done t /\ tidy t /\ drawn g t.
Proof.
  intros H. unfold from_path. destruct (from_segments_sound g _ pos H) as (sub & -> & Hs).
  eexists. split; [reflexivity|]. fold (opt_list sub). split.
  - apply tidy_iff. repeat split; [constructor|apply single_nodup|constructor|].
    eapply Forall_impl; [|exact Hs]. intros c (A & _). exact A.
  - apply drawn_iff. repeat split; [|constructor|]; (eapply Forall_impl; [|exact Hs]); intros c (A & B & C); assumption.
Qed.

(** Trees built for requirements *)
Lemma from_rest_good g paths pos : forall acc, Forall (sound_path g) paths -> tidy acc -> drawn g acc ->
  exists t, from_rest g paths pos acc = Done t /\ tidy t /\ drawn g t
    /\ forall q, reaches t q <-> reaches acc q \/ exists p, In p paths /\ on_path g pos (p_segments p) q.
Proof.
  induction paths as [|p paths IH]; intros acc H Ht Hd; cbn.
  - exists acc. repeat split; try assumption; [tauto|]. intros [K|(x & [] & _)]; exact K.
  - inversion H; subst. destruct (from_path_sound g p pos H2) as (t & E & T & D). rewrite E.
    destruct (IH (merge_nodes t acc) H3 (merge_tidy t acc T Ht) (merge_drawn g t acc D Hd)) as (u & -> & Tu & Du & R).
    exists u. repeat split; try assumption; rewrite ?R, merge_reaches, (proj2 (from_path_reaches g p pos t E) q); firstorder (subst; auto).
Qed.
Lemma from_paths_good g paths pos : paths <> [] -> Forall (sound_path g) paths ->
  exists t, from_paths g paths pos = Done (Some t) /\ tidy t /\ drawn g t
    /\ forall q, reaches t q <-> exists p, In p paths /\ on_path g pos (p_segments p) q.
Proof.
  destruct paths as [|p paths]; [congruence|]. intros _ H. inversion H; subst. cbn.
  destruct (from_path_sound g p pos H2) as (t & E & T & D). rewrite E.
  destruct (from_rest_good g paths pos t H3 T D) as (u & -> & Tu & Du & R). exists u. repeat split; try assumption;
    rewrite ?R, (proj2 (from_path_reaches g p pos t E) q); firstorder (subst; auto).
Qed.

(** Candidates *)
Definition tree_for (g : graph) (c : candidate) (t : tree) : Prop :=
  get_tree g c = Done t /\ tidy t /\ drawn g t /\ (forall q, reaches t q <-> on_path g (snd c) (p_segments (fst c)) q).
Definition sound_candidate (g : graph) (c : candidate) : Prop := sound_path g (fst c).
Lemma candidate_tree g c : sound_candidate g c -> exists t, tree_for g c t.
Proof.
  intros H. destruct (from_path_sound g (fst c) (snd c) H) as (t & E & T & D). exists t.
  split; [exact E|]. split; [exact T|]. split; [exact D|]. exact (proj2 (from_path_reaches _ _ _ _ E)).
Qed.
Lemma tree_for_unique g c t t' : tree_for g c t -> tree_for g c t' -> t = t'.
Proof. intros [H _] [H' _]. congruence. Qed.
Lemma total_sum {A} (f : A -> N) l : total (map f l) = sum_by f l.
Proof. induction l as [|x l IH]; [reflexivity|]. rewrite sum_by_cons, <- IH. reflexivity. Qed.
Lemma costs_tree g cs t : tidy t ->
  (forall q, reaches t q <-> exists c, In c cs /\ on_path g (snd c) (p_segments (fst c)) q) ->
  forall n, costs g cs n <-> n = weight g t.
Proof.
  intros T R n. rewrite <- places_weight, <- total_sum. split.
  - intros (ps & Hn & Hp & ->). rewrite !total_sum. apply sum_by_perm. apply NoDup_Permutation; [exact Hn|now apply places_nodup|].
    intros p. now rewrite Hp, places_ok, R.
  - intros ->. exists (places t). split; [now apply places_nodup|]. split; [|reflexivity].
    intros p. now rewrite places_ok, R.
Qed.
Lemma costs_one g c t : tree_for g c t -> forall n, costs g [c] n <-> n = weight g t.
Proof.
  intros (_ & T & _ & R). apply costs_tree; [exact T|]. intros q. rewrite R. split.
  - intros H. exists c. split; [now left|exact H].
  - intros (x & [<-|[]] & H). exact H.
Qed.
Lemma get_cost_weight g c t : tree_for g c t -> get_cost g c = Done (weight g t).
Proof. intros (E & _ & D & _). unfold get_cost. now rewrite E, (cost_weight g t D). Qed.

(** Adding a candidate to the tree so far *)
Definition fine (g : graph) (cur : option tree) : Prop := forall t, cur = Some t -> tidy t /\ drawn g t.
Definition weight_of (g : graph) (cur : option tree) : N := match cur with Some t => weight g t | None => 0%N end.
Lemma join_fine g cur t : fine g cur -> tidy t -> drawn g t -> tidy (join cur t) /\ drawn g (join cur t).
Proof.
  intros H T D. destruct cur as [u|]; [|now split]. destruct (H u eq_refl) as [Tu Du]. cbn.
  split; [now apply merge_tidy|now apply merge_drawn].
Qed.
Lemma join_le g cur t : (weight g (join cur t) <= weight_of g cur + weight g t)%N.
Proof. destruct cur as [u|]; cbn; [|lia]. pose proof (merge_weight g t u). lia. Qed.
Lemma merge_weight_ge g s : forall t, (weight g t <= weight g (merge_nodes s t))%N.
Proof.
  induction s as [l rs cs IHr IHc] using tree_ind'. intros [l' rs' cs']. rewrite merge_unfold. cbn [weight].
  assert (G : forall (k : label -> N) ss, Forall (fun s => forall t, (weight g t <= weight g (merge_nodes s t))%N) ss ->
                forall ts, (sum_by (fun c => k (label_of c) + weight g c)%N ts
                       <= sum_by (fun c => k (label_of c) + weight g c)%N (merge_lists ss ts))%N).
  { intros k ss H. induction H as [|s ss Hs _ IH]; intros ts; cbn [merge_lists fold_left]; [lia|].
    fold (merge_lists ss (place (merge_nodes s) s ts)). etransitivity; [|apply IH].
    destruct (place_cases (merge_nodes s) s ts) as [(a & t & b & -> & E1 & E2 & ->)|[E1 ->]];
      rewrite !sum_by_app, ?sum_by_cons, ?sum_by_nil; [|lia].
    rewrite label_merge. specialize (Hs t). lia. }
  pose proof (G (entering g) cs IHc cs'). pose proof (G (fun _ => 1000%N) rs IHr rs'). cbn beta in *. lia.
Qed.
Lemma join_ge g cur t : (weight_of g cur <= weight g (join cur t))%N.
Proof. destruct cur as [u|]; cbn; [|lia]. apply merge_weight_ge. Qed.
Lemma join_strict g cur u t : cur = Some u -> (weight g (join cur t) + 1 <= weight_of g cur + weight g t)%N.
Proof. intros ->. cbn. pose proof (merge_weight g t u). lia. Qed.

Lemma best_next_ok g cur alts : fine g cur -> Forall (sound_candidate g) alts -> forall bd best,
  exists r, best_next g cur (weight_of g cur) alts bd best = Done r
    /\ ((r = best /\ forall c t, In c alts -> tree_for g c t -> (bd <= weight g (join cur t) - weight_of g cur)%N)
        \/ exists c t, In c alts /\ tree_for g c t /\ r = Some (weight g (join cur t), join cur t)
             /\ (weight g (join cur t) - weight_of g cur < bd)%N
             /\ forall c' t', In c' alts -> tree_for g c' t' -> (weight g (join cur t) <= weight g (join cur t'))%N).
Proof.
  intros F H. induction H as [|c alts Hc _ IH]; intros bd best; cbn.
  - exists best. split; [reflexivity|]. left. split; [reflexivity|]. now intros c t [].
  - destruct (candidate_tree g c Hc) as (t & Ht). pose proof Ht as (E & T & D & _). rewrite E.
    destruct (join_fine g cur t F T D) as [TJ DJ]. rewrite (cost_weight g _ DJ).
    pose proof (join_ge g cur t) as Hge.
    destruct (weight g (join cur t) - weight_of g cur <? bd)%N eqn:L.
    + apply N.ltb_lt in L. destruct (IH (weight g (join cur t) - weight_of g cur)%N (Some (weight g (join cur t), join cur t)))
        as (r & -> & [[-> Hm]|(c' & t' & H1 & H2 & -> & H4 & H5)]).
      * eexists. split; [reflexivity|]. right. exists c, t. split; [now left|]. split; [exact Ht|]. split; [reflexivity|]. split; [exact L|].
        intros c' t' [<-|Hi] Ht'; [now rewrite (tree_for_unique g c t t')|]. specialize (Hm c' t' Hi Ht').
        pose proof (join_ge g cur t'). lia.
      * eexists. split; [reflexivity|]. right. exists c', t'. split; [now right|]. split; [exact H2|]. split; [reflexivity|].
        split; [lia|]. intros c2 t2 [<-|Hi] Ht2; [rewrite <- (tree_for_unique g c t t2 Ht Ht2); lia|]. now apply (H5 c2).
    + apply N.ltb_ge in L. destruct (IH bd best) as (r & -> & [[-> Hm]|(c' & t' & H1 & H2 & -> & H4 & H5)]).
      * eexists. split; [reflexivity|]. left. split; [reflexivity|]. intros c' t' [<-|Hi] Ht'; [now rewrite <- (tree_for_unique g c t t')|].
        now apply (Hm c').
      * eexists. split; [reflexivity|]. right. exists c', t'. split; [now right|]. split; [exact H2|]. split; [reflexivity|].
        split; [exact H4|]. intros c2 t2 [<-|Hi] Ht2; [rewrite <- (tree_for_unique g c t t2 Ht Ht2); lia|]. now apply (H5 c2).
Qed.

(** The greedy plan *)
Definition joins (cur : option tree) (ts : list tree) : option tree := fold_left (fun cur t => Some (join cur t)) ts cur.
Definition cheap (g : graph) (alts : list candidate) (n : N) : Prop := exists c t, In c alts /\ tree_for g c t /\ weight g t = n.
Lemma fine_some g t : tidy t -> drawn g t -> fine g (Some t).
Proof. intros T D u E. injection E as <-. now split. Qed.
Lemma initial_ok g groups : Forall (Forall (sound_candidate g)) groups -> forall ns, Forall2 (cheap g) groups ns ->
  forall cur, fine g cur -> (weight_of g cur + total ns < u64_max)%N -> (cur <> None \/ groups <> []) ->
  exists cs ts u, picks groups cs /\ Forall2 (tree_for g) cs ts /\ joins cur ts = Some u
    /\ initial_plan g groups cur (weight_of g cur) = Done (Some (weight g u, u))
    /\ (weight g u + N.of_nat (length groups) <= weight_of g cur + total ns + match cur with Some _ => 0 | None => 1 end)%N.
Proof.
  intros H ns Hns. revert H. induction Hns as [|alts n groups ns Hn _ IH]; intros H cur F L Hne.
  - destruct cur as [u|]; [|exfalso; destruct Hne; congruence]. exists [], [], u. repeat split; try constructor. cbn. lia.
  - inversion H; subst. cbn [initial_plan]. change (total (n :: ns)) with (n + total ns)%N in *.
    destruct (best_next_ok g cur alts F H2 u64_max None) as (r & -> & [[-> Hm]|(c & t & H4 & H5 & -> & H7 & H8)]).
    + exfalso. destruct Hn as (c & t & Hc & Ht & <-). specialize (Hm c t Hc Ht). pose proof (join_le g cur t). lia.
    + destruct Hn as (c0 & t0 & Hc0 & Ht0 & <-). pose proof (H8 c0 t0 Hc0 Ht0) as Hle. pose proof (join_le g cur t0) as Hj.
      pose proof H5 as (_ & T & D & _). destruct (join_fine g cur t F T D) as [TJ DJ].
      destruct (IH H3 (Some (join cur t)) (fine_some g _ TJ DJ)) as (cs & ts & u & P & Q & J & I & B).
      * cbn [weight_of]. lia.
      * left. discriminate.
      * exists (c :: cs), (t :: ts), u. split; [now constructor|]. split; [now constructor|]. split; [exact J|].
        split; [exact I|]. cbn [weight_of] in B. cbn [length]. destruct cur as [v|]; [|cbn [weight_of] in *; lia].
        pose proof (join_strict g (Some v) v t0 eq_refl). lia.
Qed.
Lemma initial_last g groups alts : Forall (fun x => length x = 1) groups -> Forall (Forall (sound_candidate g)) groups ->
  Forall (sound_candidate g) alts -> forall cur n u, fine g cur ->
  initial_plan g (groups ++ [alts]) cur (weight_of g cur) = Done (Some (n, u)) ->
  forall cs ts v, picks (groups ++ [alts]) cs -> Forall2 (tree_for g) cs ts -> joins cur ts = Some v -> (n <= weight g v)%N.
Proof.
  intros H1. induction H1 as [|a groups Ha _ IH]; intros Hs Halts cur n u F E cs ts v Hp Ht J.
  - cbn in E, Hp. inversion Hp as [|x c l cs' Hc Hp']; subst. inversion Hp'; subst.
    inversion Ht as [|x t l ts' Hct Ht']; subst. inversion Ht'; subst. cbn in J. injection J as <-.
    destruct (best_next_ok g cur alts F Halts u64_max None) as (r & Er & [[-> Hm]|(c0 & t0 & H4 & H5 & -> & H7 & H8)]);
      rewrite Er in E; [discriminate E|]. cbn in E. injection E as <- <-. now apply (H8 c).
  - destruct a as [|c [|? ?]]; try discriminate Ha. inversion Hs as [|? ? Hs1 Hs2]; subst.
    cbn [app initial_plan] in E. cbn [app] in Hp.
    inversion Hp as [|x c' l cs' Hc Hp']; subst. destruct Hc as [<-|[]].
    inversion Ht as [|x t l ts' Hct Ht']; subst.
    destruct (best_next_ok g cur [c] F Hs1 u64_max None) as (r & Er & [[-> Hm]|(c0 & t0 & H4 & H5 & -> & H7 & H8)]);
      rewrite Er in E; [discriminate E|].
    destruct H4 as [<-|[]]. rewrite <- (tree_for_unique g c t t0 Hct H5) in *.
    pose proof Hct as (_ & T & D & _). destruct (join_fine g cur t F T D) as [TJ DJ].
    apply (IH Hs2 Halts (Some (join cur t)) n u (fine_some g _ TJ DJ) E cs' ts' v Hp' Ht'). exact J.
Qed.

(** What joining many trees gives *)
Lemma joins_reaches ts : forall cur u, joins cur ts = Some u ->
  forall q, reaches u q <-> (exists t, cur = Some t /\ reaches t q) \/ exists t, In t ts /\ reaches t q.
Proof.
  induction ts as [|t ts IH]; intros cur u J q.
  - cbn in J. subst. split; [left; eauto|]. intros [(t & E & H)|(t & [] & _)]. now injection E as ->.
  - cbn in J. rewrite (IH _ _ J q). split.
    + intros [(t' & E & H)|(t' & Hi & H)]; [|right; exists t'; cbn; tauto].
      injection E as <-. destruct cur as [c|]; cbn in H; [|right; exists t; cbn; tauto].
      apply merge_reaches in H. destruct H as [H|H]; [right; exists t; cbn; tauto|left; eauto].
    + intros [(t' & -> & H)|(t' & [<-|Hi] & H)].
      * left. eexists. split; [reflexivity|]. cbn. apply merge_reaches. now right.
      * left. eexists. split; [reflexivity|]. destruct cur as [c|]; cbn; [|exact H]. apply merge_reaches. now left.
      * right. eauto.
Qed.
Lemma joins_fine g ts : forall cur u, fine g cur -> Forall (fun t => tidy t /\ drawn g t) ts -> joins cur ts = Some u ->
  tidy u /\ drawn g u.
Proof.
  induction ts as [|t ts IH]; intros cur u F H J; cbn in J; [now apply F|].
  inversion H; subst. destruct H2 as [T D]. destruct (join_fine g cur t F T D) as [TJ DJ].
  apply (IH (Some (join cur t)) u); [now apply fine_some|assumption|exact J].
Qed.
Lemma joins_label ts : forall cur u x, joins cur ts = Some u ->
  (forall t, cur = Some t -> label_of t = x) -> Forall (fun t => label_of t = x) ts -> label_of u = x.
Proof.
  induction ts as [|t ts IH]; intros cur u x J Hc H; cbn in J; [now apply Hc|].
  inversion H; subst. apply (IH _ _ _ J); [|assumption]. intros t' E. injection E as <-.
  destruct cur as [c|]; cbn; [|reflexivity]. rewrite label_merge. now apply Hc.
Qed.
Lemma joins_none ts : ts <> [] -> exists u, joins None ts = Some u.
Proof.
  destruct ts as [|t ts]; [congruence|]. intros _. cbn. generalize t. induction ts as [|t' ts IH]; intros t0; cbn; [eauto|apply IH].
Qed.
Lemma in_forall2 {A B} (R : A -> B -> Prop) a b : Forall2 R a b -> forall x, In x a -> exists y, In y b /\ R x y.
Proof.
  induction 1 as [|x y a b H _ IH]; intros z; [easy|]. intros [<-|Hz]; [exists y; cbn; auto|].
  destruct (IH z Hz) as (w & Hw & Hr). exists w. cbn. auto.
Qed.
Lemma in_forall2' {A B} (R : A -> B -> Prop) a b : Forall2 R a b -> forall y, In y b -> exists x, In x a /\ R x y.
Proof.
  induction 1 as [|x y a b H _ IH]; intros z; [easy|]. intros [<-|Hz]; [exists x; cbn; auto|].
  destruct (IH z Hz) as (w & Hw & Hr). exists w. cbn. auto.
Qed.
Lemma joins_places g cs ts u : Forall2 (tree_for g) cs ts -> joins None ts = Some u ->
  tidy u /\ drawn g u /\ forall q, reaches u q <-> exists c, In c cs /\ on_path g (snd c) (p_segments (fst c)) q.
Proof.
  intros H J.
  assert (F : Forall (fun t => tidy t /\ drawn g t) ts).
  { apply Forall_forall. intros t Ht. destruct (in_forall2' _ _ _ H t Ht) as (c & _ & _ & T & D & _). now split. }
  destruct (joins_fine g ts None u) as [T D]; [intros t E; discriminate E|exact F|exact J|].
  split; [exact T|]. split; [exact D|]. intros q. rewrite (joins_reaches _ _ _ J q). split.
  - intros [(t & E & _)|(t & Ht & Hq)]; [discriminate E|]. destruct (in_forall2' _ _ _ H t Ht) as (c & Hc & _ & _ & _ & R).
    exists c. split; [exact Hc|now apply R].
  - intros (c & Hc & Hq). right. destruct (in_forall2 _ _ _ H c Hc) as (t & Ht & _ & _ & _ & R). exists t. split; [exact Ht|now apply R].
Qed.

(** Sorting *)
Lemma insert_perm {A} (key : A -> N) x l : Permutation (insert_by key x l) (x :: l).
Proof.
  induction l as [|y l IH]; [reflexivity|]. cbn. destruct (key x <=? key y)%N; [reflexivity|]. rewrite IH. apply perm_swap.
Qed.
Lemma sort_perm {A} (key : A -> N) l : Permutation (sort_by key l) l.
Proof. induction l as [|x l IH]; [reflexivity|]. cbn. rewrite insert_perm. now constructor. Qed.
Lemma insert_last {A} (key : A -> N) x l : Forall (fun y => (key y < key x)%N) l -> insert_by key x l = l ++ [x].
Proof.
  induction 1 as [|y l Hy _ IH]; [reflexivity|]. cbn. destruct (key x <=? key y)%N eqn:E; [apply N.leb_le in E; lia|]. now rewrite IH.
Qed.
Lemma insert_before {A} (key : A -> N) x y l : (key y < key x)%N -> insert_by key y (l ++ [x]) = insert_by key y l ++ [x].
Proof.
  intros H. induction l as [|z l IH]; cbn.
  - destruct (key y <=? key x)%N eqn:E; [reflexivity|]. apply N.leb_gt in E. lia.
  - destruct (key y <=? key z)%N; [reflexivity|]. now rewrite IH.
Qed.
Lemma sort_last {A} (key : A -> N) x a b : Forall (fun y => (key y < key x)%N) (a ++ b) ->
  sort_by key (a ++ x :: b) = sort_by key (a ++ b) ++ [x].
Proof.
  induction a as [|y a IH]; intros H; cbn.
  - apply insert_last. eapply Permutation_Forall; [symmetry; apply sort_perm|exact H].
  - inversion H; subst. rewrite IH by assumption. now apply insert_before.
Qed.
Lemma with_positions_ok m groups : forall i,
  with_positions m i groups
  = concat (map (fun ix : nat * list (list path) => map (map (fun p => (p, if m then Some (fst ix) else None))) (snd ix))
              (combine (seq i (length groups)) groups)).
Proof. induction groups as [|x groups IH]; intros i; [reflexivity|]. cbn. now rewrite IH. Qed.
Lemma leaves_ok m groups : with_positions m 0 groups = leaves m groups.
Proof. apply with_positions_ok. Qed.
Lemma prepare_perm m groups : Permutation (prepare_alternatives m groups) (leaves m groups).
Proof. unfold prepare_alternatives. rewrite <- leaves_ok. apply sort_perm. Qed.
Lemma picks_perm A A' : Permutation A A' -> forall cs, picks A cs -> exists cs', picks A' cs' /\ Permutation cs cs'.
Proof.
  induction 1 as [|x A A' _ IH|x y A|A B C _ IH1 _ IH2]; intros cs H.
  - inversion H; subst. exists []. split; constructor.
  - inversion H; subst. destruct (IH _ H4) as (cs' & P & Q). exists (y :: cs'). split; now constructor.
  - inversion H as [|? c1 ? l1 E1 H1]; subst. inversion H1 as [|? c2 ? l2 E2 H2]; subst. exists (c2 :: c1 :: l2).
    split; [repeat constructor; assumption|apply perm_swap].
  - destruct (IH1 _ H) as (cs1 & P1 & Q1). destruct (IH2 _ P1) as (cs2 & P2 & Q2). exists cs2. split; [exact P2|]. now transitivity cs1.
Qed.
Lemma picks_same A A' : Forall2 (fun a b : list candidate => forall c, In c a <-> In c b) A A' -> forall cs, picks A cs <-> picks A' cs.
Proof.
  induction 1 as [|a b A A' H _ IH]; intros cs; [tauto|]. split; inversion 1; subst; (constructor; [now apply H|now apply IH]).
Qed.
Lemma sort_candidates_same g A : Forall2 (fun a b : list candidate => forall c, In c a <-> In c b) (sort_candidates g A) A.
Proof.
  unfold sort_candidates. induction A as [|a A IH]; cbn; constructor; [|exact IH]. intros c. split; apply Permutation_in;
    [apply sort_perm|symmetry; apply sort_perm].
Qed.
Lemma costs_perm g cs cs' n : Permutation cs cs' -> costs g cs n -> costs g cs' n.
Proof.
  intros P (ps & H1 & H2 & H3). exists ps. split; [exact H1|]. split; [|exact H3]. intros p. rewrite H2.
  split; intros (c & Hc & Hp); exists c; (split; [|exact Hp]); [now apply (Permutation_in c P)|apply (Permutation_in c (Permutation_sym P)), Hc].
Qed.

(** Soundness of what is handed over *)
Lemma leaves_forall (P : candidate -> Prop) (m : bool) groups :
  (forall i p (paths : list path), In p paths -> (exists leaf, nth_error groups i = Some leaf /\ In paths leaf) ->
     P (p, if m then Some i else None)) ->
  Forall (Forall P) (leaves m groups).
Proof.
  rewrite <- leaves_ok. change (with_positions m 0 groups) with (with_positions m (0 + 0) groups).
  intros H. assert (G : forall k, (forall i p (paths : list path), In p paths -> (exists leaf, nth_error groups i = Some leaf /\ In paths leaf) ->
     P (p, if m then Some (k + i) else None)) -> Forall (Forall P) (with_positions m k groups)).
  { clear H. induction groups as [|leaf groups IH]; intros k H; cbn; [constructor|]. apply Forall_app. split.
    - apply Forall_map, Forall_forall. intros paths Hp. apply Forall_map, Forall_forall. intros p Hi.
      specialize (H 0 p paths Hi). rewrite Nat.add_0_r in H. apply H. exists leaf. now split.
    - apply IH. intros i p paths Hi Hx. specialize (H (S i) p paths Hi). rewrite Nat.add_succ_r in H. now apply H. }
  apply (G 0). exact H.
Qed.
Lemma sound_leaves g m groups : sound g groups ->
  Forall (Forall (sound_candidate g)) (leaves m groups) /\ Forall (fun alts => alts <> []) (leaves m groups).
Proof.
  intros [_ H]. split.
  - apply leaves_forall. intros i p paths Hi (leaf & Hl & Hp). rewrite Forall_forall in H.
    specialize (H leaf (nth_error_In _ _ Hl)). rewrite Forall_forall in H. destruct (H paths Hp) as [_ Hx].
    rewrite Forall_forall in Hx. exact (Hx p Hi).
  - rewrite <- leaves_ok. generalize 0 as k. induction H as [|leaf groups Hl _ IH]; intros k; cbn; [constructor|].
    apply Forall_app. split; [|apply IH]. apply Forall_map. eapply Forall_impl; [|exact Hl]. intros paths [Hn _].
    destruct paths; [congruence|discriminate].
Qed.
Lemma sound_guard g groups : sound g groups ->
  (match groups with [] => true | _ => false end
   || existsb (existsb (fun paths : list path => match paths with [] => true | _ => false end)) groups)%bool = false.
Proof.
  intros [Hn H]. apply orb_false_iff. split; [now destruct groups|]. clear Hn.
  induction H as [|leaf groups Hl _ IH]; [reflexivity|]. cbn. apply orb_false_iff. split; [|exact IH].
  clear IH. induction Hl as [|paths leaf [Hp _] _ IH]; [reflexivity|]. cbn. apply orb_false_iff. split; [now destruct paths|exact IH].
Qed.

(** The lower bounds *)
Lemma best_case_ok g alts : Forall (sound_candidate g) alts -> forall acc, exists m, best_case g alts acc = Done m
  /\ (m <= acc)%N /\ (forall c t, In c alts -> tree_for g c t -> (m <= weight g t)%N) /\ (m = acc \/ cheap g alts m).
Proof.
  induction 1 as [|c alts Hc _ IH]; intros acc; cbn.
  - exists acc. repeat split; [lia| |now left]. now intros c t [].
  - destruct (candidate_tree g c Hc) as (t & Ht). rewrite (get_cost_weight g c t Ht).
    destruct (IH (N.min acc (weight g t))) as (m & -> & H1 & H2 & H3). exists m. repeat split; [lia| |].
    + intros c' t' [<-|Hi] Ht'; [rewrite <- (tree_for_unique g c t t' Ht Ht'); lia|now apply (H2 c')].
    + destruct H3 as [->|(c' & t' & A & B & C)].
      * destruct (N.min_spec acc (weight g t)) as [[_ ->]|[_ ->]]; [now left|]. right. exists c, t. cbn. auto.
      * right. exists c', t'. cbn. auto.
Qed.
Lemma best_cases_ok g groups : Forall (Forall (sound_candidate g)) groups -> forall ns, Forall2 (cheap g) groups ns ->
  (total ns < u64_max)%N -> exists ms, best_cases g groups = Done ms /\ Forall2 (cheap g) groups ms /\ (total ms <= total ns)%N.
Proof.
  intros H ns Hns. revert H. induction Hns as [|alts n groups ns Hn _ IH]; intros H L; [exists []; repeat split; [constructor|cbn; lia]|].
  inversion H; subst. change (total (n :: ns)) with (n + total ns)%N in *. cbn [best_cases].
  destruct (best_case_ok g alts H2 u64_max) as (m & -> & A & B & C). destruct (IH H3) as (ms & -> & D & E); [lia|].
  exists (m :: ms). pose proof Hn as (c & t & Hc & Ht & W). specialize (B c t Hc Ht). split; [reflexivity|]. split.
  - constructor; [|exact D]. destruct C as [->|C]; [lia|exact C].
  - change (total (m :: ms)) with (m + total ms)%N. lia.
Qed.
Lemma suffix_head l : hd 0%N (suffix_sums l) = total l /\ suffix_sums l <> [].
Proof.
  induction l as [|n l [IH _]]; cbn; [split; [reflexivity|discriminate]|]. split; [|discriminate]. rewrite IH. unfold total. cbn. lia.
Qed.

(** The whole search *)
Lemma cheap_same g a b n : (forall c : candidate, In c a <-> In c b) -> cheap g a n -> cheap g b n.
Proof. intros H (c & t & Hc & Ht). exists c, t. split; [now apply H|exact Ht]. Qed.
Lemma apart_cheap g A ns : Forall (Forall (sound_candidate g)) A -> apart g A ns -> Forall2 (cheap g) A ns.
Proof.
  intros H K. induction K as [|alts n A ns (c & Hc & Hn) _ IH]; [constructor|]. inversion H; subst. constructor; [|now apply IH].
  rewrite Forall_forall in H2. destruct (candidate_tree g c (H2 c Hc)) as (t & Ht). exists c, t. repeat split; try assumption; try apply Ht.
  symmetry. now apply (costs_one g c t Ht).
Qed.
Lemma forall2_perm {A B} (R : A -> B -> Prop) a a' : Permutation a a' -> forall b, Forall2 R a b -> exists b', Forall2 R a' b' /\ Permutation b b'.
Proof.
  induction 1 as [|x a a' _ IH|x y a|a a' a'' _ IH1 _ IH2]; intros b H.
  - inversion H; subst. exists []. split; constructor.
  - inversion H; subst. destruct (IH _ H4) as (b' & P & Q). exists (y :: b'). split; now constructor.
  - inversion H as [|? c1 ? l1 E1 H1]; subst. inversion H1 as [|? c2 ? l2 E2 H2]; subst. exists (c2 :: c1 :: l2).
    split; [repeat constructor; assumption|apply perm_swap].
  - destruct (IH1 _ H) as (b1 & P1 & Q1). destruct (IH2 _ P1) as (b2 & P2 & Q2). exists b2. split; [exact P2|]. now transitivity b1.
Qed.
Lemma total_perm a b : Permutation a b -> total a = total b.
Proof. unfold total. induction 1; cbn; lia. Qed.
Lemma forall2_same_l {A B} (E : A -> A -> Prop) (R : A -> B -> Prop) a a' : Forall2 E a' a -> (forall x y z, E y x -> R x z -> R y z) ->
  forall b, Forall2 R a b -> Forall2 R a' b.
Proof.
  intros H K. induction H as [|x y a' a Hxy _ IH]; intros b Hb; inversion Hb; subst; constructor; [|now apply IH]. now apply (K y).
Qed.
Lemma forall_same (g : graph) (P : candidate -> Prop) A A' : Forall2 (fun a b : list candidate => forall c, In c a <-> In c b) A A' ->
  Forall (Forall P) A' -> Forall (Forall P) A.
Proof.
  induction 1 as [|a b A A' H _ IH]; intros K; [constructor|]. inversion K; subst. constructor; [|now apply IH].
  rewrite Forall_forall in *. intros c Hc. apply H2. now apply H.
Qed.

Record setup (g : graph) (m : bool) (groups : list (list (list path))) (sorted : list (list candidate)) (mins : list N)
    (cs : list candidate) (ts : list tree) (u : tree) : Prop := {
  su_sorted : sorted = sort_candidates g (prepare_alternatives m groups);
  su_alts : prepare_alternatives m groups <> [];
  su_mins : min_remaining_costs g (prepare_alternatives m groups) = Done mins;
  su_picks : picks sorted cs;
  su_trees : Forall2 (tree_for g) cs ts;
  su_joins : joins None ts = Some u;
  su_initial : initial_plan g sorted None 0%N = Done (Some (weight g u, u));
  su_small : (weight g u < u64_max)%N;
  su_bound : exists k l, mins = k :: l /\ (weight g u + N.of_nat (length sorted) <= k + 1)%N /\ (k < u64_max)%N;
  su_sound : Forall (Forall (sound_candidate g)) sorted }.
Lemma setup_exists g m groups : sound g groups -> leaves m groups <> [] -> affordable g (leaves m groups) ->
  exists sorted mins cs ts u, setup g m groups sorted mins cs ts u.
Proof.
  intros S Hne (ns & Hap & L). destruct (sound_leaves g m groups S) as [SL _].
  pose proof (apart_cheap g _ _ SL Hap) as Hc.
  pose proof (prepare_perm m groups) as P.
  destruct (forall2_perm _ _ _ (Permutation_sym P) _ Hc) as (ns' & Hc' & Pn). rewrite (total_perm _ _ Pn) in L.
  change (total ns' < u64_max)%N in L.
  assert (SP : Forall (Forall (sound_candidate g)) (prepare_alternatives m groups)) by (eapply Permutation_Forall; [symmetry; exact P|exact SL]).
  destruct (best_cases_ok g _ SP ns' Hc' L) as (ms & Em & Hm & Lm).
  pose proof (sort_candidates_same g (prepare_alternatives m groups)) as Same.
  assert (SS : Forall (Forall (sound_candidate g)) (sort_candidates g (prepare_alternatives m groups))) by (eapply forall_same; [exact g|exact Same|exact SP]).
  assert (Hm' : Forall2 (cheap g) (sort_candidates g (prepare_alternatives m groups)) ms).
  { eapply forall2_same_l; [exact Same| |exact Hm]. intros x y z E. apply cheap_same. intros c. symmetry. apply E. }
  assert (Nz : prepare_alternatives m groups <> []).
  { intros E. rewrite E in P. apply Permutation_nil in P. congruence. }
  destruct (initial_ok g _ SS ms Hm' None) as (cs & ts & u & A & B & C & D & E).
  - intros t X. discriminate X.
  - cbn. lia.
  - right. unfold sort_candidates. destruct (prepare_alternatives m groups); [congruence|discriminate].
  - cbn [weight_of] in *. exists (sort_candidates g (prepare_alternatives m groups)), (suffix_sums ms), cs, ts, u.
    constructor; try assumption; try reflexivity.
    + unfold min_remaining_costs. now rewrite Em.
    + assert (0 < length (sort_candidates g (prepare_alternatives m groups))).
      { unfold sort_candidates. rewrite map_length. destruct (prepare_alternatives m groups); [congruence|cbn; lia]. }
      lia.
    + destruct (suffix_head ms) as [H1 H2]. destruct (suffix_sums ms) as [|k l]; [congruence|]. exists k, l. split; [reflexivity|].
      cbn in H1. lia.
Qed.
Lemma find_best_of g token m groups sorted mins cs ts u : sound g groups -> setup g m groups sorted mins cs ts u ->
  find_best g token m groups = match token 0 with Some e => Failed e | None => Done u end.
Proof.
  intros S [Hs Ha Hm Hp Ht Hj Hi Hl (k & l & -> & Hk & _) _]. unfold find_best. rewrite (sound_guard g groups S).
  destruct (prepare_alternatives m groups) as [|a0 al] eqn:E; [congruence|]. rewrite Hm, <- Hs, Hi.
  destruct (weight g u <? u64_max)%N eqn:X; [|apply N.ltb_ge in X; lia].
  destruct sorted as [|b0 bl].
  - cbn in Hs. discriminate Hs.
  - cbn [explore polls]. destruct (token 0) as [e|]; [reflexivity|]. cbn [best_cost].
    destruct (weight g u <=? 0 + k)%N eqn:Y; [reflexivity|]. apply N.leb_gt in Y. cbn [length] in Hk. lia.
Qed.
