(** Pruning and merging keep the order of the steps. *)
From Coq Require Import List Arith Bool Lia Relations Permutation.
From Verif Require Import GraphModel GraphSpec GraphProofs.
Import ListNotations.

(** ** Pruning *)
Definition bypassed (g : graph) (a b : nat) : Prop := exists m, after g a m /\ after g m b.
Lemma redundant_ok g es : NoDup (edges g) ->
  exists r, redundant g es = Some r /\
  forall a b, In (a, b) r <-> In (a, b) es /\ (exists p, p <> a /\ edge g p b /\ after g a p).
Proof.
  intros N. induction es as [|[x y] es (r & E & H)].
  - exists []. split; [reflexivity|]. intros a b. cbn. tauto.
  - cbn [redundant]. destruct (alternative_ok g y x N) as (c & Ec & Hc). rewrite Ec, E.
    eexists. split; [reflexivity|]. intros a b. destruct c.
    + cbn [In]. rewrite H. pose proof (proj1 Hc eq_refl) as A. split.
      * intros [Q|[Q1 Q2]]; [injection Q as <- <-; auto|auto].
      * intros [[Q|Q1] Q2]; [left; exact Q|right; auto].
    + rewrite H. split; [intros [Q1 Q2]; split; [right; exact Q1|exact Q2]|].
      intros [[Q|Q1] Q2]; [|auto]. injection Q as <- <-. apply Hc in Q2. discriminate Q2.
Qed.
Lemma bypassed_ok g a b : acyclic g -> (exists p, p <> a /\ edge g p b /\ after g a p) <-> bypassed g a b.
Proof.
  intros A. split.
  - intros (p & _ & E & R). exists p. split; [exact R|apply t_step; exact E].
  - intros (m & R1 & R2). destruct (after_last _ _ _ R2) as (p & E & Q). exists p. assert (after g a p) as R.
    { destruct Q as [<-|Q]; [exact R1|eapply t_trans; eassumption]. }
    split; [|split; assumption]. intros ->. destruct (A _ R).
Qed.
Lemma prune_ok g : NoDup (edges g) -> acyclic g ->
  exists g', prune_edges g = Some g' /\ steps g' = steps g /\ root g' = root g /\
    NoDup (edges g') /\ forall a b, edge g' a b <-> edge g a b /\ ~ bypassed g a b.
Proof.
  intros N A. unfold prune_edges. destruct (redundant_ok g (edges g) N) as (r & E & H). rewrite E.
  eexists. split; [reflexivity|]. cbn [steps root edges]. split; [reflexivity|]. split; [reflexivity|].
  split; [apply NoDup_filter; exact N|]. intros a b. unfold edge at 1. cbn [edges]. rewrite filter_In.
  rewrite negb_true_iff. rewrite <- (bypassed_ok g a b A). split.
  - intros [I F]. split; [exact I|]. intros B. assert (In (a, b) r) as R by (apply H; auto). apply in_edges_ok in R. congruence.
  - intros [I B]. split; [exact I|]. destruct (in_edges (a, b) r) eqn:F; [|reflexivity]. exfalso. apply in_edges_ok in F. apply H in F.
    apply B. apply F.
Qed.

Section Pruned.
  Variables g g' : graph.
  Hypothesis A : acyclic g.
  Hypothesis He : forall a b, edge g' a b <-> edge g a b /\ ~ bypassed g a b.
  Lemma bypassed_dec a b : {bypassed g a b} + {~ bypassed g a b}.
  Proof.
    destruct (existsb (fun m => reach g a m && reach g m b) (map snd (edges g))) eqn:E.
    - left. apply existsb_exists in E. destruct E as (m & _ & E). apply andb_true_iff in E. destruct E as [E1 E2].
      exists m. split; apply reach_ok; assumption.
    - right. intros (m & R1 & R2). apply not_true_iff_false in E. apply E. apply existsb_exists. exists m. split.
      + destruct (after_last _ _ _ R1) as (p & Q & _). apply (in_map snd) in Q. exact Q.
      + apply andb_true_iff. split; apply reach_ok; assumption.
  Qed.
  Lemma pruned_after a b : after g' a b <-> after g a b.
  Proof.
    split.
    - intros R. induction R as [a b H|a b c R1 IH1 R2 IH2]; [apply t_step, He, H|eapply t_trans; eassumption].
    - assert (P : forall k a b, rank g b - rank g a <= k -> after g a b -> after g' a b).
      { induction k as [|k IH]; intros x y L R.
        - pose proof (rank_after _ _ _ A R). lia.
        - destruct (bypassed_dec x y) as [(m & R1 & R2)|NB].
          + pose proof (rank_after _ _ _ A R1). pose proof (rank_after _ _ _ A R2).
            eapply t_trans; apply (IH _ _); [|exact R1| |exact R2]; lia.
          + destruct (after_first _ _ _ R) as (p & Ep & Q). destruct Q as [->|Q].
            * apply t_step. apply He. auto.
            * destruct NB. exists p. split; [apply t_step; exact Ep|exact Q]. }
      intros R. eapply P; [apply Nat.le_refl|exact R].
  Qed.
  Lemma pruned_acyclic : acyclic g'.
  Proof. intros n R. apply pruned_after in R. destruct (A _ R). Qed.
  Lemma pruned_reduced : reduced g'.
  Proof.
    intros a b E m R1 R2. apply He in E. destruct E as [_ NB]. apply NB. exists m. split; apply pruned_after; assumption.
  Qed.
End Pruned.

Lemma prune_edges_ok g : well_formed g -> acyclic g ->
  exists g', prune_edges g = Some g' /\ steps g' = steps g /\ root g' = root g /\ well_formed g' /\
    (forall a b, after g' a b <-> after g a b) /\ reduced g' /\ (forall a b, edge g' a b -> edge g a b).
Proof.
  intros (W1 & W2 & W3 & W4) A. destruct (prune_ok g W2 A) as (g' & E & Hs & Hr & N & He).
  exists g'. split; [exact E|]. split; [exact Hs|]. split; [exact Hr|]. split; [|split; [|split]].
  - unfold well_formed. rewrite Hs, Hr. split; [exact W1|]. split; [exact N|]. split; [exact W3|].
    intros a b H. apply He in H. apply W4. apply H.
  - exact (pruned_after g g' A He).
  - exact (pruned_reduced g g' A He).
  - intros a b H. apply He in H. apply H.
Qed.

(** In a reduced, connected graph the root's children have no other parent. *)
Lemma reduced_root_children g : well_formed g -> connected g -> reduced g ->
  forall c p, edge g (root g) c -> edge g p c -> p = root g.
Proof.
  intros (_ & _ & _ & W4) C R c p H1 H2. destruct (W4 _ _ H2) as (I & _ & _). destruct (C p I) as [->|Q]; [reflexivity|].
  exfalso. apply (R _ _ H1 p Q). apply t_step. exact H2.
Qed.

(** ** Dropping steps *)
Lemma remove_step_edge g n a b : edge (remove_step g n) a b <-> edge g a b /\ a <> n /\ b <> n.
Proof.
  unfold edge, remove_step. cbn [edges]. rewrite filter_In, andb_true_iff, !negb_true_iff, !Nat.eqb_neq. cbn. tauto.
Qed.
Lemma remove_step_steps g n s : In s (steps (remove_step g n)) <-> In s (steps g) /\ s <> n.
Proof. unfold remove_step. cbn [steps]. rewrite filter_In, negb_true_iff, Nat.eqb_neq. tauto. Qed.
Lemma remove_steps_ok l : forall g,
  root (fold_left remove_step l g) = root g /\
  (forall s, In s (steps (fold_left remove_step l g)) <-> In s (steps g) /\ ~ In s l) /\
  (forall a b, edge (fold_left remove_step l g) a b <-> edge g a b /\ ~ In a l /\ ~ In b l) /\
  (NoDup (steps g) -> NoDup (steps (fold_left remove_step l g))) /\
  (NoDup (edges g) -> NoDup (edges (fold_left remove_step l g))).
Proof.
  induction l as [|n l IH]; intros g; cbn [fold_left].
  - repeat split; auto; try tauto. 
  - destruct (IH (remove_step g n)) as (H1 & H2 & H3 & H4 & H5). split; [exact H1|]. split; [|split; [|split]].
    + intros s. rewrite H2, remove_step_steps. cbn [In]. split; [|intros [Q1 Q2]; repeat split; auto; intros ->; auto]. intros [[Q1 Q2] Q3]. split; [exact Q1|]. intros [Q|Q]; [congruence|tauto].
    + intros a b. rewrite H3, remove_step_edge. cbn [In]. split; [|intros (Q1 & Q2 & Q3); repeat split; auto; intros ->; auto]. intros [(Q1 & Q2 & Q3) (Q4 & Q5)].
      split; [exact Q1|]. split; intros [Q|Q]; try congruence; tauto.
    + intros N. apply H4. apply NoDup_filter. exact N.
    + intros N. apply H5. apply NoDup_filter. exact N.
Qed.
Lemma useless_ok eo g s : useless eo g s = true <->
  (eo s = true \/ forall p, ~ edge g p s) /\ (forall c, ~ edge g s c).
Proof.
  unfold useless. rewrite andb_true_iff, orb_true_iff.
  assert (P : match parents g s with [] => true | _ => false end = true <-> forall p, ~ edge g p s).
  { destruct (parents g s) as [|p l] eqn:E.
    - split; [|reflexivity]. intros _ p H. apply parents_ok in H. rewrite E in H. destruct H.
    - split; [discriminate|]. intros H. destruct (H p). apply parents_ok. rewrite E. left. reflexivity. }
  assert (C : match children g s with [] => true | _ => false end = true <-> forall c, ~ edge g s c).
  { destruct (children g s) as [|p l] eqn:E.
    - split; [|reflexivity]. intros _ p H. apply children_ok in H. rewrite E in H. destruct H.
    - split; [discriminate|]. intros H. destruct (H p). apply children_ok. rewrite E. left. reflexivity. }
  rewrite P, C. tauto.
Qed.
(** Paths between remaining steps survive: what is dropped has nothing after it. *)
Lemma drop_useless_ok eo g : well_formed g -> (exists c, edge g (root g) c) ->
  well_formed (drop_useless eo g) /\ root (drop_useless eo g) = root g /\
  (forall s, In s (steps (drop_useless eo g)) <-> In s (steps g) /\ useless eo g s = false) /\
  (forall a b, In b (steps (drop_useless eo g)) -> (after (drop_useless eo g) a b <-> after g a b)).
Proof.
  intros (W1 & W2 & W3 & W4) (c0 & Hc0). unfold drop_useless. set (l := filter _ _).
  assert (Hl : forall s, In s l <-> In s (steps g) /\ useless eo g s = true) by (intros s; apply filter_In).
  destruct (remove_steps_ok l g) as (H1 & H2 & H3 & H4 & H5). set (g' := fold_left remove_step l g) in *.
  assert (Hs : forall s, In s (steps g') <-> In s (steps g) /\ useless eo g s = false).
  { intros s. rewrite H2, Hl. destruct (useless eo g s); split; intros [Q1 Q2]; try tauto; try discriminate; split; auto.
    intros [_ Q]. discriminate Q. }
  assert (He : forall a b, edge g' a b <-> edge g a b /\ In b (steps g')).
  { intros a b. rewrite H3. split.
    - intros (Q1 & Q2 & Q3). split; [exact Q1|]. apply H2. split; [apply (W4 _ _ Q1)|exact Q3].
    - intros [Q1 Q2]. apply H2 in Q2. split; [exact Q1|]. split; [|apply Q2]. rewrite Hl. intros [_ U]. apply useless_ok in U.
      destruct U as [_ U]. destruct (U b Q1). }
  assert (Hr : In (root g) (steps g')).
  { apply Hs. split; [exact W3|]. destruct (useless eo g (root g)) eqn:U; [|reflexivity]. apply useless_ok in U. destruct U as [_ U].
    destruct (U c0 Hc0). }
  split; [|split; [exact H1|split; [exact Hs|]]].
  - unfold well_formed. rewrite H1. split; [apply H4; exact W1|]. split; [apply H5; exact W2|]. split; [exact Hr|].
    intros a b Q. pose proof (proj1 (He a b) Q) as [Q1 Q2]. destruct (W4 _ _ Q1) as (I1 & I2 & I3). split; [|split; [exact Q2|exact I3]].
    apply Hs. split; [exact I1|]. destruct (useless eo g a) eqn:U; [|reflexivity]. apply useless_ok in U. destruct U as [_ U]. destruct (U b Q1).
  - intros a b Ib. split.
    + intros R. clear Ib. induction R as [a b H|a b c R1 IH1 R2 IH2]; [apply t_step, He, H|eapply t_trans; eassumption].
    + intros R. apply clos_trans_tn1 in R. revert Ib. induction R as [b H|b c H R IH]; intros Ib.
      * apply t_step. apply He. split; assumption.
      * assert (edge g' b c) as E by (apply He; split; assumption). eapply t_trans; [apply IH|apply t_step; exact E].
        apply Hs. split; [apply (W4 _ _ H)|]. destruct (useless eo g b) eqn:U; [|reflexivity]. apply useless_ok in U.
        destruct U as [_ U]. destruct (U c H).
Qed.

(** ** Merging *)
Lemma connect_edge g a b x y : edge (connect g a b) x y <-> edge g x y \/ (x = a /\ y = b).
Proof.
  unfold connect. destruct (has_edge g a b) eqn:E.
  - apply has_edge_ok in E. split; [tauto|]. intros [H|[-> ->]]; assumption.
  - unfold edge. cbn [edges In]. split; [intros [H|H]; [injection H as <- <-; auto|auto]|]. intros [H|[-> ->]]; auto.
Qed.
Lemma connect_rest g a b : steps (connect g a b) = steps g /\ root (connect g a b) = root g /\
  (NoDup (edges g) -> NoDup (edges (connect g a b))).
Proof.
  unfold connect. destruct (has_edge g a b) eqn:E; [auto|]. cbn. split; [reflexivity|]. split; [reflexivity|]. intros N.
  constructor; [|exact N]. intros H. apply has_edge_ok in H. congruence.
Qed.
Lemma connect_down l t : forall g,
  let g' := fold_left (fun g c => connect g t c) l g in
  steps g' = steps g /\ root g' = root g /\ (NoDup (edges g) -> NoDup (edges g')) /\
  forall x y, edge g' x y <-> edge g x y \/ (x = t /\ In y l).
Proof.
  induction l as [|c l IH]; intros g; cbn [fold_left]; cbv zeta.
  - repeat split; auto; try tauto. intros [H|[_ []]]; exact H.
  - destruct (IH (connect g t c)) as (H1 & H2 & H3 & H4). destruct (connect_rest g t c) as (C1 & C2 & C3).
    split; [congruence|]. split; [congruence|]. split; [auto|]. intros x y. rewrite H4, connect_edge. cbn [In]. split.
    + intros [[H|[-> ->]]|[-> H]]; auto.
    + intros [H|[-> [<-|H]]]; auto.
Qed.
Lemma connect_up l t : forall g,
  let g' := fold_left (fun g p => connect g p t) l g in
  steps g' = steps g /\ root g' = root g /\ (NoDup (edges g) -> NoDup (edges g')) /\
  forall x y, edge g' x y <-> edge g x y \/ (y = t /\ In x l).
Proof.
  induction l as [|c l IH]; intros g; cbn [fold_left]; cbv zeta.
  - repeat split; auto; try tauto. intros [H|[_ []]]; exact H.
  - destruct (IH (connect g c t)) as (H1 & H2 & H3 & H4). destruct (connect_rest g c t) as (C1 & C2 & C3).
    split; [congruence|]. split; [congruence|]. split; [auto|]. intros x y. rewrite H4, connect_edge. cbn [In]. split.
    + intros [[H|[-> ->]]|[-> H]]; auto.
    + intros [H|[-> [<-|H]]]; auto.
Qed.
Lemma merge_steps_ok g t s : t <> s ->
  root (merge_steps g t s) = root g /\
  (NoDup (edges g) -> NoDup (edges (merge_steps g t s))) /\
  (NoDup (steps g) -> NoDup (steps (merge_steps g t s))) /\
  (forall n, In n (steps (merge_steps g t s)) <-> In n (steps g) /\ n <> s) /\
  forall x y, edge (merge_steps g t s) x y <->
    x <> s /\ y <> s /\ (edge g x y \/ (x = t /\ edge g s y) \/ (y = t /\ x <> t /\ edge g x s)).
Proof.
  intros D. unfold merge_steps. cbv zeta.
  destruct (connect_down (children g s) t g) as (A1 & A2 & A3 & A4). set (g1 := fold_left _ (children g s) g) in *.
  destruct (connect_up (filter (fun p => negb (p =? t)) (parents g s)) t g1) as (B1 & B2 & B3 & B4).
  set (g2 := fold_left _ (filter _ _) g1) in *.
  split; [cbn; congruence|]. split; [intros N; apply NoDup_filter; auto|]. split; [intros N; apply NoDup_filter; congruence|].
  split; [intros n; rewrite remove_step_steps; rewrite B1, A1; reflexivity|].
  intros x y. rewrite remove_step_edge, B4, A4, children_ok, filter_In, parents_ok, negb_true_iff, Nat.eqb_neq. tauto.
Qed.

(** Where a step goes. *)
Definition into (t s x : nat) : nat := if Nat.eqb x s then t else x.
Lemma merge_keeps_order g t s : t <> s -> forall x y, after g x y ->
  (into t s x = t /\ into t s y = t) \/ after (merge_steps g t s) (into t s x) (into t s y).
Proof.
  intros D. destruct (merge_steps_ok g t s D) as (_ & _ & _ & _ & He).
  intros x y R. induction R as [x y H|x y z R1 IH1 R2 IH2].
  - unfold into. destruct (Nat.eqb_spec x s) as [->|Nx]; destruct (Nat.eqb_spec y s) as [->|Ny].
    + left. split; reflexivity || auto. 
    + right. apply t_step. apply He. split; [exact D|]. split; [exact Ny|]. right. left. split; [reflexivity|exact H].
    + destruct (Nat.eq_dec x t) as [->|Nt]; [left; auto|]. right. apply t_step. apply He. split; [exact Nx|]. split; [exact D|]. right. right. split; [reflexivity|]. split; assumption.
    + right. apply t_step. apply He. auto.
  - destruct IH1 as [[E1 E2]|IH1]; destruct IH2 as [[E3 E4]|IH2].
    + left. split; reflexivity || auto. 
    + right. rewrite E1. rewrite E2 in IH2. exact IH2.
    + right. rewrite E4. rewrite E3 in IH1. exact IH1.
    + right. eapply t_trans; eassumption.
Qed.

Section Acyclic.
  Variables (g : graph) (t s : nat).
  Hypothesis A : acyclic g.
  Hypothesis D : t <> s.
  Hypothesis no_detour : forall m, after g t m -> ~ after g m s.
  Hypothesis no_back : ~ after g s t.
  Definition before_both x := after g x t \/ after g x s.
  Definition after_both y := after g t y \/ after g s y.
  Lemma apart x : x <> t -> before_both x -> after_both x -> False.
  Proof.
    intros Nx [B|B] [F|F].
    - apply (A x). eapply t_trans; eassumption.
    - apply no_back. eapply t_trans; eassumption.
    - apply (no_detour x); assumption.
    - apply (A x). eapply t_trans; eassumption.
  Qed.
  Definition quotient_path x y : Prop :=
    if Nat.eqb x t then y <> t /\ after_both y
    else if Nat.eqb y t then before_both x
    else after g x y \/ (before_both x /\ after_both y).
  Lemma quotient_ok x y : after (merge_steps g t s) x y -> quotient_path x y.
  Proof.
    destruct (merge_steps_ok g t s D) as (_ & _ & _ & _ & He).
    intros R. apply clos_trans_t1n in R. induction R as [x y H|x z y H R IH].
    - apply He in H. destruct H as (Nx & Ny & H). unfold quotient_path. destruct (Nat.eqb_spec x t) as [->|Nt].
      + destruct H as [H|[[_ H]|(_ & C & _)]].
        * split; [|left; apply t_step; exact H]. intros ->. apply (A t), t_step, H.
        * split; [|right; apply t_step; exact H]. intros ->. apply no_back, t_step, H.
        * congruence.
      + destruct (Nat.eqb_spec y t) as [->|Nyt].
        * destruct H as [H|[[C _]|(_ & _ & H)]]; [left; apply t_step; exact H|congruence|right; apply t_step; exact H].
        * destruct H as [H|[[C _]|(C & _)]]; [left; apply t_step; exact H|congruence|congruence].
    - apply He in H. destruct H as (Nx & Nz & H). unfold quotient_path in *. destruct (Nat.eqb_spec x t) as [->|Nt].
      + assert (Oz : z <> t /\ after_both z).
        { destruct H as [H|[[_ H]|(_ & C & _)]].
          - split; [|left; apply t_step; exact H]. intros ->. apply (A t), t_step, H.
          - split; [|right; apply t_step; exact H]. intros ->. apply no_back, t_step, H.
          - congruence. }
        destruct Oz as [Nzt Oz]. destruct (Nat.eqb_spec z t) as [C|_]; [congruence|].
        destruct (Nat.eqb_spec y t) as [->|Nyt]; [destruct (apart z Nzt IH Oz)|].
        split; [exact Nyt|]. destruct IH as [IH|[_ IH]]; [|exact IH].
        destruct Oz as [Oz|Oz]; [left|right]; eapply t_trans; eassumption.
      + destruct (Nat.eqb_spec z t) as [->|Nzt].
        * destruct IH as [Nyt Oy]. destruct (Nat.eqb_spec y t) as [C|_]; [congruence|]. right. split; [|exact Oy].
          destruct H as [H|[[C _]|(_ & _ & H)]]; [left; apply t_step; exact H|congruence|right; apply t_step; exact H].
        * destruct H as [H|[[C _]|(C & _)]]; [|congruence|congruence].
          assert (P : forall v, after g z v -> after g x v) by (intros v Q; eapply t_trans; [apply t_step; exact H|exact Q]).
          destruct (Nat.eqb_spec y t) as [->|Nyt].
          -- destruct IH as [IH|IH]; [left|right]; apply P; exact IH.
          -- destruct IH as [IH|[IH1 IH2]]; [left; apply P; exact IH|]. right. split; [|exact IH2].
             destruct IH1 as [Q|Q]; [left|right]; apply P; exact Q.
  Qed.
  Lemma merge_acyclic : acyclic (merge_steps g t s).
  Proof.
    intros n R. apply quotient_ok in R. unfold quotient_path in R. destruct (Nat.eqb_spec n t) as [E|E].
    - destruct R as [C _]. congruence.
    - destruct R as [R|[R1 R2]]; [destruct (A _ R)|exact (apart n E R1 R2)].
  Qed.
End Acyclic.

Lemma merge_well_formed g t s : t <> s -> well_formed g -> In t (steps g) -> s <> root g ->
  (t = root g -> forall p, edge g p s -> p = root g) -> well_formed (merge_steps g t s).
Proof.
  intros D (W1 & W2 & W3 & W4) It Ns Hr. destruct (merge_steps_ok g t s D) as (E1 & E2 & E3 & E4 & E5).
  unfold well_formed. rewrite E1. split; [auto|]. split; [auto|]. split; [apply E4; auto|].
  intros a b H. apply E5 in H. destruct H as (Na & Nb & H). rewrite !E4.
  destruct H as [H|[[-> H]|(-> & Nt & H)]].
  - destruct (W4 _ _ H) as (Q1 & Q2 & Q3). auto.
  - destruct (W4 _ _ H) as (Q1 & Q2 & Q3). auto.
  - destruct (W4 _ _ H) as (Q1 & Q2 & Q3). split; [auto|]. split; [auto|]. intros C. apply Nt. rewrite C. apply Hr; assumption.
Qed.
Lemma merge_connected g t s : t <> s -> In t (steps g) -> s <> root g -> connected g -> acyclic (merge_steps g t s) ->
  connected (merge_steps g t s).
Proof.
  intros D It Ns C A n I. destruct (merge_steps_ok g t s D) as (E1 & _ & _ & E4 & _). rewrite E1. apply E4 in I. destruct I as [I Nn].
  destruct (C n I) as [->|R]; [left; reflexivity|]. 
  pose proof (merge_keeps_order g t s D _ _ R) as Q. unfold into in Q.
  destruct (Nat.eqb_spec n s) as [->|_]; [congruence|]. destruct (Nat.eqb_spec (root g) s) as [Q'|_]; [congruence|].
  destruct Q as [[Q1 Q2]|Q]; [left; congruence|right; exact Q].
Qed.

(** ** The conditions for merging are sufficient *)
Lemma only_parent_ok g self other : only_parent g self other = true <-> parents g other = [self].
Proof.
  unfold only_parent. destruct (parents g other) as [|p [|q l]]; split; intros H; try discriminate.
  - apply Nat.eqb_eq in H. congruence.
  - injection H as ->. apply Nat.eqb_refl.
Qed.
Lemma only_parent_safe g t s : acyclic g -> only_parent g t s = true ->
  (forall m, after g t m -> ~ after g m s) /\ ~ after g s t.
Proof.
  intros A O. apply only_parent_ok in O.
  assert (P : forall p, edge g p s -> p = t).
  { intros p H. apply parents_ok in H. rewrite O in H. destruct H as [->|[]]. reflexivity. }
  assert (E : edge g t s) by (apply parents_ok; rewrite O; left; reflexivity).
  split.
  - intros m R1 R2. destruct (after_last _ _ _ R2) as (p & H & Q). apply P in H. subst p.
    destruct Q as [->|Q]; [exact (A _ R1)|]. apply (A t). eapply t_trans; eassumption.
  - intros R. apply (A t). eapply t_trans; [apply t_step; exact E|exact R].
Qed.
Lemma siblings_safe g t s : can_merge_siblings g t s = true ->
  t <> s /\ ~ after g t s /\ ~ after g s t.
Proof.
  unfold can_merge_siblings, can_merge. rewrite !andb_true_iff. intros [[D _] H].
  apply negb_true_iff, Nat.eqb_neq in D. split; [exact D|].
  destruct (is_descendant_ok g t s) as (b1 & E1 & H1). destruct (is_descendant_ok g s t) as (b2 & E2 & H2).
  rewrite E1, E2 in H. destruct b1; [discriminate H|]. destruct b2; [discriminate H|]. split; intros R.
  - assert (false = true) as Q by (apply H2; right; exact R). discriminate Q.
  - assert (false = true) as Q by (apply H1; right; exact R). discriminate Q.
Qed.
Lemma leafs_safe g t s : can_merge_leafs g t s = true -> t <> s /\ ~ after g t s /\ ~ after g s t.
Proof.
  unfold can_merge_leafs. rewrite !andb_true_iff. intros [[D L] H].
  apply negb_true_iff, Nat.eqb_neq in D. split; [exact D|]. split.
  - intros R. destruct (is_descendant_ok g s t) as (b2 & E2 & H2). rewrite E2 in H. destruct b2; [discriminate H|].
    assert (false = true) as Q by (apply H2; right; exact R). discriminate Q.
  - intros R. destruct (after_first _ _ _ R) as (p & E & _). apply children_ok in E. destruct (children g s); [destruct E|discriminate L].
Qed.
(** In a reduced graph a child that shares the parents of its parent has no other parent. *)
Lemma shared_in_reduced g t s : reduced g -> edge g t s -> shares_parents g t s = true -> forall p, ~ edge g p t.
Proof.
  intros R E S p H. unfold shares_parents in S. rewrite forallb_forall in S. specialize (S p). rewrite parents_ok in S.
  specialize (S H). apply mem_ok, parents_ok in S. apply (R _ _ S t); apply t_step; assumption.
Qed.
Lemma child_safe g t s : well_formed g -> connected g -> reduced g -> acyclic g -> edge g t s -> can_merge g t s = true ->
  (forall p, edge g p s -> p = t) /\ (forall m, after g t m -> ~ after g m s) /\ ~ after g s t.
Proof.
  intros W C R A E M. unfold can_merge in M. apply andb_true_iff in M. destruct M as [D M].
  apply orb_true_iff in M.
  assert (P : forall p, edge g p s -> p = t).
  { destruct M as [M|M].
    - apply only_parent_ok in M. intros p H. apply parents_ok in H. rewrite M in H. destruct H as [->|[]]. reflexivity.
    - pose proof (shared_in_reduced _ _ _ R E M) as O. assert (Et : t = root g).
      { destruct W as (_ & _ & _ & W4). destruct (W4 _ _ E) as (I & _). destruct (C t I) as [Q|Q]; [exact Q|].
        destruct (after_last _ _ _ Q) as (p & H & _). destruct (O p H). }
      subst t. intros p H. eapply reduced_root_children; eassumption. }
  split; [exact P|]. split.
  - intros m R1 R2. destruct (after_last _ _ _ R2) as (p & H & Q). apply P in H. subst p.
    destruct Q as [->|Q]; [exact (A _ R1)|]. apply (A t). eapply t_trans; eassumption.
  - intros Q. apply (A t). eapply t_trans; [apply t_step; exact E|exact Q].
Qed.

(** ** A turn of merges among siblings *)
Definition antichain (g : graph) (l : list nat) : Prop := forall x y, In x l -> In y l -> ~ after g x y.
Lemma siblings_antichain g p l : reduced g -> incl l (children g p) -> antichain g l.
Proof.
  intros R I x y Hx Hy Q. apply I, children_ok in Hx. apply I, children_ok in Hy.
  apply (R _ _ Hy x); [apply t_step; exact Hx|exact Q].
Qed.
Lemma antichain_merge g t s l : acyclic g -> t <> s -> In t l -> In s l -> antichain g l ->
  acyclic (merge_steps g t s) /\ antichain (merge_steps g t s) l.
Proof.
  intros A D It Is C.
  assert (H1 : forall m, after g t m -> ~ after g m s) by (intros m R1 R2; apply (C t s It Is); eapply t_trans; eassumption).
  assert (H2 : ~ after g s t) by (apply C; assumption).
  split; [apply merge_acyclic; assumption|]. intros x y Hx Hy R.
  apply (quotient_ok g t s A D H1 H2) in R. unfold quotient_path in R.
  destruct (Nat.eqb_spec x t) as [->|Nx].
  - destruct R as [_ [R|R]]; [exact (C t y It Hy R)|exact (C s y Is Hy R)].
  - destruct (Nat.eqb_spec y t) as [->|Ny].
    + destruct R as [R|R]; [exact (C x t Hx It R)|exact (C x s Hx Is R)].
    + destruct R as [R|[[R|R] _]]; [exact (C x y Hx Hy R)|exact (C x t Hx It R)|exact (C x s Hx Is R)].
Qed.
Lemma perform_pairs_ok l : forall pairs latest g g', well_formed g -> connected g -> acyclic g -> antichain g l -> ~ In (root g) l ->
  (forall x y, In (x, y) pairs -> In (latest x) l /\ In (latest y) l) ->
  perform_pairs pairs latest g = Some g' ->
  well_formed g' /\ connected g' /\ acyclic g' /\ root g' = root g /\ (forall n, In n (steps g') -> In n (steps g)) /\
  exists f, (forall n, In n (steps g') -> f n = n) /\ (forall n, In n (steps g) -> In (f n) (steps g')) /\
    (forall x y, after g x y -> (f x = f y /\ In x l /\ In y l) \/ after g' (f x) (f y)).
Proof.
  induction pairs as [|[x y] pairs IH]; intros latest g g' W C A N Nr L E; cbn [perform_pairs] in E.
  - injection E as <-. split; [exact W|]. split; [exact C|]. split; [exact A|]. split; [reflexivity|]. split; [auto|].
    exists (fun n => n). split; [auto|]. split; [auto|]. intros a b R. right. exact R.
  - cbv zeta in E. set (t := latest x) in *. set (s := latest y) in *.
    destruct (Nat.eqb_spec t s) as [|D]; [discriminate E|].
    destruct (mem t (steps g) && mem s (steps g)) eqn:M; [|discriminate E]. cbn [negb] in E.
    apply andb_true_iff in M. destruct M as [Mt Ms]. apply mem_ok in Mt, Ms.
    destruct (L x y (or_introl eq_refl)) as [It Is]. fold t in It. fold s in Is.
    assert (Ntr : t <> root g) by congruence. assert (Nsr : s <> root g) by congruence.
    destruct (antichain_merge g t s l A D It Is N) as [A' N'].
    destruct (merge_steps_ok g t s D) as (E1 & _ & _ & E4 & _).
    destruct (IH (fun n => if Nat.eqb n s then t else latest n) (merge_steps g t s) g') as (W2 & C2 & A2 & R2 & S2 & f & F1 & F2 & F3).
    + apply merge_well_formed; auto. congruence.
    + apply merge_connected; assumption.
    + exact A'.
    + exact N'.
    + rewrite E1. exact Nr.
    + intros a b H. destruct (L a b (or_intror H)) as [La Lb]. split; [destruct (Nat.eqb a s)|destruct (Nat.eqb b s)]; assumption.
    + exact E.
    + split; [exact W2|]. split; [exact C2|]. split; [exact A2|]. split; [congruence|].
      split; [intros n H; apply S2 in H; apply E4 in H; apply H|].
      exists (fun n => f (into t s n)). split; [|split].
      * intros n H. unfold into. destruct (Nat.eqb_spec n s) as [->|_]; [|apply F1; exact H].
        apply S2, E4 in H. destruct H as [_ H]. congruence.
      * intros n H. apply F2. apply E4. unfold into. destruct (Nat.eqb_spec n s) as [->|Nn]; auto.
      * intros a b R. destruct (merge_keeps_order g t s D _ _ R) as [[Q1 Q2]|Q].
        -- left. split; [congruence|]. unfold into in Q1, Q2. destruct (Nat.eqb_spec a s); destruct (Nat.eqb_spec b s); subst; auto.
        -- apply F3 in Q. destruct Q as [(Q1 & Q2 & Q3)|Q]; [|right; exact Q]. left. split; [exact Q1|].
           unfold into in Q2, Q3. destruct (Nat.eqb_spec a s); destruct (Nat.eqb_spec b s); subst; auto.
Qed.
Lemma sibling_pairs_in compat g sibs x y : In (x, y) (sibling_pairs compat g sibs) -> In x sibs /\ In y sibs.
Proof.
  induction sibs as [|z sibs IH]; cbn [sibling_pairs]; [intros []|].
  destruct (find _ sibs) as [w|] eqn:F.
  - intros [H|H]; [injection H as <- <-; apply find_some in F; split; [left; reflexivity|right; apply F]|].
    apply IH in H. split; right; apply H.
  - intros H. apply IH in H. split; right; apply H.
Qed.
Lemma merge_siblings_ok compat g p sibs g' : well_formed g -> connected g -> acyclic g -> reduced g ->
  incl sibs (children g p) -> merge_siblings_of compat g sibs = Some g' ->
  well_formed g' /\ connected g' /\ acyclic g' /\ root g' = root g /\ (forall n, In n (steps g') -> In n (steps g)) /\
  exists f, (forall n, In n (steps g') -> f n = n) /\ (forall n, In n (steps g) -> In (f n) (steps g')) /\
    (forall x y, after g x y -> after g' (f x) (f y)).
Proof.
  intros W C A R I E. pose proof (siblings_antichain g p sibs R I) as N.
  destruct (perform_pairs_ok sibs (sibling_pairs compat g sibs) (fun n => n) g g' W C A N) as (W2 & C2 & A2 & R2 & S2 & f & F1 & F2 & F3).
  - intros H. apply I, children_ok in H. destruct W as (_ & _ & _ & W4). apply (W4 _ _ H). reflexivity.
  - intros x y H. apply (sibling_pairs_in compat) in H. exact H.
  - exact E.
  - repeat (split; [assumption|]). exists f. split; [exact F1|]. split; [exact F2|]. intros x y Q.
    destruct (F3 x y Q) as [(_ & Hx & Hy)|H]; [destruct (N x y Hx Hy Q)|exact H].
Qed.
