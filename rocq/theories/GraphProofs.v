(** Proofs about the fetch graph: searches, pruning and merging. *)
From Coq Require Import List Arith Bool Lia Relations Permutation.
From Verif Require Import GraphModel GraphSpec.
Import ListNotations.

(** ** Basics *)
Lemma mem_ok n l : mem n l = true <-> In n l.
Proof.
  unfold mem. rewrite existsb_exists. split.
  - intros (x & H & E). apply Nat.eqb_eq in E. subst x. exact H.
  - intros H. exists n. split; [exact H|apply Nat.eqb_refl].
Qed.
Lemma mem_false n l : mem n l = false <-> ~ In n l.
Proof. rewrite <- mem_ok. destruct (mem n l); split; intros H; try discriminate; auto. destruct H. reflexivity. Qed.
Lemma children_ok g a b : In b (children g a) <-> edge g a b.
Proof.
  unfold children, edge. rewrite in_map_iff. split.
  - intros ([x y] & <- & H). apply filter_In in H. destruct H as [H E]. apply Nat.eqb_eq in E. cbn in *. subst x. exact H.
  - intros H. exists (a, b). split; [reflexivity|]. apply filter_In. split; [exact H|apply Nat.eqb_refl].
Qed.
Lemma parents_ok g a b : In a (parents g b) <-> edge g a b.
Proof.
  unfold parents, edge. rewrite in_map_iff. split.
  - intros ([x y] & <- & H). apply filter_In in H. destruct H as [H E]. apply Nat.eqb_eq in E. cbn in *. subst y. exact H.
  - intros H. exists (a, b). split; [reflexivity|]. apply filter_In. split; [exact H|apply Nat.eqb_refl].
Qed.
Lemma has_edge_ok g a b : has_edge g a b = true <-> edge g a b.
Proof.
  unfold has_edge, edge. rewrite existsb_exists. split.
  - intros ([x y] & H & E). apply andb_true_iff in E. destruct E as [E1 E2]. apply Nat.eqb_eq in E1, E2. cbn in *. subst. exact H.
  - intros H. exists (a, b). split; [exact H|]. cbn. rewrite !Nat.eqb_refl. reflexivity.
Qed.
Lemma in_edges_ok e l : in_edges e l = true <-> In e l.
Proof.
  unfold in_edges. rewrite existsb_exists. destruct e as [a b]. split.
  - intros ([x y] & H & E). apply andb_true_iff in E. destruct E as [E1 E2]. apply Nat.eqb_eq in E1, E2. cbn in *. subst. exact H.
  - intros H. exists (a, b). split; [exact H|]. cbn. rewrite !Nat.eqb_refl. reflexivity.
Qed.
Lemma nodup_map_filter {A} (f : A -> nat) (p : A -> bool) l :
  NoDup l -> (forall x y, In x l -> In y l -> p x = true -> p y = true -> f x = f y -> x = y) -> NoDup (map f (filter p l)).
Proof.
  induction l as [|x l IH]; intros N H; cbn; [constructor|]. inversion N as [|? ? N1 N2]; subst.
  assert (IH' : NoDup (map f (filter p l))) by (apply IH; [exact N2|]; intros; apply H; auto; right; assumption).
  destruct (p x) eqn:E; [|exact IH']. cbn. constructor; [|exact IH'].
  rewrite in_map_iff. intros (y & Ey & Hy). apply filter_In in Hy. destruct Hy as [Hy Py].
  assert (y = x) by (apply H; auto; [right; exact Hy|left; reflexivity]). subst y. contradiction.
Qed.
Lemma children_nodup g a : NoDup (edges g) -> NoDup (children g a).
Proof.
  intros N. apply nodup_map_filter; [exact N|]. intros [x1 y1] [x2 y2] _ _ E1 E2 E.
  apply Nat.eqb_eq in E1, E2. cbn in *. congruence.
Qed.
Lemma parents_nodup g a : NoDup (edges g) -> NoDup (parents g a).
Proof.
  intros N. apply nodup_map_filter; [exact N|]. intros [x1 y1] [x2 y2] _ _ E1 E2 E.
  apply Nat.eqb_eq in E1, E2. cbn in *. congruence.
Qed.
Lemma map_filter_len {A B} (f : A -> B) p (l : list A) : length (map f (filter p l)) <= length l.
Proof. rewrite map_length. induction l as [|x l IH]; cbn; [lia|]. destruct (p x); cbn; lia. Qed.

Lemma nodup_app {A} (l1 l2 : list A) : NoDup l1 -> NoDup l2 -> (forall x, In x l1 -> ~ In x l2) -> NoDup (l1 ++ l2).
Proof.
  induction l1 as [|x l1 IH]; intros N1 N2 D; [exact N2|]. inversion N1 as [|? ? H1 H2]; subst. cbn. constructor.
  - rewrite in_app_iff. intros [H|H]; [exact (H1 H)|]. apply (D x); [left; reflexivity|exact H].
  - apply IH; [exact H2|exact N2|]. intros y Hy. apply D. right. exact Hy.
Qed.

(** ** Breadth-first search *)
Section Search.
  Variable next : nat -> list nat.
  Variable target : nat.
  Variable U : list nat.
  Hypothesis next_in : forall x, incl (next x) U.
  Definition goes (a b : nat) : Prop := In b (next a).
  Definition fresh (visited : list nat) (l acc : list nat) : list nat :=
    fold_left (fun acc p => if mem p visited || mem p acc then acc else acc ++ [p]) l acc.
  Lemma fresh_ok visited l : forall acc, NoDup acc -> (forall p, In p acc -> ~ In p visited) ->
    NoDup (fresh visited l acc) /\
    forall p, In p (fresh visited l acc) <-> In p acc \/ (In p l /\ ~ In p visited).
  Proof.
    induction l as [|x l IH]; intros acc N D; cbn.
    - split; [exact N|]. intros p. tauto.
    - destruct (mem x visited || mem x acc) eqn:E.
      + destruct (IH acc N D) as [N' H]. split; [exact N'|]. intros p. rewrite H. apply orb_true_iff in E. rewrite !mem_ok in E.
        split; [tauto|]. intros [Hp|[[<-|Hp] Hv]]; [tauto|destruct E as [E|E]; tauto|tauto].
      + apply orb_false_iff in E. destruct E as [E1 E2]. apply mem_false in E1, E2.
        destruct (IH (acc ++ [x])) as [N' H].
        * apply (Permutation_NoDup (Permutation_cons_append acc x)). constructor; assumption.
        * intros p Hp. apply in_app_iff in Hp. destruct Hp as [Hp|[<-|[]]]; [apply D; exact Hp|exact E1].
        * split; [exact N'|]. intros p. rewrite H, in_app_iff. cbn. split.
          -- intros [[Hp|[<-|[]]]|[Hp Hv]]; tauto.
          -- intros [Hp|[[<-|Hp] Hv]]; tauto.
  Qed.
  Lemma closed_stays (D : list nat) : (forall v, In v D -> incl (next v) D) ->
    forall a b, clos_refl_trans nat goes a b -> In a D -> In b D.
  Proof. intros C a b R. induction R as [a b H|a|a b c R1 IH1 R2 IH2]; intros Ha; auto. apply (C a Ha). exact H. Qed.
  Lemma search_ok : forall fuel queue D, NoDup (D ++ queue) -> incl (D ++ queue) U -> ~ In target D ->
    (forall visited, Permutation visited (D ++ queue) -> (forall v, In v D -> incl (next v) visited) ->
     length U < fuel + length D ->
     exists b, search next target fuel queue visited = Some b /\
       (b = true <-> exists s, In s visited /\ clos_refl_trans nat goes s target)).
  Proof.
    induction fuel as [|fuel IH]; intros queue D N I T visited P C F.
    - exfalso. pose proof (NoDup_incl_length N I) as L. rewrite app_length in L. lia.
    - cbn [search]. destruct queue as [|x queue].
      + exists false. split; [reflexivity|]. split; [discriminate|]. intros (s & Hs & R). exfalso. apply T.
        rewrite app_nil_r in P. apply (closed_stays D) with s; [|exact R|eapply Permutation_in; eassumption].
        intros v Hv y Hy. eapply Permutation_in; [exact P|]. apply (C v Hv y Hy).
      + destruct (Nat.eqb x target) eqn:E.
        * apply Nat.eqb_eq in E. subst x. exists true. split; [reflexivity|]. split; [|reflexivity]. intros _.
          exists target. split; [|apply rt_refl]. eapply Permutation_in; [symmetry; exact P|]. apply in_elt.
        * apply Nat.eqb_neq in E. fold (fresh visited (next x) []).
          destruct (fresh_ok visited (next x) [] (NoDup_nil _)) as [Nf Hf]; [intros p []|].
          set (new := fresh visited (next x) []) in *.
          assert (Px : Permutation (visited ++ new) ((D ++ [x]) ++ (queue ++ new))).
          { replace ((D ++ [x]) ++ (queue ++ new)) with ((D ++ x :: queue) ++ new) by (rewrite <- !app_assoc; reflexivity).
            apply Permutation_app_tail. exact P. }
          assert (Nv : NoDup (visited ++ new)).
          { apply nodup_app; [|exact Nf|].
            - apply (Permutation_NoDup (Permutation_sym P)). exact N.
            - intros p Hp Hn. apply Hf in Hn. destruct Hn as [[]|[_ Hn]]. contradiction. }
          destruct (IH (queue ++ new) (D ++ [x])) with (visited := visited ++ new) as (b & Eb & Hb).
          -- apply (Permutation_NoDup Px). exact Nv.
          -- intros p Hp. apply (Permutation_in _ (Permutation_sym Px)) in Hp. apply in_app_iff in Hp. destruct Hp as [Hp|Hp].
             ++ apply I. eapply Permutation_in; eassumption.
             ++ apply Hf in Hp. destruct Hp as [[]|[Hp _]]. apply (next_in x). exact Hp.
          -- rewrite in_app_iff. intros [H|[H|[]]]; [apply T; exact H|apply E; exact H].
          -- exact Px.
          -- intros v Hv p Hp. apply in_or_app. apply in_app_iff in Hv. destruct Hv as [Hv|[<-|[]]].
             ++ left. apply (C v Hv). exact Hp.
             ++ destruct (in_dec Nat.eq_dec p visited) as [Hi|Hi]; [left; exact Hi|]. right. apply Hf. right. split; assumption.
          -- rewrite app_length. cbn [length]. lia.
          -- exists b. split; [exact Eb|]. rewrite Hb. split; intros (s & Hs & R).
             ++ apply in_app_iff in Hs. destruct Hs as [Hs|Hs]; [exists s; auto|].
                apply Hf in Hs. destruct Hs as [[]|[Hs _]]. exists x. split.
                ** eapply Permutation_in; [symmetry; exact P|]. apply in_elt.
                ** eapply rt_trans; [apply rt_step; exact Hs|exact R].
             ++ exists s. split; [apply in_or_app; left; exact Hs|exact R].
  Qed.
End Search.

(** ** Paths *)
Lemma rt_cases g a b : clos_refl_trans nat (edge g) a b -> a = b \/ after g a b.
Proof.
  intros R. induction R as [a b H|a|a b c R1 IH1 R2 IH2]; [right; apply t_step; exact H|left; reflexivity|].
  destruct IH1 as [->|IH1]; [exact IH2|]. destruct IH2 as [<-|IH2]; right; [exact IH1|eapply t_trans; eassumption].
Qed.
Lemma after_rt g a b : after g a b -> clos_refl_trans nat (edge g) a b.
Proof. intros R. induction R as [a b H|a b c R1 IH1 R2 IH2]; [apply rt_step; exact H|eapply rt_trans; eassumption]. Qed.
Lemma up_rt g a b : clos_refl_trans nat (goes (parents g)) a b <-> clos_refl_trans nat (edge g) b a.
Proof.
  split; intros R; induction R as [a b H|a|a b c R1 IH1 R2 IH2]; try apply rt_refl; try (eapply rt_trans; eassumption).
  - apply rt_step. apply parents_ok. exact H.
  - apply rt_step. apply parents_ok. exact H.
Qed.
Lemma down_rt g a b : clos_refl_trans nat (goes (children g)) a b <-> clos_refl_trans nat (edge g) a b.
Proof.
  split; intros R; induction R as [a b H|a|a b c R1 IH1 R2 IH2]; try apply rt_refl; try (eapply rt_trans; eassumption).
  - apply rt_step. apply children_ok. exact H.
  - apply rt_step. apply children_ok. exact H.
Qed.
Lemma after_last g a b : after g a b -> exists p, edge g p b /\ (a = p \/ after g a p).
Proof.
  intros R. apply clos_trans_tn1 in R. destruct R as [H|p b' H R]; [exists a; auto|]. exists p. split; [exact H|].
  right. apply clos_tn1_trans. exact R.
Qed.
Lemma after_first g a b : after g a b -> exists p, edge g a p /\ (p = b \/ after g p b).
Proof.
  intros R. apply clos_trans_t1n in R. destruct R as [b' H|p b' H R]; [exists b'; auto|]. exists p. split; [exact H|].
  right. apply clos_t1n_trans. exact R.
Qed.

Lemma is_descendant_ok g d a : exists b, is_descendant_of g d a = Some b /\ (b = true <-> a = d \/ after g a d).
Proof.
  unfold is_descendant_of.
  destruct (search_ok (children g) d (a :: map snd (edges g))) with (fuel := fuel_for g) (queue := [a]) (D := @nil nat) (visited := [a])
    as (b & E & H); cbn [app].
  - intros x y Hy. right. apply children_ok in Hy. apply (in_map snd) in Hy. exact Hy.
  - constructor; [intros []|constructor].
  - intros x [<-|[]]. left. reflexivity.
  - intros [].
  - apply Permutation_refl.
  - intros v [].
  - cbn. rewrite map_length. unfold fuel_for. lia.
  - exists b. split; [exact E|]. rewrite H. split.
    + intros (s & [<-|[]] & R). apply down_rt in R. apply rt_cases. exact R.
    + intros R. exists a. split; [left; reflexivity|]. apply down_rt. destruct R as [->|R]; [apply rt_refl|apply after_rt; exact R].
Qed.
Lemma alternative_ok g c a : NoDup (edges g) ->
  exists b, alternative_path g c a = Some b /\ (b = true <-> exists p, p <> a /\ edge g p c /\ after g a p).
Proof.
  intros N. unfold alternative_path. cbv zeta. set (st := filter _ _).
  assert (Hst : forall x, In x st <-> edge g x c /\ x <> a).
  { intros x. unfold st. rewrite filter_In, parents_ok, negb_true_iff, Nat.eqb_neq. reflexivity. }
  assert (Nst : NoDup st) by (apply NoDup_filter, parents_nodup, N).
  destruct (search_ok (parents g) a (map fst (edges g))) with (fuel := fuel_for g) (queue := st) (D := @nil nat) (visited := st)
    as (b & E & H); cbn [app].
  - intros x y Hy. apply parents_ok in Hy. apply (in_map fst) in Hy. exact Hy.
  - exact Nst.
  - intros x Hx. apply Hst in Hx. destruct Hx as [Hx _]. apply (in_map fst) in Hx. exact Hx.
  - intros [].
  - apply Permutation_refl.
  - intros v [].
  - cbn. rewrite map_length. unfold fuel_for. lia.
  - exists b. split; [exact E|]. rewrite H. split.
    + intros (s & Hs & R). apply Hst in Hs. destruct Hs as [Hs Ns]. exists s. split; [exact Ns|]. split; [exact Hs|].
      apply up_rt in R. apply rt_cases in R. destruct R as [->|R]; [congruence|exact R].
    + intros (p & Np & Hp & R). exists p. split; [apply Hst; split; assumption|]. apply up_rt. apply after_rt. exact R.
Qed.

(** ** Reachability is decidable, and acyclic graphs can be numbered *)
Definition reach (g : graph) (a b : nat) : bool :=
  existsb (fun p => match is_descendant_of g b p with Some r => r | None => false end) (children g a).
Lemma reach_ok g a b : reach g a b = true <-> after g a b.
Proof.
  unfold reach. rewrite existsb_exists. split.
  - intros (p & Hp & E). apply children_ok in Hp. destruct (is_descendant_ok g b p) as (r & Er & Hr). rewrite Er in E.
    apply Hr in E. destruct E as [->|E]; [apply t_step; exact Hp|eapply t_trans; [apply t_step; exact Hp|exact E]].
  - intros R. destruct (after_first _ _ _ R) as (p & Hp & Q). exists p. split; [apply children_ok; exact Hp|].
    destruct (is_descendant_ok g b p) as (r & Er & Hr). rewrite Er. apply Hr. exact Q.
Qed.
Definition nodes (g : graph) : list nat := nodup Nat.eq_dec (map fst (edges g)).
Definition rank (g : graph) (n : nat) : nat := length (filter (fun a => reach g a n) (nodes g)).
Lemma filter_incl_lt {A} (p q : A -> bool) (l : list A) x : In x l -> p x = false -> q x = true ->
  (forall y, p y = true -> q y = true) -> length (filter p l) < length (filter q l).
Proof.
  intros Hx Px Qx I. induction l as [|y l IH]; [destruct Hx|].
  assert (L : length (filter p l) <= length (filter q l)).
  { clear IH Hx. induction l as [|z l IH]; [cbn; lia|]. cbn. destruct (p z) eqn:E; [rewrite (I _ E); cbn; lia|]. destruct (q z); cbn; lia. }
  cbn. destruct Hx as [->|Hx].
  - rewrite Px, Qx. cbn. lia.
  - specialize (IH Hx). destruct (p y) eqn:E; [rewrite (I _ E); cbn; lia|]. destruct (q y); cbn; lia.
Qed.
Lemma rank_edge g a b : acyclic g -> edge g a b -> rank g a < rank g b.
Proof.
  intros A H. unfold rank. apply (filter_incl_lt _ _ _ a).
  - apply nodup_In. apply (in_map fst) in H. exact H.
  - destruct (reach g a a) eqn:E; [|reflexivity]. apply reach_ok in E. destruct (A _ E).
  - apply reach_ok. apply t_step. exact H.
  - intros y E. apply reach_ok in E. apply reach_ok. eapply t_trans; [exact E|apply t_step; exact H].
Qed.
Lemma rank_after g a b : acyclic g -> after g a b -> rank g a < rank g b.
Proof. intros A R. induction R as [a b H|a b c R1 IH1 R2 IH2]; [apply rank_edge; assumption|lia]. Qed.
Lemma ranked_acyclic g (r : nat -> nat) : (forall a b, edge g a b -> r a < r b) -> acyclic g.
Proof.
  intros H n R. assert (L : forall a b, after g a b -> r a < r b).
  { intros a b R'. induction R' as [a b E|a b c R1 IH1 R2 IH2]; [apply H; exact E|lia]. }
  specialize (L _ _ R). lia.
Qed.
