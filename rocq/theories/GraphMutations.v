(** Mutations run one after another. *)
From Coq Require Import List Arith Bool Lia Relations Permutation Sorted.
From Verif Require Import GraphModel GraphSpec GraphProofs GraphMerge GraphWaves.
Import ListNotations.

Definition by_pos (a b : nat * nat) : Prop := snd a <= snd b.
Lemma insert_pos_perm x l : Permutation (insert_pos x l) (x :: l).
Proof.
  induction l as [|y l IH]; cbn [insert_pos]; [apply Permutation_refl|]. destruct (snd x <=? snd y); [apply Permutation_refl|].
  eapply perm_trans; [apply perm_skip; exact IH|apply perm_swap].
Qed.
Lemma sort_pos_perm l : Permutation (sort_pos l) l.
Proof.
  induction l as [|x l IH]; [constructor|]. cbn. eapply perm_trans; [apply insert_pos_perm|apply perm_skip; exact IH].
Qed.
Lemma insert_pos_sorted x l : StronglySorted by_pos l -> StronglySorted by_pos (insert_pos x l).
Proof.
  induction l as [|y l IH]; intros H; cbn [insert_pos]; [constructor; constructor|]. inversion H as [|? ? H1 H2]; subst.
  destruct (Nat.leb_spec (snd x) (snd y)) as [L|L].
  - constructor; [exact H|]. constructor; [exact L|]. eapply Forall_impl; [|exact H2]. unfold by_pos. intros a Q. lia.
  - constructor; [apply IH; exact H1|]. rewrite Forall_forall in H2 |- *. intros z Hz.
    apply (Permutation_in _ (insert_pos_perm x l)) in Hz. destruct Hz as [<-|Hz]; [unfold by_pos; lia|apply H2; exact Hz].
Qed.
Lemma sort_pos_sorted l : StronglySorted by_pos (sort_pos l).
Proof. induction l as [|x l IH]; [constructor|apply insert_pos_sorted; exact IH]. Qed.
Lemma positioned_ok position l : forall ps, positioned position l = Some ps ->
  map fst ps = l /\ forall n p, In (n, p) ps -> position n = Some p.
Proof.
  induction l as [|n l IH]; intros ps E; cbn [positioned] in E.
  - injection E as <-. split; [reflexivity|]. intros n p [].
  - destruct (position n) as [p|] eqn:P; [|discriminate E]. destruct (positioned position l) as [r|]; [|discriminate E].
    injection E as <-. destruct (IH r eq_refl) as [H1 H2]. split; [cbn; congruence|].
    intros m q [Q|Q]; [injection Q as <- <-; exact P|apply H2; exact Q].
Qed.

Fixpoint chain (n : nat) (l : list nat) : list (nat * nat) := match l with [] => [] | m :: l' => (n, m) :: chain m l' end.
Lemma link_ok l : forall g n,
  steps (link g n l) = steps g /\ root (link g n l) = root g /\ (NoDup (edges g) -> NoDup (edges (link g n l))) /\
  forall a b, edge (link g n l) a b <-> edge g a b \/ In (a, b) (chain n l).
Proof.
  induction l as [|m l IH]; intros g n; cbn [link chain].
  - repeat split; auto. intros [H|[]]. exact H.
  - destruct (IH (connect g n m) m) as (H1 & H2 & H3 & H4). destruct (connect_rest g n m) as (C1 & C2 & C3).
    split; [congruence|]. split; [congruence|]. split; [auto|]. intros a b. rewrite H4, connect_edge. cbn [In]. split.
    + intros [[H|[-> ->]]|H]; auto.
    + intros [H|[H|H]]; auto. injection H as -> ->. auto.
Qed.
Lemma chain_in l : forall n a b, In (a, b) (chain n l) -> In a (n :: l) /\ In b l.
Proof.
  induction l as [|m l IH]; intros n a b H; [destruct H|]. cbn [chain] in H. destruct H as [H|H].
  - injection H as <- <-. split; left; reflexivity.
  - destruct (IH _ _ _ H) as [H1 H2]. split; right; assumption.
Qed.
Lemma chain_after g l : forall n, (forall a b, In (a, b) (chain n l) -> edge g a b) ->
  forall m, In m l -> after g n m.
Proof.
  induction l as [|x l IH]; intros n H m I; [destruct I|]. cbn [chain] in H.
  assert (E : edge g n x) by (apply H; left; reflexivity). destruct I as [<-|I]; [apply t_step; exact E|].
  eapply t_trans; [apply t_step; exact E|]. apply IH; [|exact I]. intros a b Q. apply H. right. exact Q.
Qed.
Lemma chain_ordered g (R : nat -> nat -> Prop) l : forall n, (forall a b, In (a, b) (chain n l) -> edge g a b) ->
  forall l1 a l2, n :: l = l1 ++ a :: l2 -> forall b, In b l2 -> after g a b.
Proof.
  induction l as [|x l IH]; intros n H l1 a l2 E b Hb.
  - destruct l1 as [|y l1]; [injection E as -> <-; destruct Hb|]. destruct l1; discriminate E.
  - destruct l1 as [|y l1]; cbn [app] in E.
    + injection E as -> <-. eapply chain_after; eassumption.
    + injection E as -> E. eapply (IH x); [|exact E|exact Hb]. intros c d Q. apply H. cbn [chain]. right. exact Q.
Qed.
Fixpoint idx (l : list nat) (n : nat) : nat := match l with [] => 0 | m :: l' => if Nat.eqb n m then 0 else S (idx l' n) end.
Lemma idx_lt l n : In n l -> idx l n < length l.
Proof.
  induction l as [|m l IH]; [intros []|]. intros H. cbn. destruct (Nat.eqb_spec n m) as [->|D]; [lia|].
  destruct H as [->|H]; [congruence|]. specialize (IH H). lia.
Qed.
Lemma chain_idx l : forall n, NoDup (n :: l) -> forall a b, In (a, b) (chain n l) -> idx (n :: l) a < idx (n :: l) b.
Proof.
  induction l as [|m l IH]; intros n N a b H; [destruct H|]. cbn [chain] in H. inversion N as [|? ? N1 N2]; subst.
  destruct H as [H|H].
  - injection H as <- <-. cbn. rewrite Nat.eqb_refl. destruct (Nat.eqb_spec m n) as [->|_]; [destruct N1; left; reflexivity|lia].
  - pose proof (IH m N2 a b H) as L. destruct (chain_in _ _ _ _ H) as [Ia Ib].
    cbn [idx] in L |- *. destruct (Nat.eqb_spec a n) as [->|_]; [destruct (N1 Ia)|].
    destruct (Nat.eqb_spec b n) as [->|_]; [destruct N1; right; exact Ib|]. lia.
Qed.

Section M.
  Variables (position : nat -> option nat) (g g' : graph).
  Hypothesis W : well_formed g.
  Hypothesis A : acyclic g.
  Hypothesis C : connected g.
  Hypothesis P : sole_parent g.
  Hypothesis E : mutations_in_sequence position g = Some g'.

  Definition mutation n := edge g (root g) n.
  Lemma sequence_shape : exists first rest,
    NoDup (first :: rest) /\ (forall n, In n (first :: rest) <-> mutation n) /\
    (forall l1 a l2, first :: rest = l1 ++ a :: l2 -> forall b, In b l2 ->
       exists i j, position a = Some i /\ position b = Some j /\ i <= j) /\
    steps g' = steps g /\ root g' = root g /\ NoDup (edges g') /\
    forall a b, edge g' a b <-> (edge g a b /\ a <> root g) \/ (a = root g /\ b = first) \/ In (a, b) (chain first rest).
  Proof.
    unfold mutations_in_sequence in E. destruct (positioned position (children g (root g))) as [ps|] eqn:Eps; [|discriminate E].
    destruct (positioned_ok _ _ _ Eps) as [H1 H2].
    destruct (map fst (sort_pos ps)) as [|first rest] eqn:Es; [discriminate E|]. cbv zeta in E. injection E as <-.
    assert (Pm : Permutation (first :: rest) (children g (root g))).
    { rewrite <- Es, <- H1. apply Permutation_map, sort_pos_perm. }
    exists first, rest.
    set (g0 := mkgraph (steps g) (filter (fun e => negb (Nat.eqb (fst e) (root g))) (edges g)) (root g)).
    destruct (link_ok rest (connect g0 (root g) first) first) as (L1 & L2 & L3 & L4).
    destruct (connect_rest g0 (root g) first) as (C1 & C2 & C3).
    split; [eapply Permutation_NoDup; [apply Permutation_sym; exact Pm|apply children_nodup, W]|].
    split; [intros n; unfold mutation; rewrite <- children_ok; split; apply Permutation_in; [exact Pm|apply Permutation_sym; exact Pm]|].
    split.
    { intros l1 a l2 Q b Hb. rewrite Q in Es. pose proof (sort_pos_sorted ps) as S0.
      apply map_eq_app in Es. destruct Es as (p1 & p2 & Ep & M1 & M2). destruct p2 as [|[a' i] p2]; [discriminate M2|].
      cbn in M2. injection M2 as -> M2. rewrite <- M2 in Hb. apply in_map_iff in Hb. destruct Hb as ([b' j] & <- & Hb). cbn [fst].
      rewrite Ep in S0. assert (S1 : StronglySorted by_pos ((a, i) :: p2)).
      { clear - S0. induction p1 as [|x p1 IH]; [exact S0|]. inversion S0; auto. }
      inversion S1 as [|? ? _ F]; subst. rewrite Forall_forall in F. specialize (F _ Hb). exists i, j. cbn in F.
      assert (In1 : forall x, In x (sort_pos ps) -> In x ps) by (intros x; apply Permutation_in, sort_pos_perm).
      split; [apply H2, In1; rewrite Ep; apply in_or_app; right; left; reflexivity|].
      split; [apply H2, In1; rewrite Ep; apply in_or_app; right; right; exact Hb|exact F]. }
    split; [rewrite L1, C1; reflexivity|]. split; [rewrite L2, C2; reflexivity|].
    split; [apply L3, C3; apply NoDup_filter, W|].
    intros a b. rewrite L4, connect_edge. unfold edge at 1. cbn [edges g0]. rewrite filter_In, negb_true_iff, Nat.eqb_neq. cbn [fst].
    unfold edge. tauto.
  Qed.
  Lemma sequence_ok : well_formed g' /\ acyclic g' /\ connected g' /\ sole_parent g' /\
    (forall n, In n (steps g') <-> In n (steps g)) /\ root g' = root g /\
    (forall a b, edge g a b -> a <> root g -> edge g' a b) /\
    (forall a b i j, mutation a -> mutation b -> position a = Some i -> position b = Some j -> i < j -> after g' a b) /\
    (forall a b, mutation a -> mutation b -> a <> b -> after g' a b \/ after g' b a).
  Proof.
    destruct sequence_shape as (first & rest & N & Hm & Hp & Hs & Hr & Hn & He). destruct W as (W1 & W2 & W3 & W4).
    assert (Mf : mutation first) by (apply Hm; left; reflexivity).
    assert (Mi : forall a b, In (a, b) (chain first rest) -> mutation a /\ mutation b).
    { intros a b H. apply chain_in in H. destruct H as [H1 H2]. split; apply Hm; [exact H1|right; exact H2]. }
    assert (Ch : forall a b, In (a, b) (chain first rest) -> edge g' a b) by (intros a b H; apply He; auto).
    assert (Or : forall l1 a l2, first :: rest = l1 ++ a :: l2 -> forall b, In b l2 -> after g' a b).
    { intros l1 a l2 Q b Hb. eapply (chain_ordered g' (fun _ _ => True) rest first); eassumption. }
    assert (Tot : forall a b, mutation a -> mutation b -> a <> b ->
              (after g' a b /\ exists l1 l2, first :: rest = l1 ++ a :: l2 /\ In b l2) \/
              (after g' b a /\ exists l1 l2, first :: rest = l1 ++ b :: l2 /\ In a l2)).
    { intros a b Ha Hb D. apply Hm in Ha, Hb. apply in_split in Ha. destruct Ha as (l1 & l2 & Q). rewrite Q in Hb.
      apply in_app_or in Hb. destruct Hb as [Hb|[Hb|Hb]]; [|congruence|].
      - right. apply in_split in Hb. destruct Hb as (k1 & k2 & ->). rewrite <- app_assoc in Q. cbn [app] in Q.
        assert (In a (k2 ++ a :: l2)) as I by (apply in_or_app; right; left; reflexivity).
        split; [eapply Or; eassumption|]. exists k1, (k2 ++ a :: l2). auto.
      - left. split; [eapply Or; eassumption|]. exists l1, l2. auto. }
    assert (Nr : ~ mutation (root g)) by (intros H; apply (W4 _ _ H); reflexivity).
    split; [|split; [|split; [|split; [|split; [|split; [|split; [|split]]]]]]].
    - unfold well_formed. rewrite Hs, Hr. split; [exact W1|]. split; [exact Hn|]. split; [exact W3|].
      intros a b H. apply He in H. destruct H as [[H _]|[[-> ->]|H]]; [apply W4; exact H|apply W4; exact Mf|].
      destruct (Mi _ _ H) as [Q1 Q2]. destruct (W4 _ _ Q1) as (_ & I1 & _). destruct (W4 _ _ Q2) as (_ & I2 & I3). auto.
    - apply (ranked_acyclic g' (fun n => if Nat.eqb n (root g) then 0 else
          if mem n (first :: rest) then S (idx (first :: rest) n) else S (length (first :: rest)) + S (rank g n))).
      intros a b H.
      assert (Nb : b <> root g).
      { apply He in H. destruct H as [[H _]|[[_ ->]|H]]; [apply (W4 _ _ H)|apply (W4 _ _ Mf)|]. destruct (Mi _ _ H) as [_ Q]. apply (W4 _ _ Q). }
      apply Nat.eqb_neq in Nb. rewrite Nb. destruct (Nat.eqb_spec a (root g)) as [->|Na].
      { destruct (mem b (first :: rest)); lia. }
      apply He in H. destruct H as [[H _]|[[Q _]|H]]; [|congruence|].
      + assert (mem b (first :: rest) = false) as ->.
        { apply mem_false. intros Q. apply Hm in Q. apply Na. eapply P; eassumption. }
        destruct (mem a (first :: rest)) eqn:Ma.
        * apply mem_ok, idx_lt in Ma. lia.
        * pose proof (rank_edge g a b A H). lia.
      + destruct (chain_in _ _ _ _ H) as [Ia Ib]. assert (mem a (first :: rest) = true) as -> by (apply mem_ok; exact Ia).
        assert (mem b (first :: rest) = true) as -> by (apply mem_ok; right; exact Ib).
        pose proof (chain_idx rest first N a b H). lia.
    - assert (M' : forall m, mutation m -> after g' (root g) m).
      { intros m H. apply Hm in H. assert (edge g' (root g) first) as Ef by (apply He; auto).
        destruct H as [<-|H]; [apply t_step; exact Ef|]. eapply t_trans; [apply t_step; exact Ef|]. apply (chain_after g' rest first Ch m H). }
      intros n H. rewrite Hs in H. rewrite Hr. destruct (C n H) as [|R]; [left; assumption|right].
      apply clos_trans_tn1 in R. clear H. induction R as [n H|n z H R IH]; [apply M'; exact H|].
      destruct (Nat.eq_dec n (root g)) as [->|D]; [apply M'; exact H|]. eapply t_trans; [exact IH|]. apply t_step. apply He. auto.
    - intros c p H1 H2. rewrite Hr in *. apply He in H1. destruct H1 as [[_ H]|[[_ ->]|H]]; [congruence| |destruct (Mi _ _ H) as [Q _]; destruct (Nr Q)].
      apply He in H2. destruct H2 as [[H2 Np]|[[-> _]|H2]]; [|reflexivity|].
      + eapply P; eassumption.
      + exfalso. apply chain_in in H2. destruct H2 as [_ H2]. inversion N; auto.
    - intros n. rewrite Hs. reflexivity.
    - exact Hr.
    - intros a b H Na. apply He. auto.
    - intros a b i j Ha Hb Pa Pb L. assert (D : a <> b) by (intros ->; rewrite Pa in Pb; injection Pb as ->; lia).
      destruct (Tot a b Ha Hb D) as [[Q _]|[_ (l1 & l2 & Q1 & Q2)]]; [exact Q|].
      destruct (Hp _ _ _ Q1 _ Q2) as (i' & j' & Q3 & Q4 & Q5). rewrite Pb in Q3. rewrite Pa in Q4. injection Q3 as <-. injection Q4 as <-. lia.
    - intros a b Ha Hb D. destruct (Tot a b Ha Hb D) as [[Q _]|[Q _]]; auto.
  Qed.
  Lemma sequence_plan : (exists n, In n (steps g) /\ n <> root g) -> exists ws, plan_waves g' = Ok ws /\ in_order g' ws.
  Proof.
    intros (n & H1 & H2). destruct sequence_ok as (W' & A' & C' & P' & S' & R' & _).
    destruct (plan_waves_ok g' W') as [[_ Q]|(ws & Q1 & Q2 & _)]; [|eauto]. destruct Q. split; [exact A'|]. split; [exact C'|]. split; [exact P'|].
    intros Q. assert (In n (others g')) as I by (apply others_ok; split; [apply S'; exact H1|rewrite R'; exact H2]). rewrite Q in I. destruct I.
  Qed.
End M.

(** Steps after others are in later waves. *)
Lemma in_order_after g ws : well_formed g -> in_order g ws -> forall a b, after g a b -> a <> root g ->
  forall j, wave_of ws b j -> exists i, wave_of ws a i /\ i < j.
Proof.
  intros (_ & _ & _ & W4) (_ & _ & O & _) a b R. induction R as [a b H|a b c R1 IH1 R2 IH2]; intros Na j Hb.
  - eapply O; eassumption.
  - assert (b <> root g) as Nb by (destruct (after_last _ _ _ R1) as (p & Ep & _); apply (W4 _ _ Ep)).
    destruct (IH2 Nb j Hb) as (i & Hi & Li). destruct (IH1 Na i Hi) as (k & Hk & Lk). exists k. split; [exact Hk|lia].
Qed.
