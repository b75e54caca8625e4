(** Building the waves of the plan. *)
From Coq Require Import List Arith Bool Lia Relations Permutation.
From Verif Require Import GraphModel GraphSpec GraphProofs GraphMerge.
Import ListNotations.

Definition waiting (g : graph) (done : list nat) (n : nat) : nat :=
  length (filter (fun p => negb (Nat.eqb p (root g)) && negb (mem p done)) (parents g n)).
Lemma filter_count_step (l : list nat) x (p q : nat -> bool) : NoDup l ->
  p x = true -> q x = false -> (forall y, y <> x -> q y = p y) ->
  length (filter p l) = (if mem x l then 1 else 0) + length (filter q l).
Proof.
  intros N Px Qx H. induction N as [|y l Ny N IH]; [reflexivity|]. cbn [filter mem existsb].
  unfold mem in *. cbn [existsb]. destruct (Nat.eqb_spec x y) as [<-|D].
  - rewrite Px, Qx. cbn [orb length]. assert (existsb (Nat.eqb x) l = false) as E by (apply mem_false; exact Ny).
    rewrite E in IH. rewrite IH. reflexivity.
  - cbn [orb]. rewrite (H y) by congruence. destruct (p y); cbn [length]; rewrite IH; lia.
Qed.
Lemma waiting_step g done x n : NoDup (edges g) -> x <> root g -> ~ In x done ->
  waiting g done n = (if has_edge g x n then 1 else 0) + waiting g (x :: done) n.
Proof.
  intros N Nx Nd. unfold waiting. rewrite (filter_count_step _ x _ (fun p => negb (Nat.eqb p (root g)) && negb (mem p (x :: done)))).
  - replace (mem x (parents g n)) with (has_edge g x n); [reflexivity|]. destruct (has_edge g x n) eqn:E.
    + symmetry. apply mem_ok, parents_ok, has_edge_ok, E.
    + symmetry. apply mem_false. rewrite parents_ok, <- has_edge_ok. congruence.
  - apply parents_nodup. exact N.
  - apply andb_true_iff. rewrite !negb_true_iff, Nat.eqb_neq. split; [exact Nx|]. apply mem_false. exact Nd.
  - apply andb_false_iff. right. apply negb_false_iff. apply mem_ok. left. reflexivity.
  - intros y D. f_equal. f_equal. unfold mem. cbn [existsb]. destruct (Nat.eqb_spec y x); [congruence|reflexivity].
Qed.
Lemma waiting_zero g done n : waiting g done n = 0 <-> forall p, edge g p n -> p = root g \/ In p done.
Proof.
  unfold waiting. rewrite length_zero_iff_nil. split.
  - intros E p H. destruct (Nat.eq_dec p (root g)) as [|D]; [left; assumption|]. right. apply mem_ok.
    destruct (mem p done) eqn:M; [reflexivity|]. exfalso.
    assert (In p (filter (fun p => negb (Nat.eqb p (root g)) && negb (mem p done)) (parents g n))) as I.
    { apply filter_In. split; [apply parents_ok; exact H|]. rewrite M. apply Nat.eqb_neq in D. rewrite D. reflexivity. }
    rewrite E in I. destruct I.
  - intros H. destruct (filter _ _) as [|p l] eqn:E; [reflexivity|]. exfalso.
    assert (In p (p :: l)) as I by (left; reflexivity). rewrite <- E in I. apply filter_In in I. destruct I as [I1 I2].
    apply parents_ok in I1. apply andb_true_iff in I2. rewrite !negb_true_iff, Nat.eqb_neq in I2. destruct I2 as [I2 I3].
    destruct (H p I1) as [Q|Q]; [congruence|]. apply mem_ok in Q. congruence.
Qed.
Lemma waiting_perm g d1 d2 n : (forall x, In x d1 <-> In x d2) -> waiting g d1 n = waiting g d2 n.
Proof.
  intros H. unfold waiting. f_equal. apply filter_ext. intros p. f_equal. f_equal.
  destruct (mem p d2) eqn:E; [apply mem_ok, H, mem_ok, E|apply mem_false; rewrite H; apply mem_false, E].
Qed.

Record inv (g : graph) (done pend : list nat) (st : degrees) : Prop := {
  i_nodup : NoDup (done ++ pend);
  i_reach : forall n, In n (done ++ pend) -> after g (root g) n;
  i_count : forall n, after g (root g) n -> st n = Some (waiting g done n);
  i_ready : forall n, after g (root g) n -> (In n (done ++ pend) <-> waiting g done n = 0) }.

Lemma root_not_after g n : well_formed g -> after g (root g) n -> n <> root g.
Proof. intros (_ & _ & _ & W4) R. destruct (after_last _ _ _ R) as (p & E & _). apply (W4 _ _ E). Qed.
Lemma after_in g a b : well_formed g -> after g a b -> In b (steps g).
Proof. intros (_ & _ & _ & W4) R. destruct (after_last _ _ _ R) as (p & E & _). apply (W4 _ _ E). Qed.

Lemma processed_ok cs : forall st, NoDup cs -> (forall c, In c cs -> exists d, st c = Some (S d)) ->
  exists st', processed cs st = Some st' /\
    (forall c d, In c cs -> st c = Some (S d) -> st' c = Some d) /\ (forall c, ~ In c cs -> st' c = st c).
Proof.
  induction cs as [|c cs IH]; intros st N H; cbn [processed].
  - exists st. split; [reflexivity|]. split; [intros c d []|auto].
  - inversion N as [|? ? N1 N2]; subst. destruct (H c (or_introl eq_refl)) as (d & E). rewrite E.
    destruct (IH (set_degree st c d) N2) as (st' & E' & H1 & H2).
    { intros c' I. unfold set_degree. destruct (Nat.eqb_spec c' c) as [->|D]; [destruct (N1 I)|]. apply H. right. exact I. }
    exists st'. split; [exact E'|]. split.
    + intros c' d' [<-|I] Ec.
      * rewrite H2 by exact N1. unfold set_degree. rewrite Nat.eqb_refl. congruence.
      * apply H1; [exact I|]. unfold set_degree. destruct (Nat.eqb_spec c' c) as [->|D]; [destruct (N1 I)|exact Ec].
    + intros c' I. rewrite H2 by (intros Q; apply I; right; exact Q). unfold set_degree.
      destruct (Nat.eqb_spec c' c) as [->|D]; [destruct I; left; reflexivity|reflexivity].
Qed.
Lemma fulfilled_ok r st cs : (forall c, In c cs -> c <> r /\ exists d, st c = Some d) ->
  exists l, fulfilled r st cs = Ok l /\ l = filter (fun c => match st c with Some 0 => true | _ => false end) cs.
Proof.
  induction cs as [|c cs IH]; intros H; cbn [fulfilled filter]; [exists []; auto|].
  destruct (H c (or_introl eq_refl)) as (D & d & E). apply Nat.eqb_neq in D. rewrite D, E.
  destruct IH as (l & El & Q); [intros c' I; apply H; right; exact I|]. rewrite El. rewrite <- Q.
  destruct d; eexists; split; reflexivity.
Qed.

Section Waves.
  Variable g : graph.
  Hypothesis W : well_formed g.

  Lemma one_step done x pend st : inv g done (x :: pend) st ->
    exists st' new, processed (children g x) st = Some st' /\ fulfilled (root g) st' (children g x) = Ok new /\
      inv g (done ++ [x]) (pend ++ new) st' /\ (forall b, In b new -> edge g x b).
  Proof.
    destruct W as (W1 & W2 & W3 & W4). intros [I1 I2 I3 I4].
    assert (Rx : after g (root g) x) by (apply I2, in_or_app; right; left; reflexivity).
    assert (Nx : x <> root g) by (apply root_not_after; assumption).
    assert (Nd : ~ In x done).
    { apply NoDup_remove_2 in I1. intros Q. apply I1, in_or_app. left. exact Q. }
    assert (Rc : forall c, In c (children g x) -> after g (root g) c).
    { intros c H. apply children_ok in H. eapply t_trans; [exact Rx|apply t_step; exact H]. }
    assert (S1 : forall n, waiting g done n = (if has_edge g x n then 1 else 0) + waiting g (done ++ [x]) n).
    { intros n. rewrite (waiting_perm g (done ++ [x]) (x :: done)).
      - apply waiting_step; assumption.
      - intros y. rewrite in_app_iff. cbn [In]. tauto. }
    assert (Hc : forall c, In c (children g x) -> waiting g done c = S (waiting g (done ++ [x]) c)).
    { intros c H. apply children_ok, has_edge_ok in H. rewrite S1, H. reflexivity. }
    assert (Hn : forall n, ~ In n (children g x) -> waiting g done n = waiting g (done ++ [x]) n).
    { intros c H. rewrite S1. destruct (has_edge g x c) eqn:E; [|reflexivity]. apply has_edge_ok, children_ok in E. destruct (H E). }
    destruct (processed_ok (children g x) st (children_nodup g x W2)) as (st' & P1 & P2 & P3).
    { intros c H. rewrite (I3 c (Rc c H)), (Hc c H). eauto. }
    assert (C' : forall n, after g (root g) n -> st' n = Some (waiting g (done ++ [x]) n)).
    { intros n R. destruct (in_dec Nat.eq_dec n (children g x)) as [H|H].
      - apply P2; [exact H|]. rewrite (I3 n R), (Hc n H). reflexivity.
      - rewrite (P3 n H), (I3 n R), (Hn n H). reflexivity. }
    destruct (fulfilled_ok (root g) st' (children g x)) as (new & F1 & F2).
    { intros c H. split; [apply root_not_after; auto|]. rewrite (C' c (Rc c H)). eauto. }
    assert (In_new : forall b, In b new <-> In b (children g x) /\ waiting g (done ++ [x]) b = 0).
    { intros b. rewrite F2, filter_In. split; intros [H1 H2]; (split; [exact H1|]).
      - rewrite (C' b (Rc b H1)) in H2. destruct (waiting g (done ++ [x]) b); [reflexivity|discriminate H2].
      - rewrite (C' b (Rc b H1)), H2. reflexivity. }
    assert (Fresh : forall b, In b new -> ~ In b (done ++ x :: pend)).
    { intros b H Q. apply In_new in H. destruct H as [H _]. apply (I4 b (Rc b H)) in Q. rewrite (Hc b H) in Q. discriminate Q. }
    exists st', new. split; [exact P1|]. split; [exact F1|]. split; [|intros b H; apply In_new in H; apply children_ok, H].
    assert (Re : forall n, In n ((done ++ [x]) ++ pend ++ new) <-> In n (done ++ x :: pend) \/ In n new).
    { intros n. rewrite !in_app_iff. cbn [In]. tauto. }
    constructor.
    - replace ((done ++ [x]) ++ pend ++ new) with ((done ++ x :: pend) ++ new) by (rewrite <- !app_assoc; reflexivity).
      apply nodup_app; [exact I1| |intros n H Q; exact (Fresh n Q H)]. rewrite F2. apply NoDup_filter, children_nodup, W2.
    - intros n H. apply Re in H. destruct H as [H|H]; [apply I2; exact H|]. apply In_new in H. apply Rc, H.
    - exact C'.
    - intros n R. rewrite Re. rewrite (I4 n R). destruct (in_dec Nat.eq_dec n (children g x)) as [H|H].
      + rewrite In_new, (Hc n H). split; [intros [Q|[_ Q]]; [discriminate Q|exact Q]|auto].
      + rewrite <- (Hn n H). split; [intros [Q|Q]; [exact Q|apply In_new in Q; destruct Q as [Q _]; destruct (H Q)]|auto].
  Qed.
  Lemma wave_ok q : forall done pend st, inv g done (q ++ pend) st ->
    exists st' new, wave g q st = Ok (st', new) /\ inv g (done ++ q) (pend ++ new) st' /\
      forall b, In b new -> exists a, In a q /\ edge g a b.
  Proof.
    induction q as [|x q IH]; intros done pend st I; cbn [wave].
    - exists st, []. split; [reflexivity|]. rewrite !app_nil_r. split; [exact I|intros b []].
    - cbn [app] in I. destruct (one_step _ _ _ _ I) as (st1 & new & E1 & E2 & I' & F). rewrite E1, E2.
      rewrite <- app_assoc in I'. destruct (IH _ _ _ I') as (st2 & l & E3 & I2 & F2). rewrite E3.
      exists st2, (new ++ l). split; [reflexivity|]. split.
      + replace (done ++ x :: q) with ((done ++ [x]) ++ q) by (rewrite <- app_assoc; reflexivity). rewrite app_assoc. exact I2.
      + intros b H. apply in_app_or in H. destruct H as [H|H].
        * exists x. split; [left; reflexivity|apply F; exact H].
        * destruct (F2 b H) as (a & Ia & Ea). exists a. split; [right; exact Ia|exact Ea].
  Qed.
  Lemma inv_bound done q st : inv g done q st -> length done + length q <= length (steps g).
  Proof.
    intros [I1 I2 _ _]. rewrite <- app_length. apply NoDup_incl_length; [exact I1|]. intros n H. eapply after_in; [exact W|apply I2; exact H].
  Qed.
  Lemma waves_ok fuel : forall done q st, inv g done q st -> length (steps g) < fuel + length done ->
    exists ws st', waves g fuel q st = Ok ws /\ inv g (done ++ concat ws) [] st' /\ Forall (fun w => w <> []) ws /\
      (q <> [] -> exists ws', ws = q :: ws') /\
      (forall a b k, edge g a b -> a <> root g -> wave_of ws b k -> In a done \/ exists i, wave_of ws a i /\ i < k) /\
      (forall b k, wave_of ws b (S k) -> exists a, edge g a b /\ wave_of ws a k).
  Proof.
    induction fuel as [|fuel IH]; intros done q st I L.
    - pose proof (inv_bound _ _ _ I). lia.
    - destruct q as [|x q].
      + exists [], st. cbn [waves concat]. rewrite app_nil_r. split; [reflexivity|]. split; [exact I|]. split; [constructor|].
        split; [congruence|]. split; intros; match goal with H : wave_of [] _ ?k |- _ => destruct H as (w & H & _); destruct k; discriminate H end.
      + cbn [waves]. assert (I0 : inv g done ((x :: q) ++ []) st) by (rewrite app_nil_r; exact I).
        destruct (wave_ok (x :: q) done [] st I0) as (st1 & new & E1 & I1 & F1). rewrite E1. cbn [app] in I1.
        destruct (IH _ _ _ I1) as (ws & st2 & E2 & I2 & N2 & H2 & P2 & Q2).
        { rewrite app_length. cbn [length]. lia. }
        rewrite E2. exists ((x :: q) :: ws), st2. split; [reflexivity|]. cbn [concat]. rewrite app_assoc. split; [exact I2|].
        split; [constructor; [discriminate|exact N2]|]. split; [intros _; eexists; reflexivity|]. split.
        * intros a b k E Na (w & Hw & Hb). destruct k as [|k].
          -- cbn in Hw. injection Hw as <-. destruct I as [J1 J2 J3 J4].
             assert (In b (done ++ x :: q)) as Ib by (apply in_or_app; right; exact Hb).
             pose proof (proj1 (J4 b (J2 b Ib)) Ib) as Z. rewrite waiting_zero in Z. destruct (Z a E) as [Q|Q]; [congruence|left; exact Q].
          -- cbn in Hw. destruct (P2 a b k E Na) as [Q|(i & Q & Li)]; [exists w; auto| |].
             ++ apply in_app_or in Q. destruct Q as [Q|Q]; [left; exact Q|]. right. exists 0. split; [|lia]. exists (x :: q). auto.
             ++ right. exists (S i). split; [|lia]. destruct Q as (w' & Q1 & Q2'). exists w'. auto.
        * intros b [|k] (w & Hw & Hb); cbn in Hw.
          -- destruct new as [|y new]; [destruct ws; cbn in Hw; [discriminate Hw|]|].
             ++ cbn [waves] in E2. destruct fuel; cbn in E2; congruence.
             ++ destruct (H2 ltac:(discriminate)) as (ws' & ->). cbn in Hw. injection Hw as <-.
                destruct (F1 b Hb) as (a & Ia & Ea). exists a. split; [exact Ea|]. exists (x :: q). auto.
          -- destruct (Q2 b k) as (a & Ea & w' & Q1 & Q3); [exists w; auto|]. exists a. split; [exact Ea|]. exists w'. auto.
  Qed.

  Lemma initial_reach n : after g (root g) n -> initial g n = Some (waiting g [] n).
  Proof.
    intros R. unfold initial. destruct (is_descendant_ok g n (root g)) as (b & E & H). rewrite E.
    assert (b = true) as -> by (apply H; right; exact R). unfold waiting. f_equal. f_equal. apply filter_ext. intros p.
    destruct (negb (p =? root g)); reflexivity.
  Qed.
  Definition sole_parent : Prop := forall c p, edge g (root g) c -> edge g p c -> p = root g.
  Lemma start_ok cs : incl cs (children g (root g)) ->
    (sole_parent /\ start (initial g) cs = Ok cs) \/
    (exists c p, In c cs /\ edge g p c /\ p <> root g) /\ start (initial g) cs = Err \/
    (start (initial g) cs = Ok cs /\ forall c p, In c cs -> edge g p c -> p = root g).
  Proof.
    induction cs as [|c cs IH]; intros I.
    - right. right. split; [reflexivity|]. intros c p [].
    - assert (E : edge g (root g) c) by (apply children_ok, I; left; reflexivity).
      cbn [start]. rewrite initial_reach by (apply t_step; exact E). destruct (waiting g [] c) eqn:Z.
      + rewrite waiting_zero in Z. destruct IH as [[S1 S2]|[[(c' & p & Q1 & Q2 & Q3) S2]|[S1 S2]]].
        * intros y Hy. apply I. right. exact Hy.
        * left. rewrite S2. auto.
        * right. left. rewrite S2. split; [|reflexivity]. exists c', p. split; [right; exact Q1|auto].
        * right. right. rewrite S1. split; [reflexivity|]. intros c' p [<-|Q1] Q2; [|eapply S2; eassumption].
          destruct (Z p Q2) as [Q|[]]; exact Q.
      + right. left. split; [|reflexivity]. exists c.
        destruct (filter (fun p => negb (Nat.eqb p (root g)) && negb (mem p [])) (parents g c)) as [|p l] eqn:F.
        * unfold waiting in Z. rewrite F in Z. discriminate Z.
        * assert (In p (p :: l)) as Ip by (left; reflexivity). rewrite <- F in Ip. apply filter_In in Ip. destruct Ip as [Ip1 Ip2].
          exists p. split; [left; reflexivity|]. split; [apply parents_ok; exact Ip1|]. apply andb_true_iff in Ip2. destruct Ip2 as [Ip2 _].
          apply Nat.eqb_neq, negb_true_iff, Ip2.
  Qed.
  Lemma start_spec : (sole_parent /\ start (initial g) (children g (root g)) = Ok (children g (root g))) \/
    (~ sole_parent /\ start (initial g) (children g (root g)) = Err).
  Proof.
    destruct (start_ok (children g (root g)) (fun n H => H)) as [H|[[(c & p & Q1 & Q2 & Q3) H]|[H1 H2]]].
    - left. exact H.
    - right. split; [|exact H]. intros P. apply Q3. eapply P; [apply children_ok; exact Q1|exact Q2].
    - left. split; [|exact H1]. intros c p Ec Ep. eapply H2; [apply children_ok; exact Ec|exact Ep].
  Qed.
  Lemma start_inv : sole_parent -> inv g [] (children g (root g)) (initial g).
  Proof.
    intros P. assert (R : forall n, In n (children g (root g)) -> after g (root g) n) by (intros n H; apply t_step, children_ok, H).
    constructor.
    - apply children_nodup. apply W.
    - exact R.
    - exact initial_reach.
    - intros n H. cbn [app]. rewrite waiting_zero, children_ok. split.
      + intros E p Ep. left. eapply P; eassumption.
      + intros Z. destruct (after_last _ _ _ H) as (p & E & _). destruct (Z p E) as [->|[]]. exact E.
  Qed.
  Definition others : list nat := filter (fun s => negb (Nat.eqb s (root g))) (steps g).
  Lemma others_ok n : In n others <-> In n (steps g) /\ n <> root g.
  Proof. unfold others. rewrite filter_In, negb_true_iff, Nat.eqb_neq. reflexivity. Qed.

  (** All there is to know about [plan_waves]. *)
  Lemma plan_waves_ok :
    (plan_waves g = Err /\ ~ (acyclic g /\ connected g /\ sole_parent /\ others <> [])) \/
    (exists ws, plan_waves g = Ok ws /\ in_order g ws /\ acyclic g /\ connected g /\ sole_parent /\ others <> []).
  Proof.
    unfold plan_waves. cbv zeta. destruct start_spec as [[P E]|[P E]]; rewrite E; [|left; split; [reflexivity|tauto]].
    pose proof (start_inv P) as I0.
    destruct (waves_ok (S (length (steps g))) [] _ _ I0) as (ws & st & E1 & I1 & N1 & H1 & O1 & O2); [cbn; lia|].
    rewrite E1. cbn [app] in I1. fold others.
    assert (Inc : incl (concat ws) others).
    { intros n H. destruct I1 as [_ J2 _ _]. assert (after g (root g) n) as R by (apply J2; rewrite app_nil_r; exact H).
      apply others_ok. split; [eapply after_in; eassumption|apply root_not_after; assumption]. }
    assert (Nd : NoDup (concat ws)) by (destruct I1 as [J1 _ _ _]; rewrite app_nil_r in J1; exact J1).
    assert (No : NoDup others) by (apply NoDup_filter, W).
    destruct (Nat.eqb_spec (length (concat ws)) (length others)) as [EL|NL]; cbn [negb].
    - assert (Inc2 : incl others (concat ws)) by (apply NoDup_length_incl; [exact Nd|lia|exact Inc]).
      assert (O : in_order g ws).
      { split; [exact Nd|]. split; [|split; [|split; [exact O2|exact N1]]].
        - intros n. rewrite <- others_ok. split; [apply Inc|apply Inc2].
        - intros a b j Ed Na Hb. destruct (O1 a b j Ed Na Hb) as [[]|Q]. exact Q. }
      assert (C : connected g).
      { intros n H. destruct (Nat.eq_dec n (root g)) as [|D]; [left; assumption|right].
        destruct I1 as [_ J2 _ _]. apply J2. rewrite app_nil_r. apply Inc2, others_ok. auto. }
      assert (A : acyclic g).
      { assert (U : forall (ws : list (list nat)), NoDup (concat ws) -> forall n i j, wave_of ws n i -> wave_of ws n j -> i = j).
        { clear. induction ws as [|w ws IH]; intros N n i j (w1 & A1 & B1) (w2 & A2 & B2); [destruct i; discriminate A1|].
          cbn [concat] in N.
          assert (X : forall k w', nth_error ws k = Some w' -> In n w' -> In n w -> False).
          { intros k w' Hk Hn Hw. assert (In n (concat ws)) as Q by (apply in_concat; exists w'; split; [eapply nth_error_In; exact Hk|exact Hn]).
            clear - N Hw Q. induction w as [|y w IHw]; [destruct Hw|]. cbn in N. inversion N as [|? ? N1 N2]; subst.
            destruct Hw as [->|Hw]; [apply N1, in_or_app; right; exact Q|exact (IHw N2 Hw)]. }
          assert (N' : NoDup (concat ws)).
          { clear - N. induction w; [exact N|]. cbn in N. inversion N; auto. }
          destruct i as [|i]; destruct j as [|j]; cbn in A1, A2.
          - reflexivity.
          - exfalso. injection A1 as <-. eapply X; eassumption.
          - exfalso. injection A2 as <-. eapply X; eassumption.
          - f_equal. eapply (IH N' n); [exists w1; auto|exists w2; auto]. }
        assert (B : forall a b, after g a b -> a <> root g -> forall j, wave_of ws b j -> exists i, wave_of ws a i /\ i < j).
        { intros a b R. induction R as [a b Ed|a b c R1 IH1 R2 IH2]; intros Na j Hb.
          - destruct (O1 a b j Ed Na Hb) as [[]|Q]. exact Q.
          - assert (b <> root g) as Nb by (destruct (after_last _ _ _ R1) as (p & Ep & _); destruct W as (_ & _ & _ & W4); apply (W4 _ _ Ep)).
            destruct (IH2 Nb j Hb) as (i & Hi & Li). destruct (IH1 Na i Hi) as (k & Hk & Lk). exists k. split; [exact Hk|lia]. }
        intros n R. assert (n <> root g) as Nn by (destruct (after_last _ _ _ R) as (p & Ep & _); destruct W as (_ & _ & _ & W4); apply (W4 _ _ Ep)).
        assert (In n (concat ws)) as Q by (apply Inc2, others_ok; split; [eapply after_in; eassumption|exact Nn]).
        apply in_concat in Q. destruct Q as (w & Q1 & Q2). apply In_nth_error in Q1. destruct Q1 as (k & Q1).
        assert (wave_of ws n k) as Wk by (exists w; auto). destruct (B n n R Nn k Wk) as (i & Wi & Li).
        rewrite (U ws Nd n i k Wi Wk) in Li. lia. }
      destruct ws as [|w ws].
      + left. split; [reflexivity|]. intros (_ & _ & _ & Q). apply Q. destruct others; [reflexivity|discriminate EL].
      + right. exists (w :: ws). split; [reflexivity|]. split; [exact O|]. split; [exact A|]. split; [exact C|]. split; [exact P|].
        intros Q. rewrite Q in EL. cbn [concat] in EL. rewrite app_length in EL. inversion N1 as [|? ? Nw _]; subst. destruct w; [congruence|discriminate EL].
    - left. split; [reflexivity|]. intros (A & C & _ & _). apply NL.
      assert (B : forall k n, rank g n <= k -> In n others -> In n (concat ws)).
      { induction k as [|k IH]; intros n L H; apply others_ok in H; destruct H as [H1' H2'];
          destruct I1 as [_ _ _ J4]; rewrite app_nil_r in J4;
          (assert (after g (root g) n) as R by (destruct (C n H1'); [congruence|assumption])); apply (J4 n R), waiting_zero; intros p Ep;
          (destruct (Nat.eq_dec p (root g)) as [|Np]; [left; assumption|right]); pose proof (rank_edge g p n A Ep) as Lp.
        - lia.
        - apply IH; [lia|]. apply others_ok. split; [|exact Np]. destruct W as (_ & _ & _ & W4). apply (W4 _ _ Ep). }
      apply Nat.le_antisymm; apply NoDup_incl_length; try assumption.
      intros n H. eapply B; [apply Nat.le_refl|exact H].
  Qed.
End Waves.
