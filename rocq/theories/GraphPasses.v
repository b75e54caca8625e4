(** Any sequence of optimiser passes. *)
From Coq Require Import List Arith Bool Lia Relations.
From Verif Require Import GraphModel GraphSpec GraphProofs GraphMerge GraphWaves.
Import ListNotations.

Definition good (g : graph) : Prop := well_formed g /\ connected g /\ acyclic g.
Lemma merged_good g t s : good g -> t <> s -> In t (steps g) -> s <> root g ->
  (t = root g -> forall p, edge g p s -> p = root g) ->
  (forall m, after g t m -> ~ after g m s) -> ~ after g s t ->
  good (merge_steps g t s) /\ keeps_order g (merge_steps g t s) (fun n => Some (into t s n)).
Proof.
  intros (W & C & A) D It Ns Hr H1 H2.
  assert (A' : acyclic (merge_steps g t s)) by (apply merge_acyclic; assumption).
  split; [split; [apply merge_well_formed; assumption|split; [apply merge_connected; assumption|exact A']]|].
  destruct (merge_steps_ok g t s D) as (E1 & _ & _ & E4 & _). split; [|split].
  - intros n H. apply E4 in H. split; [apply H|]. unfold into. destruct (Nat.eqb_spec n s) as [->|_]; [destruct H as [_ H]; congruence|reflexivity].
  - intros n m H Q. injection Q as <-. apply E4. unfold into. destruct (Nat.eqb_spec n s) as [->|Q]; auto.
  - intros x y a b _ _ R Qa Qb. injection Qa as <-. injection Qb as <-.
    destruct (merge_keeps_order g t s D x y R) as [[Q1 Q2]|Q]; [left; congruence|right; exact Q].
Qed.
Lemma keeps_order_trans g g1 g2 f f1 : good g1 -> keeps_order g g1 f -> keeps_order g1 g2 f1 ->
  keeps_order g g2 (fun n => match f n with Some m => f1 m | None => None end).
Proof.
  intros G1 (K1 & K2 & K3) (L1 & L2 & L3). split; [|split].
  - intros n H. destruct (L1 n H) as [H1 H2]. destruct (K1 n H1) as [H3 H4]. split; [exact H3|]. rewrite H4. exact H2.
  - intros n m H E. destruct (f n) as [k|] eqn:Ek; [|discriminate E]. eapply L2; [|exact E]. eapply K2; eassumption.
  - intros x y a b Hx Hy R Ea Eb. destruct (f x) as [a1|] eqn:Fx; [|discriminate Ea]. destruct (f y) as [b1|] eqn:Fy; [|discriminate Eb].
    destruct (K3 _ _ _ _ Hx Hy R Fx Fy) as [Q|Q]; [left; rewrite Q in Ea; rewrite Ea in Eb; injection Eb as <-; reflexivity|].
    exact (L3 _ _ _ _ (K2 _ _ Hx Fx) (K2 _ _ Hy Fy) Q Ea Eb).
Qed.
Lemma pass_ok eo co g g' : pass eo co g g' -> good g -> good g' /\ exists f, keeps_order g g' f.
Proof.
  intros H G. pose proof G as (W & C & A). pose proof W as (W1 & W2 & W3 & W4). destruct H as [g t s O|g t s R E M|g p sibs g' R I M|g t s It Is M|g g' (c & Hc) E].
  - pose proof (proj1 (only_parent_ok g t s) O) as P. destruct (only_parent_safe g t s A O) as [S1 S2].
    assert (Ed : edge g t s) by (apply parents_ok; rewrite P; left; reflexivity). destruct (W4 _ _ Ed) as (I1 & I2 & I3).
    destruct (merged_good g t s) as [G' K]; try assumption.
    + intros ->. apply (A s), t_step, Ed.
    + intros -> q Hq. apply parents_ok in Hq. rewrite P in Hq. destruct Hq as [<-|[]]. reflexivity.
    + eauto.
  - destruct (child_safe g t s W C R A E M) as (S0 & S1 & S2). destruct (W4 _ _ E) as (I1 & I2 & I3).
    destruct (merged_good g t s) as [G' K]; try assumption.
    + intros ->. apply (A s), t_step, E.
    + intros -> q Hq. apply S0. exact Hq.
    + eauto.
  - destruct (merge_siblings_ok co g p sibs g' W C A R I M) as (W' & C' & A' & R' & S' & f & F1 & F2 & F3).
    split; [split; [exact W'|split; assumption]|]. exists (fun n => Some (f n)). split; [|split].
    + intros n H. split; [apply S'; exact H|rewrite F1 by exact H; reflexivity].
    + intros n m H Q. injection Q as <-. apply F2. exact H.
    + intros x y a b _ _ Q Qa Qb. injection Qa as <-. injection Qb as <-. right. apply F3. exact Q.
  - destruct (leafs_safe g t s M) as (D & S1 & S2).
    assert (Ns : s <> root g).
    { intros ->. destruct (C t It) as [Q|Q]; [congruence|destruct (S2 Q)]. }
    destruct (merged_good g t s) as [G' K]; try assumption.
    + intros -> q Hq. destruct (C s Is) as [Q|Q]; [congruence|destruct (S1 Q)].
    + intros m Q1 Q2. apply S1. eapply t_trans; eassumption.
    + eauto.
  - unfold deduplicate_and_prune in E. destruct (drop_useless_ok eo g W (ex_intro _ c Hc)) as (Wd & Rd & Sd & Ad).
    set (d := drop_useless eo g) in *.
    assert (Adc : acyclic d).
    { intros n Q. assert (In n (steps d)) as I by (eapply after_in; eassumption).
      apply (Ad n n I) in Q. exact (A _ Q). }
    destruct (prune_edges_ok d Wd Adc) as (g2 & E2 & S2 & R2 & W2' & A2 & Red & Ed). rewrite E2 in E. injection E as <-.
    split; [split; [exact W2'|split]|].
    + intros n H. rewrite S2 in H. rewrite R2, Rd. pose proof (proj1 (Sd n) H) as [H1 _]. destruct (C n H1) as [Q|Q]; [left; exact Q|right].
      apply A2. apply Ad; assumption.
    + intros n Q. apply A2 in Q. exact (Adc _ Q).
    + exists (fun n => if useless eo g n then None else Some n). split; [|split].
      * intros n H. rewrite S2 in H. apply Sd in H. destruct H as [H1 H2]. rewrite H2. auto.
      * intros n m H Q. destruct (useless eo g n) eqn:U; [discriminate Q|]. injection Q as <-. rewrite S2. apply Sd. auto.
      * intros x y a b Hx Hy Q Qa Qb. destruct (useless eo g x); [discriminate Qa|]. destruct (useless eo g y) eqn:U; [discriminate Qb|].
        injection Qa as <-. injection Qb as <-. right. apply A2. apply Ad; [apply Sd; auto|exact Q].
Qed.
Lemma passes_ok eo co g g' : passes eo co g g' -> good g -> good g' /\ exists f, keeps_order g g' f.
Proof.
  intros H. induction H as [g|g g1 g2 H1 H2 IH]; intros G.
  - split; [exact G|]. exists Some. split; [auto|]. split; [intros n m Hn Q; injection Q as <-; exact Hn|].
    intros x y a b _ _ R Qa Qb. injection Qa as <-. injection Qb as <-. right. exact R.
  - destruct (pass_ok _ _ _ _ H1 G) as (G1 & f & K1). destruct (IH G1) as (G2 & f2 & K2). split; [exact G2|].
    exact (ex_intro _ _ (keeps_order_trans _ _ _ _ _ G1 K1 K2)).
Qed.
(** The last pass prunes, so a plan exists. *)
Lemma pruned_plan g : well_formed g -> acyclic g -> connected g -> (exists n, In n (steps g) /\ n <> root g) ->
  exists g' ws, prune_edges g = Some g' /\ plan_waves g' = Ok ws /\ in_order g' ws /\ in_order g ws.
Proof.
  intros W A C (n & H1 & H2). destruct (prune_edges_ok g W A) as (g' & E & S' & R' & W' & A' & Red & Ed).
  assert (C' : connected g').
  { intros m Hm. rewrite S' in Hm. rewrite R'. destruct (C m Hm) as [Q|Q]; [left; exact Q|right; apply A'; exact Q]. }
  assert (Ac : acyclic g') by (intros m Q; apply A' in Q; exact (A _ Q)).
  assert (P' : sole_parent g') by (intros c p; apply reduced_root_children; assumption).
  destruct (plan_waves_ok g' W') as [[_ Q]|(ws & Q1 & Q2 & _)].
  - destruct Q. split; [exact Ac|]. split; [exact C'|]. split; [exact P'|]. intros Q.
    assert (In n (others g')) as I by (apply others_ok; rewrite S', R'; auto). rewrite Q in I. destruct I.
  - exists g', ws. split; [exact E|]. split; [exact Q1|]. split; [exact Q2|]. pose proof Q2 as (O1 & O2 & O3 & O4 & O5).
    split; [exact O1|]. split; [rewrite <- S', <- R'; exact O2|]. split; [|split; [|exact O5]].
    + intros a b j H Na Hb. rewrite <- R' in Na.
      assert (after g' a b) as R by (apply A', t_step, H). clear H.
      destruct W' as (_ & _ & _ & W4). clear - R Na Hb O3 W4. revert Na j Hb. induction R as [a b H|a b c R1 IH1 R2 IH2]; intros Na j Hb.
      * eapply O3; eassumption.
      * assert (b <> root g') as Nb by (destruct (after_last _ _ _ R1) as (p & Ep & _); apply (W4 _ _ Ep)).
        destruct (IH2 Nb j Hb) as (i & Hi & Li). destruct (IH1 Na i Hi) as (k & Hk & Lk). exists k. split; [exact Hk|lia].
    + intros b j Hb. destruct (O4 b j Hb) as (a & Ha & Wa). exists a. auto.
Qed.
Lemma plan_waves_in_order g ws : well_formed g -> plan_waves g = Ok ws -> in_order g ws.
Proof.
  intros W E. destruct (plan_waves_ok g W) as [[Q _]|(ws' & Q & O & _)]; rewrite Q in E; [discriminate E|]. injection E as <-. exact O.
Qed.

(** ** Witnesses *)
Definition ranked (g : graph) : bool := forallb (fun e => Nat.ltb (fst e) (snd e)) (edges g).
Lemma ranked_ok g : ranked g = true -> acyclic g.
Proof.
  intros H. apply (ranked_acyclic g (fun n => n)). intros a b E. unfold ranked in H. rewrite forallb_forall in H.
  apply Nat.ltb_lt. exact (H _ E).
Qed.
Fixpoint nodupb {A} (eqb : A -> A -> bool) (l : list A) : bool :=
  match l with [] => true | x :: l' => negb (existsb (eqb x) l') && nodupb eqb l' end.
Lemma nodupb_ok {A} (eqb : A -> A -> bool) l : (forall x, eqb x x = true) -> nodupb eqb l = true -> NoDup l.
Proof.
  intros H. induction l as [|x l IH]; intros E; [constructor|]. cbn in E. apply andb_true_iff in E. destruct E as [E1 E2].
  constructor; [|apply IH; exact E2]. intros I. apply negb_true_iff in E1. apply not_true_iff_false in E1. apply E1.
  apply existsb_exists. exists x. split; [exact I|apply H].
Qed.
Definition pair_eqb (a b : nat * nat) : bool := Nat.eqb (fst a) (fst b) && Nat.eqb (snd a) (snd b).
Definition wf_check (g : graph) : bool :=
  nodupb Nat.eqb (steps g) && nodupb pair_eqb (edges g) && mem (root g) (steps g) &&
  forallb (fun e => mem (fst e) (steps g) && mem (snd e) (steps g) && negb (Nat.eqb (snd e) (root g))) (edges g).
Lemma wf_check_ok g : wf_check g = true -> well_formed g.
Proof.
  unfold wf_check. rewrite !andb_true_iff. intros [[[H1 H2] H3] H4].
  split; [exact (nodupb_ok _ _ Nat.eqb_refl H1)|].
  split; [refine (nodupb_ok _ _ _ H2); intros x; unfold pair_eqb; rewrite !Nat.eqb_refl; reflexivity|].
  split; [apply mem_ok; exact H3|]. intros a b E. rewrite forallb_forall in H4.
  specialize (H4 _ E). cbn in H4. rewrite !andb_true_iff, negb_true_iff, Nat.eqb_neq in H4. destruct H4 as [[Q1 Q2] Q3].
  split; [apply mem_ok; exact Q1|]. split; [apply mem_ok; exact Q2|exact Q3].
Qed.
Definition connected_check (g : graph) : bool := forallb (fun n => Nat.eqb n (root g) || reach g (root g) n) (steps g).
Lemma connected_check_ok g : connected_check g = true -> connected g.
Proof.
  intros H n I. unfold connected_check in H. rewrite forallb_forall in H. specialize (H n I). apply orb_true_iff in H.
  destruct H as [H|H]; [left; apply Nat.eqb_eq; exact H|right; apply reach_ok; exact H].
Qed.
Definition reduced_check (g : graph) : bool :=
  forallb (fun e => negb (existsb (fun m => reach g (fst e) m && reach g m (snd e)) (steps g))) (edges g).
Lemma reduced_check_ok g : well_formed g -> reduced_check g = true -> reduced g.
Proof.
  intros W H a b E m R1 R2. unfold reduced_check in H. rewrite forallb_forall in H. specialize (H _ E).
  apply negb_true_iff in H. apply not_true_iff_false in H. apply H. apply existsb_exists. exists m.
  split; [eapply after_in; eassumption|]. cbn [fst snd]. apply andb_true_iff. split; apply reach_ok; assumption.
Qed.
Definition sole_check (g : graph) : bool :=
  forallb (fun e => negb (has_edge g (root g) (snd e)) || Nat.eqb (fst e) (root g)) (edges g).
Lemma sole_check_ok g : sole_check g = true -> sole_parent g.
Proof.
  intros H c p E1 E2. unfold sole_check in H. rewrite forallb_forall in H. specialize (H _ E2). cbn [fst snd] in H.
  apply has_edge_ok in E1. rewrite E1 in H. apply Nat.eqb_eq. exact H.
Qed.

Lemma unpruned_witness : let g := mkgraph [0;1;2;3] [(0,1);(0,2);(1,2);(1,3);(3,2)] 0 in
  well_formed g /\ acyclic g /\ connected g /\ edge g 1 2 /\ can_merge g 1 2 = true /\ ~ acyclic (merge_steps g 1 2).
Proof.
  cbv zeta. split; [apply wf_check_ok; reflexivity|]. split.
  - apply (ranked_acyclic _ (fun n => if Nat.eqb n 2 then 9 else n)). intros a b E.
    cbn in E. repeat (destruct E as [E|E]; [injection E as <- <-; cbn; lia|]). destruct E.
  - split; [apply connected_check_ok; reflexivity|]. split; [cbv; auto|]. split; [reflexivity|].
    intros A. apply (A 1). apply reach_ok. reflexivity.
Qed.
(** steps 1, 2, 3 below the root; 4 waits for 1, 2; 5 for 1, 3; 6 and 7 for all three *)
Definition sibling_graph : graph :=
  mkgraph [0;1;2;3;4;5;6;7]
    [(0,1);(0,2);(0,3);(1,4);(2,4);(1,5);(3,5);(1,6);(2,6);(3,6);(1,7);(2,7);(3,7)] 0.
Lemma sibling_witness : well_formed sibling_graph /\ acyclic sibling_graph /\ connected sibling_graph /\ reduced sibling_graph /\
  merge_siblings_of (fun _ _ => true) sibling_graph (children sibling_graph 1) = None.
Proof.
  assert (W : well_formed sibling_graph) by (apply wf_check_ok; reflexivity).
  split; [exact W|]. split; [apply ranked_ok; reflexivity|]. split; [apply connected_check_ok; reflexivity|].
  split; [apply reduced_check_ok; [exact W|reflexivity]|]. reflexivity.
Qed.
Lemma mutation_witness : exists position g g' ws a b c,
    well_formed g /\ acyclic g /\ connected g /\ sole_parent g /\
    mutations_in_sequence position g = Some g' /\ plan_waves g' = Ok ws /\
    edge g (root g) a /\ edge g (root g) b /\ position a = Some 0 /\ position b = Some 1 /\
    edge g a c /\ wave_of ws b 1 /\ wave_of ws c 1.
Proof.
  exists (fun n => Some (n - 1)), (mkgraph [0;1;2;3] [(0,1);(0,2);(1,3)] 0).
  eexists. eexists. exists 1, 2, 3. split; [apply wf_check_ok; reflexivity|]. split; [apply ranked_ok; reflexivity|].
  split; [apply connected_check_ok; reflexivity|]. split; [apply sole_check_ok; reflexivity|].
  split; [reflexivity|]. split; [vm_compute; reflexivity|].
  split; [cbn; auto|]. split; [cbn; auto|]. split; [reflexivity|]. split; [reflexivity|]. split; [cbn; auto|].
  split; (eexists; split; [cbn; reflexivity|cbn; auto]).
Qed.
