(* What the invariants of the pool give its callers. *)
From Coq Require Import String List Bool Arith Lia.
From Verif Require Import PoolModel PoolSpec PoolProofs.
Import ListNotations.
Open Scope string_scope.
Open Scope list_scope.

Section Main.
  Variables (tr : list action) (p : pool).
  Hypothesis R : steps empty tr = Some p.
  Let I := inv_steps tr p R.

  Lemma attempt_in g id : connecting p g id <-> nget g (attempts p) = Some id.
  Proof. split; [apply in_nget; apply (i_gens _ _ I)|apply nget_in]. Qed.
  Lemma exec_in x v : In (x, v) (executors p) <-> nget x (executors p) = Some v.
  Proof. split; [apply in_nget; apply (i_execs _ _ I)|apply nget_in]. Qed.
  Lemma answer_in w a : answered p w a <-> nget w (answers p) = Some a.
  Proof. split; [apply in_nget; apply (i_answers _ _ I)|apply nget_in]. Qed.
  Lemma open_in x : takes_commands p x <-> is_open x p = true.
  Proof.
    unfold takes_commands, is_open. split.
    - intros [id H]. apply exec_in in H. rewrite H. reflexivity.
    - destruct (nget x (executors p)) as [[id b]|] eqn:E; [|discriminate]. intros ->. exists id. apply exec_in. exact E.
  Qed.

  Lemma entry_attempt g id : connecting p g id <-> exists ws, get id (entries p) = Some (Connecting g ws).
  Proof. rewrite attempt_in. apply (i_attempt _ _ I). Qed.
  Lemma one_attempt g h id : connecting p g id -> connecting p h id -> g = h.
  Proof. rewrite !entry_attempt. intros [ws A] [vs B]. congruence. Qed.
  Lemma identity w x id : answered p w (Got x) -> asks tr w id -> belongs p x id.
  Proof.
    intros A B. apply answer_in in A. destruct (i_answer _ _ I w _ A) as [_ (j & C & D)]. unfold asks in B. rewrite B in C. injection C as <-.
    destruct (D x eq_refl) as [b E]. exists b. apply exec_in. exact E.
  Qed.
  Lemma offered id x : offers p id x -> belongs p x id.
  Proof. intros H. destruct (i_ready _ _ I id x H) as [b E]. exists b. apply exec_in. exact E. Qed.
  Lemma once w a b : answered p w a -> answered p w b -> a = b.
  Proof. rewrite !answer_in. congruence. Qed.
  Lemma once_log : NoDup (map fst (answers p)).
  Proof. apply (i_answers _ _ I). Qed.
  Lemma nobody_lost w id : asks tr w id -> (exists a, answered p w a) \/ In w (gone p) \/ exists g, waits p w g id /\ connecting p g id.
  Proof.
    intros A. destruct (nget w (answers p)) as [a|] eqn:E; [left; exists a; apply answer_in; exact E|]. right.
    destruct (in_dec Nat.eq_dec w (gone p)) as [G|G]; [auto|]. right. destruct (i_all _ _ I w id A E G) as (g & ws & B & C).
    exists g. split; [exists ws; auto|]. apply entry_attempt. eauto.
  Qed.
  Lemma apart w a : answered p w a -> (exists id, asks tr w id) /\ ~ In w (gone p) /\ forall g id, ~ waits p w g id.
  Proof.
    intros A. apply answer_in in A. destruct (i_answer _ _ I w a A) as [B (id & C & _)]. split; [eauto|]. split; [exact B|].
    intros g j (ws & D & E & _). destruct (i_wait _ _ I j g ws D) as [_ F]. destruct (F w E). congruence.
  Qed.
  Lemma waits_for w g id : waits p w g id -> asks tr w id.
  Proof. intros (ws & D & E & _). destruct (i_wait _ _ I id g ws D) as [_ F]. destruct (F w E). assumption. Qed.

  Lemma notified ws a w : In w ws -> ~ In w (gone p) -> In (w, a) (notify ws a p).
  Proof. intros A B. unfold notify. apply in_app_iff. left. apply in_map_iff. exists w. split; [reflexivity|]. apply present. auto. Qed.
  Lemma outcomes a p' w g id r : step p a = Some p' -> outcome a g = Some r -> waits p w g id -> answered p' w r.
  Proof.
    intros E O (ws & A & B & C). assert (G : nget g (attempts p) = Some id) by (apply (i_attempt _ _ I); eauto).
    destruct a as [j|v|h|h e|h|x|x]; try discriminate; cbn in O; destruct (Nat.eqb_spec h g) as [F|F]; try discriminate; subst h; injection O as <-; cbn [step] in E; rewrite G in E.
    - unfold publish in E. rewrite A, Nat.eqb_refl in E. injection E as <-. apply notified; assumption.
    - injection E as <-. unfold finish, withdraw. rewrite A, Nat.eqb_refl. apply notified; assumption.
    - injection E as <-. unfold finish, withdraw. rewrite A, Nat.eqb_refl. apply notified; assumption.
  Qed.
  Lemma never_stale g id p' : connecting p g id -> step p (Succeed g) = Some p' -> offers p' id g /\ takes_commands p' g.
  Proof.
    rewrite attempt_in. intros G E. cbn in E. rewrite G in E. destruct (published _ _ g id I G) as (ws & A & B). rewrite B in E. injection E as <-. split.
    - unfold offers. cbn [entries]. rewrite get_put, String.eqb_refl. reflexivity.
    - exists id. left. reflexivity.
  Qed.
  Lemma shared id x p' : offers p id x -> takes_commands p x -> step p (Call id) = Some p' ->
    answered p' (length (asked tr)) (Got x) /\ attempts p' = attempts p /\ entries p' = entries p.
  Proof.
    intros O T E. apply open_in in T. injection E as <-. unfold call. unfold offers in O. rewrite O, T. rewrite <- (i_calls _ _ I). repeat split. left. reflexivity.
  Qed.
  Lemma joined id g p' : connecting p g id -> step p (Call id) = Some p' -> attempts p' = attempts p /\ waits p' (length (asked tr)) g id.
  Proof.
    intros G E. apply entry_attempt in G as [ws G]. injection E as <-. unfold call. rewrite G. split; [reflexivity|]. rewrite <- (i_calls _ _ I).
    exists (filter (fun v => negb (mem v (gone p))) ws ++ [next_call p]). cbn [entries gone]. rewrite get_put, String.eqb_refl. split; [reflexivity|].
    split; [apply in_app_iff; right; left; reflexivity|]. intros K. apply (i_gone _ _ I) in K. rewrite <- (i_calls _ _ I) in K. lia.
  Qed.
  Lemma begun id p' : (forall g, ~ connecting p g id) -> (forall x, offers p id x -> ~ takes_commands p x) -> step p (Call id) = Some p' ->
    exists g, (forall j, ~ connecting p g j) /\ (forall j, ~ belongs p g j) /\ attempts p' = (g, id) :: attempts p /\ waits p' (length (asked tr)) g id.
  Proof.
    intros N O E. injection E as <-. exists (next_gen p).
    split; [intros j K; apply attempt_in in K; assert (X : next_gen p < next_gen p) by (apply (i_gens _ _ I); congruence); lia|].
    split; [intros j [b K]; apply exec_in in K; assert (X : next_gen p < next_gen p) by (apply (i_execs _ _ I); congruence); lia|].
    assert (X : call id p = mkpool (put id (Connecting (next_gen p) [next_call p]) (entries p)) (S (next_gen p)) ((next_gen p, id) :: attempts p)
                      (executors p) (S (next_call p)) (answers p) (gone p)).
    { unfold call. destruct (get id (entries p)) as [[g ws|x]|] eqn:G; [|destruct (is_open x p) eqn:Op; [|reflexivity]|reflexivity].
      - destruct (N g). apply entry_attempt. eauto.
      - destruct (O x G). apply open_in. exact Op. }
    rewrite X. split; [reflexivity|]. rewrite <- (i_calls _ _ I). exists [next_call p]. cbn [entries gone]. rewrite get_put, String.eqb_refl. split; [reflexivity|].
    split; [left; reflexivity|]. intros K. apply (i_gone _ _ I) in K. rewrite <- (i_calls _ _ I) in K. lia.
  Qed.
  Lemma nget_tail (w x : nat) (a : answer) (l : list (nat * answer)) (b : answer) : In (w, a) ((x, b) :: l) -> (w = x /\ a = b) \/ In (w, a) l.
  Proof. intros [[= -> ->]|H]; auto. Qed.
  Lemma handed_open a p' w x : step p a = Some p' -> answered p' w (Got x) -> ~ answered p w (Got x) -> takes_commands p' x.
  Proof.
    intros E A N. unfold answered in *.
    assert (Y : forall ws r, In (w, Got x) (notify ws r p) -> r = Got x).
    { intros ws r H. unfold notify in H. apply in_app_iff in H as [H|H]; [|contradiction]. apply in_map_iff in H as (v & [= _ <-] & _). reflexivity. }
    destruct a as [j|v|h|h e|h|y|y]; cbn [step] in E.
    - injection E as <-. unfold call in *. destruct (get j (entries p)) as [[g ws|y]|]; try contradiction. destruct (is_open y p) eqn:Op; [|contradiction].
      apply nget_tail in A as [[_ [= ->]]|A]; [|contradiction]. apply open_in in Op. exact Op.
    - destruct (_ && _); [|discriminate]. injection E as <-. contradiction.
    - destruct (nget h (attempts p)) as [id|] eqn:G; [|discriminate]. destruct (published _ _ h id I G) as (ws & B & C). rewrite C in E. injection E as <-.
      cbn [answers] in A. apply Y in A as [= ->]. exists id. left. reflexivity.
    - destruct (nget h (attempts p)) as [id|]; [|discriminate]. injection E as <-. unfold finish in A. destruct (withdraw h id (entries p)). apply Y in A. discriminate.
    - destruct (nget h (attempts p)) as [id|]; [|discriminate]. injection E as <-. unfold finish in A. destruct (withdraw h id (entries p)). apply Y in A. discriminate.
    - destruct (nget y (executors p)) as [[id [|]]|]; try discriminate. injection E as <-. contradiction.
    - destruct (nget y (executors p)) as [[id b]|]; [|discriminate]. injection E as <-. contradiction.
  Qed.
  Lemma evicts x p' : step p (Evict x) = Some p' -> attempts p' = attempts p /\
    forall id e, get id (entries p') = Some e <-> get id (entries p) = Some e /\ e <> Initialized x.
  Proof.
    intros E. cbn in E. destruct (nget x (executors p)) as [[j b]|] eqn:X; [|discriminate]. injection E as <-. split; [reflexivity|]. cbn [entries].
    assert (U : forall id, get id (entries p) = Some (Initialized x) -> id = j).
    { intros id K. destruct (i_ready _ _ I id x K) as [c Z]. congruence. }
    intros id e. unfold evict. destruct (get j (entries p)) as [[g ws|y]|] eqn:H.
    - split; [|tauto]. intros K. split; [exact K|]. intros ->. rewrite (U id K) in K. congruence.
    - destruct (Nat.eqb_spec y x) as [F|F].
      + subst y. rewrite get_del. destruct (String.eqb_spec j id) as [K|K].
        * subst id. split; [discriminate|]. intros [Z1 Z2]. congruence.
        * split; [|tauto]. intros Z. split; [exact Z|]. intros ->. apply K. symmetry. apply U. exact Z.
      + split; [|tauto]. intros K. split; [exact K|]. intros ->. rewrite (U id K) in K. congruence.
    - split; [|tauto]. intros K. split; [exact K|]. intros ->. rewrite (U id K) in K. congruence.
  Qed.
  Lemma looked_up id x : get_initialized id p = Some x <-> offers p id x /\ takes_commands p x.
  Proof.
    rewrite open_in. unfold get_initialized, offers. destruct (get id (entries p)) as [[g ws|y]|].
    - split; [discriminate|intros [[=] _]].
    - destruct (is_open y p) eqn:Op; split.
      + intros [= <-]. auto.
      + intros [[= <-] _]. reflexivity.
      + discriminate.
      + intros [[= <-] K]. congruence.
    - split; [discriminate|intros [[=] _]].
  Qed.
End Main.
(* An answer is not taken back. *)
Lemma kept p a p' w r : step p a = Some p' -> answered p w r -> answered p' w r.
Proof.
  intros E A. unfold answered in *. destruct a as [j|v|h|h e|h|y|y]; cbn [step] in E.
  - injection E as <-. unfold call. destruct (get j (entries p)) as [[g ws|y]|]; try exact A. destruct (is_open y p); [right|]; exact A.
  - destruct (_ && _); [|discriminate]. injection E as <-. exact A.
  - destruct (nget h (attempts p)) as [id|]; [|discriminate]. destruct (publish h id (entries p)) as [[l ws]|]; injection E as <-; cbn; apply in_app_iff; auto.
  - destruct (nget h (attempts p)) as [id|]; [|discriminate]. injection E as <-. unfold finish. destruct (withdraw h id (entries p)). cbn. apply in_app_iff. auto.
  - destruct (nget h (attempts p)) as [id|]; [|discriminate]. injection E as <-. unfold finish. destruct (withdraw h id (entries p)). cbn. apply in_app_iff. auto.
  - destruct (nget y (executors p)) as [[id [|]]|]; try discriminate. injection E as <-. exact A.
  - destruct (nget y (executors p)) as [[id b]|]; [|discriminate]. injection E as <-. exact A.
Qed.

Lemma closes tr p (R : steps empty tr = Some p) x : takes_commands p x ->
  exists p', step p (Close x) = Some p' /\ ~ takes_commands p' x /\ (forall y, y <> x -> (takes_commands p' y <-> takes_commands p y)) /\ (forall y id, belongs p' y id <-> belongs p y id) /\
    entries p' = entries p /\ attempts p' = attempts p /\ answers p' = answers p /\ gone p' = gone p.
Proof.
  intros [id I]. pose proof (inv_steps tr p R) as V. destruct (i_execs _ _ V) as [D _]. pose proof (in_nget _ _ _ _ D I) as G. cbn [step]. rewrite G. eexists. split; [reflexivity|]. unfold takes_commands, belongs. cbn [executors entries attempts answers gone].
  assert (X : forall y e, In (y, e) (ndel x (executors p)) <-> In (y, e) (executors p) /\ y <> x).
  { intros y e. unfold ndel. rewrite filter_In. cbn. rewrite negb_true_iff, Nat.eqb_neq. intuition congruence. }
  split; [|split; [|split; [|now repeat split]]].
  - intros [i [[= ]|J]]. apply X in J. now destruct J.
  - intros y N. split; intros [i J]; exists i.
    + destruct J as [[=]|J]. now apply X in J.
    + right. now apply X.
  - intros y i. split; intros [b J].
    + destruct J as [E|J]; [injection E as <- <- <-; now exists true|]. apply X in J. now exists b.
    + destruct (Nat.eq_dec y x) as [->|N]; [|exists b; right; now apply X]. apply (in_nget _ _ _ _ D) in J. rewrite G in J. injection J as <- <-. exists false. now left.
Qed.
