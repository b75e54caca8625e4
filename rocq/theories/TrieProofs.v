From Coq Require Import String List Bool Arith Lia.
From Verif Require Import TrieModel.
Import ListNotations.

Lemma seg_eqb_eq a b : seg_eqb a b = true <-> a = b.
Proof.
  destruct a, b; simpl; rewrite ?String.eqb_eq; split; intro H; try discriminate; try congruence.
Qed.

Lemma seg_eqb_refl a : seg_eqb a a = true.
Proof. apply seg_eqb_eq. reflexivity. Qed.

Lemma seg_eqb_neq a b : seg_eqb a b = false <-> a <> b.
Proof.
  split; intro H.
  - intro E. apply seg_eqb_eq in E. congruence.
  - destruct (seg_eqb a b) eqn:E; [|reflexivity]. apply seg_eqb_eq in E. congruence.
Qed.

Definition prefix (q p : path) : Prop := exists r, p = q ++ r.

Lemma prefix_app q r : prefix q (q ++ r).
Proof. exists r. reflexivity. Qed.

Lemma prefix_refl q : prefix q q.
Proof. exists []. rewrite app_nil_r. reflexivity. Qed.

Lemma prefix_trans a b c : prefix a b -> prefix b c -> prefix a c.
Proof. intros [r ->] [s ->]. exists (r ++ s). rewrite app_assoc. reflexivity. Qed.

Lemma prefix_nil p : prefix [] p.
Proof. exists p. reflexivity. Qed.

Lemma prefix_snoc q p s : prefix q (p ++ [s]) -> prefix q p \/ q = p ++ [s].
Proof.
  intros [r H]. destruct (rev r) as [|x r'] eqn:E.
  - apply (f_equal (@rev seg)) in E. rewrite rev_involutive in E. simpl in E. subst r.
    right. rewrite app_nil_r in H. congruence.
  - apply (f_equal (@rev seg)) in E. rewrite rev_involutive in E. simpl in E. subst r.
    rewrite app_assoc in H. apply app_inj_tail in H. destruct H as [-> ->]. left. exists (rev r'). reflexivity.
Qed.

Lemma app_snoc_neq (p : path) s : p ++ [s] <> [].
Proof. destruct p; discriminate. Qed.

(** ** List update *)
Lemma update_nth_length i f t : length (update_nth i f t) = length t.
Proof. revert i; induction t; intros [|i]; simpl; auto. Qed.

Lemma node_update_same i f t : i < length t -> node_at (update_nth i f t) i = f (node_at t i).
Proof.
  unfold node_at. revert i; induction t as [|n t IH]; intros [|i] H; simpl in *; try lia; [reflexivity|].
  apply IH. lia.
Qed.

Lemma node_update_other i j f t : i <> j -> node_at (update_nth i f t) j = node_at t j.
Proof.
  unfold node_at. revert i j; induction t as [|n t IH]; intros [|i] [|j] H; simpl; auto; try congruence.
Qed.

Lemma node_app_l t x i : i < length t -> node_at (t ++ [x]) i = node_at t i.
Proof. intro H. unfold node_at. apply app_nth1. assumption. Qed.

Lemma node_app_new t x : node_at (t ++ [x]) (length t) = x.
Proof. unfold node_at. rewrite app_nth2 by lia. rewrite Nat.sub_diag. reflexivity. Qed.

(** ** Representation: a label (the path from the root) for every node *)
Record repr (t : trie) (lab : list path) (M : path -> Prop) : Prop := {
  r_len : length lab = length t;
  r_root : nth_error lab 0 = Some [];
  r_nodup : NoDup lab;
  r_closed : forall p s, In (p ++ [s]) lab -> In p lab;
  r_child : forall i p, nth_error lab i = Some p ->
            forall s j, assoc_seg s (children (node_at t i)) = Some j <->
                        nth_error lab j = Some (p ++ [s]);
  r_mark : forall i p, nth_error lab i = Some p -> (marked (node_at t i) = true <-> M p);
  r_in : forall p, M p -> In p lab }.

Lemma nth_error_app_last {A} (l : list A) x : nth_error (l ++ [x]) (length l) = Some x.
Proof. rewrite nth_error_app2 by lia. rewrite Nat.sub_diag. reflexivity. Qed.

Lemma nth_error_snoc {A} (l : list A) x i y :
  nth_error (l ++ [x]) i = Some y ->
  (i < length l /\ nth_error l i = Some y) \/ (i = length l /\ y = x).
Proof.
  intro H. destruct (Nat.lt_ge_cases i (length l)) as [L|L].
  - left. rewrite nth_error_app1 in H by assumption. auto.
  - right. rewrite nth_error_app2 in H by assumption.
    destruct (i - length l) as [|k] eqn:E; [|destruct k; discriminate].
    simpl in H. split; [lia|congruence].
Qed.

Lemma snoc_self (p : path) s : p <> p ++ [s].
Proof. intro H. apply (f_equal (@length seg)) in H. rewrite app_length in H. simpl in H. lia. Qed.

Lemma lab_prefix t lab M p q : repr t lab M -> In p lab -> prefix q p -> In q lab.
Proof.
  intros R. revert q. induction p as [|x p IHp] using rev_ind; intros q Hin H.
  - destruct H as [r H]. symmetry in H. apply app_eq_nil in H. destruct H as [-> _]. assumption.
  - apply prefix_snoc in H. destruct H as [H| ->]; [|assumption].
    apply IHp; [|assumption]. eapply r_closed; eassumption.
Qed.

Lemma add_path_repr : forall segs t lab M cur p,
  repr t lab M -> nth_error lab cur = Some p ->
  exists lab',
    repr (add_path t cur segs) lab' (fun q => M q \/ (q = p ++ segs /\ segs <> [])) /\
    (forall q, In q lab' <-> In q lab \/ prefix q (p ++ segs)).
Proof.
  induction segs as [|s rest IH]; intros t lab M cur p R Hcur.
  - exists lab. simpl. split.
    + destruct R as [a b c d e f g]. split; auto.
      * intros i q Hq. rewrite (f i q Hq).
        split; [auto|]. intros [H|[_ H]]; [assumption|congruence].
      * intros q [H|[_ H]]; [auto|congruence].
    + intro q. rewrite app_nil_r. split; [auto|]. intros [H|H]; [assumption|].
      assert (In p lab) by (eapply nth_error_In; eassumption).
      eapply lab_prefix; eassumption.
  - set (next_info := match assoc_seg s (children (node_at t cur)) with
        | Some j => (t, j)
        | None => (update_nth cur (add_child s (length t)) (t ++ [empty_node]), length t)
        end).
    assert (STEP : exists lab1,
              repr (fst next_info) lab1 M /\ nth_error lab1 (snd next_info) = Some (p ++ [s]) /\
              (forall q, In q lab1 <-> In q lab \/ q = p ++ [s])).
    { subst next_info. destruct (assoc_seg s (children (node_at t cur))) as [j|] eqn:E; cbn [fst snd].
      - exists lab. pose proof (proj1 (r_child _ _ _ R cur p Hcur s j) E) as Hj.
        split; [assumption|]. split; [assumption|]. intro q. split; [auto|].
        intros [H| ->]; [assumption|]. eapply nth_error_In; eassumption.
      - pose proof (r_len _ _ _ R) as HL.
        assert (Hlt : cur < length t) by (rewrite <- HL; apply nth_error_Some; congruence).
        assert (Hfresh : ~ In (p ++ [s]) lab).
        { intro Hin. apply In_nth_error in Hin. destruct Hin as [j Hj].
          apply (r_child _ _ _ R cur p Hcur s j) in Hj. congruence. }
        exists (lab ++ [p ++ [s]]). split; [|split].
        + split.
          * rewrite app_length, update_nth_length, app_length. simpl. lia.
          * rewrite nth_error_app1 by lia. apply (r_root _ _ _ R).
          * apply NoDup_Add with (a := p ++ [s]) (l := lab).
            -- rewrite <- (app_nil_r lab) at 1. apply Add_app.
            -- split; [apply (r_nodup _ _ _ R)|assumption].
          * intros q x Hin. apply in_app_or in Hin. apply in_or_app. destruct Hin as [Hin|[Hin|[]]].
            -- left. eapply r_closed; eassumption.
            -- apply app_inj_tail in Hin. destruct Hin as [-> _]. left. eapply nth_error_In; eassumption.
          * intros i q Hi x j. apply nth_error_snoc in Hi. destruct Hi as [[Li Hi]|[-> ->]].
            -- assert (Hit : i < length t) by lia.
               destruct (Nat.eq_dec cur i) as [<-|Hne].
               ++ assert (q = p) by congruence. subst q.
                  rewrite node_update_same by (rewrite app_length; simpl; lia).
                  rewrite node_app_l by assumption. cbn [add_child children assoc_seg].
                  destruct (seg_eqb x s) eqn:Ex.
                  ** apply seg_eqb_eq in Ex. subst x. split; intro H.
                     --- inversion H; subst. rewrite <- HL. apply nth_error_app_last.
                     --- apply nth_error_snoc in H. destruct H as [[_ H]|[-> _]]; [|f_equal; lia].
                         exfalso. apply Hfresh. eapply nth_error_In; eassumption.
                  ** rewrite (r_child _ _ _ R cur p Hcur x j). split; intro H.
                     --- rewrite nth_error_app1; [assumption|]. apply nth_error_Some. congruence.
                     --- apply nth_error_snoc in H. destruct H as [[_ H]|[_ H]]; [assumption|].
                         apply app_inj_tail in H. destruct H as [_ ->]. rewrite seg_eqb_refl in Ex. discriminate.
               ++ rewrite node_update_other by assumption. rewrite node_app_l by assumption.
                  rewrite (r_child _ _ _ R i q Hi x j). split; intro H.
                  ** rewrite nth_error_app1; [assumption|]. apply nth_error_Some. congruence.
                  ** apply nth_error_snoc in H. destruct H as [[_ H]|[_ H]]; [assumption|].
                     exfalso. apply app_inj_tail in H. destruct H as [-> _]. apply Hne.
                     eapply (proj1 (NoDup_nth_error lab)); [apply (r_nodup _ _ _ R)|lia|congruence].
            -- rewrite HL. rewrite node_update_other by lia. rewrite node_app_new. cbn.
               split; [discriminate|]. intro H. exfalso.
               apply nth_error_snoc in H. destruct H as [[_ H]|[_ H]].
               ++ apply Hfresh. eapply r_closed; [exact R|]. eapply nth_error_In; eassumption.
               ++ symmetry in H. apply snoc_self in H. assumption.
          * intros i q Hi. apply nth_error_snoc in Hi. destruct Hi as [[Li Hi]|[-> ->]].
            -- assert (Hit : i < length t) by lia.
               destruct (Nat.eq_dec cur i) as [<-|Hne].
               ++ rewrite node_update_same by (rewrite app_length; simpl; lia).
                  rewrite node_app_l by assumption. cbn [add_child marked].
                  apply (r_mark _ _ _ R). assumption.
               ++ rewrite node_update_other by assumption. rewrite node_app_l by assumption.
                  apply (r_mark _ _ _ R). assumption.
            -- rewrite HL. rewrite node_update_other by lia. rewrite node_app_new. cbn.
               split; [discriminate|]. intro HM. exfalso. apply Hfresh. apply (r_in _ _ _ R). assumption.
          * intros q Hq. apply in_or_app. left. apply (r_in _ _ _ R). assumption.
        + rewrite <- HL. apply nth_error_app_last.
        + intro q. rewrite in_app_iff. simpl. intuition congruence. }
    destruct STEP as (lab1 & R1 & Hnext & Hlab1).
    change (add_path t cur (s :: rest)) with
      (let '(t1, next) := next_info in
       add_path (match rest with [] => update_nth next set_mark t1 | _ => t1 end) next rest).
    destruct next_info as [t1 next]. cbn [fst snd] in R1, Hnext.
    destruct rest as [|s' rest].
    + simpl. exists lab1. split.
      * pose proof (r_len _ _ _ R1) as HL.
        assert (Hlt : next < length t1) by (rewrite <- HL; apply nth_error_Some; congruence).
        split.
        -- rewrite update_nth_length. assumption.
        -- apply (r_root _ _ _ R1).
        -- apply (r_nodup _ _ _ R1).
        -- apply (r_closed _ _ _ R1).
        -- intros i q Hi x j. rewrite <- (r_child _ _ _ R1 i q Hi x j).
           destruct (Nat.eq_dec next i) as [<-|Hne].
           ++ rewrite node_update_same by assumption. reflexivity.
           ++ rewrite node_update_other by assumption. reflexivity.
        -- intros i q Hi. destruct (Nat.eq_dec next i) as [<-|Hne].
           ++ rewrite node_update_same by assumption. cbn. assert (q = p ++ [s]) by congruence.
              split; [|reflexivity]. intros _. right. split; [assumption|discriminate].
           ++ rewrite node_update_other by assumption. rewrite (r_mark _ _ _ R1 i q Hi).
              split; [auto|]. intros [H|[H _]]; [assumption|]. exfalso. apply Hne.
              apply (proj1 (NoDup_nth_error lab1) (r_nodup _ _ _ R1)); [rewrite HL; assumption|].
              rewrite Hnext, Hi, H. reflexivity.
        -- intros q [H|[-> _]]; [apply (r_in _ _ _ R1); assumption|]. eapply nth_error_In; eassumption.
      * intro q. rewrite Hlab1. split.
        -- intros [H| ->]; [auto|]. right. apply prefix_refl.
        -- intros [H|H]; [auto|]. apply prefix_snoc in H. destruct H as [H|H]; [|auto]. left.
           assert (Hin : In p lab) by (eapply nth_error_In; eassumption).
           eapply lab_prefix; eassumption.
    + destruct (IH t1 lab1 M next (p ++ [s]) R1 Hnext) as (lab' & R' & Hlab').
      exists lab'. rewrite <- app_assoc in R', Hlab'. simpl app in R', Hlab'.
      split.
      * destruct R' as [a b c d e f g]. split; auto.
        -- intros i q Hi. rewrite (f i q Hi). intuition discriminate.
        -- intros q [H|[H _]]; apply g; [auto|]. right. split; [assumption|discriminate].
      * intro q. rewrite Hlab', Hlab1. split.
        -- intros [[H| ->]|H]; auto. right. exists (s' :: rest). rewrite <- app_assoc. reflexivity.
        -- intros [H|H]; auto.
Qed.

(** The trie built from a list of paths represents exactly that list. *)
Lemma from_paths_repr ps :
  exists lab, repr (from_paths ps) lab (fun q => In q ps /\ q <> []) /\
              (forall q, In q lab <-> q = [] \/ exists p, In p ps /\ prefix q p).
Proof.
  unfold from_paths.
  assert (B : repr [empty_node] [[]] (fun q => In q [] /\ q <> [])).
  { split.
    - reflexivity.
    - reflexivity.
    - repeat constructor; auto.
    - intros p s [H|[]]. symmetry in H. apply app_snoc_neq in H. destruct H.
    - intros [|i] p Hp s j; [|destruct i; discriminate].
      simpl in Hp. inversion Hp; subst. cbn. split; [discriminate|]. intro H.
      destruct j as [|[|j]]; discriminate.
    - intros [|i] p Hp; [|destruct i; discriminate]. cbn. split; [discriminate|]. intros [[] _].
    - intros p [[] _]. }
  assert (G : forall qs t lab done,
             repr t lab (fun q => In q done /\ q <> []) ->
             (forall q, In q lab <-> q = [] \/ exists p, In p done /\ prefix q p) ->
             exists lab', repr (fold_left (fun t p => add_path t 0 p) qs t) lab'
                               (fun q => In q (done ++ qs) /\ q <> []) /\
                          (forall q, In q lab' <-> q = [] \/ exists p, In p (done ++ qs) /\ prefix q p)).
  { induction qs as [|p qs IH]; intros t lab done R H.
    - exists lab. rewrite app_nil_r. auto.
    - simpl. destruct (add_path_repr p t lab _ 0 [] R (r_root _ _ _ R)) as (lab1 & R1 & H1).
      simpl app in R1, H1.
      destruct (IH (add_path t 0 p) lab1 (done ++ [p])) as (lab' & R' & H').
      + destruct R1 as [a b c d e f g]. split; auto.
        * intros i q Hi. rewrite (f i q Hi). rewrite in_app_iff. simpl. split.
          -- intros [[X Y]|[-> Y]]; auto.
          -- intros [[X|[->|[]]] Y]; auto.
        * intros q [X Y]. apply g. apply in_app_or in X. destruct X as [X|[->|[]]]; auto.
      + intro q. rewrite H1, H. split.
        * intros [[->|[x [X Y]]]|X]; auto; right.
          -- exists x. split; [apply in_or_app; auto|assumption].
          -- exists p. split; [apply in_or_app; simpl; auto|assumption].
        * intros [->|[x [X Y]]]; auto. apply in_app_or in X. destruct X as [X|[->|[]]]; eauto.
      + rewrite <- app_assoc in R', H'. exists lab'. auto. }
  apply (G ps [empty_node] [[]] [] B).
  intro q. simpl. split; [intros [<-|[]]; auto|]. intros [->|[p [[] _]]]; auto.
Qed.

(** A walk from the root: position [i] is where path [p] leads. *)
Section Walk.
  Variable ps : list path.
  Definition reaches (i : nat) (p : path) : Prop :=
    exists lab, repr (from_paths ps) lab (fun q => In q ps /\ q <> []) /\
                (forall q, In q lab <-> q = [] \/ exists p, In p ps /\ prefix q p) /\
                nth_error lab i = Some p.

  Lemma reaches_root : reaches 0 [].
  Proof.
    destruct (from_paths_repr ps) as (lab & R & H). exists lab. split; [assumption|]. split; [assumption|].
    apply (r_root _ _ _ R).
  Qed.

  Lemma reaches_in_bounds i p : reaches i p -> i < length (from_paths ps).
  Proof.
    intros (lab & R & _ & H). rewrite <- (r_len _ _ _ R). apply nth_error_Some. congruence.
  Qed.

  Lemma find_segment_some i p s j m :
    reaches i p -> find_segment (from_paths ps) i s = Some (j, m) ->
    reaches j (p ++ [s]) /\ (m = true <-> In (p ++ [s]) ps) /\
    exists q, In q ps /\ prefix (p ++ [s]) q.
  Proof.
    intros (lab & R & H & Hi). unfold find_segment.
    destruct (assoc_seg s (children (node_at (from_paths ps) i))) as [j'|] eqn:E; [|discriminate].
    intro X. injection X as -> Hm. apply (r_child _ _ _ R i p Hi) in E.
    assert (Hin : In (p ++ [s]) lab) by (eapply nth_error_In; eassumption).
    split; [|split].
    - exists lab. auto.
    - subst m. rewrite (r_mark _ _ _ R j _ E). split; [intros [X _]; assumption|].
      intro X. split; [assumption|apply app_snoc_neq].
    - apply H in Hin. destruct Hin as [X|X]; [|assumption]. apply app_snoc_neq in X. destruct X.
  Qed.

  Lemma find_segment_none i p s :
    reaches i p -> find_segment (from_paths ps) i s = None ->
    forall q, In q ps -> ~ prefix (p ++ [s]) q.
  Proof.
    intros (lab & R & H & Hi). unfold find_segment.
    destruct (assoc_seg s (children (node_at (from_paths ps) i))) as [j'|] eqn:E; [discriminate|].
    intros _ q Hq Hp.
    assert (Hin : In (p ++ [s]) lab) by (apply H; right; eauto).
    apply In_nth_error in Hin. destruct Hin as [j Hj]. apply (r_child _ _ _ R i p Hi) in Hj. congruence.
  Qed.

  Lemma no_children i s : has_children (from_paths ps) i = false -> find_segment (from_paths ps) i s = None.
  Proof.
    unfold has_children, find_segment. destruct (children (node_at (from_paths ps) i)); [reflexivity|discriminate].
  Qed.
End Walk.
