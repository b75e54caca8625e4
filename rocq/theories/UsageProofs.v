(** Proofs about the set of seen keys and about reports. *)
From Coq Require Import String List NArith ZArith Bool Arith Lia.
From Verif Require Import UsageModel UsageSpec.
Import ListNotations.
Local Open Scope string_scope.
Local Open Scope list_scope.

Lemma nmem_in v l : nmem v l = true <-> In v l.
Proof.
  unfold nmem. rewrite existsb_exists. split.
  - intros (x & I & E). apply N.eqb_eq in E. subst. exact I.
  - intros I. exists v. split; [exact I | apply N.eqb_refl].
Qed.
Lemma nremove_in v x l : In x (nremove v l) <-> In x l /\ x <> v.
Proof.
  unfold nremove. rewrite filter_In. destruct (N.eqb v x) eqn:E; [apply N.eqb_eq in E | apply N.eqb_neq in E]; cbn; split; intros (A & B); split; auto; congruence.
Qed.
Lemma nremove_out v l : ~ In v l -> nremove v l = l.
Proof.
  induction l as [|x l IH]; intros H; [reflexivity|]. unfold nremove in *. cbn [filter]. destruct (N.eqb v x) eqn:E.
  - apply N.eqb_eq in E. exfalso. apply H. left. congruence.
  - cbn. f_equal. apply IH. intros G. apply H. right. exact G.
Qed.
Lemma nremove_length v l : NoDup l -> In v l -> length l = S (length (nremove v l)).
Proof.
  induction l as [|x l IH]; intros D H; [destruct H|]. inversion D as [|? ? O D']; subst. unfold nremove. cbn [filter].
  destruct (N.eqb v x) eqn:E; cbn [negb length].
  - apply N.eqb_eq in E. subst. fold (nremove x l). rewrite nremove_out by exact O. reflexivity.
  - f_equal. apply IH; auto. destruct H as [->|H]; [rewrite N.eqb_refl in E; discriminate | exact H].
Qed.
Lemma set_at_app a x b v : set_at (length a) v (a ++ x :: b) = a ++ v :: b.
Proof. induction a as [|y a IH]; [reflexivity|]. cbn. f_equal. exact IH. Qed.
Lemma nth_mid {A} (a : list A) x b d : nth (length a) (a ++ x :: b) d = x.
Proof. induction a as [|y a IH]; [reflexivity|]. exact IH. Qed.
Lemma split_at {A} n (l : list A) : n < length l -> exists a x b, l = a ++ x :: b /\ length a = n.
Proof.
  revert l. induction n as [|n IH]; intros [|y l] H; cbn in H; try lia.
  - exists [], y, l. split; reflexivity.
  - destruct (IH l) as (a & x & b & -> & L); [lia|]. exists (y :: a), x, b. split; [reflexivity | cbn; lia].
Qed.
Lemma recent_le c h : length (recent c h) <= c.
Proof. induction h as [|k h IH]; [cbn; lia|]. cbn. destruct (in_dec _ _ _); [exact IH|]. rewrite firstn_length. lia. Qed.
Lemma recent_sub c h k : In k (recent c h) -> In k h.
Proof.
  induction h as [|x h IH]; [intros []|]. cbn [recent]. destruct (in_dec _ _ _); intros H; [right; auto|].
  assert (G : In k (x :: recent c h)).
  { rewrite <- (firstn_skipn c (x :: recent c h)). apply in_or_app. left. exact H. }
  destruct G as [->|G]; [left; reflexivity | right; auto].
Qed.

(** The ring is the window *)
Record rings (s : fifo) (h : list N) : Prop := mkrings {
  g_cap : 0 < capacity s;
  g_next : next_evict s < capacity s;
  g_len : length (order s) <= capacity s;
  g_fill : length (order s) < capacity s -> next_evict s = length (order s);
  g_nodup : NoDup (order s);
  g_nodup' : NoDup (seen s);
  g_same : forall v, In v (seen s) <-> In v (order s);
  g_count : length (seen s) = length (order s);
  g_window : rev (recent (capacity s) h) = skipn (next_evict s) (order s) ++ firstn (next_evict s) (order s) }.
Lemma rings_new c : 0 < c -> rings (fifo_new c) [].
Proof. intros H. constructor; cbn; try lia; try constructor; try tauto. Qed.
Lemma rings_in s h v : rings s h -> (In v (seen s) <-> In v (recent (capacity s) h)).
Proof.
  intros [g_cap g_next g_len g_fill g_nodup g_nodup' g_same g_count g_window].
  rewrite g_same, (in_rev (recent _ h)), g_window. rewrite <- (firstn_skipn (next_evict s) (order s)) at 1. rewrite !in_app_iff. tauto.
Qed.
Lemma rings_insert s h v : rings s h ->
  (fst (fifo_insert s v) = true <-> fresh (capacity s) h v) /\ rings (snd (fifo_insert s v)) (v :: h) /\ capacity (snd (fifo_insert s v)) = capacity s.
Proof.
  intros R. pose proof (rings_in s h v R) as M. destruct R. unfold fifo_insert, fresh. destruct (nmem v (seen s)) eqn:E.
  - apply nmem_in in E. cbn [fst snd]. split; [split; [discriminate | intros F; exfalso; apply F, M, E]|].
    split; [|reflexivity]. constructor; auto. cbn [recent]. apply M in E. destruct (in_dec _ _ _); [auto | contradiction].
  - assert (F : ~ In v (seen s)) by (intros G; apply nmem_in in G; congruence).
    assert (F' : ~ In v (recent (capacity s) h)) by (rewrite <- M; exact F).
    assert (F2 : ~ In v (order s)) by (rewrite <- g_same0; exact F).
    destruct (Nat.eqb (length (seen s)) (capacity s)) eqn:L; cbn [fst snd]; (split; [tauto|]); (split; [|reflexivity]).
    + apply Nat.eqb_eq in L. rewrite g_count0 in L.
      destruct (split_at (next_evict s) (order s)) as (a & x & b & O & A); [lia|].
      rewrite O, <- A, set_at_app, nth_mid. rewrite O in *. rewrite <- A in *.
      assert (LL : length a + S (length b) = capacity s) by (rewrite <- L, app_length; reflexivity).
      assert (X : ~ In x (a ++ b)) by (apply NoDup_remove_2 in g_nodup0; exact g_nodup0).
      assert (W : rev (recent (capacity s) h) = x :: b ++ a).
      { rewrite g_window0. rewrite skipn_app, firstn_app, Nat.sub_diag, skipn_all, firstn_all. cbn [skipn firstn app]. rewrite app_nil_r. reflexivity. }
      assert (W1 : rev (firstn (capacity s) (v :: recent (capacity s) h)) = b ++ a ++ [v]).
      { rewrite <- (rev_involutive (recent (capacity s) h)), W. cbn [rev]. change (v :: rev (b ++ a) ++ [x]) with ((v :: rev (b ++ a)) ++ [x]).
        rewrite firstn_app. replace (capacity s - length (v :: rev (b ++ a))) with 0 by (cbn; rewrite rev_length, app_length; lia).
        rewrite firstn_all2 by (cbn; rewrite rev_length, app_length; lia). cbn [firstn]. rewrite app_nil_r. cbn [rev]. rewrite rev_involutive, <- app_assoc. reflexivity. }
      constructor; cbn [capacity next_evict order seen].
      * exact g_cap0.
      * apply Nat.mod_upper_bound. lia.
      * rewrite app_length. cbn. lia.
      * rewrite app_length. cbn. lia.
      * apply NoDup_remove_1 in g_nodup0. apply (NoDup_Add (Add_app v a b)). split; [exact g_nodup0|].
        intros G. apply F2. apply in_app_iff in G. apply in_app_iff. cbn. tauto.
      * constructor; [|unfold nremove; apply NoDup_filter; exact g_nodup'0]. intros G. apply nremove_in in G as (G & _). exact (F G).
      * intros y. cbn [In]. rewrite nremove_in, g_same0, !in_app_iff. cbn [In]. rewrite in_app_iff in X.
        split; [intros [->|(G & N)]; [auto|] | intros [G|[->|G]]; auto].
        -- destruct G as [G|[G|G]]; [auto | congruence | auto].
        -- right. split; [auto|]. intros ->. tauto.
        -- right. split; [auto|]. intros ->. tauto.
      * cbn [length]. assert (IX : In x (seen s)) by (apply g_same0, in_or_app; right; left; reflexivity).
        rewrite <- (nremove_length x (seen s) g_nodup'0 IX), app_length. cbn. lia.
      * cbn [recent]. destruct (in_dec _ _ _); [contradiction|]. rewrite W1.
        destruct (le_lt_dec (capacity s) (length a + 1)) as [H|H].
        -- assert (Z : length b = 0) by lia. destruct b; [|discriminate]. replace (length a + 1) with (capacity s) by lia. rewrite Nat.mod_same by lia.
           cbn [skipn firstn app]. rewrite app_nil_r. reflexivity.
        -- rewrite Nat.mod_small by lia. change (v :: b) with ([v] ++ b). rewrite (app_assoc a [v] b).
           replace (length a + 1) with (length (a ++ [v])) by (rewrite app_length; reflexivity).
           rewrite skipn_app, firstn_app, Nat.sub_diag, skipn_all, firstn_all. cbn [skipn firstn app]. rewrite app_nil_r. reflexivity.
    + apply Nat.eqb_neq in L. assert (L' : length (order s) < capacity s) by lia. specialize (g_fill0 L').
      assert (W : rev (recent (capacity s) h) = order s).
      { rewrite g_window0, g_fill0, skipn_all, firstn_all. reflexivity. }
      assert (WL : length (recent (capacity s) h) = length (order s)) by (rewrite <- W, rev_length; reflexivity).
      constructor; cbn [capacity next_evict order seen].
      * exact g_cap0.
      * apply Nat.mod_upper_bound. lia.
      * rewrite app_length. cbn. lia.
      * rewrite app_length. cbn. intros H. rewrite Nat.mod_small by lia. lia.
      * apply (NoDup_Add (l := order s) (a := v)); [rewrite <- (app_nil_r (order s)) at 1; apply Add_app | auto].
      * constructor; assumption.
      * intros y. cbn [In]. rewrite in_app_iff, g_same0. cbn [In]. tauto.
      * rewrite app_length. cbn. lia.
      * cbn [recent]. destruct (in_dec _ _ _); [contradiction|]. rewrite firstn_all2 by (cbn; lia). cbn [rev]. rewrite W.
        destruct (le_lt_dec (capacity s) (length (order s) + 1)) as [H|H].
        -- rewrite g_fill0. replace (length (order s) + 1) with (capacity s) by lia. rewrite Nat.mod_same by lia. cbn [skipn firstn]. rewrite app_nil_r. reflexivity.
        -- rewrite Nat.mod_small by lia. rewrite g_fill0. replace (length (order s) + 1) with (length (order s ++ [v])) by (rewrite app_length; reflexivity).
           rewrite skipn_all, firstn_all. reflexivity.
Qed.

(** Reports *)
Lemma get_in {A} k (l : list (string * A)) : (exists a, get k l = Some a) <-> In k (map fst l).
Proof.
  induction l as [|[k' a] l IH]; cbn; [split; [intros (? & [=]) | tauto]|]. destruct (String.eqb k k') eqn:E.
  - apply String.eqb_eq in E. subst. split; eauto.
  - apply String.eqb_neq in E. rewrite IH. split; [auto | intros [G|G]; [congruence | exact G]].
Qed.
Lemma get_some {A} k (l : list (string * A)) a : get k l = Some a -> In (k, a) l.
Proof.
  induction l as [|[k' b] l IH]; cbn; [discriminate|]. destruct (String.eqb k k') eqn:E; [|auto].
  apply String.eqb_eq in E. intros [= ->]. subst. auto.
Qed.
Lemma non_empty_none o : non_empty o = None <-> o = None \/ o = Some "".
Proof. destruct o as [[|ch s]|]; cbn; split; auto; try discriminate. intros [?|?]; discriminate. Qed.
Lemma non_empty_some o s : non_empty o = Some s -> o = Some s.
Proof. destruct o as [[|ch t]|]; cbn; auto; discriminate. Qed.
Lemma entry_told p x : entry_tells (entry_of p x) (x, p).
Proof.
  unfold entry_tells, entry_of; cbn [e_key e_time e_ok e_nanos e_errors e_document e_client].
  repeat (split; [reflexivity|]). split.
  { change 18446744073709551615%N with u64_max. destruct (x_nanos x <=? u64_max)%N eqn:L; [apply N.leb_le in L | apply N.leb_gt in L]; lia. }
  repeat (split; [reflexivity|]). split.
  - rewrite <- !non_empty_none. destruct (non_empty (x_client x)), (non_empty (x_version x)); split; intros H; try discriminate H; auto; destruct H; discriminate.
  - intros n v. destruct (x_client x) as [[|c1 s1]|], (x_version x) as [[|c2 s2]|]; cbn; intros [= <- <-]; auto.
Qed.

Section Report.
  Variable f : exec -> option processed.
  Lemma told_app l l' : told f (l ++ l') = told f l ++ told f l'.
  Proof. apply flat_map_app. Qed.
  Lemma told_one x : told f [x] = match f x with Some p => [(x, p)] | None => [] end.
  Proof. cbn. destruct (f x); reflexivity. Qed.
  Lemma tells_empty : tells f empty_report [].
  Proof. constructor; cbn; [constructor | reflexivity | constructor | intros k; split; [intros [] | intros (x & p & [] & _)] | intros k i []]. Qed.
  Lemma tells_skip r l x : tells f r l -> f x = None -> tells f r (l ++ [x]).
  Proof. intros [] E. assert (T : told f (l ++ [x]) = told f l) by (rewrite told_app, told_one, E; apply app_nil_r). constructor; rewrite ?T; auto. Qed.
  Lemma tells_add r l x p : tells f r l -> f x = Some p -> tells f (add_op p x r) (l ++ [x]).
  Proof.
    intros [t_e t_s t_k t_u t_f] E. assert (T : told f (l ++ [x]) = told f l ++ [(x, p)]) by (rewrite told_app, told_one, E; reflexivity).
    unfold add_op. constructor; rewrite ?T; cbn [r_entries r_size r_map].
    - apply Forall2_app; [exact t_e | constructor; [apply entry_told | constructor]].
    - rewrite app_length, t_s. cbn. lia.
    - destruct (get (p_hash p) (r_map r)) eqn:G; [exact t_k|]. rewrite map_app. cbn.
      apply (NoDup_Add (l := map fst (r_map r)) (a := p_hash p)); [rewrite <- (app_nil_r (map fst (r_map r))) at 1; apply Add_app|].
      split; [exact t_k|]. intros I. apply get_in in I as (a & I). congruence.
    - intros k. assert (Q : In k (map fst (match get (p_hash p) (r_map r) with Some _ => r_map r | None => r_map r ++ [(p_hash p, mkinfo (p_operation p) (non_empty (x_name x)) (p_coordinates p))] end)) <-> In k (map fst (r_map r)) \/ k = p_hash p).
      { destruct (get (p_hash p) (r_map r)) eqn:G.
        - split; [auto|]. intros [I| ->]; [exact I|]. apply get_in. eauto.
        - rewrite map_app, in_app_iff. cbn. intuition congruence. }
      rewrite Q, t_u. split.
      + intros [(y & q & I & H)| ->]; [exists y, q | exists x, p]; (split; [apply in_or_app|]); auto. right. left. reflexivity.
      + intros (y & q & I & H). apply in_app_iff in I as [I|[[= <- <-]|[]]]; [left; exists y, q; auto | right; congruence].
    - assert (OLD : forall k i, In (k, i) (r_map r) -> exists before x0 p0 after, told f l ++ [(x, p)] = before ++ (x0, p0) :: after /\ p_hash p0 = k /\
        Forall (fun y => p_hash (snd y) <> k) before /\ i_operation i = p_operation p0 /\ i_fields i = p_coordinates p0 /\
        (i_name i = None <-> x_name x0 = None \/ x_name x0 = Some "") /\ (forall n, i_name i = Some n -> x_name x0 = Some n)).
      { intros k i I. destruct (t_f k i I) as (b & y & q & a & Ea & R). exists b, y, q, (a ++ [(x, p)]). rewrite Ea, <- app_assoc. split; [reflexivity | exact R]. }
      intros k i I. destruct (get (p_hash p) (r_map r)) eqn:G; [exact (OLD k i I)|]. apply in_app_iff in I as [I|[[= <- <-]|[]]]; [exact (OLD k i I)|].
      exists (told f l), x, p, []. split; [reflexivity|]. split; [reflexivity|]. split.
      { apply Forall_forall. intros [y q] Y. cbn. intros H. assert (I : In (p_hash p) (map fst (r_map r))) by (apply t_u; exists y, q; auto).
        apply get_in in I as (a & I). congruence. }
      cbn. split; [reflexivity|]. split; [reflexivity|]. split; [apply non_empty_none | apply non_empty_some].
  Qed.
End Report.

Section Process.
  Variable transform : string -> string -> result (option processed).
  Variable s : string.
  Notation worth := (worth transform s).
  Definition coherent (c : cache) : Prop := forall q r, In (q, r) c -> transform q s = Ok r.
  Lemma evict_sub ks c x : In x (evict ks c) -> In x c.
  Proof. unfold evict. rewrite filter_In. tauto. Qed.
  Lemma coherent_evict ks c : coherent c -> coherent (evict ks c).
  Proof. intros H q r I. apply evict_sub in I. auto. Qed.
  Lemma process_right c e q r c' : coherent c -> process transform c e q s = Some (r, c') -> r = transform q s /\ coherent c'.
  Proof.
    intros H. unfold process. pose proof (coherent_evict (fst e) c H) as H1. destruct (get q (evict (fst e) c)) eqn:G.
    - pose proof (coherent_evict (snd e) _ H1) as H2. destruct (get q (evict (snd e) (evict (fst e) c))) eqn:G2; [|discriminate].
      intros [= <- <-]. split; [|exact H2]. apply get_some, H2 in G2. congruence.
    - destruct (transform q s) eqn:T; intros [= <- <-]; (split; [reflexivity|]); [|exact H1].
      intros q' r' [[= <- <-]|I]; [exact T | apply H1; exact I].
  Qed.
  Lemma produce_tells c ev l r c' done r0 : coherent c -> Forall (fun x => x_schema x = s) l -> tells worth r0 done ->
    produce transform c ev l r0 = Some (r, c') -> tells worth r (done ++ l) /\ coherent c'.
  Proof.
    revert c ev done r0. induction l as [|x l IH]; intros c ev done r0 H A T P.
    - cbn in P. inversion P; subst. rewrite app_nil_r. auto.
    - assert (AX : x_schema x = s) by (inversion A; assumption). assert (AL : Forall (fun x => x_schema x = s) l) by (inversion A; assumption). cbn [produce] in P. rewrite AX in P. destruct (process transform c (hd ([], []) ev) (x_body x) s) as [[q c1]|] eqn:E; [|discriminate].
      assert (Z : q = transform (x_body x) s /\ coherent c1).
      { apply (process_right c (hd ([], []) ev) (x_body x)); assumption. }
      destruct Z as (-> & H1). change (x :: l) with ([x] ++ l). rewrite app_assoc.
      destruct (transform (x_body x) s) as [[p|]|m] eqn:TR; (apply (IH c1 (tl ev) (done ++ [x])) in P; [exact P | exact H1 | exact AL |]).
      + apply tells_add; [exact T|]. unfold UsageSpec.worth. rewrite TR. reflexivity.
      + apply tells_skip; [exact T|]. unfold UsageSpec.worth. rewrite TR. reflexivity.
      + apply tells_skip; [exact T|]. unfold UsageSpec.worth. rewrite TR. reflexivity.
  Qed.
  (** Without an eviction between finding and reading there is no panic *)
  Lemma process_calm c e q sc : snd e = [] -> exists x, process transform c e q sc = Some x.
  Proof.
    intros H. unfold process. rewrite H. assert (E : forall c0, evict [] c0 = c0).
    { intros c0. unfold evict. induction c0 as [|y c0 IH]; [reflexivity|]. cbn. f_equal. exact IH. }
    rewrite E. destruct (get q (evict (fst e) c)); [eauto|]. destruct (transform q sc); eauto.
  Qed.
  Lemma produce_calm l : forall c ev r, Forall (fun e : evictions => snd e = []) ev -> exists x, produce transform c ev l r = Some x.
  Proof.
    induction l as [|x l IH]; intros c ev r H; [cbn; eauto|]. cbn [produce].
    assert (E : snd (hd ([], []) ev) = [] /\ Forall (fun e : evictions => snd e = []) (tl ev)).
    { destruct H; cbn; [split; [reflexivity | constructor] | auto]. }
    destruct E as (E & E'). destruct (process_calm c (hd ([], []) ev) (x_body x) (x_schema x) E) as ([q c1] & ->).
    destruct q as [[p|]|m]; apply IH; exact E'.
  Qed.
End Process.
