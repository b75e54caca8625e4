From Coq Require Import String List Bool Arith Lia.
From Verif Require Import Ast TrieModel TrieProofs AuthModel AuthSpec.
Import ListNotations.
Local Open Scope string_scope.
Local Open Scope list_scope.

(** * Small facts *)
Lemma mem_In s l : mem s l = true <-> In s l.
Proof.
  unfold mem. rewrite existsb_exists. split.
  - intros (x & H & E). apply String.eqb_eq in E. congruence.
  - intro H. exists s. split; [assumption|apply String.eqb_refl].
Qed.

Lemma memn_In n l : memn n l = true <-> In n l.
Proof.
  unfold memn. rewrite existsb_exists. split.
  - intros (x & H & E). apply Nat.eqb_eq in E. congruence.
  - intro H. exists n. split; [assumption|apply Nat.eqb_refl].
Qed.

Lemma assoc_cons_eq {A} k (v : A) l : assoc k ((k, v) :: l) = Some v.
Proof. simpl. rewrite String.eqb_refl. reflexivity. Qed.

Lemma assoc_cons_neq {A} k k' (v : A) l : k <> k' -> assoc k ((k', v) :: l) = assoc k l.
Proof. intro H. simpl. apply String.eqb_neq in H. rewrite H. reflexivity. Qed.

Lemma assoc_In {A} k (v : A) l : assoc k l = Some v -> In (k, v) l.
Proof.
  induction l as [|[k' v'] l IH]; [discriminate|]. simpl.
  destruct (String.eqb k k') eqn:E.
  - apply String.eqb_eq in E. intro H. injection H as ->. subst. auto.
  - auto.
Qed.

Lemma assoc_None {A} k (l : list (string * A)) : assoc k l = None <-> ~ In k (map fst l).
Proof.
  induction l as [|[k' v'] l IH]; simpl; [intuition|].
  destruct (String.eqb k k') eqn:E.
  - apply String.eqb_eq in E. subst. split; [discriminate|intuition].
  - apply String.eqb_neq in E. rewrite IH. intuition congruence.
Qed.

Lemma filter_map_In {A B} (f : A -> option B) l y : In y (filter_map f l) <-> exists x, In x l /\ f x = Some y.
Proof.
  induction l as [|a l IH]; simpl.
  - split; [intros []|intros (x & [] & _)].
  - destruct (f a) as [b|] eqn:E; simpl; rewrite IH; split.
    + intros [<-|(x & H & H')]; eauto.
    + intros (x & [->|H] & H'); [left; congruence|eauto].
    + intros (x & H & H'); eauto.
    + intros (x & [->|H] & H'); [congruence|eauto].
Qed.

(** * Interner *)
Lemma index_of_some s l i k : index_of s l i = Some k -> i <= k /\ nth_error l (k - i) = Some s.
Proof.
  revert i k; induction l as [|x l IH]; intros i k H; [discriminate|]. simpl in H.
  destruct (String.eqb s x) eqn:E.
  - apply String.eqb_eq in E. injection H as ->. subst. split; [lia|]. rewrite Nat.sub_diag. reflexivity.
  - apply IH in H. destruct H as [L H]. split; [lia|].
    replace (k - i) with (S (k - S i)) by lia. exact H.
Qed.

Lemma index_of_none s l i : index_of s l i = None <-> ~ In s l.
Proof.
  revert i; induction l as [|x l IH]; intro i; simpl; [intuition|].
  destruct (String.eqb s x) eqn:E.
  - apply String.eqb_eq in E. subst. split; [discriminate|intuition].
  - apply String.eqb_neq in E. rewrite IH. intuition congruence.
Qed.

Lemma lookup_nth l s k : NoDup l -> (lookup_scope l s = Some k <-> nth_error l k = Some s).
Proof.
  intro ND. unfold lookup_scope. split; intro H.
  - apply index_of_some in H. rewrite Nat.sub_0_r in H. tauto.
  - destruct (index_of s l 0) as [k'|] eqn:E.
    + apply index_of_some in E. rewrite Nat.sub_0_r in E. destruct E as [_ E]. f_equal.
      apply (proj1 (NoDup_nth_error l) ND); [apply nth_error_Some; congruence|congruence].
    + apply index_of_none in E. exfalso. apply E. eapply nth_error_In; eassumption.
Qed.

Definition extends (l l' : list string) : Prop := NoDup l' /\ exists r, l' = l ++ r.

Lemma extends_refl l : NoDup l -> extends l l.
Proof. intro H. split; [assumption|]. exists []. rewrite app_nil_r. reflexivity. Qed.

Lemma extends_trans a b c : extends a b -> extends b c -> extends a c.
Proof. intros [_ [r ->]] [N [s ->]]. split; [assumption|]. exists (r ++ s). rewrite app_assoc. reflexivity. Qed.

Lemma extends_nth l l' i s : extends l l' -> nth_error l i = Some s -> nth_error l' i = Some s.
Proof.
  intros [_ [r ->]] H. rewrite nth_error_app1; [assumption|]. apply nth_error_Some. congruence.
Qed.

Lemma NoDup_snoc {A} (l : list A) x : NoDup l -> ~ In x l -> NoDup (l ++ [x]).
Proof.
  intros H N. apply NoDup_Add with (a := x) (l := l).
  - rewrite <- (app_nil_r l) at 1. apply Add_app.
  - auto.
Qed.

Lemma get_or_intern_ok l s i l' :
  NoDup l -> get_or_intern l s = (i, l') -> extends l l' /\ nth_error l' i = Some s.
Proof.
  intros ND. unfold get_or_intern. destruct (lookup_scope l s) as [k|] eqn:E; intro H; injection H as <- <-.
  - split; [apply extends_refl; assumption|]. apply lookup_nth; assumption.
  - split.
    + split; [|eexists; reflexivity]. apply NoDup_snoc; [assumption|].
      apply index_of_none in E. assumption.
    + rewrite nth_error_app2 by lia. rewrite Nat.sub_diag. reflexivity.
Qed.

Definition group_means (l : list string) (ids : list nat) (v : gvalue) : Prop :=
  ids <> [] /\ exists ns, v = GList (map GStr ns) /\ Forall2 (fun i s => nth_error l i = Some s) ids ns.

Lemma intern_group_ok : forall vs l ids l',
  NoDup l -> intern_group vs l = inl (ids, l') ->
  extends l l' /\ exists ns, vs = map GStr ns /\ Forall2 (fun i s => nth_error l' i = Some s) ids ns.
Proof.
  induction vs as [|v vs IH]; intros l ids l' ND H; simpl in H.
  - injection H as <- <-. split; [apply extends_refl; assumption|]. exists []. split; [reflexivity|constructor].
  - destruct v; try discriminate.
    destruct (get_or_intern l s) as [i l1] eqn:E1. apply get_or_intern_ok in E1; [|assumption].
    destruct E1 as [X1 N1].
    destruct (intern_group vs l1) as [[is l2]|e] eqn:E2; [|discriminate]. injection H as <- <-.
    apply IH in E2; [|apply X1]. destruct E2 as [X2 (ns & -> & F)].
    split; [eapply extends_trans; eassumption|]. exists (s :: ns). split; [reflexivity|].
    constructor; [|assumption]. eapply extends_nth; eassumption.
Qed.

Lemma and_group_ok v l ids l' :
  NoDup l -> normalize_and_group v l = inl (ids, l') -> extends l l' /\ group_means l' ids v.
Proof.
  intros ND H. unfold normalize_and_group in H. destruct v; try discriminate.
  destruct (intern_group l0 l) as [[[|i is] l1]|e] eqn:E; try discriminate.
  injection H as <- <-. apply intern_group_ok in E; [|assumption]. destruct E as [X (ns & -> & F)].
  split; [assumption|]. split; [discriminate|]. exists ns. auto.
Qed.

Lemma group_means_extends l l' ids v : extends l l' -> group_means l ids v -> group_means l' ids v.
Proof.
  intros X [H (ns & -> & F)]. split; [assumption|]. exists ns. split; [reflexivity|].
  clear H. induction F; constructor; auto. eapply extends_nth; eassumption.
Qed.

Lemma groups_ok : forall vs l gs l',
  NoDup l -> intern_groups vs l = inl (gs, l') -> extends l l' /\ Forall2 (group_means l') gs vs.
Proof.
  induction vs as [|v vs IH]; intros l gs l' ND H; simpl in H.
  - injection H as <- <-. split; [apply extends_refl; assumption|constructor].
  - destruct (normalize_and_group v l) as [[g l1]|e] eqn:E1; [|discriminate].
    apply and_group_ok in E1; [|assumption]. destruct E1 as [X1 G1].
    destruct (intern_groups vs l1) as [[gs' l2]|e] eqn:E2; [|discriminate]. injection H as <- <-.
    apply IH in E2; [|apply X1]. destruct E2 as [X2 F].
    split; [eapply extends_trans; eassumption|]. constructor; [|assumption].
    eapply group_means_extends; eassumption.
Qed.

(** What a rule (or its absence) stands for. *)
Definition rule_means (l : list string) (r : option rule) (d : dirs) : Prop :=
  match r with
  | None => d_scopes d = [] /\ d_authenticated d = false
  | Some RAuthenticated => d_scopes d = [] /\ d_authenticated d = true
  | Some (RScopes gs) => gs <> [] /\ exists vs, d_scopes d = [GList vs] /\ Forall2 (group_means l) gs vs
  end.

Lemma rule_means_extends l l' r d : extends l l' -> rule_means l r d -> rule_means l' r d.
Proof.
  intros X. destruct r as [[|gs]|]; simpl; auto.
  intros [H (vs & E & F)]. split; [assumption|]. exists vs. split; [assumption|].
  clear H E. induction F; constructor; auto. eapply group_means_extends; eassumption.
Qed.

Lemma extract_rule_ok d l r l' :
  NoDup l -> extract_rule d l = inl (r, l') -> extends l l' /\ rule_means l' r d.
Proof.
  intros ND H. unfold extract_rule in H. destruct (d_scopes d) as [|v [|]] eqn:E; [| |discriminate].
  - injection H as <- <-. split; [apply extends_refl; assumption|].
    destruct (d_authenticated d) eqn:A; simpl; auto.
  - unfold normalize_scopes_arg in H. destruct v; try discriminate.
    destruct (intern_groups l0 l) as [[[|g gs] l1]|e] eqn:E2; try discriminate.
    injection H as <- <-. apply groups_ok in E2; [|assumption]. destruct E2 as [X F].
    split; [assumption|]. simpl. split; [discriminate|]. exists l0. auto.
Qed.

Lemma extract_fields_ok : forall fs l rs l',
  NoDup l -> NoDup (map fst fs) -> extract_fields fs l = inl (rs, l') ->
  extends l l' /\
  (forall f fd, In (f, fd) fs -> rule_means l' (assoc f rs) fd) /\
  (forall f, ~ In f (map fst fs) -> assoc f rs = None).
Proof.
  induction fs as [|[f d] fs IH]; intros l rs l' ND NF H; simpl in H.
  - injection H as <- <-. split; [apply extends_refl; assumption|]. split; [intros ? ? []|reflexivity].
  - destruct (extract_rule d l) as [[r l1]|e] eqn:E1; [|discriminate].
    apply extract_rule_ok in E1; [|assumption]. destruct E1 as [X1 M1].
    destruct (extract_fields fs l1) as [[rs' l2]|e] eqn:E2; [|discriminate]. injection H as <- <-.
    simpl in NF. inversion NF as [|? ? Nf NF']; subst.
    apply IH in E2; [|apply X1|assumption]. destruct E2 as [X2 [A B]].
    split; [eapply extends_trans; eassumption|]. split.
    + intros g fd [Heq|Hin].
      * injection Heq as -> ->. apply (rule_means_extends _ _ _ _ X2) in M1.
        destruct r as [r|]; [rewrite assoc_cons_eq; assumption|]. rewrite (B g Nf). assumption.
      * assert (g <> f) by (intros ->; apply Nf; apply in_map_iff; exists (f, fd); auto).
        specialize (A _ _ Hin). destruct r; [rewrite assoc_cons_neq by assumption|]; assumption.
    + intros g Hg. simpl in Hg. assert (g <> f) by (intros ->; apply Hg; auto).
      assert (Hg' : ~ In g (map fst fs)) by auto.
      destruct r; [rewrite assoc_cons_neq by assumption|]; auto.
Qed.

Definition field_rule (fr : list (string * list (string * rule))) (t f : string) : option rule :=
  match assoc t fr with Some fs => assoc f fs | None => None end.

Definition means_all (a : acc) (ts : list tydef) : Prop :=
  NoDup (a_scopes a) /\
  (forall d, In d ts -> k_rules d = true ->
     rule_means (a_scopes a) (assoc (k_name d) (a_types a)) (k_dirs d) /\
     (forall f fd, In (f, fd) (k_fields d) -> rule_means (a_scopes a) (field_rule (a_fields a) (k_name d) f) fd) /\
     (forall f, ~ In f (map fst (k_fields d)) -> field_rule (a_fields a) (k_name d) f = None)) /\
  (forall t, (forall d, In d ts -> k_rules d = true -> k_name d <> t) ->
     assoc t (a_types a) = None /\ assoc t (a_fields a) = None).

Lemma process_type_ok t a a' ts :
  NoDup (map fst (k_fields t)) -> ~ In (k_name t) (map k_name ts) ->
  means_all a ts -> process_type t a = inl a' -> means_all a' (ts ++ [t]).
Proof.
  intros NF Nt (ND & A & B) H. unfold process_type in H.
  destruct (k_rules t) eqn:K.
  - destruct (extract_rule (k_dirs t) (a_scopes a)) as [[r l1]|e] eqn:E1; [|discriminate].
    apply extract_rule_ok in E1; [|assumption]. destruct E1 as [X1 M1].
    destruct (extract_fields (k_fields t) l1) as [[fr l2]|e] eqn:E2; [|discriminate].
    apply extract_fields_ok in E2; [|apply X1|assumption]. destruct E2 as [X2 [F1 F2]].
    injection H as <-. assert (X : extends (a_scopes a) l2) by (eapply extends_trans; eassumption).
    assert (Bt : assoc (k_name t) (a_types a) = None /\ assoc (k_name t) (a_fields a) = None).
    { apply B. intros d Hd _ E. apply Nt. rewrite <- E. apply in_map. assumption. }
    destruct Bt as [Bt1 Bt2].
    assert (TF : forall n, n <> k_name t ->
                assoc n (match r with Some r => (k_name t, r) :: a_types a | None => a_types a end) = assoc n (a_types a)).
    { intros n Hn. destruct r; [apply assoc_cons_neq; assumption|reflexivity]. }
    assert (FF : forall n, n <> k_name t ->
                assoc n (match fr with [] => a_fields a | _ => (k_name t, fr) :: a_fields a end) = assoc n (a_fields a)).
    { intros n Hn. destruct fr; [reflexivity|apply assoc_cons_neq; assumption]. }
    assert (FT : forall f, field_rule (match fr with [] => a_fields a | _ => (k_name t, fr) :: a_fields a end) (k_name t) f = assoc f fr).
    { intro f. unfold field_rule. destruct fr as [|x fr]; [rewrite Bt2; reflexivity|].
      rewrite assoc_cons_eq. reflexivity. }
    split; [apply X|]. cbn [a_scopes a_types a_fields]. split.
    + intros d Hd Kd. apply in_app_or in Hd. destruct Hd as [Hd|[<-|[]]].
      * assert (Hn : k_name d <> k_name t) by (intro E; apply Nt; rewrite <- E; apply in_map; assumption).
        specialize (A d Hd Kd). destruct A as (A1 & A2 & A3).
        rewrite TF by assumption. unfold field_rule. rewrite FF by assumption.
        split; [eapply rule_means_extends; eassumption|]. split; [|exact A3].
        intros f fd Hf. eapply rule_means_extends; [eassumption|]. apply (A2 f fd Hf).
      * split; [|split].
        -- apply (rule_means_extends _ _ _ _ X2) in M1.
           destruct r; [rewrite assoc_cons_eq; assumption|]. rewrite Bt1. assumption.
        -- intros f fd Hf. rewrite FT. auto.
        -- intros f Hf. rewrite FT. auto.
    + intros n Hn. assert (Hnt : n <> k_name t).
      { intro E. apply (Hn t); [apply in_or_app; simpl; auto|assumption|congruence]. }
      rewrite TF, FF by assumption. apply B. intros d Hd. apply Hn. apply in_or_app. auto.
  - injection H as <-. split; [assumption|]. split.
    + intros d Hd Kd. apply in_app_or in Hd. destruct Hd as [Hd|[<-|[]]]; [auto|congruence].
    + intros n Hn. apply B. intros d Hd. apply Hn. apply in_or_app. auto.
Qed.

Lemma process_types_ok : forall ts a a' done,
  NoDup (map k_name (done ++ ts)) -> (forall d, In d ts -> NoDup (map fst (k_fields d))) ->
  means_all a done -> process_types ts a = inl a' -> means_all a' (done ++ ts).
Proof.
  induction ts as [|t ts IH]; intros a a' done ND NF M H; simpl in H.
  - injection H as <-. rewrite app_nil_r. assumption.
  - destruct (process_type t a) as [a1|e] eqn:E; [|discriminate].
    replace (done ++ t :: ts) with ((done ++ [t]) ++ ts) in * by (rewrite <- app_assoc; reflexivity).
    apply (IH a1); [assumption| | |assumption].
    + intros d Hd. apply NF. simpl. auto.
    + apply (process_type_ok t a); [apply NF; simpl; auto| |assumption|assumption].
      rewrite <- app_assoc in ND. simpl in ND. rewrite map_app in ND. simpl in ND.
      apply NoDup_remove_2 in ND. intro H'. apply ND. apply in_or_app. auto.
Qed.

(** * Satisfaction *)
Lemma satisfied_iff m j r d :
  NoDup (scopes m) -> rule_means (scopes m) (Some r) d ->
  (rule_satisfied (user_of m j) r = true <-> satisfies j d).
Proof.
  intros ND M. unfold satisfies. destruct r as [|gs]; simpl in M.
  - destruct M as [-> ->]. simpl. destruct j as [sc|]; simpl.
    + split; [intros _ _; discriminate|reflexivity].
    + split; [discriminate|]. intro H. exfalso. apply H; reflexivity.
  - destruct M as [Hne (vs & -> & F)]. cbn [rule_satisfied].
    rewrite andb_true_iff, existsb_exists. split.
    + intros [HA (g & Hg & HF)]. split.
      { destruct j; [discriminate|]. simpl in HA. discriminate. }
      assert (Hex : exists v, In v vs /\ group_means (scopes m) g v).
      { clear Hne. induction F; [destruct Hg|]. destruct Hg as [->|Hg]; [exists y; simpl; auto|].
        destruct (IHF Hg) as (v & ? & ?). exists v. simpl. auto. }
      destruct Hex as (v & Hv & _ & ns & -> & F2).
      exists vs, (map GStr ns). split; [reflexivity|]. split; [assumption|].
      intros s Hs. apply in_map_iff in Hs. destruct Hs as (s' & E & Hs). injection E as ->.
      destruct (In_nth_error _ _ Hs) as [k Hk].
      assert (Hi : exists i, In i g /\ nth_error (scopes m) i = Some s).
      { clear -F2 Hs. induction F2; [destruct Hs|]. destruct Hs as [->|Hs]; [exists x; simpl; auto|].
        destruct (IHF2 Hs) as (i & ? & ?). exists i. simpl. auto. }
      destruct Hi as (i & Hi & Hn). rewrite forallb_forall in HF. specialize (HF i Hi).
      apply memn_In in HF. destruct j as [sc|]; [|destruct HF]. simpl in HF.
      apply filter_map_In in HF. destruct HF as (x & Hx & El). apply lookup_nth in El; [|assumption].
      rewrite Hn in El. injection El as ->. destruct sc as [l|]; assumption.
    + intros [Hj (gs' & g & E & Hg & Hall)]. injection E as <-.
      destruct j as [sc|]; [|congruence]. split; [reflexivity|].
      assert (Hex : exists ids, In ids gs /\ group_means (scopes m) ids (GList g)).
      { clear -F Hg. induction F; [destruct Hg|]. destruct Hg as [->|Hg]; [exists x; simpl; auto|].
        destruct (IHF Hg) as (v & ? & ?). exists v. simpl. auto. }
      destruct Hex as (ids & Hids & _ & ns & E & F2). injection E as ->.
      exists ids. split; [assumption|]. apply forallb_forall. intros i Hi. apply memn_In.
      assert (Hs : exists s, In s ns /\ nth_error (scopes m) i = Some s).
      { clear -F2 Hi. induction F2; [destruct Hi|]. destruct Hi as [->|Hi]; [exists y; simpl; auto|].
        destruct (IHF2 Hi) as (s & ? & ?). exists s. simpl. auto. }
      destruct Hs as (s & Hs & Hn). simpl. apply filter_map_In. exists s. split.
      * specialize (Hall s). unfold caller_scopes in Hall. destruct sc as [l|]; apply Hall; apply in_map; assumption.
      * apply lookup_nth; assumption.
Qed.

Lemma unsatisfied_none j d l : rule_means l None d -> satisfies j d.
Proof. intros [H1 H2]. unfold satisfies. rewrite H1, H2. discriminate. Qed.

(** * The subtree shortcut *)
Section DfsProofs.
  Variable Sc : schema.
  Variable tr : list (string * rule).
  Variable fr : list (string * list (string * rule)).

  Notation dfs := (dfs Sc tr fr).
  Notation has_own_rule := (has_own_rule tr fr).

  Definition dfs_list (fuel : nat) : list string -> list string -> option (bool * list string) :=
    fix go (cs : list string) (v : list string) :=
      match cs with
      | [] => Some (false, v)
      | c :: cs' => match dfs fuel c v with Some (false, v') => go cs' v' | r => r end
      end.

  Lemma dfs_eq fuel t v :
    dfs (S fuel) t v =
    if mem t v then Some (false, v)
    else if has_own_rule t then Some (true, t :: v)
    else dfs_list fuel (type_children Sc t) (t :: v).
  Proof. reflexivity. Qed.

  Definition explored (v v' : list string) : Prop :=
    forall x, In x v' -> In x v \/ (has_own_rule x = false /\ forall c, In c (type_children Sc x) -> In c v').

  Lemma dfs_false : forall fuel t v v',
    dfs fuel t v = Some (false, v') -> incl v v' /\ In t v' /\
    (forall x, In x v' -> In x v \/ (has_own_rule x = false /\ forall c, In c (type_children Sc x) -> In c v')).
  Proof.
    induction fuel as [|fuel IH]; intros t v v' H; [discriminate|].
    rewrite dfs_eq in H. destruct (mem t v) eqn:E1.
    - injection H as <-. apply mem_In in E1. split; [apply incl_refl|]. auto.
    - destruct (has_own_rule t) eqn:E2; [discriminate|].
      assert (L : forall cs v v', dfs_list fuel cs v = Some (false, v') ->
                  incl v v' /\ (forall c, In c cs -> In c v') /\
                  (forall x, In x v' -> In x v \/ (has_own_rule x = false /\ forall c, In c (type_children Sc x) -> In c v'))).
      { clear -IH. induction cs as [|c cs IHc]; intros v v' H; simpl in H.
        - injection H as <-. split; [apply incl_refl|]. split; [intros ? []|auto].
        - destruct (dfs fuel c v) as [[[|] v1]|] eqn:E; try discriminate.
          apply IH in E. destruct E as (I1 & T1 & X1).
          apply IHc in H. destruct H as (I2 & T2 & X2).
          split; [eapply incl_tran; eassumption|]. split.
          + intros d [<-|Hd]; auto.
          + intros x Hx. destruct (X2 x Hx) as [H|H]; [|auto].
            destruct (X1 x H) as [H'|[H1 H2]]; [auto|]. right. split; [assumption|]. auto. }
      apply L in H. destruct H as (I & T & X). split; [|split].
      + intros x Hx. apply I. simpl. auto.
      + apply I. simpl. auto.
      + intros x Hx. destruct (X x Hx) as [[<-|H]|H]; auto.
  Qed.

  Lemma dfs_total U :
    (forall t c, In t U -> In c (type_children Sc t) -> In c U) ->
    forall fuel t v, NoDup v -> incl v U -> In t U -> length U < fuel + length v ->
    exists b v', dfs fuel t v = Some (b, v') /\ NoDup v' /\ incl v' U /\ length v <= length v'.
  Proof.
    intro C. induction fuel as [|fuel IH]; intros t v ND I T L.
    - exfalso. pose proof (NoDup_incl_length ND I). lia.
    - rewrite dfs_eq. destruct (mem t v) eqn:E1; [exists false, v; repeat split; auto|].
      assert (Nt : ~ In t v) by (intro H; apply mem_In in H; congruence).
      assert (ND1 : NoDup (t :: v)) by (constructor; assumption).
      assert (I1 : incl (t :: v) U) by (intros x [<-|Hx]; auto).
      destruct (has_own_rule t).
      + exists true, (t :: v). split; [reflexivity|]. split; [assumption|]. split; [assumption|]. simpl; lia.
      + assert (G : forall cs v1, (forall c, In c cs -> In c U) -> NoDup v1 -> incl v1 U ->
                    length U < fuel + length v1 ->
                    exists b v', dfs_list fuel cs v1 = Some (b, v') /\ NoDup v' /\ incl v' U /\ length v1 <= length v').
        { induction cs as [|c cs IHc]; intros v1 HC N1 J1 L1; simpl.
          - exists false, v1. repeat split; auto.
          - destruct (IH c v1 N1 J1 (HC c (or_introl eq_refl)) L1) as (b & v2 & -> & N2 & J2 & L2).
            destruct b; [exists true, v2; repeat split; auto|].
            destruct (IHc v2) as (b & v3 & -> & N3 & J3 & L3); auto; [intros; apply HC; simpl; auto|lia|].
            exists b, v3. repeat split; auto. lia. }
        destruct (G (type_children Sc t) (t :: v)) as (b & v' & -> & N' & J' & L'); auto.
        * intros c Hc. eapply C; eassumption.
        * simpl. lia.
        * exists b, v'. repeat split; auto. simpl in L'. lia.
  Qed.

  Lemma universe_closed names t c :
    In t (universe Sc names) -> In c (type_children Sc t) -> In c (universe Sc names).
  Proof.
    intros _ H. unfold universe. repeat rewrite in_app_iff. unfold type_children in H.
    apply in_app_or in H. destruct H as [H|H].
    - right; right; right; right. unfold possible_types in H.
      destruct (assoc t (s_possible Sc)) as [l|] eqn:E; [|destruct H]. apply assoc_In in E.
      apply in_flat_map. exists (t, l). auto.
    - right; right; right; left. unfold type_fields in H.
      destruct (assoc t (s_fields Sc)) as [l|] eqn:E; [|destruct H]. apply assoc_In in E.
      apply in_flat_map. exists (t, l). auto.
  Qed.

  Lemma compute_total names fuel U :
    incl names U -> (forall t c, In t U -> In c (type_children Sc t) -> In c U) -> length U < fuel ->
    exists h, compute_has_any Sc tr fr fuel names = Some h.
  Proof.
    intros I C L. induction names as [|n ns IH]; [eexists; reflexivity|]. simpl.
    destruct (dfs_total U C fuel n []) as (b & v' & E & _); [constructor|intros ? []|apply I; simpl; auto|simpl; lia|].
    rewrite E. destruct IH as [h ->]; [intros x Hx; apply I; simpl; auto|]. eexists. reflexivity.
  Qed.

  Lemma compute_lookup : forall names fuel h t,
    compute_has_any Sc tr fr fuel names = Some h -> assoc t h = Some false ->
    has_own_rule t = false /\ forall c, In c (type_children Sc t) -> has_own_rule c = false.
  Proof.
    induction names as [|n ns IH]; intros fuel h t H A; simpl in H.
    - injection H as <-. discriminate.
    - destruct (dfs fuel n []) as [[b v]|] eqn:E; [|discriminate].
      destruct (compute_has_any Sc tr fr fuel ns) as [h'|] eqn:E'; [|discriminate]. injection H as <-.
      simpl in A. destruct (String.eqb t n) eqn:Et.
      + apply String.eqb_eq in Et. subst t. injection A as ->.
        apply dfs_false in E. destruct E as (_ & T & X).
        destruct (X n T) as [[]|[H1 H2]]. split; [assumption|]. intros c Hc.
        destruct (X c (H2 c Hc)) as [[]|[H3 _]]. assumption.
      + eapply IH; eassumption.
  Qed.
End DfsProofs.

Lemma field_info_child Sc t f out nn : field_info Sc t f = Some (out, nn) -> In out (type_children Sc t).
Proof.
  unfold field_info, type_children. intro H. apply assoc_In in H. apply in_or_app. right.
  apply in_map_iff. exists (f, (out, nn)). auto.
Qed.

(** * Metadata built from a schema decides exactly what the directives say *)
Section Built.
  Variable Sc : schema.
  Variable defs : list tydef.
  Variable m : meta.
  Hypothesis UN : unique_names defs.
  Hypothesis HB : build Sc defs = inl m.
  Variable j : jwt.
  Notation u := (user_of m j).

  Lemma built_means :
    means_all (mkacc (type_rules m) (field_rules m) (scopes m)) defs /\
    compute_has_any Sc (type_rules m) (field_rules m)
      (S (length (universe Sc (map k_name defs)))) (map k_name defs) = Some (has_any_auth m).
  Proof.
    unfold build in HB. destruct (process_types defs (mkacc [] [] [])) as [a|e] eqn:E; [|discriminate].
    destruct (compute_has_any Sc (a_types a) (a_fields a) (S (length (universe Sc (map k_name defs)))) (map k_name defs))
      as [h|] eqn:E2; [|discriminate].
    injection HB as <-. cbn. split; [|assumption].
    destruct UN as [U1 U2].
    assert (M : means_all a ([] ++ defs)).
    { apply (process_types_ok defs (mkacc [] [] []) a []); auto.
      split; [constructor|]. split; [intros ? []|]. intros; split; reflexivity. }
    simpl app in M. destruct a. exact M.
  Qed.

  Lemma find_def t : (exists d, In d defs /\ k_rules d = true /\ k_name d = t) \/
                     (forall d, In d defs -> k_rules d = true -> k_name d <> t).
  Proof.
    destruct (find (fun d => k_rules d && String.eqb (k_name d) t) defs) as [d|] eqn:E.
    - left. apply find_some in E. destruct E as [H E]. apply andb_true_iff in E. destruct E as [K N].
      apply String.eqb_eq in N. eauto.
    - right. intros d Hd K N. apply (find_none _ _ E) in Hd. rewrite K, <- N, String.eqb_refl in Hd. discriminate.
  Qed.

  Lemma def_unique d d' : In d defs -> In d' defs -> k_name d = k_name d' -> d = d'.
  Proof.
    destruct UN as [U _]. clear -U. induction defs as [|x l IH]; [intros []|].
    simpl in U. inversion U as [|? ? Nx U']; subst.
    intros [->|H] [->|H'] E; auto.
    - exfalso. apply Nx. rewrite E. apply in_map. assumption.
    - exfalso. apply Nx. rewrite <- E. apply in_map. assumption.
  Qed.

  Lemma type_authorized_iff t : is_type_authorized m u t = true <-> type_allowed defs j t.
  Proof.
    destruct built_means as [(ND & A & B) _]. cbn [a_scopes a_types a_fields] in *.
    unfold is_type_authorized. destruct (find_def t) as [(d & Hd & K & N)|Hno].
    - destruct (A d Hd K) as (M & _). rewrite N in M. split.
      + intros H d' Hd' K' N'. assert (d' = d) by (apply def_unique; congruence). subst d'.
        destruct (assoc t (type_rules m)) as [r|]; [|eapply unsatisfied_none; eassumption].
        apply (satisfied_iff m j r _ ND M). assumption.
      + intro H. specialize (H d Hd K N).
        destruct (assoc t (type_rules m)) as [r|]; [|reflexivity].
        apply (satisfied_iff m j r _ ND M). assumption.
    - destruct (B t Hno) as [-> _]. split; [|reflexivity]. intros _ d Hd K N. exfalso. eapply Hno; eassumption.
  Qed.

  Lemma field_authorized_iff t f : is_field_authorized m u t f = true <-> field_allowed defs j t f.
  Proof.
    destruct built_means as [(ND & A & B) _]. cbn [a_scopes a_types a_fields] in *.
    assert (E : is_field_authorized m u t f =
                match field_rule (field_rules m) t f with Some r => rule_satisfied u r | None => true end).
    { unfold is_field_authorized, field_rule. destruct (assoc t (field_rules m)); reflexivity. }
    rewrite E. clear E. destruct (find_def t) as [(d & Hd & K & N)|Hno].
    - destruct (A d Hd K) as (_ & M & M0). rewrite N in M, M0. split.
      + intros H d' fd Hd' K' N' Hf. assert (d' = d) by (apply def_unique; congruence). subst d'.
        specialize (M f fd Hf). destruct (field_rule (field_rules m) t f) as [r|]; [|eapply unsatisfied_none; eassumption].
        apply (satisfied_iff m j r _ ND M). assumption.
      + intro H. destruct (field_rule (field_rules m) t f) as [r|] eqn:Er; [|reflexivity].
        destruct (in_dec string_dec f (map fst (k_fields d))) as [Hin|Hin].
        * apply in_map_iff in Hin. destruct Hin as ([f' fd] & Ef & Hf). simpl in Ef. subst f'.
          specialize (M f fd Hf). rewrite Er in M. apply (satisfied_iff m j r _ ND M). eapply H; eassumption.
        * rewrite (M0 f Hin) in Er. discriminate.
    - destruct (B t Hno) as [_ B2]. unfold field_rule. rewrite B2. split; [|reflexivity].
      intros _ d fd Hd K N. exfalso. eapply Hno; eassumption.
  Qed.

  Lemma no_auth_means t :
    parent_has_auth m t = false ->
    has_own_rule (type_rules m) (field_rules m) t = false /\
    forall c, In c (type_children Sc t) -> has_own_rule (type_rules m) (field_rules m) c = false.
  Proof.
    unfold parent_has_auth. intro H. destruct (assoc t (has_any_auth m)) as [b|] eqn:E; [|discriminate].
    subst b. destruct built_means as [_ C]. eapply compute_lookup; eassumption.
  Qed.

  Lemma no_rule_type t : has_own_rule (type_rules m) (field_rules m) t = false -> is_type_authorized m u t = true.
  Proof.
    unfold has_own_rule, is_type_authorized. destruct (assoc t (type_rules m)); [discriminate|reflexivity].
  Qed.

  Lemma no_rule_field t f : has_own_rule (type_rules m) (field_rules m) t = false -> is_field_authorized m u t f = true.
  Proof.
    unfold has_own_rule, is_field_authorized. rewrite orb_false_iff. intros [_ H].
    destruct (assoc t (field_rules m)) as [[|x l]|]; [reflexivity|discriminate|reflexivity].
  Qed.

  Lemma keep_field_iff par f out nn :
    field_info Sc par f = Some (out, nn) ->
    (keep_field m u par f out = true <-> allowed Sc defs j par f).
  Proof.
    intro FI.
    assert (E : keep_field m u par f out = true <->
                is_type_authorized m u par = true /\ is_field_authorized m u par f = true /\ is_type_authorized m u out = true).
    { unfold keep_field. rewrite orb_true_iff, negb_true_iff, !andb_true_iff. split; [|tauto].
      intros [H|H]; [|tauto]. apply no_auth_means in H. destruct H as [H1 H2].
      split; [apply no_rule_type; assumption|]. split; [apply no_rule_field; assumption|].
      apply no_rule_type. apply H2. eapply field_info_child; eassumption. }
    rewrite E, !type_authorized_iff, field_authorized_iff. unfold allowed. split.
    - intros (A & B & C). split; [exact A|]. split; [exact B|]. intros out' nn' H. rewrite FI in H. injection H as <- <-. exact C.
    - intros (A & B & C). split; [exact A|]. split; [exact B|]. eapply C; eassumption.
  Qed.

  Lemma keep_fragment_allowed par c : type_allowed defs j c -> keep_fragment m u par c = true.
  Proof.
    intro H. unfold keep_fragment. apply type_authorized_iff in H. rewrite H. apply orb_true_r.
  Qed.

  Lemma keep_fragment_denied par c :
    In c (par :: type_children Sc par) -> ~ type_allowed defs j c -> keep_fragment m u par c = false.
  Proof.
    intros Hc H. unfold keep_fragment. destruct (parent_has_auth m par) eqn:E.
    - simpl. destruct (is_type_authorized m u c) eqn:E2; [|reflexivity].
      apply type_authorized_iff in E2. contradiction.
    - exfalso. apply H. apply type_authorized_iff. apply no_auth_means in E. destruct E as [E1 E2].
      apply no_rule_type. destruct Hc as [<-|Hc]; auto.
  Qed.

  Lemma empty_allows par f : meta_is_empty m = true -> allowed Sc defs j par f.
  Proof.
    unfold meta_is_empty. destruct (type_rules m) eqn:E1; [|discriminate].
    destruct (field_rules m) eqn:E2; [|discriminate]. intros _.
    assert (T : forall t, type_allowed defs j t).
    { intro t. apply type_authorized_iff. unfold is_type_authorized. rewrite E1. reflexivity. }
    split; [apply T|]. split; [|intros; apply T].
    apply field_authorized_iff. unfold is_field_authorized. rewrite E2. reflexivity.
  Qed.

  Lemma no_scopes_satisfied l r d : l = [] -> rule_means l r d -> j <> None -> satisfies j d.
  Proof.
    intros -> M Hj. destruct r as [[|gs]|].
    - destruct M as [H1 H2]. unfold satisfies. rewrite H1. auto.
    - destruct M as [Hne (vs & E & F)]. exfalso. destruct F as [|g v gs vs G F]; [congruence|].
      destruct G as [Gne (ns & _ & F2)]. destruct F2 as [|i s is ns Hi _]; [congruence|].
      destruct i; discriminate.
    - eapply unsatisfied_none; eassumption.
  Qed.

  Lemma no_scopes_allows par f : scopes m = [] -> u_auth u = true -> allowed Sc defs j par f.
  Proof.
    intros Hs Hu. assert (Hj : j <> None) by (destruct j; [discriminate|simpl in Hu; discriminate]).
    destruct built_means as [(ND & A & B) _]. cbn [a_scopes a_types a_fields] in *.
    assert (T : forall t, type_allowed defs j t).
    { intros t d Hd K _. destruct (A d Hd K) as (M & _). eapply no_scopes_satisfied; eassumption. }
    split; [apply T|]. split; [|intros; apply T].
    intros d fd Hd K _ Hf. destruct (A d Hd K) as (_ & M & _). specialize (M _ _ Hf).
    eapply no_scopes_satisfied; eassumption.
  Qed.
End Built.

Lemma build_never_out_of_fuel Sc defs : build Sc defs <> inr EFuel.
Proof.
  unfold build. destruct (process_types defs (mkacc [] [] [])) as [a|e] eqn:E.
  - destruct (compute_total Sc (a_types a) (a_fields a) (map k_name defs)
                (S (length (universe Sc (map k_name defs)))) (universe Sc (map k_name defs))) as [h ->].
    + intros x Hx. unfold universe. apply in_or_app. auto.
    + intros t c. apply universe_closed.
    + lia.
    + discriminate.
  - assert (X1 : forall vs l e, intern_group vs l = inr e -> e <> EFuel).
    { clear. induction vs as [|v vs IH]; intros l e H; simpl in H; [discriminate|].
      destruct v; try (injection H as <-; discriminate).
      destruct (get_or_intern l s). destruct (intern_group vs l0) as [[? ?]|e'] eqn:E; [discriminate|].
      injection H as <-. eapply IH; eassumption. }
    assert (X2 : forall vs l e, intern_groups vs l = inr e -> e <> EFuel).
    { clear -X1. induction vs as [|v vs IH]; intros l e H; simpl in H; [discriminate|].
      destruct (normalize_and_group v l) as [[g l1]|e1] eqn:E1.
      - destruct (intern_groups vs l1) as [[? ?]|e2] eqn:E2; [discriminate|]. injection H as <-. eapply IH; eassumption.
      - injection H as <-. unfold normalize_and_group in E1. destruct v; try (injection E1 as <-; discriminate).
        destruct (intern_group l0 l) as [[[|] ?]|e'] eqn:E3; try (injection E1 as <-; discriminate); try discriminate.
        injection E1 as <-. eapply X1; eassumption. }
    assert (X3 : forall d l e, extract_rule d l = inr e -> e <> EFuel).
    { clear -X2. intros d l e H. unfold extract_rule in H. destruct (d_scopes d) as [|v [|]]; try discriminate.
      - destruct (normalize_scopes_arg v l) as [[? ?]|e'] eqn:E; [discriminate|]. injection H as <-.
        unfold normalize_scopes_arg in E. destruct v; try (injection E as <-; discriminate).
        destruct (intern_groups l0 l) as [[[|] ?]|e''] eqn:E3; try (injection E as <-; discriminate); try discriminate.
        injection E as <-. eapply X2; eassumption.
      - injection H as <-. discriminate. }
    assert (X4 : forall fs l e, extract_fields fs l = inr e -> e <> EFuel).
    { clear -X3. induction fs as [|[f d] fs IH]; intros l e H; simpl in H; [discriminate|].
      destruct (extract_rule d l) as [[r l1]|e1] eqn:E1; [|injection H as <-; eapply X3; eassumption].
      destruct (extract_fields fs l1) as [[? ?]|e2] eqn:E2; [discriminate|]. injection H as <-. eapply IH; eassumption. }
    assert (X5 : forall ts a e, process_types ts a = inr e -> e <> EFuel).
    { clear -X3 X4. induction ts as [|t ts IH]; intros a e H; simpl in H; [discriminate|].
      destruct (process_type t a) as [a'|e1] eqn:E1; [eapply IH; eassumption|]. injection H as <-.
      unfold process_type in E1. destruct (k_rules t); [|discriminate].
      destruct (extract_rule (k_dirs t) (a_scopes a)) as [[r l1]|e2] eqn:E2; [|injection E1 as <-; eapply X3; eassumption].
      destruct (extract_fields (k_fields t) l1) as [[? ?]|e3] eqn:E3; [discriminate|]. injection E1 as <-. eapply X4; eassumption. }
    apply X5 in E. congruence.
Qed.
