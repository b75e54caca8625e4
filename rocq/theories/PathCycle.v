(** The check for requirements that ask for the field that is searched for. *)
From Coq Require Import String List NArith Bool Arith Lia.
From Verif Require Import Ast PathModel PathSpec.
Import ListNotations.
Local Open Scope list_scope.

Lemma weight_field : forall n a args inc skip om sub, weight (SField n a args inc skip om sub) = S (weights sub).
Proof.
  intros n a args inc skip om sub. cbn. f_equal. unfold weights.
  induction sub as [|x sub IH]; [reflexivity|]. cbn. now rewrite IH.
Qed.
Lemma weight_frag : forall t inc skip sub, weight (SFrag t inc skip sub) = S (weights sub).
Proof.
  intros t inc skip sub. cbn. f_equal. unfold weights.
  induction sub as [|x sub IH]; [reflexivity|]. cbn. now rewrite IH.
Qed.
Lemma weights_cons : forall x l, weights (x :: l) = weight x + weights l.
Proof. reflexivity. Qed.
Lemma weight_in : forall l x, In x l -> weight x <= weights l.
Proof.
  intros l x. induction l as [|y l IH]; [destruct 1|]. rewrite weights_cons. intros [->|I]; [lia|]. specialize (IH I). lia.
Qed.
Lemma any_spec : forall {A} (f : A -> option bool) l,
  (forall x, In x l -> f x <> None) ->
  exists b, any f l = Some b /\ (b = true <-> exists x, In x l /\ f x = Some true).
Proof.
  intros A f l. induction l as [|x l IH]; cbn; intros K.
  - exists false. split; [reflexivity|]. split; [discriminate|]. intros [x [[] _]].
  - destruct (f x) as [[|]|] eqn:E; [| |now destruct (K x (or_introl eq_refl))].
    + exists true. split; [reflexivity|]. split; [|reflexivity]. intros _. exists x. auto.
    + destruct IH as [b [EB IB]]; [intros y I; apply K; auto|]. exists b. split; [exact EB|].
      rewrite IB. split; intros [y [I Y]].
      * exists y. auto.
      * destruct I as [->|I]; [congruence|]. exists y. auto.
Qed.

Section Cycle.
  Variable objects_of : string -> option (list string).
  Variable ahash : option (list (string * gvalue)) -> N.
  Variable current : string.
  Notation items := (items_overlap objects_of ahash current).
  Notation over := (overlap objects_of ahash current).

  Lemma type_matches_iff : forall t a, type_matches objects_of t a = true <-> is_a objects_of t a.
  Proof.
    intros t a. unfold type_matches, is_a. rewrite orb_true_iff, String.eqb_eq. split; (intros [E|E]; [now left|right]).
    - destruct (objects_of a) as [l|]; [|discriminate]. apply existsb_exists in E. destruct E as [x [I X]].
      apply String.eqb_eq in X. subst x. now exists l.
    - destruct E as [l [-> I]]. apply existsb_exists. exists t. split; [exact I|apply String.eqb_refl].
  Qed.
  Lemma same_iff : forall n a n' a', same_field ahash n a n' a' = true <-> n' = n /\ ahash a' = ahash a.
  Proof. intros. unfold same_field. now rewrite andb_true_iff, String.eqb_eq, N.eqb_eq. Qed.
  Lemma over_sym : forall a b, over a b -> over b a.
  Proof.
    intros a b H. induction H.
    - apply overlap_leaf; [congruence|tauto].
    - eapply overlap_fields; [congruence|eassumption|eassumption|assumption].
    - eapply overlap_right; eassumption.
    - eapply overlap_left; eassumption.
    - apply overlap_empty; tauto.
    - eapply overlap_frags; eassumption.
  Qed.

  Lemma sets_spec : forall n r t,
    (forall x y, In x r -> In y t -> exists b, items n x y = Some b /\ (b = true <-> over x y)) ->
    exists b, sets_overlap (items n) r t = Some b /\
      (b = true <-> (r = [] \/ t = []) \/ exists x y, In x r /\ In y t /\ over x y).
  Proof.
    intros n r t K. unfold sets_overlap.
    destruct t as [|y0 t0] eqn:ET; [exists true; repeat split; auto|].
    destruct r as [|x0 r0] eqn:ER; [exists true; repeat split; auto|].
    rewrite <- ET in *. rewrite <- ER in *.
    assert (Q : forall y, In y t -> exists b, any (fun x => items n x y) r = Some b /\ (b = true <-> exists x, In x r /\ over x y)).
    { intros y IY. destruct (any_spec (fun x => items n x y) r) as [b [EB IB]].
      - intros x IX. destruct (K x y IX IY) as [b [E _]]. congruence.
      - exists b. split; [exact EB|]. rewrite IB. split; intros [x [IX X]]; exists x; (split; [exact IX|]).
        + destruct (K x y IX IY) as [b' [E Hb]]. rewrite E in X. injection X as ->. now apply Hb.
        + destruct (K x y IX IY) as [b' [E Hb]]. rewrite E. apply Hb in X. now subst b'. }
    destruct (any_spec (fun y => any (fun x => items n x y) r) t) as [b [EB IB]].
    - intros y IY. destruct (Q y IY) as [b [E _]]. congruence.
    - exists b. split; [exact EB|]. rewrite IB. split.
      + intros [y [IY Y]]. right. destruct (Q y IY) as [b' [E Hb]]. rewrite E in Y. injection Y as ->.
        destruct Hb as [Hb _]. destruct (Hb eq_refl) as [x [IX X]]. exists x, y. auto.
      + intros [[EE|EE]|[x [y [IX [IY O]]]]]; [congruence|congruence|].
        exists y. split; [exact IY|]. destruct (Q y IY) as [b' [E Hb]]. rewrite E. f_equal. apply Hb. exists x. auto.
  Qed.

  Lemma items_spec : forall n r t, weight r + weight t <= n ->
    exists b, items n r t = Some b /\ (b = true <-> over r t).
  Proof.
    intros n. induction n as [|n IH]; intros r t L.
    - destruct r; cbn in L; lia.
    - destruct t as [tn ta targs tinc tskip tom ts|tt tinc tskip ts|tn];
      destruct r as [rn ra rargs rinc rskip rom rs|rt rinc rskip rs|rn];
        try (exists false; split; [reflexivity|]; split; [discriminate|]; intros O; now inversion O); cbn [items_overlap].
      + rewrite !weight_field in L. destruct (same_field ahash tn targs rn rargs) eqn:E.
        * apply same_iff in E. destruct E as [-> E].
          destruct (sets_spec n ts rs) as [b [EB IB]].
          { intros x y IX IY. destruct (IH x y) as [b [EB IB]]; [apply weight_in in IX, IY; lia|]. now exists b. }
          exists b. split; [exact EB|]. rewrite IB. split.
          -- intros [K|[x [y [IX [IY O]]]]]; [apply overlap_leaf; tauto|].
             eapply overlap_fields; [exact E|exact IY|exact IX|now apply over_sym].
          -- intros O. inversion O; subst; [left; tauto|]. right. exists y, x. repeat split; auto. now apply over_sym.
        * exists false. split; [reflexivity|]. split; [discriminate|]. intros O.
          assert (same_field ahash tn targs rn rargs = true) by (apply same_iff; inversion O; subst; auto). congruence.
      + rewrite weight_field, weight_frag in L. destruct (type_matches objects_of current rt) eqn:E.
        * apply type_matches_iff in E.
          assert (Q : forall x, In x rs -> exists b, items n x (SField tn ta targs tinc tskip tom ts) = Some b /\
                        (b = true <-> over x (SField tn ta targs tinc tskip tom ts))).
          { intros x IX. apply IH. rewrite weight_field. apply weight_in in IX. lia. }
          destruct (any_spec (fun x => items n x (SField tn ta targs tinc tskip tom ts)) rs) as [b [EB IB]].
          { intros x IX. destruct (Q x IX) as [b [EB _]]. congruence. }
          exists b. split; [exact EB|]. rewrite IB. split.
          -- intros [x [IX X]]. destruct (Q x IX) as [b' [E' Hb]]. rewrite E' in X. injection X as ->.
             eapply overlap_left; [exact E|exact IX|now apply Hb].
          -- intros O. inversion O; subst. match goal with [I : In ?x rs, O' : over ?x _ |- _] => exists x; split; [exact I|];
               destruct (Q x I) as [b' [E' Hb]]; rewrite E'; f_equal; now apply Hb end.
        * exists false. split; [reflexivity|]. split; [discriminate|]. intros O. inversion O; subst.
          assert (type_matches objects_of current rt = true) by now apply type_matches_iff. congruence.
      + rewrite weight_field, weight_frag in L. destruct (type_matches objects_of current tt) eqn:E.
        * apply type_matches_iff in E.
          assert (Q : forall y, In y ts -> exists b, items n (SField rn ra rargs rinc rskip rom rs) y = Some b /\
                        (b = true <-> over (SField rn ra rargs rinc rskip rom rs) y)).
          { intros x IX. apply IH. rewrite weight_field. apply weight_in in IX. lia. }
          destruct (any_spec (fun y => items n (SField rn ra rargs rinc rskip rom rs) y) ts) as [b [EB IB]].
          { intros x IX. destruct (Q x IX) as [b [EB _]]. congruence. }
          exists b. split; [exact EB|]. rewrite IB. split.
          -- intros [x [IX X]]. destruct (Q x IX) as [b' [E' Hb]]. rewrite E' in X. injection X as ->.
             eapply overlap_right; [exact E|exact IX|now apply Hb].
          -- intros O. inversion O; subst. match goal with [I : In ?x ts, O' : over _ ?x |- _] => exists x; split; [exact I|];
               destruct (Q x I) as [b' [E' Hb]]; rewrite E'; f_equal; now apply Hb end.
        * exists false. split; [reflexivity|]. split; [discriminate|]. intros O. inversion O; subst.
          assert (type_matches objects_of current tt = true) by now apply type_matches_iff. congruence.
      + rewrite !weight_frag in L. destruct (type_matches objects_of current tt && type_matches objects_of current rt) eqn:E.
        * apply andb_true_iff in E. rewrite !type_matches_iff in E. destruct E as [ET ER].
          destruct (sets_spec n rs ts) as [b [EB IB]].
          { intros x y IX IY. apply IH. apply weight_in in IX, IY. lia. }
          exists b. split; [exact EB|]. rewrite IB. split.
          -- intros [K|[x [y [IX [IY O]]]]]; [now apply overlap_empty|eapply overlap_frags; eassumption].
          -- intros O. inversion O; subst; [now left|]. right. now exists x, y.
        * exists false. split; [reflexivity|]. split; [discriminate|]. intros O.
          assert (type_matches objects_of current tt = true /\ type_matches objects_of current rt = true) as [A B]
            by (rewrite !type_matches_iff; inversion O; subst; auto).
          rewrite A, B in E. discriminate.
  Qed.

  Lemma item_spec : forall n f r, weight r + weights (fl_sub f) <= n ->
    exists b, item_depends objects_of ahash current n f r = Some b /\ (b = true <-> asks_for objects_of ahash current f r).
  Proof.
    intros n f r. induction r as [rn ra rargs rinc rskip rom rs IH|rt rinc rskip rs IH|rn] using sel_ind'; intros L; cbn [item_depends].
    - rewrite weight_field in L. destruct (same_field ahash rn rargs (fl_name f) (fl_args f)) eqn:E.
      + apply same_iff in E. destruct E as [E1 E2].
        destruct (sets_spec n rs (fl_sub f)) as [b [EB IB]].
        { intros x y IX IY. apply items_spec. apply weight_in in IX, IY. lia. }
        exists b. split; [exact EB|]. rewrite IB. subst rn. split.
        * intros [K|[x [y [IX [IY O]]]]]; [apply asks_leaf; [congruence|exact K]|eapply asks_part; [congruence|eassumption..]].
        * intros O. inversion O; subst; [now left|]. right. now exists x, y.
      + exists false. split; [reflexivity|]. split; [discriminate|]. intros O.
        assert (same_field ahash rn rargs (fl_name f) (fl_args f) = true) by (apply same_iff; inversion O; subst; auto). congruence.
    - rewrite weight_frag in L. destruct (type_matches objects_of current rt) eqn:E.
      + apply type_matches_iff in E.
        assert (Q : exists b, any (item_depends objects_of ahash current n f) rs = Some b /\
                  (b = true <-> exists x, In x rs /\ asks_for objects_of ahash current f x)).
        { rewrite Forall_forall in IH. destruct (any_spec (item_depends objects_of ahash current n f) rs) as [b [EB IB]].
          - intros x IX. destruct (IH x IX) as [b [EB _]]; [apply weight_in in IX; lia|]. congruence.
          - exists b. split; [exact EB|]. rewrite IB. split; intros [x [IX X]]; exists x; (split; [exact IX|]);
              (destruct (IH x IX) as [b' [E' Hb]]; [apply weight_in in IX; lia|]).
            + apply Hb. congruence.
            + rewrite E'. f_equal. now apply Hb. }
        destruct Q as [b [EB IB]]. exists b. split.
        * rewrite <- EB. clear. induction rs as [|x rs IH]; [reflexivity|]. cbn [any].
          destruct (item_depends objects_of ahash current n f x) as [[|]|]; auto.
        * rewrite IB. split.
          -- intros [x [IX X]]. eapply asks_inside; eassumption.
          -- intros O. inversion O; subst. now exists x.
      + exists false. split; [reflexivity|]. split; [discriminate|]. intros O. inversion O; subst.
        assert (type_matches objects_of current rt = true) by now apply type_matches_iff. congruence.
    - exists false. split; [reflexivity|]. split; [discriminate|]. intros O. inversion O.
  Qed.
  Lemma depends_ok : forall r f, exists b, depends objects_of ahash current r f = Some b /\
    (b = true <-> circular objects_of ahash current r f).
  Proof.
    intros r f. unfold depends, circular. destruct (type_matches objects_of current (ts_type r)) eqn:E.
    - apply type_matches_iff in E.
      set (n := S (weights (ts_sels r) + weights (fl_sub f))).
      assert (IH : forall x, In x (ts_sels r) -> exists b, item_depends objects_of ahash current n f x = Some b /\ (b = true <-> asks_for objects_of ahash current f x)).
      { intros x IX. apply item_spec. apply weight_in in IX. unfold n. lia. }
      destruct (any_spec (item_depends objects_of ahash current n f) (ts_sels r)) as [b [EB IB]].
      + intros x IX. destruct (IH x IX) as [b [EB _]]. congruence.
      + exists b. split; [exact EB|]. rewrite IB. split.
        * intros [x [IX X]]. split; [exact E|]. exists x. split; [exact IX|]. destruct (IH x IX) as [b' [E' Hb]]. apply Hb. congruence.
        * intros [_ [x [IX X]]]. exists x. split; [exact IX|]. destruct (IH x IX) as [b' [E' Hb]]. rewrite E'. f_equal. now apply Hb.
    - exists false. split; [reflexivity|]. split; [discriminate|]. intros [K _]. apply type_matches_iff in K. congruence.
  Qed.
  Lemma plain_over : forall x, plain_fields x -> over x x.
  Proof.
    intros x. induction x as [n a args inc skip om sub IH|t inc skip sub IH|n] using sel_ind'; intros P; inversion P; subst.
    destruct sub as [|y sub]; [apply overlap_leaf; auto|].
    rewrite Forall_forall in IH. eapply overlap_fields; [reflexivity|now left|now left|]. apply IH; [now left|]. match goal with [H : forall x, In x _ -> plain_fields x |- _] => apply H end. now left.
  Qed.
  (** Requirements that name the very field that is searched for, with fields only *)
  Lemma detected_ok : forall r f a inc skip om,
    is_a objects_of current (ts_type r) -> In (SField (fl_name f) a (fl_args f) inc skip om (fl_sub f)) (ts_sels r) ->
    Forall plain_fields (fl_sub f) -> depends objects_of ahash current r f = Some true.
  Proof.
    intros r f a inc skip om T I P. destruct (depends_ok r f) as [b [EB IB]]. rewrite EB. f_equal. apply IB.
    split; [exact T|]. eexists. split; [exact I|]. destruct (fl_sub f) as [|x l] eqn:E.
    - apply asks_leaf; auto.
    - eapply asks_part; [reflexivity|now left|rewrite E; now left|]. apply plain_over. rewrite Forall_forall in P. apply P. now left.
  Qed.
End Cycle.
