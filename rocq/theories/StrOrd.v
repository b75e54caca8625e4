(** Byte-wise ordering of strings (Rust's [Ord for str]) and sorted association lists. *)
From Coq Require Import String Ascii List Sorted NArith Lia Bool.
Import ListNotations.

(** Rust compares [str] values byte by byte; Coq's [String.compare] does the same on
    the character codes. *)
Definition str_lt (a b : string) : Prop := String.compare a b = Lt.

Lemma ascii_compare_refl a : Ascii.compare a a = Eq.
Proof. unfold Ascii.compare. apply N.compare_refl. Qed.

Lemma ascii_compare_eq a b : Ascii.compare a b = Eq -> a = b.
Proof.
  unfold Ascii.compare. intro H. apply N.compare_eq in H.
  rewrite <- (ascii_N_embedding a), <- (ascii_N_embedding b), H. reflexivity.
Qed.

Lemma ascii_compare_antisym a b : Ascii.compare a b = CompOpp (Ascii.compare b a).
Proof. unfold Ascii.compare. rewrite N.compare_antisym. reflexivity. Qed.

Lemma str_compare_refl s : String.compare s s = Eq.
Proof. induction s as [|c s IH]; simpl; [reflexivity|]. rewrite ascii_compare_refl. exact IH. Qed.

Lemma str_compare_eq a b : String.compare a b = Eq -> a = b.
Proof. apply String.compare_eq_iff. Qed.

Lemma str_compare_antisym a b : String.compare a b = CompOpp (String.compare b a).
Proof. apply String.compare_antisym. Qed.

Lemma str_lt_gt a b : String.compare a b = Gt <-> str_lt b a.
Proof.
  unfold str_lt. rewrite (str_compare_antisym a b).
  destruct (String.compare b a); simpl; split; intro H; congruence.
Qed.

Lemma str_lt_irrefl a : ~ str_lt a a.
Proof. unfold str_lt. rewrite str_compare_refl. discriminate. Qed.

Lemma str_lt_trans a b c : str_lt a b -> str_lt b c -> str_lt a c.
Proof.
  unfold str_lt. revert b c.
  induction a as [|x a IH]; intros [|y b] [|z c]; simpl; try congruence.
  unfold Ascii.compare.
  destruct (N.compare_spec (N_of_ascii x) (N_of_ascii y)) as [E1|L1|G1];
  destruct (N.compare_spec (N_of_ascii y) (N_of_ascii z)) as [E2|L2|G2];
  intros H1 H2; try discriminate.
  - rewrite E1, E2, N.compare_refl. eapply IH; eassumption.
  - rewrite E1. apply N.compare_lt_iff in L2. rewrite L2. reflexivity.
  - rewrite <- E2. apply N.compare_lt_iff in L1. rewrite L1. reflexivity.
  - assert (L : (N_of_ascii x < N_of_ascii z)%N) by lia.
    apply N.compare_lt_iff in L. rewrite L. reflexivity.
Qed.

Lemma str_lt_neq a b : str_lt a b -> a <> b.
Proof. intros H E. subst. exact (str_lt_irrefl _ H). Qed.

Lemma str_lt_asym a b : str_lt a b -> ~ str_lt b a.
Proof. intros H1 H2. exact (str_lt_irrefl _ (str_lt_trans _ _ _ H1 H2)). Qed.

Definition str_eqb := String.eqb.

(** Association lists. *)
Section Assoc.
  Context {A : Type}.

  Fixpoint get (k : string) (l : list (string * A)) : option A :=
    match l with
    | [] => None
    | (k', v) :: l' => if String.eqb k k' then Some v else get k l'
    end.

  (** Strictly increasing keys: sorted and without duplicates. *)
  Definition keys_sorted (l : list (string * A)) : Prop :=
    StronglySorted str_lt (map fst l).

  Lemma keys_sorted_inv k v l :
    keys_sorted ((k, v) :: l) -> keys_sorted l /\ Forall (str_lt k) (map fst l).
  Proof. unfold keys_sorted; simpl; intro H. apply StronglySorted_inv in H. exact H. Qed.

  Lemma get_in k v l : get k l = Some v -> In (k, v) l.
  Proof.
    induction l as [|[k' v'] l IH]; simpl; [discriminate|].
    destruct (String.eqb_spec k k') as [->|N].
    - injection 1 as ->. left; reflexivity.
    - intro H. right. apply IH, H.
  Qed.

  Lemma get_none_notin k l : get k l = None <-> ~ In k (map fst l).
  Proof.
    induction l as [|[k' v'] l IH]; simpl; [tauto|].
    destruct (String.eqb_spec k k') as [->|N].
    - split; [discriminate|]. intro H. exfalso; apply H; left; reflexivity.
    - rewrite IH. split; intro H; [intros [E|I]; [congruence|tauto]| tauto].
  Qed.

  Lemma get_some_in_keys k v l : get k l = Some v -> In k (map fst l).
  Proof. intro H. apply get_in in H. apply (in_map fst) in H. exact H. Qed.

  Lemma in_get_nodup k v l : NoDup (map fst l) -> In (k, v) l -> get k l = Some v.
  Proof.
    induction l as [|[k' v'] l IH]; simpl; [tauto|].
    intros ND [E|I].
    - injection E as -> ->. rewrite String.eqb_refl. reflexivity.
    - inversion ND as [|? ? NI ND']; subst.
      destruct (String.eqb_spec k k') as [->|N].
      + exfalso. apply NI. apply (in_map fst) in I. exact I.
      + apply IH; assumption.
  Qed.

  Lemma keys_sorted_nodup l : keys_sorted l -> NoDup (map fst l).
  Proof.
    unfold keys_sorted. intro H. induction H as [|k ks _ IH F].
    - constructor.
    - constructor; [|exact IH]. intro I.
      rewrite Forall_forall in F. exact (str_lt_irrefl _ (F _ I)).
  Qed.

  Lemma get_lt_none k l : Forall (str_lt k) (map fst l) -> get k l = None.
  Proof.
    intro F. apply get_none_notin. intro I. rewrite Forall_forall in F.
    exact (str_lt_irrefl _ (F _ I)).
  Qed.

  (** Two sorted association lists with the same lookups are equal. *)
  Lemma sorted_ext (l1 l2 : list (string * A)) :
    keys_sorted l1 -> keys_sorted l2 -> (forall k, get k l1 = get k l2) -> l1 = l2.
  Proof.
    revert l2. induction l1 as [|[k1 v1] l1 IH]; intros [|[k2 v2] l2] S1 S2 E.
    - reflexivity.
    - specialize (E k2). simpl in E. rewrite String.eqb_refl in E. discriminate.
    - specialize (E k1). simpl in E. rewrite String.eqb_refl in E. discriminate.
    - apply keys_sorted_inv in S1 as [S1 F1]. apply keys_sorted_inv in S2 as [S2 F2].
      assert (K : k1 = k2).
      { destruct (String.compare k1 k2) eqn:C.
        - apply str_compare_eq in C. exact C.
        - exfalso. pose proof (E k1) as E1. simpl in E1. rewrite String.eqb_refl in E1.
          assert (N : k1 <> k2) by (apply str_lt_neq; exact C).
          apply String.eqb_neq in N. rewrite N in E1.
          rewrite get_lt_none in E1; [discriminate|].
          eapply Forall_impl; [|exact F2]. intros a La. eapply str_lt_trans; eassumption.
        - exfalso. apply str_lt_gt in C. pose proof (E k2) as E1. simpl in E1.
          rewrite String.eqb_refl in E1.
          assert (N : k2 <> k1) by (apply str_lt_neq; exact C).
          apply String.eqb_neq in N. rewrite N in E1.
          rewrite get_lt_none in E1; [discriminate|].
          eapply Forall_impl; [|exact F1]. intros a La. eapply str_lt_trans; eassumption. }
      subst k2.
      assert (V : v1 = v2).
      { pose proof (E k1) as E1. simpl in E1. rewrite String.eqb_refl in E1. congruence. }
      subst v2. f_equal. apply IH; [assumption|assumption|].
      intro k. destruct (String.eqb_spec k k1) as [->|N].
      + rewrite !get_lt_none; auto.
      + specialize (E k). simpl in E. apply String.eqb_neq in N. rewrite N in E. exact E.
  Qed.
End Assoc.
