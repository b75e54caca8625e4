(** Facts about the projection: determinism, members shown, dependence on data, conditions. *)
From Coq Require Import String Ascii List NArith ZArith Arith Bool Lia.
From Verif Require Import StrOrd StrUtil JsonModel JsonWriterModel JsonText ProjModel ProjSpec ProjProofs.
Import ListNotations.
Local Open Scope string_scope.

Lemma Forall2_In_l' {A B} (R : A -> B -> Prop) l l' x : Forall2 R l l' -> In x l -> exists y, In y l' /\ R x y.
Proof.
  induction 1 as [|a b l l' H1 H2 IH]; [intros []|]. intros [-> | H].
  - exists b. split; [left; reflexivity|exact H1].
  - destruct (IH H) as (y & A1 & A2). exists y. split; [right; exact A1|exact A2].
Qed.

Section F.
  Variable M : meta.
  Variable vtrue : string -> bool.
  Local Notation comp := (comp M vtrue).
  Local Notation fieldc := (fieldc M vtrue).
  Local Notation fields := (fields M vtrue).
  Local Notation status := (field_status M vtrue).

  (** ** Determinism *)
  Definition det (p : plan) := forall d nul pt t1 t2, comp p nul pt d t1 -> comp p nul pt d t2 -> t1 = t2.

  Lemma fieldc_inv q pt o t : fieldc q pt o t ->
    (status q pt o = Invalid /\ t = ONull) \/
    (status q pt o = Present /\
     ((p_val q = SNull /\ t = ONull) \/
      (exists s, p_val q = SData s /\
        ((p_typename q = true /\ exists n, pt = inl n /\ t = OName n) \/
         (p_typename q = false /\
          ((get (p_key q) o = None /\ t = ONull) \/
           (exists v, get (p_key q) o = Some v /\ comp q (p_null q) pt v t))))))).
  Proof.
    intros H. destruct H as [q pt o H|q pt o H1 H2|q n o s H1 H2 H3|q pt o s H1 H2 H3 H4|q pt o s v t H1 H2 H3 H4 H5].
    - left. auto.
    - right. auto.
    - right. split; [exact H1|]. right. exists s. split; [exact H2|]. left. eauto.
    - right. split; [exact H1|]. right. exists s. split; [exact H2|]. right. split; [exact H3|]. left. auto.
    - right. split; [exact H1|]. right. exists s. split; [exact H2|]. right. split; [exact H3|]. right. eauto.
  Qed.

  Lemma fieldc_status q pt o t : fieldc q pt o t -> status q pt o = Invalid \/ status q pt o = Present.
  Proof. intros H. apply fieldc_inv in H. intuition. Qed.

  Lemma fieldc_det q pt o t1 t2 : det q -> fieldc q pt o t1 -> fieldc q pt o t2 -> t1 = t2.
  Proof.
    intros D H1 H2. apply fieldc_inv in H1. apply fieldc_inv in H2.
    destruct H1 as [[A1 ->]|[A1 B1]], H2 as [[A2 ->]|[A2 B2]]; try congruence.
    destruct B1 as [[C1 ->]|(s1 & C1 & B1)], B2 as [[C2 ->]|(s2 & C2 & B2)]; try congruence.
    destruct B1 as [[E1 (n1 & F1 & ->)]|[E1 B1]], B2 as [[E2 (n2 & F2 & ->)]|[E2 B2]]; try congruence.
    destruct B1 as [[G1 ->]|(v1 & G1 & B1)], B2 as [[G2 ->]|(v2 & G2 & B2)]; try congruence.
    replace v2 with v1 in B2 by congruence. exact (D _ _ _ _ _ B1 B2).
  Qed.

  Lemma fields_inv q qs pt o kvs : fields (q :: qs) pt o kvs ->
    (status q pt o = Absent /\ fields qs pt o kvs) \/
    (exists t kvs', kvs = (p_key q, t) :: kvs' /\ fieldc q pt o t /\ (t = ONull -> is_non_null (p_null q) = false)
                    /\ fields qs pt o kvs').
  Proof.
    intros H. remember (q :: qs) as l eqn:E. destruct H as [|q' qs' pt o kvs A B|q' qs' pt o t kvs A B C];
      [discriminate| |]; injection E as -> ->; [left; auto|]. right. exists t, kvs. auto.
  Qed.

  Lemma fields_det qs pt o : Forall det qs -> forall k1 k2, fields qs pt o k1 -> fields qs pt o k2 -> k1 = k2.
  Proof.
    induction 1 as [|q qs D F IH]; intros k1 k2 H1 H2.
    - inversion H1; inversion H2. reflexivity.
    - apply fields_inv in H1. apply fields_inv in H2.
      destruct H1 as [[A1 B1]|(t1 & l1 & -> & A1 & _ & B1)], H2 as [[A2 B2]|(t2 & l2 & -> & A2 & _ & B2)].
      + auto.
      + apply fieldc_status in A2. destruct A2; congruence.
      + apply fieldc_status in A1. destruct A1; congruence.
      + rewrite (fieldc_det _ _ _ _ _ D A1 A2), (IH _ _ B1 B2). reflexivity.
  Qed.

  (** no member of a completed object is a null in a non-null position *)
  Lemma fields_null qs pt o : Forall det qs -> forall kvs q, fields qs pt o kvs -> In q qs ->
    is_non_null (p_null q) = true -> fieldc q pt o ONull -> False.
  Proof.
    induction 1 as [|r qs D F IH]; intros kvs q H Hin Hn Hc; [destruct Hin|].
    apply fields_inv in H. destruct Hin as [-> | Hin].
    - destruct H as [[A B]|(t & l & -> & A & C & B)].
      + apply fieldc_status in Hc. destruct Hc; congruence.
      + rewrite (fieldc_det _ _ _ _ _ D A Hc) in C. rewrite C in Hn; [discriminate|reflexivity].
    - destruct H as [[A B]|(t & l & -> & A & C & B)]; eapply IH; eauto.
  Qed.

  Lemma comp_arr_inv p nul pt l t : comp p nul pt (VArr l) t ->
    (exists ts, t = OArr ts /\ Forall2 (comp p (item_shape nul) pt) l ts /\ (item_nn nul = true -> ~ In ONull ts)) \/
    (t = ONull /\ item_nn nul = true /\ exists x, In x l /\ comp p (item_shape nul) pt x ONull).
  Proof.
    intros H. remember (VArr l) as d eqn:E.
    destruct H; try discriminate E; try (subst; contradiction).
    - injection E as ->. left. eauto.
    - injection E as ->. right. eauto.
  Qed.
  Lemma comp_obj_inv p nul pt o t : comp p nul pt (VObj o) t ->
    (p_val p = SData None /\ t = OLeaf (VObj o)) \/
    (p_val p = SNull /\ t = ONull) \/
    (exists sels, p_val p = SData (Some sels) /\
      ((exists kvs, t = OObj kvs /\ fields sels (resolve_type_name M p (Some (VObj o)) pt) o kvs) \/
       (t = ONull /\ exists q, In q sels /\ is_non_null (p_null q) = true /\
                     fieldc q (resolve_type_name M p (Some (VObj o)) pt) o ONull))).
  Proof.
    intros H. remember (VObj o) as d eqn:E.
    destruct H; try discriminate E; try (subst; contradiction); try (injection E as ->).
    - left. auto.
    - right. left. auto.
    - right. right. exists sels. split; [assumption|]. left. eauto.
    - right. right. exists sels. split; [assumption|]. right. split; [reflexivity|]. eauto.
  Qed.
  Lemma comp_leaf_inv p nul pt v t : match v with VArr _ | VObj _ => False | _ => True end ->
    comp p nul pt v t -> t = match v with VNull => ONull | _ => OLeaf v end.
  Proof. intros A H. destruct v; try contradiction; inversion H; subst; try contradiction; reflexivity. Qed.

  Lemma Forall2_det {A B} (R : A -> B -> Prop) l : (forall x a b, In x l -> R x a -> R x b -> a = b) ->
    forall a b, Forall2 R l a -> Forall2 R l b -> a = b.
  Proof.
    induction l as [|x l IH]; intros H a b Ha Hb; inversion Ha; inversion Hb; subst; [reflexivity|].
    f_equal.
    - eapply H; eauto. left. reflexivity.
    - apply IH; auto. intros z ? ? Hz. apply H. right. exact Hz.
  Qed.

  Lemma comp_det p : det p.
  Proof.
    induction p as [f k ty nl g c v IHp] using plan_ind'. set (p := Plan f k ty nl g c v) in *.
    intros d. induction d as [|fbits|iz|un|bb|str|raw|l IH|o IH] using value_ind'; intros nul pt t1 t2 H1 H2.
    1-7: apply comp_leaf_inv in H1; [|exact I]; apply comp_leaf_inv in H2; [|exact I]; congruence.
    - apply comp_arr_inv in H1. apply comp_arr_inv in H2.
      rewrite Forall_forall in IH.
      destruct H1 as [(ts1 & -> & A1 & B1)|(-> & A1 & x1 & B1 & C1)],
               H2 as [(ts2 & -> & A2 & B2)|(-> & A2 & x2 & B2 & C2)].
      + f_equal. eapply Forall2_det; [|exact A1|exact A2]. intros x a b Hx. apply IH. exact Hx.
      + exfalso. destruct (Forall2_In_l' _ _ _ _ A1 B2) as (t & Ht & Hc).
        rewrite <- (IH _ B2 _ _ _ _ C2 Hc) in Ht. exact (B1 A2 Ht).
      + exfalso. destruct (Forall2_In_l' _ _ _ _ A2 B1) as (t & Ht & Hc).
        rewrite <- (IH _ B1 _ _ _ _ C1 Hc) in Ht. exact (B2 A1 Ht).
      + reflexivity.
    - apply comp_obj_inv in H1. apply comp_obj_inv in H2.
      destruct H1 as [[A1 ->]|[[A1 ->]|(s1 & A1 & H1)]], H2 as [[A2 ->]|[[A2 ->]|(s2 & A2 & H2)]]; try congruence.
      assert (s2 = s1) by congruence. subst s2.
      assert (D : Forall det s1).
      { cbn in A1. exact (IHp _ A1). }
      destruct H1 as [(k1 & -> & F1)|(-> & q1 & Q1 & N1 & F1)], H2 as [(k2 & -> & F2)|(-> & q2 & Q2 & N2 & F2)].
      + f_equal. eapply fields_det; eauto.
      + exfalso. eapply fields_null; eauto.
      + exfalso. eapply fields_null; eauto.
      + reflexivity.
  Qed.

  Lemma comp_root_det root ps d t1 t2 :
    comp_root M vtrue root ps d t1 -> comp_root M vtrue root ps d t2 -> t1 = t2.
  Proof.
    assert (D : Forall det ps) by (apply Forall_forall; intros; apply comp_det).
    intros H1 H2.
    destruct H1 as [root ps o kvs H1|root ps o q A1 B1 C1|root ps d H1].
    - inversion H2; subst; [f_equal; eapply fields_det; eauto|exfalso; eapply fields_null; eauto|contradiction].
    - inversion H2; subst; [exfalso; eapply fields_null; eauto|reflexivity|contradiction].
    - inversion H2; subst; try contradiction; reflexivity.
  Qed.

  (** ** Members shown *)
  Definition shown (pt : rname) (o : list (string * value)) (q : plan) : bool :=
    match status q pt o with Absent => false | _ => true end.

  Lemma fields_keys qs pt o kvs : fields qs pt o kvs -> map fst kvs = map p_key (filter (shown pt o) qs).
  Proof.
    revert kvs. induction qs as [|q qs IH]; intros kvs H.
    - inversion H. reflexivity.
    - apply fields_inv in H. cbn [filter]. unfold shown at 1.
      destruct H as [[A B]|(t & l & -> & A & _ & B)].
      + rewrite A. auto.
      + apply fieldc_status in A. destruct A as [-> | ->]; cbn [map fst]; f_equal; auto.
  Qed.
End F.

(** the model's resolution of a value's type *)
Lemma resolve_has_type M p v parent t : resolve_type_name M p v parent = inl t <-> has_type M p v parent t.
Proof.
  unfold resolve_type_name. destruct (p_typename p) eqn:Ep.
  - split; [intros E; injection E as <-; apply T_typename; exact Ep|].
    intros H. destruct H as [|t H|pt fs t nl H]; [reflexivity|congruence|congruence].
  - set (said := match v with
             | Some (VObj o) => match get "__typename" o with Some (VStr s) => Some s | _ => None end
             | _ => None
             end).
    assert (S : forall t, said = Some t <-> says_type v t).
    { intros t'. unfold said, says_type. split.
      - destruct v as [v|]; [|discriminate]. destruct v; try discriminate. destruct (get "__typename" o) as [w|] eqn:Eg; [|discriminate].
        destruct w; try discriminate. intros E. injection E as ->. exists o. auto.
      - intros (o & -> & Eg). rewrite Eg. reflexivity. }
    destruct said as [s|] eqn:Es.
    + split.
      * intros E. injection E as <-. apply T_said; [exact Ep|]. apply S. reflexivity.
      * intros H. destruct H as [H|t H Hs|pt fs t nl H Hs]; [congruence| |].
        -- apply S in Hs. congruence.
        -- exfalso. apply (Hs s). apply S. reflexivity.
    + split.
      * destruct parent as [pt|]; [|discriminate]. destruct (m_fields M pt) as [fs|] eqn:Ef; [|discriminate].
        destruct (fs (p_field p)) as [[t' nl]|] eqn:E2; [|discriminate]. intros E. injection E as <-.
        eapply T_declared; [exact Ep| |reflexivity|exact Ef|exact E2]. intros t'' H. apply S in H. discriminate.
      * intros H. destruct H as [H|t H Hs|pt fs t nl H Hs Hp Hf H2]; [congruence| |].
        -- apply S in Hs. discriminate.
        -- subst parent. rewrite Hf, H2. reflexivity.
Qed.
