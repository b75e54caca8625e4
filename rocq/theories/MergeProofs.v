From Coq Require Import String List NArith ZArith Sorted Permutation Lia.
From Verif Require Import StrOrd JsonModel MergeModel MergeSpec.
Import ListNotations.

Lemma deep_merge_obj tl sl : deep_merge (VObj tl) (VObj sl) = VObj (merge_objects tl sl).
Proof. reflexivity. Qed.
Lemma deep_merge_arr ta sa : deep_merge (VArr ta) (VArr sa) = VArr (merge_arrays ta sa).
Proof. reflexivity. Qed.
Lemma deep_merge_null_r t : deep_merge t VNull = t.
Proof. destruct t; reflexivity. Qed.
Lemma deep_merge_null_l s : deep_merge VNull s = s.
Proof. destruct s; reflexivity. Qed.

Lemma merge_objects_nil_r tl : merge_objects tl [] = tl.
Proof. destruct tl as [|[k v] tl]; reflexivity. Qed.
Lemma merge_objects_nil_l sl : merge_objects [] sl = sl.
Proof. reflexivity. Qed.
Lemma merge_objects_cons tk tv tl sk sv sl :
  merge_objects ((tk, tv) :: tl) ((sk, sv) :: sl) =
  match String.compare tk sk with
  | Lt => (tk, tv) :: merge_objects tl ((sk, sv) :: sl)
  | Gt => (sk, sv) :: merge_objects ((tk, tv) :: tl) sl
  | Eq => (tk, deep_merge tv sv) :: merge_objects tl sl
  end.
Proof. reflexivity. Qed.
Lemma merge_arrays_nil_r ta : merge_arrays ta [] = ta.
Proof. destruct ta; reflexivity. Qed.

(** Joint induction over the two key lists. *)
Lemma merge_objects_ind (P : list (string * value) -> list (string * value) -> Prop) :
  (forall sl, P [] sl) ->
  (forall tl, P tl []) ->
  (forall tk tv tl sk sv sl, str_lt tk sk -> P tl ((sk, sv) :: sl) ->
     P ((tk, tv) :: tl) ((sk, sv) :: sl)) ->
  (forall tk tv tl sk sv sl, str_lt sk tk -> P ((tk, tv) :: tl) sl ->
     P ((tk, tv) :: tl) ((sk, sv) :: sl)) ->
  (forall k tv tl sv sl, P tl sl -> P ((k, tv) :: tl) ((k, sv) :: sl)) ->
  forall tl sl, P tl sl.
Proof.
  intros H1 H2 H3 H4 H5.
  induction tl as [|[tk tv] tl IHt]; [exact H1|].
  induction sl as [|[sk sv] sl IHs]; [apply H2|].
  destruct (String.compare tk sk) eqn:C.
  - apply str_compare_eq in C. subst. apply H5, IHt.
  - apply H3; [exact C | apply IHt].
  - apply H4; [apply str_lt_gt; exact C | exact IHs].
Qed.

Lemma merge_objects_keys (Q : string -> Prop) tl sl :
  Forall Q (map fst tl) -> Forall Q (map fst sl) -> Forall Q (map fst (merge_objects tl sl)).
Proof.
  revert tl sl. apply (merge_objects_ind (fun tl sl => Forall Q (map fst tl) -> Forall Q (map fst sl) ->
     Forall Q (map fst (merge_objects tl sl)))).
  - intros sl _ H. exact H.
  - intros tl H _. rewrite merge_objects_nil_r. exact H.
  - intros tk tv tl sk sv sl L IH Ht Hs. rewrite merge_objects_cons. unfold str_lt in L. rewrite L.
    inversion Ht; subst. cbn [map fst]. constructor; [assumption|]. apply IH; assumption.
  - intros tk tv tl sk sv sl L IH Ht Hs. rewrite merge_objects_cons.
    apply str_lt_gt in L. rewrite L.
    inversion Hs; subst. cbn [map fst]. constructor; [assumption|]. apply IH; assumption.
  - intros k tv tl sv sl IH Ht Hs. rewrite merge_objects_cons, str_compare_refl.
    inversion Ht; inversion Hs; subst. cbn [map fst]. constructor; [assumption|]. apply IH; assumption.
Qed.

Lemma merge_objects_sorted tl sl :
  keys_sorted tl -> keys_sorted sl -> keys_sorted (merge_objects tl sl).
Proof.
  revert tl sl. apply (merge_objects_ind (fun tl sl => keys_sorted tl -> keys_sorted sl ->
     keys_sorted (merge_objects tl sl))).
  - intros sl _ H. exact H.
  - intros tl H _. rewrite merge_objects_nil_r. exact H.
  - intros tk tv tl sk sv sl L IH Ht Hs. rewrite merge_objects_cons. pose proof L as L'.
    unfold str_lt in L'. rewrite L'.
    apply keys_sorted_inv in Ht as [Ht Ft].
    unfold keys_sorted. cbn [map fst]. apply SSorted_cons; [apply IH; assumption|].
    apply merge_objects_keys; [exact Ft|].
    apply keys_sorted_inv in Hs as [_ Fs]. cbn [map fst]. constructor; [exact L|].
    eapply Forall_impl; [|exact Fs]. intros a La. eapply str_lt_trans; eassumption.
  - intros tk tv tl sk sv sl L IH Ht Hs. rewrite merge_objects_cons.
    pose proof L as L'. apply str_lt_gt in L'. rewrite L'.
    apply keys_sorted_inv in Hs as [Hs Fs].
    unfold keys_sorted. cbn [map fst]. apply SSorted_cons; [apply IH; assumption|].
    apply merge_objects_keys; [|exact Fs].
    apply keys_sorted_inv in Ht as [_ Ft]. cbn [map fst]. constructor; [exact L|].
    eapply Forall_impl; [|exact Ft]. intros a La. eapply str_lt_trans; eassumption.
  - intros k tv tl sv sl IH Ht Hs. rewrite merge_objects_cons, str_compare_refl.
    apply keys_sorted_inv in Hs as [Hs Fs]. apply keys_sorted_inv in Ht as [Ht Ft].
    unfold keys_sorted. cbn [map fst]. apply SSorted_cons; [apply IH; assumption|].
    apply merge_objects_keys; assumption.
Qed.

Definition merge_opt (a b : option value) : option value :=
  match a, b with
  | Some x, Some y => Some (deep_merge x y)
  | Some x, None => Some x
  | None, y => y
  end.

Lemma merge_objects_get k tl sl :
  keys_sorted tl -> keys_sorted sl ->
  get k (merge_objects tl sl) = merge_opt (get k tl) (get k sl).
Proof.
  revert tl sl. apply (merge_objects_ind (fun tl sl => keys_sorted tl -> keys_sorted sl ->
     get k (merge_objects tl sl) = merge_opt (get k tl) (get k sl))).
  - intros sl _ _. reflexivity.
  - intros tl _ _. rewrite merge_objects_nil_r. simpl. destruct (get k tl); reflexivity.
  - intros tk tv tl sk sv sl L IH Ht Hs. rewrite merge_objects_cons. pose proof L as L'.
    unfold str_lt in L'. rewrite L'.
    pose proof Ht as Ht0. apply keys_sorted_inv in Ht as [Ht Ft].
    cbn [get]. destruct (String.eqb_spec k tk) as [->|N].
    + assert (G : get tk ((sk, sv) :: sl) = None).
      { apply get_lt_none. cbn [map fst]. constructor; [exact L|].
        apply keys_sorted_inv in Hs as [_ Fs].
        eapply Forall_impl; [|exact Fs]. intros a La. eapply str_lt_trans; eassumption. }
      cbn [get] in G. rewrite G. reflexivity.
    + rewrite IH by assumption. reflexivity.
  - intros tk tv tl sk sv sl L IH Ht Hs. rewrite merge_objects_cons.
    pose proof L as L'. apply str_lt_gt in L'. rewrite L'.
    pose proof Hs as Hs0. apply keys_sorted_inv in Hs as [Hs Fs].
    cbn [get]. destruct (String.eqb_spec k sk) as [->|N].
    + assert (G : get sk ((tk, tv) :: tl) = None).
      { apply get_lt_none. cbn [map fst]. constructor; [exact L|].
        apply keys_sorted_inv in Ht as [_ Ft].
        eapply Forall_impl; [|exact Ft]. intros a La. eapply str_lt_trans; eassumption. }
      cbn [get] in G. rewrite G. reflexivity.
    + rewrite IH by assumption. reflexivity.
  - intros k' tv tl sv sl IH Ht Hs. rewrite merge_objects_cons, str_compare_refl.
    apply keys_sorted_inv in Hs as [Hs Fs]. apply keys_sorted_inv in Ht as [Ht Ft].
    cbn [get]. destruct (String.eqb_spec k k') as [->|N]; [reflexivity|].
    apply IH; assumption.
Qed.

Lemma wf_obj_get o k v : wf (VObj o) -> get k o = Some v -> wf v.
Proof.
  intros W G. inversion W as [| | | | | | | |o' S F]; subst.
  apply get_in in G. rewrite Forall_forall in F. exact (F _ G).
Qed.

Lemma wf_obj_of_get o :
  keys_sorted o -> (forall k v, get k o = Some v -> wf v) -> wf (VObj o).
Proof.
  intros S H. constructor; [exact S|]. apply Forall_forall. intros [k v] I. simpl.
  apply (H k). apply in_get_nodup; [apply keys_sorted_nodup; exact S | exact I].
Qed.

Lemma Forall_get (R : string * value -> Prop) o k v :
  Forall R o -> get k o = Some v -> R (k, v).
Proof. intros F G. apply get_in in G. rewrite Forall_forall in F. exact (F _ G). Qed.

Lemma deep_merge_wf t : forall s, wf t -> wf s -> wf (deep_merge t s).
Proof.
  induction t as [|fbits|iz|un|bb|str|raw|l IH|o IH] using value_ind'; intros s Wt Ws;
    try (destruct s; simpl; assumption).
  - destruct s as [| | | | | | |sa|]; try (simpl; assumption).
    rewrite deep_merge_arr. inversion Wt as [| | | | | | |? Fl|]; subst.
    inversion Ws as [| | | | | | |? Fs|]; subst. constructor. clear Wt Ws.
    revert sa Fs. induction l as [|v l IHl]; intros [|w sa] Fs; simpl.
    + constructor.
    + constructor.
    + exact Fl.
    + inversion IH; inversion Fl; inversion Fs; subst. constructor; auto.
  - destruct s as [| | | | | | | |sl]; try (simpl; assumption).
    rewrite deep_merge_obj.
    inversion Wt as [| | | | | | | |? St Ft]; subst.
    inversion Ws as [| | | | | | | |? Ss Fs]; subst.
    apply wf_obj_of_get; [apply merge_objects_sorted; assumption|].
    intros k v. rewrite merge_objects_get by assumption.
    destruct (get k o) as [a|] eqn:Ga; destruct (get k sl) as [b|] eqn:Gb; cbn [merge_opt]; intro E;
      try discriminate; injection E as <-.
    + apply (Forall_get _ _ _ _ IH Ga).
      * exact (wf_obj_get _ _ _ Wt Ga).
      * exact (wf_obj_get _ _ _ Ws Gb).
    + exact (wf_obj_get _ _ _ Wt Ga).
    + exact (wf_obj_get _ _ _ Ws Gb).
Qed.

Lemma merge_arrays_length ta : forall sa, length (merge_arrays ta sa) = length ta.
Proof.
  induction ta as [|v ta IH]; intros [|w sa]; simpl; try reflexivity. rewrite IH. reflexivity.
Qed.

Lemma merge_arrays_nth ta : forall sa i,
  nth_error (merge_arrays ta sa) i =
  match nth_error ta i, nth_error sa i with
  | Some x, Some y => Some (deep_merge x y)
  | Some x, None => Some x
  | None, _ => None
  end.
Proof.
  induction ta as [|v ta IH]; intros [|w sa] [|i]; simpl; try reflexivity.
  - destruct (nth_error ta i); reflexivity.
  - apply IH.
Qed.

(** *** Agreement *)
Lemma agree_sym a : forall b, agree a b -> agree b a.
Proof.
  induction a as [|fbits|iz|un|bb|str|raw|l IH|o IH] using value_ind'; intros b H;
    inversion H as [| |x Sx|l1 l2 F|o1 o2 F]; subst; try constructor; try assumption.
  - clear H. revert IH. induction F as [|x y l1 l2 A F IHF]; intro IH; constructor.
    + inversion IH; subst; auto.
    + apply IHF. inversion IH; assumption.
  - intros k x y Gx Gy. apply (Forall_get _ _ _ _ IH Gy). eapply F; eassumption.
Qed.


Lemma agree_refl a : agree a a.
Proof.
  induction a as [|fbits|iz|un|bb|str|raw|l IH|o IH] using value_ind'; try (constructor; exact I).
  - apply agree_arr. induction IH; constructor; assumption.
  - apply agree_obj. intros k x y Gx Gy. rewrite Gx in Gy. injection Gy as <-.
    exact (Forall_get _ _ _ _ IH Gx).
Qed.

Lemma deep_merge_scalar x y : scalar x -> scalar y -> deep_merge x y = y.
Proof. destruct x, y; simpl; intros; tauto || reflexivity. Qed.

(** Commutativity on agreeing trees. *)
Lemma deep_merge_comm a : forall b, wf a -> wf b -> agree a b -> deep_merge a b = deep_merge b a.
Proof.
  induction a as [|fbits|iz|un|bb|str|raw|l IH|o IH] using value_ind'; intros b Wa Wb H;
    inversion H as [| |x Sx|l1 l2 F|o1 o2 F]; subst;
    try (rewrite ?deep_merge_null_l, ?deep_merge_null_r; reflexivity);
    try (reflexivity).
  - rewrite !deep_merge_arr. f_equal.
    inversion Wa as [| | | | | | |? Fl|]; subst. inversion Wb as [| | | | | | |? Fs|]; subst.
    clear H Wa Wb. revert IH Fl Fs.
    induction F as [|x y l1 l2 A F IHF]; intros IH Fl Fs; simpl; [reflexivity|].
    inversion IH; inversion Fl; inversion Fs; subst. f_equal; auto.
  - rewrite !deep_merge_obj. f_equal.
    inversion Wa as [| | | | | | | |? So Fo]; subst. inversion Wb as [| | | | | | | |? S2 F2]; subst.
    apply sorted_ext; try (apply merge_objects_sorted; assumption).
    intro k. rewrite !merge_objects_get by assumption.
    destruct (get k o) as [x|] eqn:Gx; destruct (get k o2) as [y|] eqn:Gy; cbn [merge_opt]; try reflexivity.
    f_equal. apply (Forall_get _ _ _ _ IH Gx).
    + exact (wf_obj_get _ _ _ Wa Gx).
    + exact (wf_obj_get _ _ _ Wb Gy).
    + eapply F; eassumption.
Qed.

(** Merging preserves agreement with a third tree. *)
Lemma agree_merge a : forall b c, wf a -> wf b ->
  agree a b -> agree a c -> agree b c -> agree (deep_merge a b) c.
Proof.
  induction a as [|fbits|iz|un|bb|str|raw|l IH|o IH] using value_ind'; intros b c Wa Wb Hab Hac Hbc;
    try (rewrite deep_merge_null_l; assumption);
    try (inversion Hab; subst; simpl; assumption).
  - inversion Hab as [| | |l1 l2 F|]; subst; [rewrite deep_merge_null_r; exact Hac| simpl in *; tauto|].
    rewrite deep_merge_arr.
    inversion Hac as [| | |l1' l3 F'|]; subst; [constructor|simpl in *; tauto|].
    inversion Hbc as [| | |l1'' l3' F''|]; subst; [simpl in *; tauto|].
    inversion Wa as [| | | | | | |? Fl|]; subst. inversion Wb as [| | | | | | |? Fs|]; subst.
    apply agree_arr. clear Hab Hac Hbc Wa Wb. revert l3 F' F'' IH Fl Fs.
    induction F as [|x y l1 l2 A F IHF]; intros l3 F' F'' IH Fl Fs; simpl.
    + exact F'.
    + inversion F' as [|x' z l1' l3' A' F2']; subst. inversion F'' as [|y'' z'' l1'' l3'' A'' F2'']; subst.
      inversion IH; inversion Fl; inversion Fs; subst.
      constructor; auto.
  - inversion Hab as [| | | |o1 o2 F]; subst; [rewrite deep_merge_null_r; exact Hac| simpl in *; tauto|].
    rewrite deep_merge_obj.
    inversion Hac as [| | | |o1' o3 F']; subst; [constructor|simpl in *; tauto|].
    inversion Hbc as [| | | |o2' o3' F'']; subst; [simpl in *; tauto|].
    inversion Wa as [| | | | | | | |? So Fo]; subst. inversion Wb as [| | | | | | | |? S2 F2]; subst.
    apply agree_obj. intros k x z Gx Gz.
    rewrite merge_objects_get in Gx by assumption.
    destruct (get k o) as [u|] eqn:Gu; destruct (get k o2) as [w|] eqn:Gw; simpl in Gx;
      try discriminate; injection Gx as <-.
    + apply (Forall_get _ _ _ _ IH Gu).
      * exact (wf_obj_get _ _ _ Wa Gu).
      * exact (wf_obj_get _ _ _ Wb Gw).
      * eapply F; eassumption.
      * eapply F'; eassumption.
      * eapply F''; eassumption.
    + eapply F'; eassumption.
    + eapply F''; eassumption.
Qed.

(** Associativity on pairwise agreeing trees. *)
Lemma deep_merge_assoc a : forall b c, wf a -> wf b -> wf c ->
  agree a b -> agree a c -> agree b c ->
  deep_merge (deep_merge a b) c = deep_merge a (deep_merge b c).
Proof.
  induction a as [|fbits|iz|un|bb|str|raw|l IH|o IH] using value_ind'; intros b c Wa Wb Wc Hab Hac Hbc;
    try (rewrite !deep_merge_null_l; reflexivity);
    try (inversion Hab; subst; rewrite ?deep_merge_null_r, ?deep_merge_null_l; [reflexivity|];
         inversion Hac; subst; rewrite ?deep_merge_null_r; reflexivity).
  - inversion Hab as [| | |l1 l2 F|]; subst;
      [rewrite deep_merge_null_r, deep_merge_null_l; reflexivity| simpl in *; tauto|].
    inversion Hac as [| | |l1' l3 F'|]; subst;
      [rewrite !deep_merge_null_r; reflexivity|simpl in *; tauto|].
    inversion Hbc as [| | |l1'' l3' F''|]; subst; [simpl in *; tauto|].
    rewrite !deep_merge_arr. f_equal.
    inversion Wa as [| | | | | | |? Fl|]; subst. inversion Wb as [| | | | | | |? Fs|]; subst.
    inversion Wc as [| | | | | | |? Fc|]; subst.
    clear Hab Hac Hbc Wa Wb Wc. revert l3 F' F'' IH Fl Fs Fc.
    induction F as [|x y l1 l2 A F IHF]; intros l3 F' F'' IH Fl Fs Fc; simpl.
    + reflexivity.
    + inversion F' as [|x' z l1' l3' A' F2']; subst. inversion F'' as [|y'' z'' l1'' l3'' A'' F2'']; subst.
      inversion IH; inversion Fl; inversion Fs; inversion Fc; subst. simpl. f_equal; auto.
  - inversion Hab as [| | | |o1 o2 F]; subst;
      [rewrite deep_merge_null_r, deep_merge_null_l; reflexivity| simpl in *; tauto|].
    inversion Hac as [| | | |o1' o3 F']; subst;
      [rewrite !deep_merge_null_r; reflexivity|simpl in *; tauto|].
    inversion Hbc as [| | | |o2' o3' F'']; subst; [simpl in *; tauto|].
    rewrite !deep_merge_obj. f_equal.
    inversion Wa as [| | | | | | | |? So Fo]; subst. inversion Wb as [| | | | | | | |? S2 F2]; subst.
    inversion Wc as [| | | | | | | |? S3 F3]; subst.
    apply sorted_ext; try (repeat apply merge_objects_sorted; assumption).
    intro k. rewrite !merge_objects_get by (try apply merge_objects_sorted; assumption).
    destruct (get k o) as [x|] eqn:Gx; destruct (get k o2) as [y|] eqn:Gy;
      destruct (get k o3) as [z|] eqn:Gz; cbn [merge_opt]; try reflexivity.
    f_equal. apply (Forall_get _ _ _ _ IH Gx).
    + exact (wf_obj_get _ _ _ Wa Gx).
    + exact (wf_obj_get _ _ _ Wb Gy).
    + exact (wf_obj_get _ _ _ Wc Gz).
    + eapply F; eassumption.
    + eapply F'; eassumption.
    + eapply F''; eassumption.
Qed.

(** Idempotence. *)
Lemma deep_merge_idem a : deep_merge a a = a.
Proof.
  induction a as [|fbits|iz|un|bb|str|raw|l IH|o IH] using value_ind'; try reflexivity.
  - rewrite deep_merge_arr. f_equal. induction IH as [|x l E _ IHl]; simpl; [reflexivity|].
    rewrite E, IHl. reflexivity.
  - rewrite deep_merge_obj. f_equal. induction IH as [|[k x] l E _ IHl]; [reflexivity|].
    rewrite merge_objects_cons, str_compare_refl. simpl in E. rewrite E, IHl. reflexivity.
Qed.

(** *** Order of arrival *)
Definition all_agree (l : list value) : Prop := ForallOrdPairs agree l.

Lemma merge_all_wf rs : forall t, wf t -> Forall wf rs -> wf (merge_all t rs).
Proof.
  unfold merge_all. induction rs as [|r rs IH]; intros t Wt F; simpl; [exact Wt|].
  inversion F; subst. apply IH; [apply deep_merge_wf; assumption|assumption].
Qed.

Lemma pairwise_all_sym (rs : list value) :
  (forall a b, In a rs -> In b rs -> agree a b) ->
  forall rs', Permutation rs rs' -> (forall a b, In a rs' -> In b rs' -> agree a b).
Proof.
  intros H rs' P a b Ia Ib. apply H; eapply Permutation_in; try eassumption; apply Permutation_sym; exact P.
Qed.

Lemma merge_all_perm rs rs' :
  Permutation rs rs' ->
  forall t, wf t -> Forall wf rs ->
  (forall a, In a rs -> agree t a) ->
  (forall a b, In a rs -> In b rs -> agree a b) ->
  merge_all t rs = merge_all t rs'.
Proof.
  unfold merge_all.
  induction 1 as [|x l l' P IH|x y l|l1 l2 l3 P1 IH1 P2 IH2]; intros t Wt F Ht Hp.
  - reflexivity.
  - simpl. inversion F; subst. apply IH.
    + apply deep_merge_wf; assumption.
    + assumption.
    + intros a Ia. apply agree_merge; try assumption.
      * apply Ht; left; reflexivity.
      * apply Ht; right; exact Ia.
      * apply Hp; [left; reflexivity | right; exact Ia].
    + intros a b Ia Ib. apply Hp; right; assumption.
  - simpl. inversion F as [|? ? Wy F']; subst. inversion F' as [|? ? Wx F'']; subst.
    f_equal.
    assert (Axy : agree x y) by (apply Hp; simpl; auto).
    assert (Atx : agree t x) by (apply Ht; simpl; auto).
    assert (Aty : agree t y) by (apply Ht; simpl; auto).
    rewrite (deep_merge_assoc t y x) by (try assumption; apply agree_sym; assumption).
    rewrite (deep_merge_assoc t x y) by assumption.
    f_equal. apply deep_merge_comm; try assumption. apply agree_sym; assumption.
  - rewrite IH1 by assumption. apply IH2.
    + assumption.
    + eapply Permutation_Forall; eassumption.
    + intros a Ia. apply Ht. eapply Permutation_in; [apply Permutation_sym; eassumption|exact Ia].
    + eapply pairwise_all_sym; eassumption.
Qed.

Lemma Forall2_len {A B} (R : A -> B -> Prop) l1 l2 : Forall2 R l1 l2 -> length l1 = length l2.
Proof. induction 1; simpl; congruence. Qed.

(** *** Information content *)
Lemma says_merge a : forall b p x, wf a -> wf b -> agree a b ->
  (says (deep_merge a b) p x <-> says a p x \/ says b p x).
Proof.
  induction a as [|fbits|iz|un|bb|str|raw|l IH|o IH] using value_ind'; intros b p y Wa Wb Hab;
    try (rewrite deep_merge_null_l; split; [intro S; right; exact S|]; intros [[Sc E]|S]; [|exact S];
         exfalso; destruct p as [|[k|i] p]; simpl in E; try discriminate;
         injection E as <-; exact Sc);
    try (inversion Hab; subst; simpl deep_merge;
         [ split; [intro S; left; exact S|]; intros [S|[Sc E]]; [exact S|];
           exfalso; destruct p as [|[k|i] p]; simpl in E; try discriminate;
           injection E as <-; exact Sc
         | tauto ]).
  - inversion Hab as [| | |l1 l2 F|]; subst.
    + rewrite deep_merge_null_r. split; [intro S; left; exact S|]. intros [S|[Sc E]]; [exact S|].
      exfalso; destruct p as [|[k|i] p]; simpl in E; try discriminate; injection E as <-; exact Sc.
    + simpl in *; tauto.
    + rewrite deep_merge_arr. unfold says.
      destruct p as [|[k|i] p]; simpl.
      * split.
        -- intros [Sc E]. injection E as <-. destruct Sc.
        -- intros [[Sc E]|[Sc E]]; injection E as <-; destruct Sc.
      * split; [intros [_ E]; discriminate | intros [[_ E]|[_ E]]; discriminate].
      * rewrite merge_arrays_nth.
        inversion Wa as [| | | | | | |? Fl|]; subst. inversion Wb as [| | | | | | |? Fs|]; subst.
        destruct (nth_error l i) as [u|] eqn:Nu.
        -- assert (Iu := nth_error_In _ _ Nu).
           destruct (nth_error l2 i) as [w|] eqn:Nw.
           ++ assert (Iw := nth_error_In _ _ Nw).
              assert (Auw : agree u w).
              { clear - F Nu Nw. revert i Nu Nw. induction F as [|a b l l' A F IHF]; intros [|i] Nu Nw; simpl in *; try discriminate.
                - injection Nu as <-. injection Nw as <-. exact A.
                - eapply IHF; eassumption. }
              rewrite Forall_forall in IH, Fl, Fs.
              apply (IH u Iu w p y (Fl _ Iu) (Fs _ Iw) Auw).
           ++ split; [tauto|]. intros [S|[_ E]]; [exact S|discriminate].
        -- assert (nth_error l2 i = None) as ->.
           { apply nth_error_None. apply nth_error_None in Nu. apply Forall2_len in F. lia. }
           split; [intros [_ E]; discriminate | intros [[_ E]|[_ E]]; discriminate].
  - inversion Hab as [| | | |o1 o2 F]; subst.
    + rewrite deep_merge_null_r. split; [intro S; left; exact S|]. intros [S|[Sc E]]; [exact S|].
      exfalso; destruct p as [|[k|i] p]; simpl in E; try discriminate; injection E as <-; exact Sc.
    + simpl in *; tauto.
    + rewrite deep_merge_obj. unfold says.
      inversion Wa as [| | | | | | | |? So Fo]; subst. inversion Wb as [| | | | | | | |? S2 F2]; subst.
      destruct p as [|[k|i] p]; simpl.
      * split.
        -- intros [Sc E]. injection E as <-. destruct Sc.
        -- intros [[Sc E]|[Sc E]]; injection E as <-; destruct Sc.
      * rewrite merge_objects_get by assumption.
        destruct (get k o) as [u|] eqn:Gu; destruct (get k o2) as [w|] eqn:Gw; cbn [merge_opt].
        -- apply (Forall_get _ _ _ _ IH Gu w p y).
           ++ exact (wf_obj_get _ _ _ Wa Gu).
           ++ exact (wf_obj_get _ _ _ Wb Gw).
           ++ eapply F; eassumption.
        -- split; [tauto|]. intros [S|[_ E]]; [exact S|discriminate].
        -- split; [tauto|]. intros [[_ E]|S]; [discriminate|exact S].
        -- split; [intros [_ E]; discriminate | intros [[_ E]|[_ E]]; discriminate].
      * split; [intros [_ E]; discriminate | intros [[_ E]|[_ E]]; discriminate].
Qed.

Lemma merge_keeps_silent p : forall t s x, wf t -> wf s ->
  silent p s -> at_path p t = Some x -> at_path p (deep_merge t s) = Some x.
Proof.
  induction p as [|[k|i] p IH]; intros t s x Wt Ws Hs Hx; inversion Hs; subst;
    rewrite ?deep_merge_null_r; try assumption.
  - destruct t as [| | | | | | | |ot]; simpl in Hx; try discriminate.
    rewrite deep_merge_obj. simpl.
    inversion Wt as [| | | | | | | |? So Fo]; subst. inversion Ws as [| | | | | | | |? S2 F2]; subst.
    rewrite merge_objects_get by assumption.
    destruct (get k ot) as [u|] eqn:Gu; [|discriminate].
    destruct (get k o) as [w|] eqn:Gw; cbn [merge_opt]; [|exact Hx].
    apply IH; auto.
    + exact (wf_obj_get _ _ _ Wt Gu).
    + exact (wf_obj_get _ _ _ Ws Gw).
  - destruct t as [| | | | | | |la|]; simpl in Hx; try discriminate.
    rewrite deep_merge_arr. simpl. rewrite merge_arrays_nth.
    inversion Wt as [| | | | | | |? Fl|]; subst. inversion Ws as [| | | | | | |? Fs|]; subst.
    destruct (nth_error la i) as [u|] eqn:Nu; [|discriminate].
    destruct (nth_error l i) as [w|] eqn:Nw; [|exact Hx].
    rewrite Forall_forall in Fl, Fs.
    apply IH; auto; [apply Fl|apply Fs]; eapply nth_error_In; eassumption.
Qed.
