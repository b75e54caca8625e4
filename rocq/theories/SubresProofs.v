From Coq Require Import String List NArith ZArith Bool Permutation Sorted Lia.
From Verif Require Import StrOrd StrUtil JsonModel JsonWriterModel Ast ProjModel SubresModel SubresSpec.
Import ListNotations.
Local Open Scope string_scope.

(** ** Documents *)
Section Ind.
  Variable P : doc -> Prop.
  Hypothesis Hnull : forall t, P (DNull t).
  Hypothesis Hbool : forall t b, P (DBool t b).
  Hypothesis Hu64 : forall t n, P (DU64 t n).
  Hypothesis Hi64 : forall t z, P (DI64 t z).
  Hypothesis Hf64 : forall t b, P (DF64 t b).
  Hypothesis Hstr : forall t s, P (DStr t s).
  Hypothesis Harr : forall t l, Forall P l -> P (DArr t l).
  Hypothesis Hobj : forall t o, Forall (fun kd => P (snd kd)) o -> P (DObj t o).
  Fixpoint doc_ind' (d : doc) : P d :=
    match d with
    | DNull t => Hnull t
    | DBool t b => Hbool t b
    | DU64 t n => Hu64 t n
    | DI64 t z => Hi64 t z
    | DF64 t b => Hf64 t b
    | DStr t s => Hstr t s
    | DArr t l => Harr t l ((fix go l : Forall P l :=
        match l with [] => Forall_nil _ | x :: l' => Forall_cons x (doc_ind' x) (go l') end) l)
    | DObj t o => Hobj t o ((fix go (o : list (string * bool * doc)) : Forall (fun kd => P (snd kd)) o :=
        match o with [] => Forall_nil _ | kd :: o' => Forall_cons kd (doc_ind' (snd kd)) (go o') end) o)
    end.
End Ind.

Lemma traverse_iff {A B} (f : A -> option B) l r :
  traverse f l = Some r <-> Forall2 (fun x y => f x = Some y) l r.
Proof.
  revert r. induction l as [|x l IH]; intro r; cbn [traverse].
  - split; [intro E; injection E as <-; constructor|intro H; inversion H; reflexivity].
  - destruct (f x) as [y|] eqn:F.
    + destruct (traverse f l) as [r'|] eqn:T.
      * split.
        -- intro E. injection E as <-. constructor; [exact F|]. apply IH. reflexivity.
        -- intro H. inversion H as [|? y' ? r'' H1 H2]; subst. apply IH in H2. congruence.
      * split; [discriminate|]. intro H. inversion H as [|? y' ? r'' H1 H2]; subst. apply IH in H2. discriminate.
    + split; [discriminate|]. intro H. inversion H; subst. congruence.
Qed.

Lemma traverse_total {A B} (f : A -> option B) l :
  (exists r, traverse f l = Some r) <-> Forall (fun x => exists y, f x = Some y) l.
Proof.
  induction l as [|x l IH]; cbn [traverse].
  - split; [constructor|]. intros _. exists []. reflexivity.
  - split.
    + intros [r E]. destruct (f x) as [y|] eqn:F; [|discriminate].
      destruct (traverse f l) as [r'|] eqn:T; [|discriminate].
      constructor; [exists y; exact F|]. apply IH. exists r'. reflexivity.
    + intro H. inversion H as [|? ? [y F] H2]; subst. rewrite F. apply IH in H2. destruct H2 as [r ->].
      exists (y :: r). reflexivity.
Qed.

Lemma insert_perm kv l : Permutation (insert_key kv l) (kv :: l).
Proof.
  induction l as [|x l IH]; cbn [insert_key]; [reflexivity|].
  destruct (String.compare (fst kv) (fst x)); try reflexivity.
  rewrite IH. apply perm_swap.
Qed.
Lemma sort_perm l : Permutation (sort_keys l) l.
Proof.
  induction l as [|x l IH]; [reflexivity|]. cbn [sort_keys fold_right]. rewrite insert_perm.
  constructor. exact IH.
Qed.
Lemma insert_sorted kv l : ~ In (fst kv) (map fst l) -> keys_sorted l -> keys_sorted (insert_key kv l).
Proof.
  induction l as [|x l IH]; intros NI KS; cbn [insert_key].
  - unfold keys_sorted. cbn [map]. constructor; constructor.
  - destruct x as [k v]. destruct (keys_sorted_inv _ _ _ KS) as [KS' F].
    destruct (String.compare (fst kv) (fst (k, v))) eqn:C; cbn [fst] in C.
    + apply str_compare_eq in C. exfalso. apply NI. left. symmetry. exact C.
    + unfold keys_sorted. cbn [map fst]. constructor; [exact KS|]. constructor; [exact C|].
      eapply Forall_impl; [|exact F]. intros a Ha. eapply str_lt_trans; [exact C|exact Ha].
    + apply str_lt_gt in C. unfold keys_sorted. cbn [map fst]. constructor.
      * apply IH; [|exact KS']. intro H. apply NI. right. exact H.
      * rewrite Forall_forall. intros a Ha. rewrite Forall_forall in F.
        apply (Permutation_in _ (Permutation_map fst (insert_perm kv l))) in Ha.
        cbn [map] in Ha. destruct Ha as [<-|Ha]; [exact C|]. apply F. exact Ha.
Qed.
Lemma sort_sorted l : NoDup (map fst l) -> keys_sorted (sort_keys l).
Proof.
  induction l as [|x l IH]; intro ND.
  - unfold keys_sorted. constructor.
  - cbn [map] in ND. inversion ND as [|? ? NI ND']; subst. cbn [sort_keys fold_right]. apply insert_sorted.
    + intro H. apply NI. apply (Permutation_in _ (Permutation_map fst (sort_perm l))). exact H.
    + apply IH. exact ND'.
Qed.

(** One member. *)
Definition member (read : string -> doc -> option value) (kd : string * bool * doc) : option (string * value) :=
  let '(k, esc, d) := kd in if esc then None else option_map (pair k) (read k d).
Lemma member_iff read kd kv :
  member read kd = Some kv <-> snd (fst kd) = false /\ fst kv = fst (fst kd) /\ read (fst (fst kd)) (snd kd) = Some (snd kv).
Proof.
  destruct kd as [[k esc] d], kv as [k' v]. cbn [member fst snd]. destruct esc.
  - split; [discriminate|]. intros [H _]. discriminate.
  - destruct (read k d) as [v'|]; cbn [option_map].
    + split; [intro E; injection E as <- <-; auto|]. intros [_ [-> E]]. injection E as ->. reflexivity.
    + split; [discriminate|]. intros [_ [_ E]]. discriminate.
Qed.

(** Reading with a reader for lists and one for members. *)
Definition reads (item : doc -> option value) (mem : string -> doc -> option value) (d : doc) : option value :=
  match d with
  | DNull _ => Some VNull
  | DBool _ b => Some (VBool b)
  | DU64 _ n => Some (VU64 n)
  | DI64 _ z => Some (VI64 z)
  | DF64 _ b => Some (VF64 b)
  | DStr _ s => Some (VStr s)
  | DArr _ l => option_map VArr (traverse item l)
  | DObj _ o => option_map (fun e => VObj (sort_keys e)) (traverse (member mem) o)
  end.
Lemma traverse_ext {A B} (f g : A -> option B) l : (forall x, f x = g x) -> traverse f l = traverse g l.
Proof. intro H. induction l as [|x l IH]; [reflexivity|]. cbn [traverse]. rewrite H, IH. reflexivity. Qed.

Lemma structured_reads d : structured d = reads structured (fun _ => structured) d.
Proof. destruct d; reflexivity. Qed.

Definition child_reader (p : paths) (k : string) : doc -> option value :=
  match get k (children p) with
  | Some c => if is_empty c then structured else with_paths c
  | None => structured
  end.
Lemma with_paths_reads p d :
  with_paths p d =
  if is_empty p then structured d
  else if terminal p then Some (VRaw (text d))
  else reads (with_paths p) (child_reader p) d.
Proof.
  destruct d as [t|t b|t n|t z|t b|t s|t l|t o]; cbn [with_paths reads];
    destruct (is_empty p); try reflexivity; destruct (terminal p); try reflexivity.
  f_equal. apply traverse_ext. intros [[k esc] d]. cbn [member]. unfold child_reader.
  destruct (get k (children p)) as [c|]; [destruct (is_empty c)|]; reflexivity.
Qed.

Lemma with_empty d : with_paths empty_paths d = structured d.
Proof. rewrite with_paths_reads. reflexivity. Qed.

(** ** Same meaning *)
Lemma reads_says item mem d v :
  match d with
  | DArr _ l => Forall (fun d => forall v, item d = Some v -> says v d) l
  | DObj _ o => Forall (fun kd => forall k v, mem k (snd kd) = Some v -> says v (snd kd)) o
  | _ => True
  end -> reads item mem d = Some v -> says v d.
Proof.
  destruct d as [t|t b|t n|t z|t b|t s|t l|t o]; cbn [reads]; intros H E;
    try (injection E as <-; constructor).
  - destruct (traverse item l) as [r|] eqn:T; [|discriminate]. injection E as <-. constructor.
    apply traverse_iff in T. induction T as [|x y l r F T IH]; constructor.
    + inversion H; subst. auto.
    + inversion H; subst. auto.
  - destruct (traverse (member mem) o) as [e|] eqn:T; [|discriminate]. injection E as <-.
    apply says_obj with (e' := e); [apply sort_perm|].
    apply traverse_iff in T. induction T as [|x y l r F T IH]; constructor.
    + inversion H as [|? ? H1 H2]; subst. apply member_iff in F. destruct F as [_ [F1 F2]].
      split; [exact F1|]. apply H1 with (k := fst (fst x)). exact F2.
    + inversion H; subst. auto.
Qed.

Lemma structured_says d : forall v, structured d = Some v -> says v d.
Proof.
  induction d as [t|t b|t n|t z|t b|t s|t l IH|t o IH] using doc_ind'; intros v; rewrite structured_reads;
    apply reads_says; try exact I; try exact IH.
  eapply Forall_impl; [|exact IH]. cbn beta. intros kd H _. exact H.
Qed.

Lemma with_paths_says d : forall p v, with_paths p d = Some v -> says v d.
Proof.
  induction d as [t|t b|t n|t z|t b|t s|t l IH|t o IH] using doc_ind'; intros p v; rewrite with_paths_reads;
    (destruct (is_empty p); [apply structured_says|]);
    (destruct (terminal p); [intro E; injection E as <-; match goal with |- says _ ?d => exact (says_raw d) end|]); apply reads_says; try exact I.
  - eapply Forall_impl; [|exact IH]. cbn beta. intros d H. apply H.
  - eapply Forall_impl; [|exact IH]. cbn beta. intros kd H k w. unfold child_reader.
    destruct (get k (children p)) as [c|]; [destruct (is_empty c)|]; try apply structured_says. apply H.
Qed.

(** ** Which documents are read *)
Lemma structured_total d : (exists v, structured d = Some v) <-> plain_keys d.
Proof.
  induction d as [t|t b|t n|t z|t b|t s|t l IH|t o IH] using doc_ind'; rewrite structured_reads; cbn [reads];
    try (split; [intros _; constructor|intros _; eexists; reflexivity]).
  - split.
    + intros [v E]. destruct (traverse structured l) as [r|] eqn:T; [|discriminate]. constructor.
      assert (F : Forall (fun x => exists y, structured x = Some y) l) by (apply traverse_total; exists r; exact T).
      clear E T. induction F as [|x l [y F1] F IHF]; constructor.
      * inversion IH as [|? ? H1 H2]; subst. apply H1. exists y. exact F1.
      * inversion IH; subst. auto.
    + intro H. inversion H as [| | | | | |? ? F|]; subst.
      assert (G : Forall (fun x => exists y, structured x = Some y) l).
      { clear H. induction F as [|x l F1 F IHF]; constructor; inversion IH as [|? ? H1 H2]; subst; [apply H1, F1|auto]. }
      apply traverse_total in G. destruct G as [r ->]. eexists. reflexivity.
  - split.
    + intros [v E]. destruct (traverse (member (fun _ => structured)) o) as [r|] eqn:T; [|discriminate]. constructor.
      assert (F : Forall (fun x => exists y, member (fun _ => structured) x = Some y) o) by (apply traverse_total; exists r; exact T).
      clear E T. induction F as [|x l [y F1] F IHF]; constructor.
      * inversion IH as [|? ? H1 H2]; subst. apply member_iff in F1. destruct F1 as [F1 [_ F2]].
        split; [exact F1|]. apply H1. exists (snd y). exact F2.
      * inversion IH; subst. auto.
    + intro H. inversion H as [| | | | | | |? ? F]; subst.
      assert (G : Forall (fun x => exists y, member (fun _ => structured) x = Some y) o).
      { clear H. induction F as [|x l F1 F IHF]; constructor; inversion IH as [|? ? H1 H2]; subst; [|auto].
        destruct F1 as [F1 F2]. apply H1 in F2. destruct F2 as [y F2]. exists (fst (fst x), y).
        apply member_iff. cbn [fst snd]. auto. }
      apply traverse_total in G. destruct G as [r ->]. eexists. reflexivity.
Qed.

Lemma with_paths_total d : forall p, plain_keys d -> exists v, with_paths p d = Some v.
Proof.
  induction d as [t|t b|t n|t z|t b|t s|t l IH|t o IH] using doc_ind'; intros p PK; rewrite with_paths_reads;
    (destruct (is_empty p); [apply structured_total; exact PK|]);
    (destruct (terminal p); [eexists; reflexivity|]); cbn [reads]; try (eexists; reflexivity).
  - inversion PK as [| | | | | |? ? F|]; subst.
    assert (G : Forall (fun x => exists y, with_paths p x = Some y) l).
    { clear PK. induction F as [|x l F1 F IHF]; constructor; inversion IH as [|? ? H1 H2]; subst; [apply H1, F1|auto]. }
    apply traverse_total in G. destruct G as [r ->]. eexists. reflexivity.
  - inversion PK as [| | | | | | |? ? F]; subst.
    assert (G : Forall (fun x => exists y, member (child_reader p) x = Some y) o).
    { clear PK. induction F as [|x l F1 F IHF]; constructor; inversion IH as [|? ? H1 H2]; subst; [|auto].
      destruct F1 as [F1 F2].
      assert (exists y, child_reader p (fst (fst x)) (snd x) = Some y) as [y Y].
      { unfold child_reader. destruct (get (fst (fst x)) (children p)) as [c|]; [destruct (is_empty c)|];
          try (apply structured_total; exact F2). apply H1. exact F2. }
      exists (fst (fst x), y). apply member_iff. cbn [fst snd]. auto. }
    apply traverse_total in G. destruct G as [r ->]. eexists. reflexivity.
Qed.

(** ** Raw exactly where marked *)

Lemma found_obj_inv o ks w : found (VObj o) ks w ->
  (ks = [] /\ w = VObj o) \/ exists k v ks', ks = k :: ks' /\ In (k, v) o /\ found v ks' w.
Proof. intro H. inversion H; subst; [left; auto|]. right. eauto 6. Qed.
Lemma found_arr_inv l ks w : found (VArr l) ks w ->
  (ks = [] /\ w = VArr l) \/ exists v, In v l /\ found v ks w.
Proof. intro H. inversion H; subst; [left; auto|]. right. eauto. Qed.
Lemma found_leaf_inv v ks w : match v with VArr _ | VObj _ => False | _ => True end ->
  found v ks w -> ks = [] /\ w = v.
Proof. intros L H. inversion H; subst; [auto|contradiction|contradiction]. Qed.

Lemma forall2_in {A B} (R : A -> B -> Prop) l r y : Forall2 R l r -> In y r -> exists x, In x l /\ R x y.
Proof.
  intro H. induction H as [|x y' l r H1 H2 IH]; intros I; [destruct I|].
  destruct I as [->|I]; [exists x; split; [left; reflexivity|exact H1]|].
  destruct (IH I) as [x' [I' R']]. exists x'. split; [right; exact I'|exact R'].
Qed.

Lemma structured_no_raw d : forall v ks w, structured d = Some v -> found v ks w -> ~ is_raw w.
Proof.
  induction d as [t|t b|t n|t z|t b|t s|t l IH|t o IH] using doc_ind'; intros v ks w; rewrite structured_reads; cbn [reads]; intros E F;
    try (injection E as <-; apply found_leaf_inv in F; [|exact I]; destruct F as [_ ->]; intros [s' R]; discriminate).
  - destruct (traverse structured l) as [r|] eqn:T; [|discriminate]. injection E as <-. apply traverse_iff in T.
    apply found_arr_inv in F. destruct F as [[_ ->]|[v [I F]]]; [intros [s' R]; discriminate|].
    destruct (forall2_in _ _ _ _ T I) as [x [Ix Ex]]. rewrite Forall_forall in IH. exact (IH x Ix v ks w Ex F).
  - destruct (traverse (member (fun _ => structured)) o) as [r|] eqn:T; [|discriminate]. injection E as <-. apply traverse_iff in T.
    apply found_obj_inv in F. destruct F as [[_ ->]|[k [v [ks' [-> [I F]]]]]]; [intros [s' R]; discriminate|].
    apply (Permutation_in _ (sort_perm r)) in I.
    destruct (forall2_in _ _ _ _ T I) as [x [Ix Ex]]. apply member_iff in Ex. destruct Ex as [_ [_ Ex]].
    rewrite Forall_forall in IH. exact (IH x Ix v ks' w Ex F).
Qed.

Lemma empty_unmarked p ks : is_empty p = true -> marked p ks = false.
Proof.
  destruct p as [c t]. unfold is_empty. cbn [terminal children]. intro H. apply andb_true_iff in H.
  destruct H as [H1 H2]. apply negb_true_iff in H1. destruct c; [|discriminate].
  destruct ks as [|k ks]; [exact H1|reflexivity].
Qed.

Lemma raw_where_marked d : forall p v ks w, with_paths p d = Some v -> found v ks w ->
  (is_raw w <-> marked p ks = true).
Proof.
  induction d as [t|t b|t n|t z|t b|t s|t l IH|t o IH] using doc_ind'; intros p v ks w; rewrite with_paths_reads;
    (destruct (is_empty p) eqn:Ep;
      [intros E F; rewrite (empty_unmarked _ ks Ep); split; [intro R; exfalso; exact (structured_no_raw _ _ _ _ E F R)|discriminate]|]);
    (destruct (terminal p) eqn:Tp;
      [intros E F; injection E as <-; apply found_leaf_inv in F; [|exact I]; destruct F as [-> ->];
       cbn [marked]; rewrite Tp; split; [reflexivity|intros _; eexists; reflexivity]|]);
    cbn [reads]; intros E F;
    try (injection E as <-; apply found_leaf_inv in F; [|exact I]; destruct F as [-> ->];
         cbn [marked]; rewrite Tp; split; [intros [s' R]; discriminate|discriminate]).
  - destruct (traverse (with_paths p) l) as [r|] eqn:T; [|discriminate]. injection E as <-. apply traverse_iff in T.
    apply found_arr_inv in F. destruct F as [[-> ->]|[v [I F]]].
    + cbn [marked]. rewrite Tp. split; [intros [s' R]; discriminate|discriminate].
    + destruct (forall2_in _ _ _ _ T I) as [x [Ix Ex]]. rewrite Forall_forall in IH. exact (IH x Ix p v ks w Ex F).
  - destruct (traverse (member (child_reader p)) o) as [r|] eqn:T; [|discriminate]. injection E as <-. apply traverse_iff in T.
    apply found_obj_inv in F. destruct F as [[-> ->]|[k [v [ks' [-> [I F]]]]]].
    + cbn [marked]. rewrite Tp. split; [intros [s' R]; discriminate|discriminate].
    + apply (Permutation_in _ (sort_perm r)) in I.
      destruct (forall2_in _ _ _ _ T I) as [x [Ix Ex]]. apply member_iff in Ex. destruct Ex as [_ [Ek Ex]]. cbn [fst snd] in Ek, Ex.
      rewrite <- Ek in Ex. unfold child_reader in Ex. cbn [marked].
      destruct (get k (children p)) as [c|].
      * destruct (is_empty c) eqn:Ec.
        -- rewrite (empty_unmarked _ ks' Ec). split; [intro R; exfalso; exact (structured_no_raw _ _ _ _ Ex F R)|discriminate].
        -- rewrite Forall_forall in IH. exact (IH x Ix c v ks' w Ex F).
      * split; [intro R; exfalso; exact (structured_no_raw _ _ _ _ Ex F R)|discriminate].
Qed.

(** ** Sorted *)
Lemma member_keys mem o e : traverse (member mem) o = Some e -> map fst e = map (fun kd => fst (fst kd)) o.
Proof.
  intro T. apply traverse_iff in T. induction T as [|x y l r F T IH]; [reflexivity|]. cbn [map].
  apply member_iff in F. destruct F as [_ [F _]]. rewrite F, IH. reflexivity.
Qed.
Lemma reads_wf item mem d v :
  match d with
  | DArr _ l => Forall (fun d => forall v, item d = Some v -> wf v) l
  | DObj _ o => NoDup (map (fun kd => fst (fst kd)) o) /\ Forall (fun kd => forall k v, mem k (snd kd) = Some v -> wf v) o
  | _ => True
  end -> reads item mem d = Some v -> wf v.
Proof.
  destruct d as [t|t b|t n|t z|t b|t s|t l|t o]; cbn [reads]; intros H E;
    try (injection E as <-; constructor).
  - destruct (traverse item l) as [r|] eqn:T; [|discriminate]. injection E as <-. constructor.
    apply traverse_iff in T. induction T as [|x y l r F T IH]; constructor; inversion H; subst; auto.
  - destruct (traverse (member mem) o) as [e|] eqn:T; [|discriminate]. injection E as <-. destruct H as [ND H].
    constructor.
    + apply sort_sorted. rewrite (member_keys _ _ _ T). exact ND.
    + eapply Permutation_Forall; [symmetry; apply sort_perm|]. clear ND.
      apply traverse_iff in T. induction T as [|x y l r F T IH]; constructor; inversion H as [|? ? H1 H2]; subst; auto.
      apply member_iff in F. destruct F as [_ [_ F2]]. apply H1 with (k := fst (fst x)). exact F2.
Qed.

Lemma structured_wf d : distinct_keys d -> forall v, structured d = Some v -> wf v.
Proof.
  induction d as [t|t b|t n|t z|t b|t s|t l IH|t o IH] using doc_ind'; intros DK v; rewrite structured_reads;
    apply reads_wf; try exact I.
  - inversion DK as [| | | | | |? ? F|]; subst. clear DK. induction F as [|x l F1 F IHF]; constructor; inversion IH; subst; auto.
  - inversion DK as [| | | | | | |? ? ND F]; subst. split; [exact ND|]. clear DK ND.
    induction F as [|x l F1 F IHF]; constructor; inversion IH; subst; auto.
Qed.
Lemma with_paths_wf d : distinct_keys d -> forall p v, with_paths p d = Some v -> wf v.
Proof.
  induction d as [t|t b|t n|t z|t b|t s|t l IH|t o IH] using doc_ind'; intros DK p v; rewrite with_paths_reads;
    (destruct (is_empty p); [apply structured_wf; exact DK|]);
    (destruct (terminal p); [intro E; injection E as <-; constructor|]); apply reads_wf; try exact I.
  - inversion DK as [| | | | | |? ? F|]; subst. clear DK. induction F as [|x l F1 F IHF]; constructor; inversion IH as [|? ? H1 H2]; subst; auto.
    intros w. apply H1. exact F1.
  - inversion DK as [| | | | | | |? ? ND F]; subst. split; [exact ND|]. clear DK ND.
    induction F as [|x l F1 F IHF]; constructor; inversion IH as [|? ? H1 H2]; subst; auto.
    intros k w. unfold child_reader. destruct (get k (children p)) as [c|]; [destruct (is_empty c)|]; try (apply structured_wf; exact F1).
    apply H1. exact F1.
Qed.

(** ** The response *)
Section Response.
Context {E : Type} (errors_of : doc -> option (list E)).

Definition after {A} (acc : option A) (read : doc -> option A) (ds : list doc) (a : option A) : Prop :=
  match acc with
  | Some x => ds = [] /\ a = Some x
  | None => optional read ds a
  end.
Lemma after_skip {A} (acc : option A) read ds a : after acc read ds a -> True. Proof. exact (fun _ => I). Qed.

Lemma after_cons {A} (acc : option A) read d ds a :
  after acc read (d :: ds) a <-> acc = None /\ exists x, read d = Some x /\ after (Some x) read ds a.
Proof.
  destruct acc as [x|]; cbn [after].
  - split; [intros [H _]; discriminate|intros [H _]; discriminate].
  - cbn [optional]. destruct ds as [|d' ds].
    + split; [intros [x [H1 H2]]; split; [reflexivity|]; exists x; auto|].
      intros [_ [x [H1 [_ H2]]]]. exists x. auto.
    + split; [contradiction|]. intros [_ [x [_ [H _]]]]. discriminate.
Qed.

Lemma members_cons n k esc d o :
  members n ((k, esc, d) :: o) = if String.eqb k n then d :: members n o else members n o.
Proof. unfold members. cbn [filter map fst snd]. destruct (String.eqb k n); reflexivity. Qed.

Lemma visit_iff p o : forall data errors ext r,
  visit_map errors_of p o data errors ext = Some r <->
  Forall (fun kd => snd (fst kd) = false) o /\
  exists a, after data (with_paths p) (members "data" o) a /\
    after errors errors_of (members "errors" o) (r_errors r) /\
    after ext structured (members "extensions" o) (r_extensions r) /\
    r_data r = match a with Some v => v | None => VNull end.
Proof.
  induction o as [|[[k esc] d] o IH]; intros data errors ext r; cbn [visit_map].
  - split.
    + intro H. injection H as <-. split; [constructor|]. exists data. cbn [r_errors r_extensions r_data].
      split; [destruct data; cbn [after]; auto; reflexivity|].
      split; [destruct errors; cbn [after]; auto; reflexivity|].
      split; [destruct ext; cbn [after]; auto; reflexivity|reflexivity].
    + intros [_ [a [H1 [H2 [H3 H4]]]]]. destruct r as [rd re rx]. cbn [r_errors r_extensions r_data] in *.
      assert (a = data) as -> by (destruct data; cbn [after members filter map optional] in H1; tauto).
      assert (re = errors) as -> by (destruct errors; cbn [after members filter map optional] in H2; tauto).
      assert (rx = ext) as -> by (destruct ext; cbn [after members filter map optional] in H3; tauto).
      rewrite H4. reflexivity.
  - destruct esc.
    { split; [discriminate|]. intros [H _]. inversion H as [|? ? H1 H2]; subst. discriminate. }
    assert (C : forall Q : Prop, Forall (fun kd : string * bool * doc => snd (fst kd) = false) ((k, false, d) :: o) /\ Q <->
                 Forall (fun kd : string * bool * doc => snd (fst kd) = false) o /\ Q).
    { intro Q. split; intros [H1 H2]; (split; [|exact H2]); [inversion H1; assumption|constructor; [reflexivity|exact H1]]. }
    rewrite C, !members_cons. clear C.
    destruct (String.eqb_spec k "data") as [->|Nd].
    { change (String.eqb "data" "errors") with false. change (String.eqb "data" "extensions") with false. cbv iota.
      destruct data as [x|].
      - split; [discriminate|]. intros [_ [a [H _]]]. apply after_cons in H. destruct H. discriminate.
      - destruct (with_paths p d) as [v|] eqn:W.
        + rewrite IH. split; intros [F [a [H1 H2]]]; (split; [exact F|]); exists a; (split; [|exact H2]).
          * apply after_cons. split; [reflexivity|]. exists v. auto.
          * apply after_cons in H1. destruct H1 as [_ [x [Ex H1]]]. congruence.
        + split; [discriminate|]. intros [_ [a [H _]]]. apply after_cons in H. destruct H as [_ [x [Ex _]]]. congruence. }
    destruct (String.eqb_spec k "errors") as [->|Ne].
    { change (String.eqb "errors" "extensions") with false. cbv iota.
      destruct errors as [x|].
      - split; [discriminate|]. intros [_ [a [_ [H _]]]]. apply after_cons in H. destruct H. discriminate.
      - destruct (errors_of d) as [v|] eqn:W.
        + rewrite IH. split; intros [F [a [H1 [H2 H3]]]]; (split; [exact F|]); exists a; (split; [exact H1|]); (split; [|exact H3]).
          * apply after_cons. split; [reflexivity|]. exists v. auto.
          * apply after_cons in H2. destruct H2 as [_ [x [Ex H2]]]. congruence.
        + split; [discriminate|]. intros [_ [a [_ [H _]]]]. apply after_cons in H. destruct H as [_ [x [Ex _]]]. congruence. }
    destruct (String.eqb_spec k "extensions") as [->|Nx]; [|apply IH].
    destruct ext as [x|].
    + split; [discriminate|]. intros [_ [a [_ [_ [H _]]]]]. apply after_cons in H. destruct H. discriminate.
    + destruct (structured d) as [v|] eqn:W.
      * rewrite IH. split; intros [F [a [H1 [H2 [H3 H4]]]]]; (split; [exact F|]); exists a; (split; [exact H1|]); (split; [exact H2|]); (split; [|exact H4]).
        -- apply after_cons. split; [reflexivity|]. exists v. auto.
        -- apply after_cons in H3. destruct H3 as [_ [x [Ex H3]]]. congruence.
      * split; [discriminate|]. intros [_ [a [_ [_ [H _]]]]]. apply after_cons in H. destruct H as [_ [x [Ex _]]]. congruence.
Qed.


Lemma accepted_iff custom t o r :
  deserialize errors_of custom (DObj t o) false = inl r <->
  Forall (fun kd => snd (fst kd) = false) o /\
  (exists a, optional (with_paths (the_paths custom)) (members "data" o) a /\
     r_data r = match a with Some v => v | None => VNull end) /\
  optional errors_of (members "errors" o) (r_errors r) /\
  optional structured (members "extensions" o) (r_extensions r) /\
  (r_data r <> VNull \/ r_errors r <> None).
Proof.
  cbn [deserialize]. fold (the_paths custom).
  destruct (visit_map errors_of (the_paths custom) o None None None) as [r'|] eqn:V.
  - pose proof V as V'. apply visit_iff in V'. destruct V' as [F [a [H1 [H2 [H3 H4]]]]]. cbn [after] in H1, H2, H3.
    split.
    + destruct (is_null (r_data r') && match r_errors r' with None => true | Some _ => false end) eqn:B; [discriminate|].
      intro H. injection H as <-. split; [exact F|]. split; [exists a; auto|]. split; [exact H2|]. split; [exact H3|].
      apply andb_false_iff in B. destruct B as [B|B].
      * left. intro N. rewrite N in B. discriminate.
      * right. destruct (r_errors r'); [discriminate|discriminate].
    + intros [_ [[a' [G1 G4]] [G2 [G3 G5]]]].
      assert (r = r') as ->.
      { assert (V2 : visit_map errors_of (the_paths custom) o None None None = Some r).
        { apply visit_iff. split; [exact F|]. exists a'. cbn [after]. auto. }
        congruence. }
      destruct (is_null (r_data r') && match r_errors r' with None => true | Some _ => false end) eqn:B; [|reflexivity].
      exfalso. apply andb_true_iff in B. destruct B as [B1 B2]. destruct G5 as [G5|G5].
      * apply G5. destruct (r_data r'); try discriminate. reflexivity.
      * apply G5. destruct (r_errors r'); [discriminate|reflexivity].
  - split; [discriminate|]. intros [F [[a [H1 H4]] [H2 [H3 _]]]].
    assert (V2 : visit_map errors_of (the_paths custom) o None None None = Some r).
    { apply visit_iff. split; [exact F|]. exists a. cbn [after]. auto. }
    congruence.
Qed.

Lemma accepted_shape custom d trailing r :
  deserialize errors_of custom d trailing = inl r -> trailing = false /\ exists t o, d = DObj t o.
Proof.
  destruct d; cbn [deserialize]; try discriminate.
  destruct (visit_map errors_of _ o None None None); [|discriminate].
  destruct trailing; [discriminate|]. eauto.
Qed.

Lemma filter_perm {A} (f : A -> bool) l l' : Permutation l l' -> Permutation (filter f l) (filter f l').
Proof.
  intro H. induction H as [|x l l' H IH|x y l|l1 l2 l3 H1 IH1 H2 IH2]; cbn [filter].
  - reflexivity.
  - destruct (f x); [constructor|]; exact IH.
  - destruct (f x); destruct (f y); try reflexivity. apply perm_swap.
  - etransitivity; eassumption.
Qed.
Lemma members_perm n o o' : Permutation o o' -> Permutation (members n o) (members n o').
Proof. intro H. unfold members. apply Permutation_map, filter_perm, H. Qed.
Lemma optional_perm {A} (read : doc -> option A) ds ds' a :
  Permutation ds ds' -> optional read ds a -> optional read ds' a.
Proof.
  intros P H. destruct ds as [|d [|d2 ds]]; cbn [optional] in H.
  - apply Permutation_nil in P. subst ds'. exact H.
  - apply Permutation_length_1_inv in P. subst ds'. exact H.
  - contradiction.
Qed.

Lemma order_irrelevant custom t t' o o' trailing :
  Permutation o o' ->
  forall r, deserialize errors_of custom (DObj t o) trailing = inl r <->
            deserialize errors_of custom (DObj t' o') trailing = inl r.
Proof.
  assert (G : forall t t' o o' trailing r, Permutation o o' ->
    deserialize errors_of custom (DObj t o) trailing = inl r ->
    deserialize errors_of custom (DObj t' o') trailing = inl r).
  { clear. intros t t' o o' trailing r P H.
    pose proof (proj1 (accepted_shape _ _ _ _ H)) as ->. apply accepted_iff in H. apply accepted_iff.
    destruct H as [F [[a [H1 H4]] [H2 [H3 H5]]]].
    split; [eapply Permutation_Forall; [exact P|exact F]|].
    split; [exists a; split; [eapply optional_perm; [apply members_perm; exact P|exact H1]|exact H4]|].
    split; [eapply optional_perm; [apply members_perm; exact P|exact H2]|].
    split; [eapply optional_perm; [apply members_perm; exact P|exact H3]|exact H5]. }
  intros P r. split; apply G; [exact P|symmetry; exact P].
Qed.

Lemma unknown_ignored custom t t' o1 o2 k d trailing :
  ~ known k ->
  deserialize errors_of custom (DObj t (o1 ++ (k, false, d) :: o2)%list) trailing =
  deserialize errors_of custom (DObj t' (o1 ++ o2)%list) trailing.
Proof.
  intro NK. cbn [deserialize].
  assert (V : forall p data errors ext, visit_map errors_of p (o1 ++ (k, false, d) :: o2)%list data errors ext =
                                        visit_map errors_of p (o1 ++ o2)%list data errors ext).
  { induction o1 as [|[[k1 e1] d1] o1 IH]; intros p data errors ext.
    - cbn [app visit_map].
      destruct (String.eqb_spec k "data"); [exfalso; apply NK; left; assumption|].
      destruct (String.eqb_spec k "errors"); [exfalso; apply NK; right; left; assumption|].
      destruct (String.eqb_spec k "extensions"); [exfalso; apply NK; right; right; assumption|]. reflexivity.
    - cbn [app visit_map]. destruct e1; [reflexivity|].
      destruct (String.eqb k1 "data"); [destruct data; [reflexivity|]; destruct (with_paths p d1); [apply IH|reflexivity]|].
      destruct (String.eqb k1 "errors"); [destruct errors; [reflexivity|]; destruct (errors_of d1); [apply IH|reflexivity]|].
      destruct (String.eqb k1 "extensions"); [destruct ext; [reflexivity|]; destruct (structured d1); [apply IH|reflexivity]|].
      apply IH. }
  rewrite V. reflexivity.
Qed.

Lemma duplicate_rejected custom t o n trailing :
  known n -> 2 <= length (members n o) -> deserialize errors_of custom (DObj t o) trailing = inr DeserializationFailure.
Proof.
  intros K L. cbn [deserialize]. fold (the_paths custom).
  destruct (visit_map errors_of (the_paths custom) o None None None) as [r|] eqn:V; [|reflexivity].
  exfalso. apply visit_iff in V. destruct V as [_ [a [H1 [H2 [H3 _]]]]]. cbn [after] in H1, H2, H3.
  destruct K as [->|[->| ->]].
  - destruct (members "data" o) as [|x [|y ds]]; cbn [length] in L; [lia|lia|exact H1].
  - destruct (members "errors" o) as [|x [|y ds]]; cbn [length] in L; [lia|lia|exact H2].
  - destruct (members "extensions" o) as [|x [|y ds]]; cbn [length] in L; [lia|lia|exact H3].
Qed.

Lemma neither_rejected custom t o trailing :
  members "data" o = [] -> members "errors" o = [] ->
  forall r, deserialize errors_of custom (DObj t o) trailing <> inl r.
Proof.
  intros N1 N2 r H. pose proof (proj1 (accepted_shape _ _ _ _ H)) as ->. apply accepted_iff in H.
  destruct H as [_ [[a [H1 H4]] [H2 [_ H5]]]]. rewrite N1 in H1. rewrite N2 in H2. cbn [optional] in H1, H2.
  subst a. rewrite H4, H2 in H5. destruct H5 as [H|H]; apply H; reflexivity.
Qed.

Lemma null_without_errors_rejected custom t o t' trailing :
  members "data" o = [DNull t'] -> terminal (the_paths custom) = false -> members "errors" o = [] ->
  forall r, deserialize errors_of custom (DObj t o) trailing <> inl r.
Proof.
  intros N1 Tm N2 r H. pose proof (proj1 (accepted_shape _ _ _ _ H)) as ->. apply accepted_iff in H.
  destruct H as [_ [[a [H1 H4]] [H2 [_ H5]]]]. rewrite N1 in H1. rewrite N2 in H2. cbn [optional] in H1, H2.
  destruct H1 as [v [R ->]]. rewrite with_paths_reads, Tm in R.
  assert (v = VNull) as -> by (destruct (is_empty (the_paths custom)); cbn [reads structured] in R; congruence).
  rewrite H4, H2 in H5. destruct H5 as [H|H]; apply H; reflexivity.
Qed.

Lemma errors_kept custom t o d es trailing r :
  members "errors" o = [d] -> errors_of d = Some es ->
  deserialize errors_of custom (DObj t o) trailing = inl r -> r_errors r = Some es.
Proof.
  intros M Ee H. pose proof (proj1 (accepted_shape _ _ _ _ H)) as ->. apply accepted_iff in H.
  destruct H as [_ [_ [H2 _]]]. rewrite M in H2. cbn [optional] in H2. destruct H2 as [x [H2 H3]]. congruence.
Qed.
Lemma unreadable_errors_rejected custom t o d trailing :
  In d (members "errors" o) -> errors_of d = None ->
  forall r, deserialize errors_of custom (DObj t o) trailing <> inl r.
Proof.
  intros M Ee r H. pose proof (proj1 (accepted_shape _ _ _ _ H)) as ->. apply accepted_iff in H.
  destruct H as [_ [_ [H2 _]]]. destruct (members "errors" o) as [|x [|y l]]; cbn [optional] in H2; [destruct M| |contradiction].
  destruct M as [->|[]]. destruct H2 as [x [H2 _]]. congruence.
Qed.
End Response.

(** ** Path tries *)
Lemma get_update {A} (default : A) f k l k' :
  get k' (update default f k l) = if String.eqb k' k then Some (f (match get k l with Some a => a | None => default end)) else get k' l.
Proof.
  induction l as [|[x a] l IH]; cbn [update get].
  - destruct (String.eqb k' k); reflexivity.
  - destruct (String.eqb_spec k x) as [->|N]; cbn [get].
    + destruct (String.eqb k' x); reflexivity.
    + rewrite IH. destruct (String.eqb_spec k' x) as [->|N']; [|reflexivity].
      destruct (String.eqb_spec x k) as [->|N'']; [congruence|reflexivity].
Qed.

Definition keys_eqb (a b : list string) : bool := if list_eq_dec string_dec a b then true else false.
Lemma keys_eqb_cons k a k' b : keys_eqb (k :: a) (k' :: b) = String.eqb k k' && keys_eqb a b.
Proof.
  unfold keys_eqb. destruct (list_eq_dec string_dec (k :: a) (k' :: b)) as [H|H]; destruct (String.eqb_spec k k') as [->|N];
    destruct (list_eq_dec string_dec a b) as [->|N']; try reflexivity; congruence.
Qed.
Lemma keys_eqb_eq a b : keys_eqb a b = true <-> a = b.
Proof. unfold keys_eqb. destruct (list_eq_dec string_dec a b); split; congruence. Qed.

Lemma marked_insert ks : forall p ks', marked (insert_path ks p) ks' = keys_eqb ks ks' || marked p ks'.
Proof.
  induction ks as [|k ks IH]; intros p ks'; cbn [insert_path].
  - destruct ks' as [|k' ks']; reflexivity.
  - destruct ks' as [|k' ks']; cbn [marked children terminal]; [reflexivity|].
    rewrite get_update, keys_eqb_cons, (String.eqb_sym k k'). destruct (String.eqb_spec k' k) as [->|N]; [|reflexivity].
    rewrite IH. cbn [andb]. destruct (get k (children p)); [reflexivity|]. f_equal. destruct ks' as [|? ?]; reflexivity.
Qed.
Lemma marked_inserts l : forall p ks, marked (fold_left (fun p ks => insert_path ks p) l p) ks = true <-> In ks l \/ marked p ks = true.
Proof.
  induction l as [|x l IH]; intros p ks; cbn [fold_left In]; [tauto|].
  rewrite IH, marked_insert, orb_true_iff, keys_eqb_eq. tauto.
Qed.

Fixpoint nav (s : pstate) (ks : list string) : pstate :=
  match ks with
  | [] => s
  | k :: ks' => nav (match get k (pchildren s) with Some c => c | None => empty_state end) ks'
  end.
Lemma nav_empty ks : nav empty_state ks = empty_state.
Proof. induction ks as [|k ks IH]; [reflexivity|exact IH]. Qed.
Definition c_at (s : pstate) (ks : list string) : bool := custom_seen (nav s ks).
Definition s_at (s : pstate) (ks : list string) : bool := standard_seen (nav s ks).

Lemma c_at_mark b ks : forall s ks', c_at (mark b ks s) ks' = b && keys_eqb ks ks' || c_at s ks'.
Proof.
  unfold c_at. induction ks as [|k ks IH]; intros s ks'; cbn [mark].
  - destruct ks' as [|k' ks'].
    + destruct b; cbn [nav custom_seen]; [reflexivity|]. reflexivity.
    + change (keys_eqb [] (k' :: ks')) with false. rewrite andb_false_r. destruct b; reflexivity.
  - destruct ks' as [|k' ks']; cbn [nav].
    + change (keys_eqb (k :: ks) []) with false. rewrite andb_false_r. reflexivity.
    + rewrite keys_eqb_cons, (String.eqb_sym k k'). cbn [pchildren]. rewrite get_update.
      destruct (String.eqb_spec k' k) as [->|N]; [|rewrite andb_false_r; reflexivity].
      rewrite IH. reflexivity.
Qed.
Lemma s_at_mark b ks : forall s ks', s_at (mark b ks s) ks' = negb b && keys_eqb ks ks' || s_at s ks'.
Proof.
  unfold s_at. induction ks as [|k ks IH]; intros s ks'; cbn [mark].
  - destruct ks' as [|k' ks'].
    + destruct b; cbn [nav standard_seen]; [reflexivity|]. reflexivity.
    + change (keys_eqb [] (k' :: ks')) with false. rewrite andb_false_r. destruct b; reflexivity.
  - destruct ks' as [|k' ks']; cbn [nav].
    + change (keys_eqb (k :: ks) []) with false. rewrite andb_false_r. reflexivity.
    + rewrite keys_eqb_cons, (String.eqb_sym k k'). cbn [pchildren]. rewrite get_update.
      destruct (String.eqb_spec k' k) as [->|N]; [|rewrite andb_false_r; reflexivity].
      rewrite IH. reflexivity.
Qed.

(** Keys stay distinct. *)
Inductive ok : pstate -> Prop :=
| Ok ch c s : NoDup (map fst ch) -> Forall (fun kc => ok (snd kc)) ch -> ok (PState ch c s).
Lemma update_ok f k l :
  (forall s, ok s -> ok (f s)) -> NoDup (map fst l) -> Forall (fun kc => ok (snd kc)) l ->
  NoDup (map fst (update empty_state f k l)) /\ Forall (fun kc => ok (snd kc)) (update empty_state f k l) /\
  (forall x, In x (map fst (update empty_state f k l)) <-> x = k \/ In x (map fst l)).
Proof.
  intros Hf. induction l as [|[x a] l IH]; intros ND F; cbn [update map fst].
  - split; [constructor; [intros []|constructor]|]. split.
    + constructor; [|constructor]. cbn [snd]. apply Hf. constructor; constructor.
    + intro y. cbn [In map fst]. split; intros [->|H]; auto.
  - inversion ND as [|? ? NI ND']; subst. inversion F as [|? ? F1 F2]; subst. cbn [snd] in F1.
    destruct (String.eqb_spec k x) as [->|N]; cbn [map fst].
    + split; [exact ND|]. split; [constructor; [cbn [snd]; apply Hf, F1|exact F2]|].
      intro y. cbn [In]. split; [intros [->|H]; auto|intros [->|[->|H]]; auto].
    + destruct (IH ND' F2) as [I1 [I2 I3]]. split; [constructor; [|exact I1]|].
      * intro H. apply I3 in H. destruct H as [->|H]; [congruence|contradiction].
      * split; [constructor; [exact F1|exact I2]|]. intro y. cbn [In]. rewrite I3. tauto.
Qed.
Lemma mark_ok b ks : forall s, ok s -> ok (mark b ks s).
Proof.
  induction ks as [|k ks IH]; intros s Hs; destruct s as [ch c st]; inversion Hs as [? ? ? ND F]; subst; cbn [mark pchildren custom_seen standard_seen].
  - destruct b; constructor; assumption.
  - destruct (update_ok (mark b ks) k ch IH ND F) as [I1 [I2 _]]. constructor; assumption.
Qed.

Fixpoint into_children (l : list (string * pstate)) : list (string * paths) :=
  match l with
  | [] => []
  | (k, s) :: l' => match into_paths s with Some p => (k, p) :: into_children l' | None => into_children l' end
  end.
Lemma into_paths_eq ch c std :
  into_paths (PState ch c std) =
  let p := Paths (into_children ch) (c && negb std && match into_children ch with [] => true | _ => false end) in
  if is_empty p then None else Some p.
Proof. reflexivity. Qed.

Lemma into_children_get k ch : NoDup (map fst ch) ->
  get k (into_children ch) = match get k ch with Some s => into_paths s | None => None end.
Proof.
  induction ch as [|[x s] ch IH]; intro ND; [reflexivity|]. cbn [map fst] in ND. inversion ND as [|? ? NI ND']; subst.
  cbn [into_children get]. destruct (String.eqb_spec k x) as [->|N].
  - destruct (into_paths s) as [p|] eqn:Ip; cbn [get]; [rewrite String.eqb_refl; reflexivity|].
    rewrite (IH ND'). apply get_none_notin in NI. rewrite NI. reflexivity.
  - destruct (into_paths s) as [p|]; cbn [get]; [|apply IH, ND'].
    destruct (String.eqb_spec k x); [congruence|]. apply IH, ND'.
Qed.


Lemma mp_cons s k ks : ok s -> mp (into_paths s) (k :: ks) = match get k (pchildren s) with Some c => mp (into_paths c) ks | None => false end.
Proof.
  intro Hs. destruct s as [ch c st]. inversion Hs as [? ? ? ND F]; subst. rewrite into_paths_eq. cbv zeta. cbn [pchildren].
  set (p := Paths _ _). assert (M : marked p (k :: ks) = match get k ch with Some c => mp (into_paths c) ks | None => false end).
  { subst p. cbn [marked children]. rewrite (into_children_get k ch ND). destruct (get k ch) as [s|]; [|reflexivity].
    destruct (into_paths s); reflexivity. }
  destruct (is_empty p) eqn:Ep; cbn [mp]; [|exact M]. rewrite <- M. symmetry. apply empty_unmarked. exact Ep.
Qed.
Lemma mp_nil s : mp (into_paths s) [] = custom_seen s && negb (standard_seen s) && match into_children (pchildren s) with [] => true | _ => false end.
Proof.
  destruct s as [ch c st]. rewrite into_paths_eq. cbv zeta. cbn [pchildren custom_seen standard_seen].
  set (p := Paths _ _). destruct (is_empty p) eqn:Ep; cbn [mp]; [|reflexivity].
  pose proof (empty_unmarked p [] Ep) as M. cbn [marked] in M. subst p. cbn [terminal] in M. rewrite M. reflexivity.
Qed.

Section PInd.
  Variable P : pstate -> Prop.
  Hypothesis H : forall ch c s, Forall (fun kc => P (snd kc)) ch -> P (PState ch c s).
  Fixpoint pstate_ind' (s : pstate) : P s :=
    match s with
    | PState ch c b => H ch c b ((fix go (l : list (string * pstate)) : Forall (fun kc => P (snd kc)) l :=
        match l with [] => Forall_nil _ | kc :: l' => Forall_cons kc (pstate_ind' (snd kc)) (go l') end) ch)
    end.
End PInd.

Lemma into_some s : ok s -> into_paths s <> None -> exists ks, mp (into_paths s) ks = true.
Proof.
  induction s as [ch c st IH] using pstate_ind'. intros Hs N.
  destruct (into_children ch) as [|[k p] l] eqn:Ec.
  - exists []. rewrite mp_nil. cbn [custom_seen standard_seen pchildren]. rewrite Ec.
    rewrite into_paths_eq in N. cbv zeta in N. rewrite Ec in N. unfold is_empty in N. cbn [terminal children] in N.
    destruct (c && negb st && true); [reflexivity|]. exfalso. apply N. reflexivity.
  - pose proof Hs as Hs'. inversion Hs' as [? ? ? ND F]; subst.
    assert (G : get k (into_children ch) = Some p) by (rewrite Ec; cbn [get]; rewrite String.eqb_refl; reflexivity).
    rewrite (into_children_get k ch ND) in G. destruct (get k ch) as [s|] eqn:Gs; [|discriminate].
    pose proof (get_in _ _ _ Gs) as Is. rewrite Forall_forall in IH, F.
    destruct (IH _ Is (F _ Is)) as [ks K]; [cbn [snd]; congruence|]. cbn [snd] in K.
    exists (k :: ks). rewrite (mp_cons _ _ _ Hs). cbn [pchildren]. rewrite Gs. exact K.
Qed.

Lemma mp_c_at ks : forall s, ok s -> mp (into_paths s) ks = true -> c_at s ks = true /\ s_at s ks = false.
Proof.
  induction ks as [|k ks IH]; intros s Hs M.
  - rewrite mp_nil in M. apply andb_true_iff in M. destruct M as [M _]. apply andb_true_iff in M. destruct M as [M1 M2].
    apply negb_true_iff in M2. split; [exact M1|exact M2].
  - rewrite (mp_cons _ _ _ Hs) in M. unfold c_at, s_at. cbn [nav]. destruct (get k (pchildren s)) as [c|] eqn:G; [|discriminate].
    apply IH; [|exact M]. destruct s as [ch c0 st]. inversion Hs as [? ? ? ND F]; subst. rewrite Forall_forall in F.
    exact (F _ (get_in _ _ _ G)).
Qed.

Definition covered (s : pstate) : Prop :=
  forall ks k r, c_at s ks = true -> c_at s (ks ++ k :: r)%list = true -> s_at s ks = true.

Lemma mp_iff ks : forall s, ok s -> covered s ->
  (mp (into_paths s) ks = true <-> c_at s ks = true /\ s_at s ks = false).
Proof.
  induction ks as [|k ks IH]; intros s Hs Cs; (split; [apply mp_c_at; exact Hs|]); intros [C Sd].
  - rewrite mp_nil. unfold c_at, s_at in C, Sd. cbn [nav] in C, Sd. rewrite C, Sd. cbn [negb andb].
    destruct (into_children (pchildren s)) as [|[k p] l] eqn:Ec; [reflexivity|]. exfalso.
    assert (exists ks, mp (into_paths s) (k :: ks) = true) as [ks K].
    { destruct s as [ch c0 st]. cbn [pchildren] in Ec. pose proof Hs as Hs'. inversion Hs' as [? ? ? ND F]; subst.
      assert (G : get k (into_children ch) = Some p) by (rewrite Ec; cbn [get]; rewrite String.eqb_refl; reflexivity).
      rewrite (into_children_get k ch ND) in G. destruct (get k ch) as [s|] eqn:Gs; [|discriminate].
      rewrite Forall_forall in F. destruct (into_some s (F _ (get_in _ _ _ Gs))) as [ks K]; [congruence|].
      exists ks. rewrite (mp_cons _ _ _ Hs). cbn [pchildren]. rewrite Gs. exact K. }
    apply (mp_c_at _ _ Hs) in K. destruct K as [K _].
    assert (X : s_at s [] = true) by (apply (Cs [] k ks); [exact C|exact K]). unfold s_at in X. cbn [nav] in X. congruence.
  - rewrite (mp_cons _ _ _ Hs). unfold c_at, s_at in C, Sd. cbn [nav] in C, Sd.
    destruct (get k (pchildren s)) as [c|] eqn:G.
    + apply IH; [| |split; [exact C|exact Sd]].
      * destruct s as [ch c0 st]. inversion Hs as [? ? ? ND F]; subst. rewrite Forall_forall in F. exact (F _ (get_in _ _ _ G)).
      * intros ks' k' r' C1 C2. specialize (Cs (k :: ks') k' r'). unfold c_at, s_at in Cs, C1, C2 |- *. cbn [nav app] in Cs. rewrite G in Cs.
        apply Cs; assumption.
    + rewrite nav_empty in C. discriminate.
Qed.

(** ** Collecting *)
Section Collect.
Context (fields : string -> option (string -> option string)) (is_custom_scalar : string -> bool).
Notation selected := (selected fields is_custom_scalar).
Notation collect_item := (collect_item fields is_custom_scalar).
Notation collect := (collect fields is_custom_scalar).

Lemma selected_nil P ks ty : ~ selected P [] ks ty.
Proof. intro H. remember [] as l eqn:El. induction H; subst; try contradiction. Qed.
Lemma selected_cons P s sels ks ty : selected P (s :: sels) ks ty <-> selected P [s] ks ty \/ selected P sels ks ty.
Proof.
  split.
  - intro H. inversion H as [? ? name al args i sk om sub fs t I Ef Et|? ? name al args i sk om sub fs t ks' ty' I Ef Et Nc Hs|? ? t i sk sub fs ks' ty' I Ef Hs]; subst.
    + destruct I as [->|I]; [left|right]; eapply sel_field; eauto; left; reflexivity.
    + destruct I as [->|I]; [left|right]; eapply sel_below; eauto; left; reflexivity.
    + destruct I as [->|I]; [left|right]; eapply sel_fragment; eauto; left; reflexivity.
  - assert (W : forall l l' P ks ty, incl l l' -> selected P l ks ty -> selected P l' ks ty).
    { clear. intros l l' P ks ty Inc H. inversion H as [? ? name al args i sk om sub fs t I Ef Et|? ? name al args i sk om sub fs t ks' ty' I Ef Et Nc Hs|? ? t i sk sub fs ks' ty' I Ef Hs]; subst.
      - eapply sel_field; eauto.
      - eapply sel_below; eauto.
      - eapply sel_fragment; eauto. }
    intros [H|H]; eapply W; try exact H.
    + intros x [->|[]]. left. reflexivity.
    + intros x I. right. exact I.
Qed.

(** What a collecting function adds. *)
Definition adds (f : pstate -> pstate) (path : list string) (sels : string -> list string -> Prop) : Prop :=
  forall st, (ok st -> ok (f st)) /\
  (forall ks, c_at (f st) ks = true <-> c_at st ks = true \/ exists ks' ty, ks = (path ++ ks')%list /\ sels ty ks' /\ is_custom_scalar ty = true) /\
  (forall ks, s_at (f st) ks = true <-> s_at st ks = true \/ exists ks' ty, ks = (path ++ ks')%list /\ sels ty ks' /\ is_custom_scalar ty = false).

Lemma adds_iff f path s1 s2 : (forall ty ks, s1 ty ks <-> s2 ty ks) -> adds f path s1 -> adds f path s2.
Proof.
  intros H A st. destruct (A st) as [A1 [A2 A3]]. split; [exact A1|]. split; intro ks.
  - rewrite A2. split; (intros [G|[ks' [ty [G1 [G2 G3]]]]]; [left; exact G|right; exists ks', ty; split; [exact G1|]; split; [apply H; exact G2|exact G3]]).
  - rewrite A3. split; (intros [G|[ks' [ty [G1 [G2 G3]]]]]; [left; exact G|right; exists ks', ty; split; [exact G1|]; split; [apply H; exact G2|exact G3]]).
Qed.
Lemma adds_none path sels : (forall ty ks, ~ sels ty ks) -> adds (fun st => st) path sels.
Proof.
  intros H st. split; [auto|]. split; intro ks; (split; [auto|]); intros [G|[ks' [ty [_ [G _]]]]]; try exact G; exfalso; exact (H _ _ G).
Qed.
Lemma adds_comp f g path s1 s2 : adds f path s1 -> adds g path s2 -> adds (fun st => g (f st)) path (fun ty ks => s1 ty ks \/ s2 ty ks).
Proof.
  intros A B st. destruct (A st) as [A1 [A2 A3]]. destruct (B (f st)) as [B1 [B2 B3]]. split; [auto|]. split; intro ks.
  - rewrite B2, A2. split.
    + intros [[G|[ks' [ty [G1 [G2 G3]]]]]|[ks' [ty [G1 [G2 G3]]]]]; [left; exact G| |]; right; exists ks', ty; auto.
    + intros [G|[ks' [ty [G1 [[G2|G2] G3]]]]]; [left; left; exact G|left; right; exists ks', ty; auto|right; exists ks', ty; auto].
  - rewrite B3, A3. split.
    + intros [[G|[ks' [ty [G1 [G2 G3]]]]]|[ks' [ty [G1 [G2 G3]]]]]; [left; exact G| |]; right; exists ks', ty; auto.
    + intros [G|[ks' [ty [G1 [[G2|G2] G3]]]]]; [left; left; exact G|left; right; exists ks', ty; auto|right; exists ks', ty; auto].
Qed.
Lemma adds_mark ty path k : adds (mark (is_custom_scalar ty) (path ++ [k])%list) path (fun ty' ks => ks = [k] /\ ty' = ty).
Proof.
  intro st. split; [apply mark_ok|]. split; intro ks; rewrite ?c_at_mark, ?s_at_mark, orb_true_iff, andb_true_iff, keys_eqb_eq; split.
  - intros [[B <-]|G]; [right; exists [k], ty; auto|left; exact G].
  - intros [G|[ks' [ty' [-> [[-> ->] B]]]]]; [right; exact G|left; auto].
  - intros [[B <-]|G]; [right; exists [k], ty; apply negb_true_iff in B; auto|left; exact G].
  - intros [G|[ks' [ty' [-> [[-> ->] B]]]]]; [right; exact G|left; rewrite B; auto].
Qed.
Lemma adds_under f path k sels : adds f (path ++ [k])%list sels -> adds f path (fun ty ks => exists ks', ks = k :: ks' /\ sels ty ks').
Proof.
  intros A st. destruct (A st) as [A1 [A2 A3]]. split; [exact A1|]. split; intro ks.
  - rewrite A2. split.
    + intros [G|[ks' [ty [-> [G2 G3]]]]]; [left; exact G|]. right. exists (k :: ks'), ty. rewrite <- app_assoc. eauto.
    + intros [G|[ks' [ty [-> [[ks'' [-> G2]] G3]]]]]; [left; exact G|]. right. exists ks'', ty. rewrite <- app_assoc. auto.
  - rewrite A3. split.
    + intros [G|[ks' [ty [-> [G2 G3]]]]]; [left; exact G|]. right. exists (k :: ks'), ty. rewrite <- app_assoc. eauto.
    + intros [G|[ks' [ty [-> [[ks'' [-> G2]] G3]]]]]; [left; exact G|]. right. exists ks'', ty. rewrite <- app_assoc. auto.
Qed.

Lemma adds_fold (sub : list sel) parent path :
  Forall (fun s => forall parent path, adds (collect_item s parent path) path (fun ty ks => selected parent [s] ks ty)) sub ->
  adds (fun st => fold_left (fun st s => collect_item s parent path st) sub st) path (fun ty ks => selected parent sub ks ty).
Proof.
  intro F. induction F as [|s sub H F IH].
  - cbn [fold_left]. apply adds_none. intros ty ks. apply selected_nil.
  - eapply adds_iff; [|exact (adds_comp _ _ _ _ _ (H parent path) IH)].
    intros ty ks. cbn beta. rewrite (selected_cons parent s sub). reflexivity.
Qed.

Lemma adds_item s : forall parent path, adds (collect_item s parent path) path (fun ty ks => selected parent [s] ks ty).
Proof.
  induction s as [n a args inc skip om sub IH|t inc skip sub IH|n] using sel_ind'; intros parent path; cbn [SubresModel.collect_item].
  - destruct (fields parent) as [fs|] eqn:Ef.
    2:{ apply adds_none. intros ty ks H. inversion H as [? ? ? ? ? ? ? ? ? ? ? I E|? ? ? ? ? ? ? ? ? ? ? ? ? I E|? ? ? ? ? ? ? ? ? I E]; congruence. }
    destruct (fs n) as [ty|] eqn:Et.
    2:{ apply adds_none. intros ty ks H. inversion H as [? ? ? ? ? ? ? ? ? ? ? I E E'|? ? ? ? ? ? ? ? ? ? ? ? ? I E E'|? ? ? ? ? ? ? ? ? I E]; subst.
        - destruct I as [I|[]]. injection I as <- <- <- <- <- <- <-. congruence.
        - destruct I as [I|[]]. injection I as <- <- <- <- <- <- <-. congruence.
        - destruct I as [I|[]]. discriminate. }
    cbv zeta. set (k := match a with Some a => a | None => n end).
    pose proof (adds_mark ty path k) as M. destruct (is_custom_scalar ty) eqn:Ec.
    + eapply adds_iff; [|exact M]. intros ty' ks. split.
      * intros [-> ->]. eapply sel_field; [left; reflexivity|exact Ef|exact Et].
      * intro H. inversion H as [? ? ? ? ? ? ? ? ? ? ? I E E'|? ? ? ? ? ? ? ? ? ? ? ? ? I E E'|? ? ? ? ? ? ? ? ? I E]; subst.
        -- destruct I as [I|[]]. injection I as <- <- <- <- <- <- <-. split; [reflexivity|congruence].
        -- destruct I as [I|[]]. injection I as <- <- <- <- <- <- <-. congruence.
        -- destruct I as [I|[]]. discriminate.
    + pose proof (adds_under _ _ _ _ (adds_fold sub ty (path ++ [k])%list IH)) as U.
      eapply adds_iff; [|exact (adds_comp _ _ _ _ _ M U)]. intros ty' ks. cbn beta. split.
      * intros [[-> ->]|[ks' [-> H]]]; [eapply sel_field; [left; reflexivity|exact Ef|exact Et]|].
        eapply sel_below; [left; reflexivity|exact Ef|exact Et|exact Ec|exact H].
      * intro H. inversion H as [? ? ? ? ? ? ? ? ? ? ? I E E'|? ? ? ? ? ? ? ? ? ? ? ? ? I E E' N Hs|? ? ? ? ? ? ? ? ? I E]; subst.
        -- destruct I as [I|[]]. injection I as <- <- <- <- <- <- <-. left. split; [reflexivity|congruence].
        -- destruct I as [I|[]]. injection I as <- <- <- <- <- <- <-. right. eexists. split; [reflexivity|].
           assert (ty0 = ty) as <- by congruence. exact Hs.
        -- destruct I as [I|[]]. discriminate.
  - destruct (fields parent) as [fs|] eqn:Ef.
    2:{ apply adds_none. intros ty ks H. inversion H as [? ? ? ? ? ? ? ? ? ? ? I E|? ? ? ? ? ? ? ? ? ? ? ? ? I E|? ? ? ? ? ? ? ? ? I E]; congruence. }
    eapply adds_iff; [|exact (adds_fold sub t path IH)]. intros ty ks. cbn beta. split.
    + intro H. eapply sel_fragment; [left; reflexivity|exact Ef|exact H].
    + intro H. inversion H as [? ? ? ? ? ? ? ? ? ? ? I E|? ? ? ? ? ? ? ? ? ? ? ? ? I E|? ? ? ? ? ? ? ? ? I E Hs]; subst;
        destruct I as [I|[]]; try discriminate. injection I as <- <- <- <-. exact Hs.
  - apply adds_none. intros ty ks H. inversion H as [? ? ? ? ? ? ? ? ? ? ? I E|? ? ? ? ? ? ? ? ? ? ? ? ? I E|? ? ? ? ? ? ? ? ? I E]; subst;
      destruct I as [I|[]]; discriminate.
Qed.

Lemma adds_collect parent path sels : adds (collect parent path sels) path (fun ty ks => selected parent sels ks ty).
Proof. apply adds_fold. rewrite Forall_forall. intros s _. apply adds_item. Qed.

Lemma adds_outputs path (outputs : list (string * list sel)) :
  adds (fun st => fold_left (fun st ts => collect (fst ts) path (snd ts) st) outputs st) path
    (fun ty ks => exists t sels, In (t, sels) outputs /\ selected t sels ks ty).
Proof.
  induction outputs as [|[t sels] outputs IH].
  - apply adds_none. intros ty ks [t [sels [[] _]]].
  - eapply adds_iff; [|exact (adds_comp _ _ _ _ _ (adds_collect t path sels) IH)]. intros ty ks. cbn beta. split.
    + intros [H|[t' [sels' [I H]]]]; [exists t, sels; split; [left; reflexivity|exact H]|exists t', sels'; split; [right; exact I|exact H]].
    + intros [t' [sels' [[I|I] H]]]; [left; injection I as -> ->; exact H|right; exists t', sels'; auto].
Qed.

Lemma selected_nonempty P sels ks ty : selected P sels ks ty -> ks <> [].
Proof. intro H. induction H; try discriminate. exact IHselected. Qed.

Lemma selected_prefix P sels kks ty : selected P sels kks ty -> forall ks k r, kks = (ks ++ k :: r)%list -> ks <> [] ->
  exists ty', selected P sels ks ty' /\ is_custom_scalar ty' = false.
Proof.
  intro H. induction H as [parent sels name al args i sk om sub fs t I Ef Et|parent sels name al args i sk om sub fs t ks' ty' I Ef Et Nc Hs IH|parent sels t i sk sub fs ks' ty' I Ef Hs IH];
    intros ks k r E N.
  - destruct ks as [|x ks]; [congruence|]. cbn [app] in E. injection E as _ E. destruct ks; discriminate.
  - destruct ks as [|x ks]; [congruence|]. cbn [app] in E. injection E as <- E. destruct ks as [|y ks].
    + exists t. split; [|exact Nc]. eapply sel_field; eauto.
    + destruct (IH (y :: ks) k r E) as [t' [H1 H2]]; [discriminate|]. exists t'. split; [|exact H2].
      eapply sel_below; eauto.
  - destruct (IH ks k r E N) as [t' [H1 H2]]. exists t'. split; [|exact H2]. eapply sel_fragment; eauto.
Qed.

Lemma fetch_paths outputs root ks :
  mp (paths_of_fetch fields is_custom_scalar outputs root) ks = true <->
  (exists ty, selected_in fields is_custom_scalar outputs root ks ty) /\
  (forall ty, selected_in fields is_custom_scalar outputs root ks ty -> is_custom_scalar ty = true).
Proof.
  unfold paths_of_fetch. set (path := match root with Some r => [r] | None => [] end).
  pose proof (adds_outputs path outputs empty_state) as A. cbv beta in A.
  set (st := fold_left (fun st ts => collect (fst ts) path (snd ts) st) outputs empty_state) in *.
  destruct A as [A1 [A2 A3]].
  assert (Hok : ok st) by (apply A1; constructor; constructor).
  assert (D : forall ks', match root with Some r => r :: ks' | None => ks' end = (path ++ ks')%list)
    by (intro; subst path; destruct root; reflexivity).
  assert (E1 : forall ks, c_at empty_state ks = false) by (intro; unfold c_at; rewrite nav_empty; reflexivity).
  assert (E2 : forall ks, s_at empty_state ks = false) by (intro; unfold s_at; rewrite nav_empty; reflexivity).
  assert (B2 : forall ks, c_at st ks = true <-> exists ty, selected_in fields is_custom_scalar outputs root ks ty /\ is_custom_scalar ty = true).
  { intro ks0. rewrite A2, E1. unfold selected_in. split.
    - intros [H|[ks' [ty [-> [[t [sels [I Hs]]] C]]]]]; [discriminate|]. exists ty. split; [|exact C]. exists t, sels, ks'. rewrite D. auto.
    - intros [ty [[t [sels [ks' [I [Hs ->]]]]] C]]. right. exists ks', ty. rewrite D. split; [reflexivity|]. split; [exists t, sels; auto|exact C]. }
  assert (B3 : forall ks, s_at st ks = true <-> exists ty, selected_in fields is_custom_scalar outputs root ks ty /\ is_custom_scalar ty = false).
  { intro ks0. rewrite A3, E2. unfold selected_in. split.
    - intros [H|[ks' [ty [-> [[t [sels [I Hs]]] C]]]]]; [discriminate|]. exists ty. split; [|exact C]. exists t, sels, ks'. rewrite D. auto.
    - intros [ty [[t [sels [ks' [I [Hs ->]]]]] C]]. right. exists ks', ty. rewrite D. split; [reflexivity|]. split; [exists t, sels; auto|exact C]. }
  assert (Cov : covered st).
  { intros ks0 k r C1 C2. apply B2 in C1. apply B2 in C2. apply B3.
    destruct C1 as [ty1 [[t1 [sels1 [ks1 [I1 [S1 ->]]]]] _]]. destruct C2 as [ty2 [[t2 [sels2 [ks2 [I2 [S2 Eq]]]]] _]].
    rewrite !D in Eq. rewrite <- app_assoc in Eq. apply app_inv_head in Eq.
    destruct (selected_prefix _ _ _ _ S2 ks1 k r (eq_sym Eq) (selected_nonempty _ _ _ _ S1)) as [ty' [S' C']].
    exists ty'. split; [|exact C']. exists t2, sels2, ks1. auto. }
  rewrite (mp_iff ks st Hok Cov), B2. split.
  - intros [[ty [H1 H2]] N]. split; [exists ty; exact H1|]. intros ty' H'.
    destruct (is_custom_scalar ty') eqn:C; [reflexivity|]. exfalso.
    assert (s_at st ks = true) by (apply B3; exists ty'; auto). congruence.
  - intros [[ty H1] H2]. split; [exists ty; auto|].
    destruct (s_at st ks) eqn:Sx; [|reflexivity]. exfalso. apply B3 in Sx. destruct Sx as [ty' [H3 H4]].
    rewrite (H2 _ H3) in H4. discriminate.
Qed.
End Collect.

(** ** Findings *)
Lemma escaped_unknown :
  exists t o k d, ~ known k /\
  (forall E (errors_of : doc -> option (list E)), exists r, deserialize errors_of None (DObj t o) false = inl r) /\
  (forall E (errors_of : doc -> option (list E)),
     deserialize errors_of None (DObj t ((k, true, d) :: o)) false = inr DeserializationFailure).
Proof.
  exists "", [("data", false, DObj "" [])], "x", (DNull "null"). split.
  - intros [H|[H|H]]; discriminate.
  - split; intros E errors_of; [eexists; reflexivity|reflexivity].
Qed.
Lemma empty_errors :
  exists t o, forall E (errors_of : doc -> option (list E)),
  (forall t', errors_of (DArr t' []) = Some []) ->
  exists r, deserialize errors_of None (DObj t o) false = inl r /\ r_data r = VNull /\ r_errors r = Some [].
Proof.
  exists "", [("data", false, DNull "null"); ("errors", false, DArr "[]" [])]. intros E errors_of H.
  exists {| r_data := VNull; r_errors := Some []; r_extensions := None |}.
  split; [|split; reflexivity]. cbn. rewrite H. reflexivity.
Qed.
Lemma custom_null :
  exists p d v, with_paths p d = Some v /\
  (forall w, structured d = Some w -> w = VObj [("meta", VNull)]) /\ v = VObj [("meta", VRaw "null")] /\
  forall ryu M vtrue errs_json,
    let meta := Plan "meta" "meta" false (NLeaf true) None None (SData None) in
    project_by_operation ryu M vtrue errs_json v [] None "Query" [meta] =
      inl ("{" ++ String (chr 34) ("data" ++ String (chr 34) (":{" ++ String (chr 34) ("meta" ++ String (chr 34) ":null}}"))), []) /\
    project_by_operation ryu M vtrue errs_json (VObj [("meta", VNull)]) [] None "Query" [meta] =
      inl ("{" ++ String (chr 34) ("data" ++ String (chr 34) ":null}"), []).
Proof.
  exists (insert_path ["meta"] empty_paths), (DObj "" [("meta", false, DNull "null")]), (VObj [("meta", VRaw "null")]).
  split; [reflexivity|]. split; [intros w H; injection H as <-; reflexivity|]. split; [reflexivity|].
  intros ryu M vtrue errs_json meta. split; reflexivity.
Qed.
