From Coq Require Import String List Bool Arith Lia Sorted.
From Verif Require Import StrOrd JsonModel MergeSpec TraverseModel TraverseSpec.
Import ListNotations.
Local Open Scope string_scope.
Local Open Scope list_scope.

Definition pre (s : seg) (ts : list (list seg * value)) : list (list seg * value) :=
  map (fun t => (s :: fst t, snd t)) ts.

(** targets of the elements of a list, from index [i] on *)
Definition items (f : value -> list (list seg * value)) :=
  fix items (i : nat) (l : list value) {struct l} : list (list seg * value) :=
    match l with
    | [] => []
    | x :: l' => pre (Idx i) (f x) ++ items (S i) l'
    end.

Fixpoint targets (pt : ptypes) (p : list fseg) {struct p} : value -> list (list seg * value) :=
  match p with
  | [] => fun v => match v with VArr l => items (fun x => [([], x)]) 0 l | _ => [([], v)] end
  | FList :: p' => fun v => match v with VArr l => items (targets pt p') 0 l | _ => [] end
  | FField f :: p' => fun v =>
      match v with
      | VObj o => match get f o with Some w => pre (Key f) (targets pt p' w) | None => [] end
      | _ => []
      end
  | FTypes ts :: p' =>
      fix cast (v : value) : list (list seg * value) :=
        match v with
        | VObj o => if cast_ok pt o ts then targets pt p' v else []
        | VArr l => items cast 0 l
        | _ => []
        end
  end.

Lemma pre_snd s ts : map snd (pre s ts) = map snd ts.
Proof. unfold pre. rewrite map_map. apply map_ext. reflexivity. Qed.

Lemma items_snd f g l : Forall (fun x => map snd (f x) = g x) l ->
  forall i, map snd (items f i l) = flat_map g l.
Proof.
  induction 1 as [|x l Hx Hl IH]; intros i; [reflexivity|].
  cbn [items flat_map]. rewrite map_app, pre_snd, Hx, IH. reflexivity.
Qed.

Lemma targets_visit pt p : forall v, visit pt p v = map snd (targets pt p v).
Proof.
  induction p as [|[|f|ts] p IH]; intros v.
  - destruct v; try reflexivity. cbn [visit targets].
    rewrite items_snd with (g := fun x => [x]).
    + induction l; [reflexivity|]. cbn. f_equal. apply IHl.
    + apply Forall_forall. reflexivity.
  - destruct v; try reflexivity. cbn [visit targets].
    rewrite items_snd with (g := visit pt p); [reflexivity|].
    apply Forall_forall. intros x _. symmetry. apply IH.
  - destruct v; try reflexivity. cbn [visit targets]. destruct (get f o); [|reflexivity].
    rewrite pre_snd. apply IH.
  - induction v as [|fbits|iz|un|bb|str|raw|l IHl|o IHo] using value_ind'; try reflexivity.
    + cbn [visit targets].
      match goal with |- flat_map ?g l = map snd (items ?f 0 l) =>
        rewrite (items_snd f g) end; [reflexivity|].
      eapply Forall_impl; [|exact IHl]. intros x Hx. symmetry. exact Hx.
    + cbn [visit targets]. destruct (cast_ok pt o ts); [apply IH|reflexivity].
Qed.

Lemma in_pre s ts q x : In (q, x) (pre s ts) <-> exists q', q = s :: q' /\ In (q', x) ts.
Proof.
  unfold pre. rewrite in_map_iff. split.
  - intros [[q0 x0] [E H]]. injection E as <- <-. exists q0. auto.
  - intros [q' [-> H]]. exists (q', x). auto.
Qed.

Lemma in_items f q y l : forall i, In (q, y) (items f i l) <->
  exists j x q', q = Idx (i + j) :: q' /\ nth_error l j = Some x /\ In (q', y) (f x).
Proof.
  induction l as [|x l IH]; intros i; cbn [items].
  - split; [intros []|]. intros (j & x & q' & _ & H & _). destruct j; discriminate.
  - rewrite in_app_iff, in_pre, IH. split.
    + intros [(q' & -> & H)|(j & x' & q' & -> & N & H)].
      * exists 0, x, q'. rewrite Nat.add_0_r. auto.
      * exists (S j), x', q'. rewrite Nat.add_succ_r. auto.
    + intros (j & x' & q' & -> & N & H). destruct j as [|j].
      * left. injection N as ->. exists q'. rewrite Nat.add_0_r. auto.
      * right. exists j, x', q'. rewrite Nat.add_succ_r. auto.
Qed.

Lemma satisfies_ok pt t c : satisfies pt t c = true <-> t = c \/ exists ms, pt c = Some ms /\ In t ms.
Proof.
  unfold satisfies. rewrite orb_true_iff, String.eqb_eq. destruct (pt c) as [ms|].
  - rewrite existsb_exists. split.
    + intros [H|(x & Hx & E)]; [auto|]. apply String.eqb_eq in E. subst x. right. exists ms. auto.
    + intros [H|(m & E & H)]; [auto|]. injection E as ->. right. exists t. split; [exact H|apply String.eqb_refl].
  - split; [intros [H|H]; [auto|discriminate]|intros [H|(m & E & _)]; [auto|discriminate]].
Qed.

Lemma cast_ok_spec pt o ts : cast_ok pt o ts = true <-> may_be pt o ts.
Proof.
  unfold cast_ok, typename_of, satisfies_any. split.
  - destruct (get "__typename" o) as [v|] eqn:E; [|intros _; apply mb_unknown; congruence].
    destruct v; try (intros _; apply mb_unknown; congruence).
    rewrite existsb_exists. intros (c & Hc & H). apply satisfies_ok in H.
    eapply mb_known; eassumption.
  - intros [H|t c E Hc H].
    + destruct (get "__typename" o) as [[]|]; try reflexivity. destruct (H s). reflexivity.
    + rewrite E. apply existsb_exists. exists c. split; [exact Hc|]. apply satisfies_ok, H.
Qed.

Lemma targets_selects pt p : forall v q x, In (q, x) (targets pt p v) <-> selects pt p v q x.
Proof.
  induction p as [|[|f|ts] p IH]; intros v q y.
  - split.
    + intros H. cbn [targets] in H. destruct v; cbn [In] in H;
        try (destruct H as [H|[]]; injection H as <- <-; apply sel_here; discriminate).
      apply in_items in H. destruct H as (j & x & q' & -> & N & [E|[]]). injection E as <- <-.
      apply sel_items. exact N.
    + intros H. inversion H; subst; cbn [targets].
      * destruct y; try (left; reflexivity). edestruct H0; reflexivity.
      * apply in_items. exists i, y, []. cbn. auto.
  - split.
    + intros H. cbn [targets] in H. destruct v; try destruct H.
      apply in_items in H. destruct H as (j & x & q' & -> & N & H).
      eapply sel_list; [exact N|]. apply IH, H.
    + intros H. inversion H; subst. cbn [targets]. apply in_items.
      eexists i, _, _. split; [reflexivity|]. split; [eassumption|]. apply IH. assumption.
  - split.
    + intros H. cbn [targets] in H. destruct v; try destruct H.
      destruct (get f o) eqn:E; [|destruct H]. apply in_pre in H. destruct H as (q' & -> & H).
      eapply sel_field; [exact E|]. apply IH, H.
    + intros H. inversion H; subst. cbn [targets].
      match goal with E : get f o = Some _ |- _ => rewrite E end. apply in_pre.
      eexists. split; [reflexivity|]. apply IH. assumption.
  - revert q. induction v as [|fbits|iz|un|bb|str|raw|l IHl|o IHo] using value_ind'; intros q;
      try (split; [intros []|intros H; inversion H]).
    + change (targets pt (FTypes ts :: p) (VArr l)) with (items (targets pt (FTypes ts :: p)) 0 l).
      rewrite in_items. split.
      * intros (j & x & q' & -> & N & H). eapply sel_cast_list; [exact N|].
        rewrite Forall_forall in IHl. apply IHl; [eapply nth_error_In; exact N|exact H].
      * intros H. inversion H; subst. eexists i, _, _. split; [reflexivity|]. split; [eassumption|].
        rewrite Forall_forall in IHl. apply IHl; [eapply nth_error_In; eassumption|assumption].
    + cbn [targets]. destruct (cast_ok pt o ts) eqn:E.
      * rewrite IH. split.
        -- intros H. apply sel_cast; [apply cast_ok_spec, E|exact H].
        -- intros H. inversion H; subst. assumption.
      * split; [intros []|]. intros H. inversion H; subst.
        match goal with M : may_be _ _ _ |- _ => apply cast_ok_spec in M; congruence end.
Qed.

Lemma sorted_app {A} (R : A -> A -> Prop) l1 l2 :
  StronglySorted R l1 -> StronglySorted R l2 ->
  (forall a b, In a l1 -> In b l2 -> R a b) -> StronglySorted R (l1 ++ l2).
Proof.
  induction 1 as [|a l1 S1 IH F]; intros S2 H; [exact S2|]. cbn. constructor.
  - apply IH; [exact S2|]. intros x y Hx Hy. apply H; [right; exact Hx|exact Hy].
  - apply Forall_app. split; [exact F|]. apply Forall_forall. intros y Hy. apply H; [left; reflexivity|exact Hy].
Qed.

Lemma pre_sorted s ts : StronglySorted before (map fst ts) -> StronglySorted before (map fst (pre s ts)).
Proof.
  induction ts as [|t ts IH]; intros H; [constructor|]. cbn in *. inversion H; subst. constructor; [auto|].
  apply Forall_forall. intros q Hq. unfold pre in Hq. rewrite map_map in Hq. cbn in Hq.
  apply in_map_iff in Hq. destruct Hq as (u & <- & Hu). apply before_in.
  rewrite Forall_forall in H3. apply H3. apply in_map. exact Hu.
Qed.

Lemma items_sorted f l : Forall (fun x => StronglySorted before (map fst (f x))) l ->
  forall i, StronglySorted before (map fst (items f i l)).
Proof.
  induction 1 as [|x l Hx Hl IH]; intros i; [constructor|]. cbn [items]. rewrite map_app. apply sorted_app.
  - apply pre_sorted, Hx.
  - apply IH.
  - intros a b Ha Hb. apply in_map_iff in Ha. destruct Ha as ((qa & ya) & <- & Ha).
    apply in_map_iff in Hb. destruct Hb as ((qb & yb) & <- & Hb).
    apply in_pre in Ha. destruct Ha as (q' & -> & _). apply in_items in Hb.
    destruct Hb as (j & x' & q'' & -> & _). cbn. apply before_idx. lia.
Qed.

Lemma targets_sorted pt p : forall v, StronglySorted before (map fst (targets pt p v)).
Proof.
  induction p as [|[|f|ts] p IH]; intros v.
  - cbn [targets]. destruct v; try (repeat constructor). apply items_sorted. apply Forall_forall.
    intros. repeat constructor.
  - cbn [targets]. destruct v; try constructor. apply items_sorted. apply Forall_forall. intros. apply IH.
  - cbn [targets]. destruct v; try constructor. destruct (get f o); [|constructor]. apply pre_sorted, IH.
  - induction v as [|fbits|iz|un|bb|str|raw|l IHl|o IHo] using value_ind'; try (cbn [targets]; constructor).
    + change (targets pt (FTypes ts :: p) (VArr l)) with (items (targets pt (FTypes ts :: p)) 0 l).
      apply items_sorted. exact IHl.
    + cbn [targets]. destruct (cast_ok pt o ts); [apply IH|constructor].
Qed.

(** ** Writing *)
Lemma put_set_key k w o : put k w o = set_key k w o.
Proof. induction o as [|[k' v] o IH]; [reflexivity|]. cbn. rewrite IH. reflexivity. Qed.

Lemma set_key_same k o v : get k o = Some v -> set_key k v o = o.
Proof.
  induction o as [|[k' v'] o IH]; cbn; [discriminate|]. destruct (String.eqb k k') eqn:E.
  - intros H. injection H as ->. reflexivity.
  - intros H. rewrite IH by exact H. reflexivity.
Qed.
Lemma set_key_twice k a b o : set_key k a (set_key k b o) = set_key k a o.
Proof.
  induction o as [|[k' v'] o IH]; cbn; [reflexivity|]. destruct (String.eqb k k') eqn:E; cbn; rewrite E; [reflexivity|].
  rewrite IH. reflexivity.
Qed.
Lemma get_set_key k w o v : get k o = Some v -> get k (set_key k w o) = Some w.
Proof.
  induction o as [|[k' v'] o IH]; cbn; [discriminate|]. destruct (String.eqb k k') eqn:E; cbn; rewrite E; auto.
Qed.
Lemma get_set_key_other k k' w o : k <> k' -> get k (set_key k' w o) = get k o.
Proof.
  intros N. induction o as [|[k2 v2] o IH]; cbn; [reflexivity|]. destruct (String.eqb k' k2) eqn:E; cbn.
  - apply String.eqb_eq in E. subst k2. destruct (String.eqb k k') eqn:E2; [|reflexivity].
    apply String.eqb_eq in E2. contradiction.
  - rewrite IH. reflexivity.
Qed.

Lemma set_nth_same i l x : nth_error l i = Some x -> set_nth i x l = l.
Proof.
  revert i. induction l as [|y l IH]; intros [|i]; cbn; try discriminate.
  - intros H. injection H as ->. reflexivity.
  - intros H. rewrite IH by exact H. reflexivity.
Qed.
Lemma nth_set_nth i l x y : nth_error l i = Some y -> nth_error (set_nth i x l) i = Some x.
Proof. revert i. induction l as [|z l IH]; intros [|i]; cbn; try discriminate; auto. Qed.
Lemma nth_set_nth_other i j l x : i <> j -> nth_error (set_nth j x l) i = nth_error l i.
Proof.
  revert i j. induction l as [|z l IH]; intros [|i] [|j] N; cbn; try reflexivity; try contradiction.
  apply IH. congruence.
Qed.
Lemma set_nth_twice i a b l : set_nth i a (set_nth i b l) = set_nth i a l.
Proof. revert i. induction l as [|z l IH]; intros [|i]; cbn; try reflexivity. rewrite IH. reflexivity. Qed.

Lemma replace_all_key k us : forall o c, get k o = Some c ->
  replace_all (pre (Key k) us) (VObj o) = VObj (set_key k (replace_all us c) o).
Proof.
  induction us as [|[q w] us IH]; intros o c G.
  - cbn. rewrite set_key_same by exact G. reflexivity.
  - cbn [pre map fst snd]. unfold replace_all in *. cbn [fold_left fst snd replace]. rewrite G.
    rewrite IH with (c := replace q w c) by (eapply get_set_key; exact G).
    rewrite set_key_twice. reflexivity.
Qed.

Lemma replace_all_idx i us : forall l c, nth_error l i = Some c ->
  replace_all (pre (Idx i) us) (VArr l) = VArr (set_nth i (replace_all us c) l).
Proof.
  induction us as [|[q w] us IH]; intros l c G.
  - cbn. rewrite set_nth_same by exact G. reflexivity.
  - cbn [pre map fst snd]. unfold replace_all in *. cbn [fold_left fst snd replace]. rewrite G.
    rewrite IH with (c := replace q w c) by (eapply nth_set_nth; exact G).
    rewrite set_nth_twice. reflexivity.
Qed.

Section Run.
  Variable St : Type.
  Variable cb : value -> option (list eseg) -> St -> value * St.

  Lemma call_each_pre sg path ts : forall s,
    call_each cb path (pre sg ts) s =
    let '(us, s') := call_each cb (fun q => path (sg :: q)) ts s in (pre sg us, s').
  Proof.
    induction ts as [|[q x] ts IH]; intros s; [reflexivity|].
    cbn [pre map fst snd call_each]. destruct (cb x (path (sg :: q)) s) as [w s1].
    fold (pre sg ts). rewrite IH. destruct (call_each cb (fun q0 => path (sg :: q0)) ts s1) as [us s2]. reflexivity.
  Qed.
  Lemma call_each_app path ts1 ts2 : forall s,
    call_each cb path (ts1 ++ ts2) s =
    let '(u1, s1) := call_each cb path ts1 s in
    let '(u2, s2) := call_each cb path ts2 s1 in (u1 ++ u2, s2).
  Proof.
    induction ts1 as [|[q x] ts IH]; intros s.
    - cbn. destruct (call_each cb path ts2 s). reflexivity.
    - cbn. destruct (cb x (path q) s) as [w s1]. rewrite IH.
      destruct (call_each cb path ts s1) as [u1 s2]. destruct (call_each cb path ts2 s2). reflexivity.
  Qed.
  Lemma call_each_ext path path' ts : (forall q, path q = path' q) -> forall s,
    call_each cb path ts s = call_each cb path' ts s.
  Proof.
    intros E. induction ts as [|[q x] ts IH]; intros s; [reflexivity|]. cbn. rewrite E.
    destruct (cb x (path' q) s) as [w s1]. rewrite IH. reflexivity.
  Qed.

  Definition at_ (e : option (list eseg)) (q : list seg) : option (list eseg) :=
    match e with Some l => Some (l ++ epath q) | None => None end.
  Definition eseg_of (s : seg) := match s with Key k => EStr k | Idx i => EIdx i end.
  Lemma at_cons e s q : at_ (concat_seg e (eseg_of s)) q = at_ e (s :: q).
  Proof. destruct e; [|reflexivity]. cbn. rewrite <- app_assoc. reflexivity. Qed.

  (** result of walking value [v] whose targets are [ts] *)
  Definition result (ts : list (list seg * value)) (v : value) (e : option (list eseg)) (s : St) : value * St :=
    let '(us, s') := call_each cb (at_ e) ts s in (replace_all us v, s').

  Lemma each_ok f g e l :
    Forall (fun x => forall i s, f i x s = result (g x) x (concat_seg e (EIdx i)) s) l ->
    forall done s,
    (let '(l', s') := each St f (length done) l s in (VArr (done ++ l'), s')) =
    result (items g (length done) l) (VArr (done ++ l)) e s.
  Proof.
    induction 1 as [|x l Hx Hl IH]; intros done s.
    - cbn. reflexivity.
    - cbn [each items]. unfold result. rewrite call_each_app, call_each_pre.
      rewrite Hx. unfold result.
      rewrite (call_each_ext (fun q => at_ e (Idx (length done) :: q)) (at_ (concat_seg e (EIdx (length done))))) by
        (intros q; symmetry; apply (at_cons e (Idx (length done)))).
      destruct (call_each cb (at_ (concat_seg e (EIdx (length done)))) (g x) s) as [us s1].
      specialize (IH (done ++ [replace_all us x]) s1). rewrite app_length in IH. cbn [length] in IH.
      rewrite Nat.add_1_r in IH. unfold result in IH.
      destruct (each St f (S (length done)) l s1) as [l' s2].
      destruct (call_each cb (at_ e) (items g (S (length done)) l) s1) as [u2 s3].
      unfold replace_all in *. rewrite fold_left_app.
      pose proof (replace_all_idx (length done) us (done ++ x :: l) x) as R. unfold replace_all in R.
      rewrite R.
      + rewrite <- !app_assoc in IH. cbn [app] in IH.
        replace (set_nth (length done) (fold_left (fun v u => replace (fst u) (snd u) v) us x) (done ++ x :: l))
          with (done ++ fold_left (fun v u => replace (fst u) (snd u) v) us x :: l).
        * exact IH.
        * clear. induction done; cbn; [reflexivity|]. f_equal. exact IHdone.
      + clear. induction done; cbn; auto.
  Qed.

  Lemma visit_mut_ok pt p : forall v e s, visit_mut St cb pt p v e s = result (targets pt p v) v e s.
  Proof.
    assert (Hnil : forall v e s, result [] v e s = (v, s)) by reflexivity.
    assert (Hone : forall v e s, cb v e s = result [([], v)] v e s).
    { intros v e s. unfold result. cbn. destruct e; cbn; rewrite ?app_nil_r;
      match goal with |- ?c = _ => destruct c end; reflexivity. }
    induction p as [|[|f|ts] p IH]; intros v e s.
    - cbn [visit_mut targets]. destruct v; try apply Hone.
      apply (each_ok (fun i x s => cb x (concat_seg e (EIdx i)) s) (fun x => [([], x)]) e l) with (done := []).
      apply Forall_forall. intros x _ i s0. apply Hone.
    - cbn [visit_mut targets]. destruct v; try reflexivity.
      apply (each_ok (fun i x s => visit_mut St cb pt p x (concat_seg e (EIdx i)) s) (targets pt p) e l) with (done := []).
      apply Forall_forall. intros x _ i s0. apply IH.
    - cbn [visit_mut targets]. destruct v; try reflexivity.
      destruct (get f o) as [w|] eqn:G; [|reflexivity].
      rewrite IH. unfold result. rewrite call_each_pre.
      rewrite (call_each_ext (fun q => at_ e (Key f :: q)) (at_ (concat_seg e (EStr f)))) by
        (intros q; symmetry; apply (at_cons e (Key f))).
      destruct (call_each cb (at_ (concat_seg e (EStr f))) (targets pt p w) s) as [us s'].
      rewrite replace_all_key with (c := w) by exact G. rewrite put_set_key. reflexivity.
    - revert e s. induction v as [|fbits|iz|un|bb|str|raw|l IHl|o IHo] using value_ind'; intros e s; try reflexivity.
      + change (targets pt (FTypes ts :: p) (VArr l)) with (items (targets pt (FTypes ts :: p)) 0 l).
        apply (each_ok (fun i x s => visit_mut St cb pt (FTypes ts :: p) x (concat_seg e (EIdx i)) s)
                 (targets pt (FTypes ts :: p)) e l) with (done := []).
        eapply Forall_impl; [|exact IHl]. intros x Hx i s0. apply Hx.
      + cbn [visit_mut targets]. destruct (cast_ok pt o ts); [apply IH|reflexivity].
  Qed.
End Run.

(** ** What replacing does *)
Lemma at_path_replace q : forall v w x, at_path q v = Some x -> at_path q (replace q w v) = Some w.
Proof.
  induction q as [|[k|i] q IH]; intros v w x H; [reflexivity| |].
  - cbn in *. destruct v; try discriminate. destruct (get k o) eqn:G; [|discriminate]. cbn.
    rewrite (get_set_key _ _ _ _ G). eapply IH. exact H.
  - cbn in *. destruct v; try discriminate. destruct (nth_error l i) eqn:G; [|discriminate]. cbn.
    rewrite (nth_set_nth _ _ _ _ G). eapply IH. exact H.
Qed.

Definition inside (a b : list seg) : Prop := exists c, b = a ++ c.

Lemma at_path_replace_other q : forall v w q', ~ inside q q' -> ~ inside q' q ->
  at_path q' (replace q w v) = at_path q' v.
Proof.
  induction q as [|sg q IH]; intros v w q' N1 N2; [destruct N1; exists q'; reflexivity|].
  destruct q' as [|sg' q']; [destruct N2; exists (sg :: q); reflexivity|].
  assert (N1' : sg = sg' -> ~ inside q q') by (intros -> [c Hc]; subst; apply N1; exists c; reflexivity).
  assert (N2' : sg = sg' -> ~ inside q' q) by (intros -> [c Hc]; subst; apply N2; exists c; reflexivity).
  destruct sg as [k|i]; cbn [replace].
  - destruct v; try reflexivity. destruct (get k o) eqn:G; [|reflexivity]. destruct sg' as [k'|i']; [|reflexivity].
    cbn. destruct (string_dec k' k) as [->|N].
    + rewrite (get_set_key _ _ _ _ G), G. apply IH; [apply N1'; reflexivity|apply N2'; reflexivity].
    + rewrite get_set_key_other by exact N. reflexivity.
  - destruct v; try reflexivity. destruct (nth_error l i) eqn:G; [|reflexivity]. destruct sg' as [k'|i']; [reflexivity|].
    cbn. destruct (Nat.eq_dec i' i) as [->|N].
    + rewrite (nth_set_nth _ _ _ _ G), G. apply IH; [apply N1'; reflexivity|apply N2'; reflexivity].
    + rewrite nth_set_nth_other by exact N. reflexivity.
Qed.

Lemma before_indep a b : before a b -> ~ inside a b /\ ~ inside b a.
Proof.
  induction 1 as [i j q q' L|s q q' H [IH1 IH2]].
  - split; intros [c E]; cbn in E; injection E as E1 E2; lia.
  - split; intros [c E]; cbn in E; injection E as E2; [apply IH1|apply IH2]; exists c; exact E2.
Qed.

Lemma selects_at_path pt p v q x : selects pt p v q x -> at_path q v = Some x.
Proof.
  induction 1 as [v H|l i x H|p l i x q y H _ IH|f p o w q y H _ IH|ts p o q y _ _ IH|ts p l i x q y H _ IH];
    cbn; rewrite ?H; auto.
Qed.

Lemma replace_all_other us : forall v q,
  Forall (fun u => ~ inside (fst u) q /\ ~ inside q (fst u)) us ->
  at_path q (replace_all us v) = at_path q v.
Proof.
  induction us as [|u us IH]; intros v q F; [reflexivity|]. inversion F as [|? ? [H1 H2] F']; subst.
  unfold replace_all in *. cbn [fold_left]. rewrite IH by exact F'. apply at_path_replace_other; assumption.
Qed.

Lemma replace_all_at us : forall v, StronglySorted before (map fst us) ->
  Forall (fun u => at_path (fst u) v <> None) us ->
  Forall (fun u => at_path (fst u) (replace_all us v) = Some (snd u)) us.
Proof.
  induction us as [|u us IH]; intros v S F; [constructor|]. cbn in S. inversion S; subst. inversion F as [|? ? F1 F2]; subst.
  unfold replace_all. cbn [fold_left]. fold (replace_all us (replace (fst u) (snd u) v)). constructor.
  - rewrite replace_all_other.
    + destruct (at_path (fst u) v) eqn:E; [|contradiction]. eapply at_path_replace. exact E.
    + rewrite Forall_forall in *. intros u' Hu'.
      destruct (before_indep (fst u) (fst u')) as [A B]; [apply H2, in_map, Hu'|]. split; assumption.
  - apply IH; [assumption|]. rewrite Forall_forall in *. intros u' Hu'.
    destruct (before_indep (fst u) (fst u')) as [A B]; [apply H2, in_map, Hu'|].
    rewrite at_path_replace_other by assumption. apply F2, Hu'.
Qed.

Lemma call_each_fst {St} (cb : value -> option (list eseg) -> St -> value * St) path ts : forall s,
  map fst (fst (call_each cb path ts s)) = map fst ts.
Proof.
  induction ts as [|[q x] ts IH]; intros s; [reflexivity|]. cbn. destruct (cb x (path q) s) as [w s1].
  specialize (IH s1). destruct (call_each cb path ts s1). cbn in *. f_equal. exact IH.
Qed.

(** the walk, in one statement *)
Lemma walk_ok pt p v : exists ts,
  visit pt p v = map snd ts /\
  (forall q x, In (q, x) ts <-> selects pt p v q x) /\
  StronglySorted before (map fst ts) /\
  forall St (cb : value -> option (list eseg) -> St -> value * St) e s us s',
    call_each cb (fun q => match e with Some l => Some (l ++ epath q) | None => None end) ts s = (us, s') ->
    exists v', visit_mut St cb pt p v e s = (v', s') /\
      (forall q w, In (q, w) us -> at_path q v' = Some w) /\
      (forall q, (forall t x, In (t, x) ts -> ~ inside t q /\ ~ inside q t) -> at_path q v' = at_path q v) /\
      (ts = [] -> v' = v).
Proof.
  exists (targets pt p v). split; [apply targets_visit|]. split; [apply targets_selects|].
  split; [apply targets_sorted|]. intros St cb e s us s' E.
  exists (replace_all us v). pose proof (visit_mut_ok St cb pt p v e s) as V. unfold result, at_ in V.
  rewrite E in V. split; [exact V|].
  pose proof (call_each_fst cb (fun q => match e with Some l => Some (l ++ epath q) | None => None end)
                (targets pt p v) s) as Hf. rewrite E in Hf. cbn [fst] in Hf.
  split; [|split].
  - intros q w H. pose proof (replace_all_at us v) as R. rewrite Hf in R.
    specialize (R (targets_sorted pt p v)).
    assert (R2 : Forall (fun u => at_path (fst u) v <> None) us).
    { apply Forall_forall. intros u Hu. assert (Hin : In (fst u) (map fst (targets pt p v))) by (rewrite <- Hf; apply in_map, Hu).
      apply in_map_iff in Hin. destruct Hin as ([q0 x0] & <- & Hin). cbn.
      apply targets_selects in Hin. apply selects_at_path in Hin. congruence. }
    specialize (R R2). rewrite Forall_forall in R. apply (R (q, w) H).
  - intros q Hq. apply replace_all_other. apply Forall_forall. intros u Hu.
    assert (Hin : In (fst u) (map fst (targets pt p v))) by (rewrite <- Hf; apply in_map, Hu).
    apply in_map_iff in Hin. destruct Hin as ([q0 x0] & <- & Hin). cbn. eapply Hq. exact Hin.
  - intros Et. rewrite Et in E. cbn in E. injection E as <- <-. reflexivity.
Qed.
