(** Merging without renaming, merging at a path, and progress. *)
From Coq Require Import String List NArith Bool Arith Lia.
From Verif Require Import Ast QplanModel BestModel BestTree SafeModel SafeSpec SafeBase SafeMain.
Import ListNotations.
Local Open Scope list_scope.

(** ** Progress *)
Section Progress.
  Variable H : list write -> N.
  Variable flags : bool * bool.
  Variable as_first : bool.

  Definition fine {A} (r : res A) : Prop := r <> Stuck /\ (flags <> (false, false) -> r <> Panic).
  Lemma fine_ok {A} (a : A) : fine (Ok a).
  Proof. split; discriminate. Qed.
  Lemma fine_bind {A B} (r : res A) (k : A -> res B) : fine r -> (forall a, fine (k a)) -> fine (bind r k).
  Proof.
    intros [F1 F2] K. destruct r; cbn; [auto| |congruence].
    split; [discriminate|]. intros Nf. exfalso. now apply (F2 Nf).
  Qed.
  Lemma fine_side i j : fine (side flags i j).
  Proof. unfold fine, side. destruct flags as [[|] [|]]; split; try discriminate. congruence. Qed.
  Lemma fine_fresh c l : fine (fresh_alias c l).
  Proof. destruct (fresh_ok c l) as (d & -> & _). apply fine_ok. Qed.

  Lemma fine_settle src path acts : forall tgt st, fine (settle H as_first src path acts tgt st).
  Proof.
    induction acts as [|[x|p] acts IH]; intros tgt st; cbn [settle]; [apply fine_ok|apply IH|].
    apply fine_bind; [apply fine_fresh|]. intros [al c]. destruct p as [i|j].
    - destruct (nth_error src i) as [[]|]; apply IH.
    - destruct (nth_error tgt j) as [[]|]; apply IH.
  Qed.

  Definition runs (x : sel) : Prop := forall i path tgt st, fine (absorb H flags as_first x i path tgt st).

  Lemma fine_scan src : Forall runs src -> forall i path tgt st,
    fine (scan (absorb H flags as_first) path i src tgt st).
  Proof.
    induction 1 as [|x src Rx _ IH]; intros i path tgt st; cbn [scan]; [apply fine_ok|].
    apply fine_bind; [apply Rx|]. intros [[t1 s1] d]. apply fine_bind; [apply IH|]. intros [[t2 s2] a]. apply fine_ok.
  Qed.
  Lemma fine_merge src path tgt st : Forall runs src -> fine (merge_with H as_first (absorb H flags as_first) path tgt src st).
  Proof.
    intros R. unfold merge_with. apply fine_bind; [now apply fine_scan|]. intros [[t1 s1] a]. apply fine_settle.
  Qed.

  Lemma fine_each m i : (forall t st r, m t st = Joins r -> fine r) ->
    forall tgt j st d, fine (each flags m i j tgt st d).
  Proof.
    intros J. induction tgt as [|t tgt IH]; intros j st d; cbn [each]; [apply fine_ok|].
    assert (G : forall d, fine (bind (each flags m i (S j) tgt st d) (fun '(r, st', d') => Ok (t :: r, st', d')))).
    { intros d'. apply fine_bind; [apply IH|]. intros [[r s] d2]. apply fine_ok. }
    destruct (m t st) as [| |r] eqn:M; [apply G| |].
    - apply fine_bind; [apply fine_side|intros p; apply G].
    - apply fine_bind; [now apply (J t st)|]. intros [t' s']. apply fine_ok.
  Qed.

  Lemma all_run x : runs x.
  Proof.
    induction x as [n a args inc skip om sub IH|t inc skip sub IH|n] using sel_ind'; intros i path tgt st;
      rewrite absorb_eq; apply fine_each; intros t0 st0 r0; unfold meet;
      (destruct (same _ _); [|discriminate]); (destruct (SafeBase.agree _ _ _); [|discriminate]); intros E; injection E as <-;
      first [apply fine_ok|apply fine_bind; [apply fine_merge; auto|intros [r s]; apply fine_ok]].
  Qed.

  Lemma merge_progress c tgt src :
    merge_safe H flags as_first c tgt src <> Stuck /\
    (flags <> (false, false) -> exists r, merge_safe H flags as_first c tgt src = Ok r).
  Proof.
    assert (F : fine (merge_safe H flags as_first c tgt src)).
    { apply fine_merge. apply Forall_forall. intros x _. apply all_run. }
    destruct F as [F1 F2]. split; auto. intros N. specialize (F2 N). destruct (merge_safe _ _ _ _ _ _); [eauto|congruence|congruence].
  Qed.
End Progress.

(** ** Merging without renaming *)
Definition loosely (y : sel) (p : list step) : Prop :=
  exists q, p = loosen (step_of y) :: q /\ (q = [] \/ asks_loosely (subs y) q).

Lemma asks_loosely_from l p : asks_loosely l p <-> exists y, In y l /\ loosely y p.
Proof.
  split.
  - intros (q & A & <-). apply asks_from in A as (y & I & q' & -> & Q). exists y. split; auto.
    exists (map loosen q'). split; auto. destruct Q as [->|A]; [left; auto|right; exists q'; auto].
  - intros (y & I & q & -> & Q). destruct Q as [->|(q' & A & <-)].
    + exists [step_of y]. split; auto. now constructor.
    + exists (step_of y :: q'). split; auto. now constructor 2.
Qed.

Lemma loosely_app l l' p : asks_loosely (l ++ l') p <-> asks_loosely l p \/ asks_loosely l' p.
Proof.
  rewrite !asks_loosely_from. split.
  - intros (y & I & L). apply in_app_or in I as [I|I]; eauto.
  - intros [(y & I & L)|(y & I & L)]; exists y; split; auto; apply in_or_app; auto.
Qed.
Lemma loosely_cons x l p : asks_loosely (x :: l) p <-> loosely x p \/ asks_loosely l p.
Proof.
  rewrite !asks_loosely_from. split.
  - intros (y & [<-|I] & L); eauto.
  - intros [L|(y & I & L)]; [exists x; split; auto; left; auto|exists y; split; auto; right; auto].
Qed.
Lemma loosely_nil p : ~ asks_loosely [] p.
Proof. rewrite asks_loosely_from. intros (y & [] & _). Qed.

Lemma condition_equal_ok inc skip inc' skip' :
  condition_equal (cond_of inc skip) inc' skip' = true <-> inc = inc' /\ skip = skip'.
Proof.
  assert (O : forall a b : string, option_eqb String.eqb (Some a) (Some b) = true <-> a = b) by (intros; apply String.eqb_eq).
  destruct inc as [i|], skip as [s|], inc' as [i'|], skip' as [s'|]; cbn [cond_of condition_equal];
    rewrite ?andb_true_iff, ?O; cbn [option_eqb]; split; intros E; try (destruct E; congruence); try (destruct E; split; congruence);
    try (split; reflexivity).
Qed.

Lemma some_args_loosen k n args args' inc skip :
  some_args args = some_args args' -> loosen (OnField k n args inc skip) = loosen (OnField k n args' inc skip).
Proof. destruct args as [[|]|], args' as [[|]|]; cbn; congruence. Qed.

Section PlainAsks.
  Variable as_first : bool.

  Definition blends (x : sel) : Prop := forall tgt r found, plain as_first x tgt = (r, found) ->
    forall p, asks_loosely r p <-> asks_loosely tgt p \/ (found = true /\ loosely x p).

  Lemma plain_with_asks src : Forall blends src -> forall tgt p,
    asks_loosely (plain_with (plain as_first) as_first tgt src) p <-> asks_loosely tgt p \/ asks_loosely src p.
  Proof.
    intros B tgt p. unfold plain_with. destruct (plain_scan (plain as_first) src tgt) as [r pending] eqn:E.
    assert (G : asks_loosely r p \/ asks_loosely pending p <-> asks_loosely tgt p \/ asks_loosely src p).
    { revert tgt r pending E. induction B as [|x src Bx _ IH]; intros tgt r pending E; cbn [plain_scan] in E.
      - injection E as <- <-. tauto.
      - destruct (plain as_first x tgt) as [t1 found] eqn:P. destruct (plain_scan (plain as_first) src t1) as [t2 pend] eqn:Sc.
        injection E as <- <-. specialize (IH _ _ _ Sc). specialize (Bx _ _ _ P p). rewrite loosely_cons.
        destruct found; [|rewrite loosely_cons]; intuition congruence. }
    destruct as_first; rewrite loosely_app; tauto.
  Qed.

  Lemma plain_each_asks x same into tgt : 
    (forall t p, same t = true -> (loosely (into t) p <-> loosely t p \/ loosely x p)) ->
    forall r found, plain_each same into tgt = (r, found) ->
    forall p, asks_loosely r p <-> asks_loosely tgt p \/ (found = true /\ loosely x p).
  Proof.
    intros M. induction tgt as [|t tgt IH]; intros r found E p; cbn [plain_each] in E.
    - injection E as <- <-. intuition congruence.
    - destruct (same t) eqn:St.
      + injection E as <- <-. rewrite !loosely_cons, (M t p St). intuition congruence.
      + destruct (plain_each same into tgt) as [r' f'] eqn:E'. injection E as <- <-. rewrite !loosely_cons, (IH _ _ eq_refl). tauto.
  Qed.

  Lemma loosely_merge s s' l l' r p :
    loosen s = loosen s' ->
    (forall q, asks_loosely r q <-> asks_loosely l q \/ asks_loosely l' q) ->
    (exists q, p = loosen s :: q /\ (q = [] \/ asks_loosely r q)) <->
    (exists q, p = loosen s :: q /\ (q = [] \/ asks_loosely l q)) \/
    (exists q, p = loosen s' :: q /\ (q = [] \/ asks_loosely l' q)).
  Proof.
    intros <- R. split.
    - intros (q & -> & [->|A]); [left; eauto|]. apply R in A as [A|A]; eauto.
    - intros [(q & -> & [->|A])|(q & -> & [->|A])]; eexists; (split; [reflexivity|]); try (left; reflexivity);
        right; apply R; auto.
  Qed.

  Lemma all_blend x : blends x.
  Proof.
    induction x as [n a args inc skip om sub IH|t inc skip sub IH|n] using sel_ind'; intros tgt r found E p; cbn [plain] in E.
    - refine (plain_each_asks _ _ _ tgt _ r found E p). clear E p. intros t p St.
      destruct t as [n' a' args' inc' skip' o' sub'|tc' inc' skip' sub'|n']; try discriminate.
      rewrite !andb_true_iff in St. destruct St as [[[S1 S2] S3] S4]. apply String.eqb_eq in S1. apply option_eqb_some in S2.
      apply (option_eqb_ok args_eqb args_eqb_ok) in S3. apply condition_equal_ok in S4 as [-> ->]. subst n' a'.
      unfold loosely. cbn [step_of subs]. apply loosely_merge; [now apply some_args_loosen|]. intros q. now apply plain_with_asks.
    - refine (plain_each_asks _ _ _ tgt _ r found E p). clear E. intros t0 p0 St.
      destruct t0 as [n' a' args' inc' skip' o' sub'|tc' inc' skip' sub'|n']; try discriminate.
      rewrite !andb_true_iff in St. destruct St as [S1 S4]. apply String.eqb_eq in S1.
      apply condition_equal_ok in S4 as [-> ->]. subst tc'.
      unfold loosely. cbn [step_of subs]. apply loosely_merge; [auto|]. intros q. now apply plain_with_asks.
    - injection E as <- <-. intuition congruence.
  Qed.

  Lemma merge_plain_asks tgt src p :
    asks_loosely (merge_plain as_first tgt src) p <-> asks_loosely tgt p \/ asks_loosely src p.
  Proof. apply plain_with_asks. apply Forall_forall. intros x _. apply all_blend. Qed.
End PlainAsks.

(** ** Merging at a path *)
Section AtPath.
  Variable H : list write -> N.
  Notation ahash := (arguments_hash H).
  Notation along := (along ahash).

  Lemma condition_cond inc skip : condition inc skip = cond_of inc skip.
  Proof. destruct inc, skip; reflexivity. Qed.

  Lemma cond_back c inc skip : condition_equal c inc skip = true -> c = condition inc skip.
  Proof.
    rewrite condition_cond. intros E. destruct c as [[v|v|v i]|]; destruct inc as [i'|], skip as [s'|]; cbn in *; try discriminate;
      rewrite ?andb_true_iff, ?andb_true_r in E; try discriminate; try (destruct E as [E1 E2]; try discriminate);
      repeat match goal with K : String.eqb _ _ = true |- _ => apply String.eqb_eq in K; subst end; auto.
  Qed.

  (** What entering one item tells. *)
  Lemma enter_ok g x s back path way : enter H g x = Some (s, back) -> along path way ->
    s = subs x /\ (forall s', back s' = with_subs x s') /\ along (g :: path) (step_of x :: way) /\ slot_of x <> None.
  Proof.
    intros E A. destruct g as [n al h c| |names c], x as [n' a' args inc skip o sub|tc inc skip sub|n']; cbn in E; try discriminate.
    - destruct (_ && _) eqn:B in E; [|discriminate]. injection E as <- <-. rewrite !andb_true_iff in B. destruct B as [[B1 B2] B3].
      apply String.eqb_eq in B1. apply N.eqb_eq in B2. apply cond_back in B3. subst h c. repeat split; auto; [|discriminate].
      cbn [step_of]. change (response_name n' a') with (identifier n' a'). rewrite B1. now constructor.
    - destruct (_ && _) eqn:B in E; [|discriminate]. injection E as <- <-. rewrite !andb_true_iff in B. destruct B as [B1 B3].
      apply cond_back in B3. subst c. repeat split; auto; [|discriminate]. cbn [step_of]. constructor; auto.
      apply existsb_exists in B1 as (tc' & I & B). apply String.eqb_eq in B. now subst.
  Qed.

  Lemma first_ok g l s back : first_sub (enter H g) l = Some (s, back) ->
    exists l1 x l2 b, l = l1 ++ x :: l2 /\ enter H g x = Some (s, b) /\ forall s', back s' = l1 ++ b s' :: l2.
  Proof.
    revert s back. induction l as [|x l IH]; cbn [first_sub]; intros s back E; [discriminate|].
    destruct (enter H g x) as [[s0 b]|] eqn:En.
    - injection E as <- <-. exists [], x, l, b. auto.
    - destruct (first_sub (enter H g) l) as [[s0 b]|] eqn:F; [|discriminate]. injection E as <- <-.
      destruct (IH _ _ eq_refl) as (l1 & y & l2 & b' & -> & En' & Bk). exists (x :: l1), y, l2, b'. repeat split; auto.
      intros s'. now rewrite Bk.
  Qed.

  Lemma focus_ok path : forall root s back, focus H path root = Some (s, back) ->
    exists way, along path way /\ (way = [] \/ asks root way) /\
      forall s' (Q : list step -> Prop), (forall q, asks_loosely s' q <-> asks_loosely s q \/ Q q) -> ~ Q [] ->
      forall p, asks_loosely (back s') p <-> asks_loosely root p \/ exists q, Q q /\ p = map loosen way ++ q.
  Proof.
    induction path as [|g path IH]; intros root s back E; cbn [focus] in E.
    - injection E as <- <-. exists []. split; [constructor|split; [auto|]]. intros s' Q R _ p. rewrite R. cbn [map List.app].
      split; [intros [A|A]; eauto|intros [A|(q & A & ->)]; auto].
    - assert (D : g = GItems \/ exists s0 b0 s1 b1, first_sub (enter H g) root = Some (s0, b0) /\ focus H path s0 = Some (s1, b1) /\
                s = s1 /\ forall r, back r = b0 (b1 r)).
      { destruct g; auto; right; (destruct (first_sub _ root) as [[s0 b0]|]; [|discriminate]);
          (destruct (focus H path s0) as [[s1 b1]|] eqn:F; [|discriminate]); injection E as <- <-; exists s0, b0, s1, b1; auto. }
      destruct D as [->|(s0 & b0 & s1 & b1 & F1 & F2 & -> & Bk)].
      + destruct (IH _ _ _ E) as (way & A & W & K). exists way. split; [now constructor|]. auto.
      + apply first_ok in F1 as (l1 & x & l2 & b & -> & En & Bk1). destruct (IH _ _ _ F2) as (way & A & W & K).
        destruct (enter_ok _ _ _ _ path way En A) as (-> & Bx & A' & Sx).
        exists (step_of x :: way). split; auto. assert (Ix : In x (l1 ++ x :: l2)) by (apply in_or_app; right; left; auto). split.
        { right. destruct W as [->|W]; [now constructor|now constructor 2]. }
        intros s' Q R Nq p. rewrite Bk, Bk1, Bx. specialize (K s' Q R Nq).
        assert (Ls : loosely (with_subs x (b1 s')) p <-> loosely x p \/ exists q, Q q /\ p = map loosen (step_of x :: way) ++ q).
        { unfold loosely. assert (Es : step_of (with_subs x (b1 s')) = step_of x) by (now destruct x). rewrite Es.
          assert (subs (with_subs x (b1 s')) = b1 s') as -> by (destruct x; auto; now contradiction Sx).
          split.
          - intros (q & -> & [->|L]); [left; eauto|]. apply K in L as [L|(q' & Q' & ->)]; [left; eauto|right; exists q'; auto].
          - intros [(q & -> & [->|L])|(q & Q' & ->)].
            + eexists; split; [reflexivity|]; auto.
            + eexists; split; [reflexivity|]. right. apply K. auto.
            + eexists; split; [reflexivity|]. right. apply K. right. eauto. }
        rewrite !loosely_app, !loosely_cons, Ls. tauto.
  Qed.

  Definition uncond (c : option cond) : option string * option string :=
    match c with
    | Some (CSkipAndInclude s i) => (Some i, Some s)
    | Some (CInclude i) => (Some i, None)
    | Some (CSkip s) => (None, Some s)
    | None => (None, None)
    end.
  Definition slot_seg (g : seg) : option slot :=
    match g with
    | GField n al _ c => Some (FieldAt (response_name n al) (fst (uncond c)) (snd (uncond c)))
    | GType (tc :: _) c => Some (TypeAt tc (fst (uncond c)) (snd (uncond c)))
    | _ => None
    end.
  Lemma uncond_ok inc skip : uncond (condition inc skip) = (inc, skip).
  Proof. destruct inc, skip; reflexivity. Qed.

  Lemma enter_slot g x s b : one_type g -> enter H g x = Some (s, b) -> slot_of x = slot_seg g /\ slot_of x <> None.
  Proof.
    intros O E. destruct g as [n al h c| |names c], x as [n' a' args inc skip o sub|tc inc skip sub|n']; cbn in E; try discriminate.
    - destruct (_ && _) eqn:B in E; [|discriminate]. rewrite !andb_true_iff in B. destruct B as [[B1 B2] B3].
      apply String.eqb_eq in B1. apply cond_back in B3. subst c. split; [|discriminate]. cbn [slot_of slot_seg]. rewrite uncond_ok.
      change (response_name n' a') with (identifier n' a'). now rewrite B1.
    - destruct (_ && _) eqn:B in E; [|discriminate]. rewrite !andb_true_iff in B. destruct B as [B1 B3].
      apply cond_back in B3. subst c. split; [|discriminate]. destruct O as (tc' & ->). cbn in B1. rewrite orb_false_r in B1.
      apply String.eqb_eq in B1. subst tc'. cbn [slot_of slot_seg]. now rewrite uncond_ok.
  Qed.

  Lemma enter_first g root x s b : NoDup (slots root) -> In x root -> one_type g -> enter H g x = Some (s, b) ->
    exists b', first_sub (enter H g) root = Some (s, b').
  Proof.
    intros ND I O En. destruct (first_sub (enter H g) root) as [[s' b']|] eqn:F.
    - apply first_ok in F as (l1 & y & l2 & b2 & -> & Ey & _).
      destruct (enter_slot _ _ _ _ O En) as [E1 N1], (enter_slot _ _ _ _ O Ey) as [E2 N2].
      assert (x = y) as <-.
      { apply (slots_one (l1 ++ y :: l2)); auto; [apply in_or_app; right; left; auto|]. apply same_ok.
        destruct (slot_of x) as [sl|]; [|congruence]. exists sl. split; congruence. }
      rewrite En in Ey. injection Ey as <- <-. eauto.
    - exfalso. clear ND. induction root as [|y root IH]; [contradiction|]. cbn [first_sub] in F.
      destruct (enter H g y) as [[? ?]|] eqn:Ey; [discriminate|].
      destruct (first_sub (enter H g) root) as [[? ?]|]; [discriminate|]. destruct I as [->|I]; [congruence|auto].
  Qed.

  Lemma focus_complete path way : along path way -> forall root,
    tidy root -> Forall one_type path -> way = [] \/ asks root way -> focus H path root <> None.
  Proof.
    assert (Go : forall g path root x s b, NoDup (slots root) -> In x root -> one_type g ->
              enter H g x = Some (s, b) -> g <> GItems -> focus H path s <> None -> focus H (g :: path) root <> None).
    { intros g path0 root x s b ND I O En Ng Fo. destruct (enter_first g root x s b ND I O En) as (b' & F).
      destruct g; try congruence; cbn [focus]; rewrite F; destruct (focus H path0 s) as [[? ?]|]; congruence. }
    induction 1 as [|path way A IH|n al n' args inc skip path way A IH|names tc inc skip path way Itc A IH]; intros root T O W.
    - discriminate.
    - inversion O; subst. cbn [focus]. auto.
    - inversion O; subst. destruct W as [W|W]; [discriminate|]. apply asks_from in W as (x & I & q & E & Q). injection E as E <-.
      destruct x as [n0 a0 args0 inc0 skip0 o sub|tc0 inc0 skip0 sub|n0]; cbn in E; try discriminate. injection E as E1 <- <- <- <-.
      refine (Go _ path root _ sub (fun s => SField n' a0 args inc skip o s) (tidy_nodup _ T) I _ _ _ _); [assumption| |discriminate|].
      + cbn [enter]. change (identifier n' a0) with (response_name n' a0). rewrite <- E1. change (identifier n al) with (response_name n al).
        rewrite String.eqb_refl, N.eqb_refl, condition_cond, (proj2 (condition_equal_ok inc skip inc skip)) by auto. reflexivity.
      + apply IH; auto. apply (tidy_sub root _ T I).
    - inversion O; subst. destruct W as [W|W]; [discriminate|]. apply asks_from in W as (x & I & q & E & Q). injection E as E <-.
      destruct x as [n0 a0 args0 inc0 skip0 o sub|tc0 inc0 skip0 sub|n0]; cbn in E; try discriminate. injection E as <- <- <-.
      refine (Go _ path root _ sub (fun s => SFrag tc inc skip s) (tidy_nodup _ T) I _ _ _ _); [assumption| |discriminate|].
      + cbn [enter]. rewrite condition_cond, (proj2 (condition_equal_ok inc skip inc skip)) by auto.
        assert (existsb (String.eqb tc) names = true) as ->; [|reflexivity]. apply existsb_exists. exists tc. split; auto. apply String.eqb_refl.
      + apply IH; auto. apply (tidy_sub root _ T I).
  Qed.

  Lemma add_at_ok as_first path root src r : add_at H as_first path root src = Some r ->
    exists way, along path way /\ (way = [] \/ asks root way) /\
      forall p, asks_loosely r p <-> asks_loosely root p \/ exists q, asks_loosely src q /\ p = map loosen way ++ q.
  Proof.
    intros E. unfold add_at in E. destruct (focus H path root) as [[s back]|] eqn:F; [|discriminate]. injection E as <-.
    destruct (focus_ok _ _ _ _ F) as (way & A & W & K). exists way. split; [exact A|split; [exact W|]].
    apply K; [intros q; apply merge_plain_asks|]. intros (q & Q & E). destruct q; [now apply asks_nil in Q|discriminate].
  Qed.
  Lemma add_at_complete as_first path root src way : tidy root -> Forall one_type path -> along path way ->
    way = [] \/ asks root way -> add_at H as_first path root src <> None.
  Proof.
    intros T O A W. unfold add_at. pose proof (focus_complete path way A root T O W) as F.
    destruct (focus H path root) as [[s back]|]; congruence.
  Qed.
End AtPath.
