From Coq Require Import String List Bool Arith Lia.
From Verif Require Import LimitsModel LimitsSpec.
Import ListNotations.
Local Open Scope string_scope.

Section QInd.
  Variable P : qsel -> Prop.
  Hypothesis Hf : forall n a d sub, Forall P sub -> P (QField n a d sub).
  Hypothesis Hs : forall f d, P (QSpread f d).
  Hypothesis Hi : forall d sub, Forall P sub -> P (QInline d sub).
  Fixpoint qsel_ind' (s : qsel) : P s :=
    let go := (fix go (l : list qsel) : Forall P l :=
                 match l with [] => Forall_nil _ | x :: l' => Forall_cons x (qsel_ind' x) (go l') end) in
    match s with
    | QField n a d sub => Hf n a d sub (go sub)
    | QSpread f d => Hs f d
    | QInline d sub => Hi d sub (go sub)
    end.
End QInd.

Section ExInd.
  Variable frags : known.
  Variable P : qsel -> qsel -> Prop.
  Hypothesis Hf : forall n a d sub sub', Forall2 (expands frags) sub sub' -> Forall2 P sub sub' ->
    P (QField n a d sub) (QField n a d sub').
  Hypothesis Hi : forall d sub sub', Forall2 (expands frags) sub sub' -> Forall2 P sub sub' ->
    P (QInline d sub) (QInline d sub').
  Hypothesis Hs : forall f d def body, kfind f frags = Some def ->
    Forall2 (expands frags) (q_sels def) body -> Forall2 P (q_sels def) body ->
    P (QSpread f d) (QInline d [QInline (q_dirs def) body]).
  Hypothesis Hu : forall f d, kfind f frags = None -> P (QSpread f d) (QInline d []).
  Fixpoint expands_ind' s s' (E : expands frags s s') : P s s' :=
    let go := (fix go l l' (F : Forall2 (expands frags) l l') : Forall2 P l l' :=
                 match F in Forall2 _ l l' return Forall2 P l l' with
                 | Forall2_nil _ => Forall2_nil _
                 | Forall2_cons _ _ e F' => Forall2_cons _ _ (expands_ind' _ _ e) (go _ _ F')
                 end) in
    match E in expands _ s s' return P s s' with
    | Ex_field _ n a d sub sub' F => Hf n a d sub sub' F (go _ _ F)
    | Ex_inline _ d sub sub' F => Hi d sub sub' F (go _ _ F)
    | Ex_spread _ f d def body K F => Hs f d def body K F (go _ _ F)
    | Ex_unknown _ f d K => Hu f d K
    end.
End ExInd.

Lemma forall2_fun (A B : Type) (R : A -> B -> Prop) l l1 l2 :
  Forall2 (fun a b => forall b', R a b' -> b = b') l l1 -> Forall2 R l l2 -> l1 = l2.
Proof.
  intro F. revert l2. induction F as [|a b l l1 H F IH]; intros l2 G; inversion G; subst; [reflexivity|].
  f_equal; [apply H; assumption|apply IH; assumption].
Qed.

Lemma expands_fun frags s s1 s2 : expands frags s s1 -> expands frags s s2 -> s1 = s2.
Proof.
  intro E. revert s2.
  induction E as [n a d sub sub' F IH|d sub sub' F IH|f d def body K F IH|f d K] using expands_ind';
    intros s2 E2; inversion E2; subst; try congruence.
  - f_equal. eapply forall2_fun; [exact IH|eassumption].
  - f_equal. eapply forall2_fun; [exact IH|eassumption].
  - match goal with H : kfind f frags = Some ?d' |- _ => assert (def = d') by congruence; subst d' end.
    f_equal. f_equal. f_equal. eapply forall2_fun; [exact IH|eassumption].
Qed.

Lemma body_fun frags l l1 l2 : Forall2 (expands frags) l l1 -> Forall2 (expands frags) l l2 -> l1 = l2.
Proof.
  intro F. revert l2. induction F as [|a b l l1 H F IH]; intros l2 G; inversion G; subst; [reflexivity|].
  f_equal; [eapply expands_fun; eassumption|apply IH; assumption].
Qed.

(** Size of a tree. *)
Fixpoint size (s : qsel) : nat :=
  match s with
  | QField _ _ _ sub => S (list_sum (map size sub))
  | QInline _ sub => S (list_sum (map size sub))
  | QSpread _ _ => 1
  end.
Definition sizes (l : list qsel) : nat := S (list_sum (map size l)).

Lemma in_sizes x l : In x l -> size x < sizes l.
Proof.
  unfold sizes. induction l as [|y l IH]; [intros []|]. intros [->|H]; cbn [map list_sum fold_right].
  - unfold list_sum in *. lia.
  - specialize (IH H). unfold list_sum in *. cbn [map fold_right] in *. lia.
Qed.

(** ** Memo *)
Lemma vget_put f v g m : vget g (vput f v m) = if String.eqb g f then Some v else vget g m.
Proof. unfold vget, vput. cbn [find fst]. destruct (String.eqb g f); reflexivity. Qed.

Section Sound.
Context (frags : known).

(** Visiting fragments are bigger than what is being counted. *)
Definition above (N : nat) (m : memo) : Prop :=
  forall f def body, vget f m = Some Visiting -> kfind f frags = Some def ->
    Forall2 (expands frags) (q_sels def) body -> N < sizes body.

Definition kept (m m' : memo) : Prop :=
  forall f def, kfind f frags = Some def -> vget f m' = Some Visiting -> vget f m = Some Visiting.

Lemma above_kept N m m' : above N m -> kept m m' -> above N m'.
Proof. intros A K f def body V E F. exact (A f def body (K f def E V) E F). Qed.
Lemma above_le N N' m : N' <= N -> above N m -> above N' m.
Proof. intros L A f def body V E F. specialize (A f def body V E F). lia. Qed.
Lemma kept_refl m : kept m m.
Proof. intros f def _ H. exact H. Qed.
Lemma kept_trans m1 m2 m3 : kept m1 m2 -> kept m2 m3 -> kept m1 m3.
Proof. intros A B f def E H. exact (A f def E (B f def E H)). Qed.

Section Count.
Context (own : node -> nat) (limit : nat).
(** What a rule's own count may look at. *)
Definition regular : Prop :=
  (forall n a d l l', own (NSel (QField n a d l)) = own (NSel (QField n a d l'))) /\
  (forall d l l', own (NSel (QInline d l)) = own (NSel (QInline d l'))) /\
  (forall f d l, own (NSel (QSpread f d)) = own (NSel (QInline d l))) /\
  (forall def l, own (NDef def) = own (NSel (QInline (q_dirs def) l))).
Context (Reg : regular).

Fixpoint weight (s : qsel) : nat :=
  own (NSel s) +
  match s with
  | QField _ _ _ sub => list_sum (map weight sub)
  | QInline _ sub => list_sum (map weight sub)
  | QSpread _ _ => 0
  end.
Definition weights (l : list qsel) : nat := list_sum (map weight l).

Definition counted_ok (m : memo) : Prop :=
  forall f k, vget f m = Some (Counted k) ->
    exists def body, kfind f frags = Some def /\ Forall2 (expands frags) (q_sels def) body /\
      k = own (NDef def) + weights body.

Definition good (w : nat) (m : memo) (r : outcome * memo) : Prop :=
  match r with
  | (Ok c, m') => c = w /\ w <= limit /\ counted_ok m' /\ kept m m'
  | (Exceeded, _) => limit < w
  | (OutOfFuel, _) => True
  end.

Definition enter_good (enter : qdef -> memo -> outcome * memo) : Prop :=
  forall def body m, Forall2 (expands frags) (q_sels def) body ->
    counted_ok m -> (forall x, In x body -> above (size x) m) ->
    good (own (NDef def) + weights body) m (enter def m).

Lemma count_sel_eq enter s m :
  count_sel own limit frags enter s m =
  bind (check_limit limit (own (NSel s)) m) (fun c m =>
    bind (count_sels own limit frags enter (match s with QField _ _ _ sub => sub | QInline _ sub => sub | QSpread _ _ => [] end) c m)
      (fun c m => after_children limit frags enter (NSel s) c m)).
Proof.
  assert (L : forall l c m,
    (fix children (l : list qsel) (c : nat) (m : memo) : outcome * memo :=
       match l with
       | [] => (Ok c, m)
       | x :: l' =>
           bind (count_sel own limit frags enter x m) (fun k m =>
             bind (check_limit limit (c + k) m) (fun c m => children l' c m))
       end) l c m = count_sels own limit frags enter l c m).
  { induction l as [|x l IH]; intros c m0; cbn [count_sels]; [reflexivity|].
    destruct (count_sel own limit frags enter x m0) as [[k| |] m1]; cbn [bind]; try reflexivity.
    destruct (check_limit limit (c + k) m1) as [[k'| |] m2]; cbn [bind]; try reflexivity.
    apply IH. }
  destruct s; cbn [count_sel]; destruct (check_limit limit _ m) as [[k| |] m1]; cbn [bind];
    try reflexivity; rewrite L; reflexivity.
Qed.

Lemma check_cases c m :
  (c <= limit /\ check_limit limit c m = (Ok c, m)) \/ (limit < c /\ check_limit limit c m = (Exceeded, m)).
Proof.
  unfold check_limit. destruct (Nat.ltb_spec limit c); [right|left]; split; try reflexivity; lia.
Qed.

(** The list of children, given that each child is counted right. *)
Lemma count_sels_good enter l l' c m :
  Forall2 (expands frags) l l' ->
  Forall2 (fun x x' => forall m, counted_ok m -> above (size x') m ->
             good (weight x') m (count_sel own limit frags enter x m)) l l' ->
  c <= limit -> counted_ok m -> (forall x, In x l' -> above (size x) m) ->
  good (c + weights l') m (count_sels own limit frags enter l c m).
Proof.
  intros F H. revert c m. induction H as [|x x' l l' Hx H IH]; intros c m Lc C A.
  - cbn [count_sels good]. unfold weights. cbn [map list_sum fold_right].
    split; [lia|]. split; [lia|]. split; [exact C|apply kept_refl].
  - inversion F as [|? ? ? ? _ F']; subst. cbn [count_sels].
    assert (Hw : weights (x' :: l') = weight x' + weights l') by reflexivity.
    pose proof (Hx m C (A x' (or_introl eq_refl))) as G.
    destruct (count_sel own limit frags enter x m) as [[k| |] m1]; cbn [bind good] in *; [|lia|exact I].
    destruct G as [-> [Lw [C1 K1]]].
    destruct (check_cases (c + weight x') m1) as [[L E]|[L E]]; rewrite E; cbn [bind good]; [|lia].
    specialize (IH F' (c + weight x') m1 L C1
                  (fun y Hy => above_kept _ _ _ (A y (or_intror Hy)) K1)).
    destruct (count_sels own limit frags enter l (c + weight x') m1) as [[k| |] m2];
      cbn [good] in *; [|lia|exact I].
    destruct IH as [-> [Lk [C2 K2]]]. split; [lia|]. split; [lia|]. split; [exact C2|].
    exact (kept_trans _ _ _ K1 K2).
Qed.

Lemma count_sel_good enter s s' :
  enter_good enter -> expands frags s s' ->
  forall m, counted_ok m -> above (size s') m ->
    good (weight s') m (count_sel own limit frags enter s m).
Proof.
  intros EG E. destruct Reg as [R1 [R2 [R3 R4]]].
  induction E as [n a d sub sub' F IH|d sub sub' F IH|f d def body K F _|f d K] using expands_ind';
    intros m C A; rewrite count_sel_eq.
  - rewrite (R1 n a d sub sub').
    destruct (check_cases (own (NSel (QField n a d sub'))) m) as [[L Ec]|[L Ec]]; rewrite Ec;
      cbn [bind good]; [|cbn [weight]; lia].
    assert (A' : forall x, In x sub' -> above (size x) m).
    { intros x Hx. apply (above_le (size (QField n a d sub'))); [|exact A].
      apply in_sizes in Hx. unfold sizes in Hx. cbn [size]. lia. }
    pose proof (count_sels_good enter sub sub' _ m F IH L C A') as G.
    destruct (count_sels own limit frags enter sub _ m) as [[k| |] m1]; cbn [bind good after_children] in *;
      [|cbn [weight]; fold (weights sub'); lia|exact I].
    exact G.
  - rewrite (R2 d sub sub').
    destruct (check_cases (own (NSel (QInline d sub'))) m) as [[L Ec]|[L Ec]]; rewrite Ec;
      cbn [bind good]; [|cbn [weight]; lia].
    assert (A' : forall x, In x sub' -> above (size x) m).
    { intros x Hx. apply (above_le (size (QInline d sub'))); [|exact A].
      apply in_sizes in Hx. unfold sizes in Hx. cbn [size]. lia. }
    pose proof (count_sels_good enter sub sub' _ m F IH L C A') as G.
    destruct (count_sels own limit frags enter sub _ m) as [[k| |] m1]; cbn [bind good after_children] in *;
      [|cbn [weight]; fold (weights sub'); lia|exact I].
    exact G.
  - assert (Hw : weight (QInline d [QInline (q_dirs def) body]) =
                 own (NSel (QSpread f d)) + (own (NDef def) + weights body)).
    { cbn [weight map list_sum fold_right]. rewrite (R3 f d [QInline (q_dirs def) body]).
      rewrite (R4 def body). unfold weights, list_sum. cbn [map fold_right]. lia. }
    assert (Hs : sizes body < size (QInline d [QInline (q_dirs def) body])).
    { unfold sizes, list_sum. cbn [size map fold_right list_sum]. unfold list_sum. cbn [fold_right]. lia. }
    destruct (check_cases (own (NSel (QSpread f d))) m) as [[L Ec]|[L Ec]]; rewrite Ec;
      cbn [bind good count_sels after_children]; [|lia].
    destruct (vget f m) as [[k|]|] eqn:V.
    + destruct (C f k V) as [def' [body' [K' [F' Ek]]]].
      assert (def' = def) by congruence. subst def'.
      assert (body' = body) by (eapply body_fun; eassumption). subst body'. subst k.
      destruct (check_cases (own (NSel (QSpread f d)) + (own (NDef def) + weights body)) m)
        as [[L2 E2]|[L2 E2]]; rewrite E2; cbn [good]; [|lia].
      split; [lia|]. split; [lia|]. split; [exact C|apply kept_refl].
    + exfalso. specialize (A f def body V K F). lia.
    + rewrite K.
      assert (C' : counted_ok (vput f Visiting m)).
      { intros g k Hg. rewrite vget_put in Hg. destruct (String.eqb g f); [discriminate|].
        exact (C g k Hg). }
      assert (A' : forall x, In x body -> above (size x) (vput f Visiting m)).
      { intros x Hx g gdef gbody Vg Kg Fg. rewrite vget_put in Vg.
        pose proof (in_sizes x body Hx) as Sx.
        destruct (String.eqb_spec g f) as [->|Hne].
        - assert (gdef = def) by congruence. subst gdef.
          assert (gbody = body) by (eapply body_fun; eassumption). subst gbody. exact Sx.
        - specialize (A g gdef gbody Vg Kg Fg). lia. }
      pose proof (EG def body (vput f Visiting m) F C' A') as G.
      destruct (enter def (vput f Visiting m)) as [[k| |] m1]; cbn [bind good] in *; [|lia|exact I].
      destruct G as [-> [Lw [C1 K1]]].
      set (m2 := vput f (Counted (own (NDef def) + weights body)) m1).
      assert (C2 : counted_ok m2).
      { intros g k Hg. unfold m2 in Hg. rewrite vget_put in Hg.
        destruct (String.eqb_spec g f) as [->|Hne].
        - injection Hg as <-. exists def, body. split; [exact K|]. split; [exact F|reflexivity].
        - exact (C1 g k Hg). }
      assert (K2 : kept m m2).
      { intros g gdef Kg Vg. unfold m2 in Vg. rewrite vget_put in Vg.
        destruct (String.eqb_spec g f) as [->|Hne]; [discriminate|].
        apply (K1 g gdef Kg) in Vg. rewrite vget_put in Vg.
        destruct (String.eqb_spec g f); [contradiction|exact Vg]. }
      destruct (check_cases (own (NSel (QSpread f d)) + (own (NDef def) + weights body)) m2)
        as [[L2 E2]|[L2 E2]]; rewrite E2; cbn [good]; [|lia].
      split; [lia|]. split; [lia|]. split; [exact C2|exact K2].
  - assert (Hw : weight (QInline d []) = own (NSel (QSpread f d))).
    { cbn [weight map list_sum fold_right]. rewrite (R3 f d []). unfold list_sum. cbn [fold_right]. lia. }
    rewrite Hw.
    destruct (check_cases (own (NSel (QSpread f d))) m) as [[L Ec]|[L Ec]]; rewrite Ec;
      cbn [bind good count_sels after_children]; [|lia].
    destruct (vget f m) as [[k|]|] eqn:V.
    + destruct (C f k V) as [def' [body' [K' _]]]. congruence.
    + split; [reflexivity|]. split; [exact L|]. split; [exact C|apply kept_refl].
    + rewrite K. split; [reflexivity|]. split; [exact L|]. split.
      * intros g k Hg. rewrite vget_put in Hg. destruct (String.eqb g f); [discriminate|]. exact (C g k Hg).
      * intros g gdef Kg Vg. rewrite vget_put in Vg. destruct (String.eqb_spec g f) as [->|Hne];
          [congruence|exact Vg].
Qed.

Lemma count_def_good fuel : enter_good (count_def own limit frags fuel).
Proof.
  induction fuel as [|fuel IH]; intros def body m F C A; cbn [count_def]; [exact I|].
  destruct (check_cases (own (NDef def)) m) as [[L E]|[L E]]; rewrite E; cbn [bind good]; [|lia].
  apply count_sels_good; [exact F| |exact L|exact C|exact A].
  clear - IH F Reg. induction F as [|x x' l l' Hx F IHF]; constructor; [|exact IHF].
  intros m C A. apply count_sel_good; assumption.
Qed.
End Count.

(** ** Depth *)
Section Depth.
Context (cfg : depth_cfg).
Let limit := dc_n cfg.
Definition heights (l : list qsel) : nat := list_max (map (height cfg) l).

Definition dcounted_ok (m : memo) : Prop :=
  forall f k, vget f m = Some (Counted k) ->
    exists def body, kfind f frags = Some def /\ Forall2 (expands frags) (q_sels def) body /\
      k = heights body.

(** [P] is the depth of the parent. *)
Definition dgood (P h : nat) (m : memo) (r : outcome * memo) : Prop :=
  match r with
  | (Ok c, m') => Nat.max P c = P + h /\ P + h <= limit /\ dcounted_ok m' /\ kept m m'
  | (Exceeded, _) => limit < P + h
  | (OutOfFuel, _) => True
  end.

Definition denter_good (enter : qdef -> memo -> outcome * memo) : Prop :=
  forall def body m, Forall2 (expands frags) (q_sels def) body ->
    dcounted_ok m -> (forall x, In x body -> above (size x) m) ->
    dgood 0 (heights body) m (enter def m).

Lemma depth_sel_eq enter s parent m :
  depth_sel cfg frags enter s parent m =
  if ignored cfg s then (Ok 0, m)
  else
    bind (check_limit limit parent m) (fun d m =>
      bind (depth_sels cfg frags enter parent (match s with QField _ _ _ sub => sub | QInline _ sub => sub | QSpread _ _ => [] end) d m)
        (fun d m => depth_spread cfg frags enter s parent d m)).
Proof.
  assert (L : forall l d m,
    (fix children (l : list qsel) (d : nat) (m : memo) : outcome * memo :=
       match l with
       | [] => (Ok d, m)
       | x :: l' =>
           bind (depth_sel cfg frags enter x (parent + increase_by cfg x) m) (fun k m =>
             children l' (Nat.max d k) m)
       end) l d m = depth_sels cfg frags enter parent l d m).
  { induction l as [|x l IH]; intros d m0; cbn [depth_sels]; [reflexivity|].
    destruct (depth_sel cfg frags enter x (parent + increase_by cfg x) m0) as [[k| |] m1]; cbn [bind]; try reflexivity.
    apply IH. }
  destruct s; cbn [depth_sel]; fold limit; (destruct (ignored cfg _); [reflexivity|]);
    destruct (check_limit limit parent m) as [[k| |] m1]; cbn [bind]; try reflexivity;
    rewrite L; reflexivity.
Qed.

Lemma dcheck_cases c m :
  (c <= limit /\ check_limit limit c m = (Ok c, m)) \/ (limit < c /\ check_limit limit c m = (Exceeded, m)).
Proof.
  unfold check_limit. destruct (Nat.ltb_spec limit c); [right|left]; split; try reflexivity; lia.
Qed.

Lemma expands_shape s s' :
  expands frags s s' -> ignored cfg s' = ignored cfg s /\ increase_by cfg s' = increase_by cfg s.
Proof. intro E. destruct E; split; reflexivity. Qed.

Lemma height_eq s :
  height cfg s = if ignored cfg s then 0 else
    increase_by cfg s + heights (match s with QField _ _ _ sub => sub | QInline _ sub => sub | QSpread _ _ => [] end).
Proof.
  destruct s; cbn [height ignored increase_by]; try reflexivity; [|cbn; rewrite Nat.add_0_r; reflexivity].
  unfold introspection. cbn [existsb]. rewrite orb_false_r. reflexivity.
Qed.

Lemma heights_cons x l : heights (x :: l) = Nat.max (height cfg x) (heights l).
Proof. reflexivity. Qed.

(** Children of a node at depth [Q]. *)
Definition dlist_good (Q d h : nat) (m : memo) (r : outcome * memo) : Prop :=
  match r with
  | (Ok c, m') => c = Nat.max d (Q + h) /\ Q + h <= limit /\ dcounted_ok m' /\ kept m m'
  | (Exceeded, _) => limit < Q + h
  | (OutOfFuel, _) => True
  end.

Lemma depth_sels_good enter Q l l' d m :
  Forall2 (expands frags) l l' ->
  Forall2 (fun x x' => forall P m, P <= limit -> dcounted_ok m -> above (size x') m ->
             dgood P (height cfg x') m (depth_sel cfg frags enter x (P + increase_by cfg x) m)) l l' ->
  Q <= limit -> Q <= d -> dcounted_ok m -> (forall x, In x l' -> above (size x) m) ->
  dlist_good Q d (heights l') m (depth_sels cfg frags enter Q l d m).
Proof.
  intros F H. revert d m. induction H as [|x x' l l' Hx H IH]; intros d m LQ Ld C A.
  - cbn [depth_sels dlist_good]. unfold heights. cbn [map list_max fold_right].
    split; [lia|]. split; [lia|]. split; [exact C|apply kept_refl].
  - inversion F as [|? ? ? ? _ F']; subst. cbn [depth_sels]. rewrite heights_cons.
    pose proof (Hx Q m LQ C (A x' (or_introl eq_refl))) as G.
    destruct (depth_sel cfg frags enter x (Q + increase_by cfg x) m) as [[k| |] m1];
      cbn [bind dgood dlist_good] in *; [|lia|exact I].
    destruct G as [Ek [Lw [C1 K1]]].
    specialize (IH F' (Nat.max d k) m1 LQ ltac:(lia) C1
                  (fun y Hy => above_kept _ _ _ (A y (or_intror Hy)) K1)).
    destruct (depth_sels cfg frags enter Q l (Nat.max d k) m1) as [[c| |] m2];
      cbn [dlist_good] in *; [|lia|exact I].
    destruct IH as [-> [Lk [C2 K2]]]. split; [lia|]. split; [lia|]. split; [exact C2|].
    exact (kept_trans _ _ _ K1 K2).
Qed.

Lemma depth_sel_good enter s s' :
  denter_good enter -> expands frags s s' ->
  forall P m, P <= limit -> dcounted_ok m -> above (size s') m ->
    dgood P (height cfg s') m (depth_sel cfg frags enter s (P + increase_by cfg s) m).
Proof.
  intros EG E.
  induction E as [n a d sub sub' F IH|d sub sub' F IH|f d def body K F _|f d K] using expands_ind';
    intros P m LP C A; rewrite depth_sel_eq, height_eq.
  - change (ignored cfg (QField n a d sub)) with (ignored cfg (QField n a d sub')).
    destruct (ignored cfg (QField n a d sub')).
    { cbn [dgood]. split; [lia|]. split; [lia|]. split; [exact C|apply kept_refl]. }
    change (increase_by cfg (QField n a d sub)) with 1. change (increase_by cfg (QField n a d sub')) with 1.
    destruct (dcheck_cases (P + 1) m) as [[L Ec]|[L Ec]]; rewrite Ec; cbn [bind dgood]; [|lia].
    assert (A' : forall x, In x sub' -> above (size x) m).
    { intros x Hx. apply (above_le (size (QField n a d sub'))); [|exact A].
      apply in_sizes in Hx. unfold sizes in Hx. cbn [size]. lia. }
    pose proof (depth_sels_good enter (P + 1) sub sub' (P + 1) m F IH L (le_n _) C A') as G.
    destruct (depth_sels cfg frags enter (P + 1) sub (P + 1) m) as [[k| |] m1];
      cbn [bind dgood dlist_good depth_spread] in *; [|lia|exact I].
    destruct G as [-> [Lk [C1 K1]]]. split; [lia|]. split; [lia|]. split; assumption.
  - change (ignored cfg (QInline d sub)) with false. change (ignored cfg (QInline d sub')) with false. cbv iota.
    change (increase_by cfg (QInline d sub')) with (increase_by cfg (QInline d sub)).
    set (Q := P + increase_by cfg (QInline d sub)).
    destruct (dcheck_cases Q m) as [[L Ec]|[L Ec]]; rewrite Ec; cbn [bind dgood]; [|lia].
    assert (A' : forall x, In x sub' -> above (size x) m).
    { intros x Hx. apply (above_le (size (QInline d sub'))); [|exact A].
      apply in_sizes in Hx. unfold sizes in Hx. cbn [size]. lia. }
    pose proof (depth_sels_good enter Q sub sub' Q m F IH L (le_n _) C A') as G.
    destruct (depth_sels cfg frags enter Q sub Q m) as [[k| |] m1];
      cbn [bind dgood dlist_good depth_spread] in *; [|lia|exact I].
    destruct G as [-> [Lk [C1 K1]]]. split; [lia|]. split; [lia|]. split; assumption.
  - change (ignored cfg (QSpread f d)) with false.
    change (ignored cfg (QInline d [QInline (q_dirs def) body])) with false. cbv iota.
    change (increase_by cfg (QInline d [QInline (q_dirs def) body])) with (increase_by cfg (QSpread f d)).
    set (i := increase_by cfg (QSpread f d)).
    assert (Hh : heights [QInline (q_dirs def) body] = i + heights body).
    { rewrite heights_cons. unfold heights at 1. cbn [map list_max fold_right]. rewrite height_eq.
      change (ignored cfg (QInline (q_dirs def) body)) with false. cbv iota.
      change (increase_by cfg (QInline (q_dirs def) body)) with i. apply Nat.max_0_r. }
    rewrite Hh.
    assert (Hp : (if dc_flatten cfg then P + i else P + i + 1) = P + i + i).
    { unfold i, increase_by. destruct (dc_flatten cfg); lia. }
    assert (Hs : sizes body < size (QInline d [QInline (q_dirs def) body])).
    { unfold sizes, list_sum. cbn [size map fold_right list_sum]. unfold list_sum. cbn [fold_right]. lia. }
    destruct (dcheck_cases (P + i) m) as [[L Ec]|[L Ec]]; rewrite Ec;
      cbn [bind dgood depth_sels depth_spread]; [|lia].
    rewrite Hp. fold limit.
    destruct (vget f m) as [[k|]|] eqn:V.
    + destruct (C f k V) as [def' [body' [K' [F' Ek]]]].
      assert (def' = def) by congruence. subst def'.
      assert (body' = body) by (eapply body_fun; eassumption). subst body'. subst k.
      destruct (dcheck_cases (P + i + i + heights body) m) as [[L2 E2]|[L2 E2]]; rewrite E2; cbn [dgood]; [|lia].
      split; [lia|]. split; [lia|]. split; [exact C|apply kept_refl].
    + exfalso. specialize (A f def body V K F). lia.
    + rewrite K.
      assert (C' : dcounted_ok (vput f Visiting m)).
      { intros g k Hg. rewrite vget_put in Hg. destruct (String.eqb g f); [discriminate|].
        exact (C g k Hg). }
      assert (A' : forall x, In x body -> above (size x) (vput f Visiting m)).
      { intros x Hx g gdef gbody Vg Kg Fg. rewrite vget_put in Vg.
        pose proof (in_sizes x body Hx) as Sx.
        destruct (String.eqb_spec g f) as [->|Hne].
        - assert (gdef = def) by congruence. subst gdef.
          assert (gbody = body) by (eapply body_fun; eassumption). subst gbody. exact Sx.
        - specialize (A g gdef gbody Vg Kg Fg). lia. }
      pose proof (EG def body (vput f Visiting m) F C' A') as G.
      destruct (enter def (vput f Visiting m)) as [[k| |] m1]; cbn [bind dgood] in *; [|lia|exact I].
      destruct G as [Ek [Lw [C1 K1]]]. cbn [Nat.max plus] in Ek. subst k.
      set (m2 := vput f (Counted (heights body)) m1).
      assert (C2 : dcounted_ok m2).
      { intros g k Hg. unfold m2 in Hg. rewrite vget_put in Hg.
        destruct (String.eqb_spec g f) as [->|Hne].
        - injection Hg as <-. exists def, body. split; [exact K|]. split; [exact F|reflexivity].
        - exact (C1 g k Hg). }
      assert (K2 : kept m m2).
      { intros g gdef Kg Vg. unfold m2 in Vg. rewrite vget_put in Vg.
        destruct (String.eqb_spec g f) as [->|Hne]; [discriminate|].
        apply (K1 g gdef Kg) in Vg. rewrite vget_put in Vg.
        destruct (String.eqb_spec g f); [contradiction|exact Vg]. }
      destruct (dcheck_cases (P + i + i + heights body) m2) as [[L2 E2]|[L2 E2]]; rewrite E2;
        cbn [bind dgood]; [|lia].
      split; [lia|]. split; [lia|]. split; [exact C2|exact K2].
  - change (ignored cfg (QSpread f d)) with false. change (ignored cfg (QInline d [])) with false. cbv iota.
    change (increase_by cfg (QInline d [])) with (increase_by cfg (QSpread f d)).
    change (heights []) with 0. set (i := increase_by cfg (QSpread f d)).
    destruct (dcheck_cases (P + i) m) as [[L Ec]|[L Ec]]; rewrite Ec;
      cbn [bind dgood depth_sels depth_spread]; [|lia].
    destruct (vget f m) as [[k|]|] eqn:V.
    + destruct (C f k V) as [def' [body' [K' _]]]. congruence.
    + split; [lia|]. split; [lia|]. split; [exact C|apply kept_refl].
    + rewrite K. split; [lia|]. split; [lia|]. split.
      * intros g k Hg. rewrite vget_put in Hg. destruct (String.eqb g f); [discriminate|]. exact (C g k Hg).
      * intros g gdef Kg Vg. rewrite vget_put in Vg. destruct (String.eqb_spec g f) as [->|Hne];
          [congruence|exact Vg].
Qed.

Lemma depth_def_good fuel : denter_good (depth_def cfg frags fuel).
Proof.
  induction fuel as [|fuel IH]; intros def body m F C A; cbn [depth_def]; [exact I|].
  fold limit.
  destruct (dcheck_cases 0 m) as [[L E]|[L E]]; rewrite E; cbn [bind dgood]; [|lia].
  assert (G : dlist_good 0 0 (heights body) m (depth_sels cfg frags (depth_def cfg frags fuel) 0 (q_sels def) 0 m)).
  { apply depth_sels_good; [exact F| |exact L|lia|exact C|exact A].
    clear - IH F. induction F as [|x x' l l' Hx F IHF]; constructor; [|exact IHF].
    intros P m LP C A. apply depth_sel_good; assumption. }
  destruct (depth_sels _ _ _ _ _ _ _) as [[c| |] m1]; cbn [dgood dlist_good] in *; [|lia|exact I].
  destruct G as [-> [G1 G2]]. split; [lia|]. split; [lia|exact G2].
Qed.
End Depth.
End Sound.

(** ** Documents *)
Section Document.
Context (count : qdef -> memo -> outcome * memo) (total : qdef -> nat) (limit : nat)
  (Inv : memo -> Prop) (frags : known).
Hypothesis step : forall o o' m, expands_def frags o o' -> Inv m ->
  match count o m with
  | (Ok c, m') => c = total o' /\ c <= limit /\ Inv m'
  | (Exceeded, _) => limit < total o'
  | (OutOfFuel, _) => True
  end.

Lemma operations_decides ops ops' m :
  Forall2 (expands_def frags) ops ops' -> Inv m ->
  ~ In OutOfFuel (count_operations count ops m) ->
  decides limit total ops' (count_operations count ops m).
Proof.
  intro F. revert m. induction F as [|o o' ops ops' E F IH]; intros m I NF.
  - split; [reflexivity|]. intro H. exfalso. apply H. constructor.
  - cbn [count_operations] in *. pose proof (step o o' m E I) as G.
    destruct (count o m) as [[c| |] m1].
    + destruct G as [-> [L I1]].
      assert (NF' : ~ In OutOfFuel (count_operations count ops m1)).
      { intro X. apply NF. right. exact X. }
      destruct (IH m1 I1 NF') as [D1 D2]. split.
      * intro A. inversion A; subst. cbn [map]. f_equal. apply D1. assumption.
      * intro A. right. apply D2. intro B. apply A. constructor; assumption.
    + split.
      * intro A. inversion A; subst. lia.
      * intros _. left. reflexivity.
    + exfalso. apply NF. left. reflexivity.
Qed.
End Document.

(** ** Fuel *)
Definition unvisited (frags : known) (m : memo) : nat :=
  length (filter (fun kv => match vget (fst kv) m with None => true | _ => false end) frags).

Lemma filter_le (A : Type) (f g : A -> bool) l :
  (forall x, f x = true -> g x = true) -> length (filter f l) <= length (filter g l).
Proof.
  intro H. induction l as [|x l IH]; cbn [filter]; [lia|].
  destruct (f x) eqn:E; [rewrite (H x E); cbn [length]; lia|].
  destruct (g x); cbn [length]; lia.
Qed.

Lemma filter_lt (A : Type) (f g : A -> bool) l x :
  (forall x, f x = true -> g x = true) -> In x l -> f x = false -> g x = true ->
  length (filter f l) < length (filter g l).
Proof.
  intros H. induction l as [|y l IH]; [intros []|]. intros [->|Hi] Fx Gx; cbn [filter].
  - rewrite Fx, Gx. cbn [length]. pose proof (filter_le A f g l H). lia.
  - specialize (IH Hi Fx Gx). destruct (f y) eqn:E; [rewrite (H y E); cbn [length]; lia|].
    destruct (g y); cbn [length]; lia.
Qed.

Lemma unvisited_put_le frags f v m : unvisited frags (vput f v m) <= unvisited frags m.
Proof.
  apply filter_le. intros [g d]. cbn [fst]. rewrite vget_put.
  destruct (String.eqb g f); [discriminate|tauto].
Qed.

Lemma unvisited_put_lt frags f v m def :
  kfind f frags = Some def -> vget f m = None -> unvisited frags (vput f v m) < unvisited frags m.
Proof.
  unfold kfind. destruct (find _ frags) as [kv|] eqn:E; [|discriminate]. intros _ V.
  apply find_some in E. destruct E as [Hi He]. apply String.eqb_eq in He.
  apply (filter_lt _ _ _ frags kv).
  - intros [g d]. cbn [fst]. rewrite vget_put. destruct (String.eqb g f); [discriminate|tauto].
  - exact Hi.
  - rewrite vget_put, <- He, String.eqb_refl. reflexivity.
  - rewrite <- He, V. reflexivity.
Qed.

Section Fuel.
Context (frags : known).
Definition calm (N : nat) (r : outcome * memo) : Prop :=
  fst r <> OutOfFuel /\ unvisited frags (snd r) <= N.

Lemma calm_bind N r k :
  calm N r -> (forall c m, unvisited frags m <= N -> calm N (k c m)) -> calm N (bind r k).
Proof.
  intros [H1 H2] H. destruct r as [[c| |] m]; cbn [fst snd bind] in *.
  - apply H. exact H2.
  - split; [discriminate|exact H2].
  - congruence.
Qed.

Lemma calm_check limit N c m : unvisited frags m <= N -> calm N (check_limit limit c m).
Proof. intro H. unfold check_limit. destruct (Nat.ltb limit c); split; cbn; (discriminate || exact H). Qed.

Lemma calm_ok N c m : unvisited frags m <= N -> calm N (Ok c, m).
Proof. intro H. split; [discriminate|exact H]. Qed.

Definition calm_enter (N : nat) (enter : qdef -> memo -> outcome * memo) : Prop :=
  forall d m M, M < N -> unvisited frags m <= M -> calm M (enter d m).

Lemma calm_after limit enter N M s c m :
  calm_enter N enter -> M <= N -> unvisited frags m <= M ->
  calm M (after_children limit frags enter s c m).
Proof.
  intros H L U. unfold after_children.
  destruct s as [[n a d sub|f d|d sub]|d]; try (apply calm_ok; exact U).
  destruct (vget f m) as [[k|]|] eqn:V; [apply calm_check; exact U|apply calm_ok; exact U|].
  destruct (kfind f frags) as [def|] eqn:K.
  - pose proof (unvisited_put_lt frags f Visiting m def K V) as Lt.
    destruct (H def (vput f Visiting m) (unvisited frags (vput f Visiting m)) ltac:(lia) (le_n _)) as [H1 H2].
    apply calm_bind; [split; [exact H1|lia]|].
    intros k m1 U1. apply calm_check.
    pose proof (unvisited_put_le frags f (Counted k) m1). lia.
  - apply calm_ok. pose proof (unvisited_put_le frags f Visiting m). lia.
Qed.

Lemma calm_count_sels own limit enter N l :
  Forall (fun x => forall M m, M <= N -> unvisited frags m <= M -> calm M (count_sel own limit frags enter x m)) l ->
  forall M c m, M <= N -> unvisited frags m <= M -> calm M (count_sels own limit frags enter l c m).
Proof.
  intro F. induction F as [|x l Hx F IH]; intros M c m L U; cbn [count_sels]; [apply calm_ok; exact U|].
  apply calm_bind; [apply Hx; assumption|]. intros k m1 U1.
  apply calm_bind; [apply calm_check; exact U1|]. intros k2 m2 U2. apply IH; assumption.
Qed.

Lemma calm_count_sel own limit enter N s :
  calm_enter N enter ->
  forall M m, M <= N -> unvisited frags m <= M -> calm M (count_sel own limit frags enter s m).
Proof.
  intro H. induction s as [n a d sub IH|f d|d sub IH] using qsel_ind'; intros M m L U;
    rewrite count_sel_eq; (apply calm_bind; [apply calm_check; exact U|]); intros c m1 U1;
    (apply calm_bind;
      [first [apply (calm_count_sels own limit enter N); assumption|apply calm_ok; exact U1]|]);
    intros c2 m2 U2; exact (calm_after limit enter N M _ c2 m2 H L U2).
Qed.

Lemma calm_count_def own limit n : calm_enter n (count_def own limit frags n).
Proof.
  induction n as [|n IH]; intros d m M L U; [lia|]. cbn [count_def].
  apply calm_bind; [apply calm_check; exact U|]. intros c m1 U1.
  apply (calm_count_sels own limit _ n); [|lia|exact U1].
  apply Forall_forall. intros x _ M' m' L' U'. apply (calm_count_sel own limit _ n); assumption.
Qed.

Lemma calm_spread cfg enter N M s p d m :
  calm_enter N enter -> M <= N -> unvisited frags m <= M ->
  calm M (depth_spread cfg frags enter s p d m).
Proof.
  intros H L U. unfold depth_spread.
  destruct s as [n a k sub|f k|k sub]; try (apply calm_ok; exact U).
  destruct (vget f m) as [[k'|]|] eqn:V; [apply calm_check; exact U|apply calm_ok; exact U|].
  destruct (kfind f frags) as [def|] eqn:K.
  - pose proof (unvisited_put_lt frags f Visiting m def K V) as Lt.
    destruct (H def (vput f Visiting m) (unvisited frags (vput f Visiting m)) ltac:(lia) (le_n _)) as [H1 H2].
    apply calm_bind; [split; [exact H1|lia]|].
    intros k' m1 U1. apply calm_bind; [apply calm_check|intros p' m2 U2; apply calm_ok; exact U2].
    pose proof (unvisited_put_le frags f (Counted k') m1). lia.
  - apply calm_ok. pose proof (unvisited_put_le frags f Visiting m). lia.
Qed.

Lemma calm_depth_sels cfg enter N l :
  Forall (fun x => forall M p m, M <= N -> unvisited frags m <= M -> calm M (depth_sel cfg frags enter x p m)) l ->
  forall M p d m, M <= N -> unvisited frags m <= M -> calm M (depth_sels cfg frags enter p l d m).
Proof.
  intro F. induction F as [|x l Hx F IH]; intros M p d m L U; cbn [depth_sels]; [apply calm_ok; exact U|].
  apply calm_bind; [apply Hx; assumption|]. intros k m1 U1. apply IH; assumption.
Qed.

Lemma calm_depth_sel cfg enter N s :
  calm_enter N enter ->
  forall M p m, M <= N -> unvisited frags m <= M -> calm M (depth_sel cfg frags enter s p m).
Proof.
  intro H. induction s as [n a d sub IH|f d|d sub IH] using qsel_ind'; intros M p m L U;
    rewrite depth_sel_eq; (destruct (ignored cfg _); [apply calm_ok; exact U|]);
    (apply calm_bind; [apply calm_check; exact U|]); intros c m1 U1;
    (apply calm_bind;
      [first [apply (calm_depth_sels cfg enter N); assumption|apply calm_ok; exact U1]|]);
    intros c2 m2 U2; exact (calm_spread cfg enter N M _ p c2 m2 H L U2).
Qed.

Lemma calm_depth_def cfg n : calm_enter n (depth_def cfg frags n).
Proof.
  induction n as [|n IH]; intros d m M L U; [lia|]. cbn [depth_def].
  apply calm_bind; [apply calm_check; exact U|]. intros c m1 U1.
  apply (calm_depth_sels cfg _ n); [|lia|exact U1].
  apply Forall_forall. intros x _ M' p' m' L' U'. apply (calm_depth_sel cfg _ n); assumption.
Qed.

Lemma calm_operations count n ops m :
  calm_enter (S n) count -> unvisited frags m <= n -> ~ In OutOfFuel (count_operations count ops m).
Proof.
  intro H. revert m. induction ops as [|o ops IH]; intros m U; cbn [count_operations]; [intros []|].
  pose proof (H o m n (le_n _) U) as [H1 H2]. destruct (count o m) as [r m1]. cbn [fst snd] in *.
  intros [E|E]; [congruence|]. exact (IH m1 H2 E).
Qed.

Lemma unvisited_nil : unvisited frags [] <= length frags.
Proof.
  unfold unvisited. induction frags as [|x l IH]; cbn [filter]; [lia|].
  destruct (vget (fst x) []); cbn [length]; lia.
Qed.
End Fuel.

Lemma alias_rule_ends limit frags ops : ~ In OutOfFuel (alias_rule limit frags ops).
Proof. apply (calm_operations frags _ (length frags)); [apply calm_count_def|apply unvisited_nil]. Qed.
Lemma directive_rule_ends limit frags ops : ~ In OutOfFuel (directive_rule limit frags ops).
Proof. apply (calm_operations frags _ (length frags)); [apply calm_count_def|apply unvisited_nil]. Qed.
Lemma depth_rule_ends cfg frags ops : ~ In OutOfFuel (depth_rule cfg frags ops).
Proof. apply (calm_operations frags _ (length frags)); [apply calm_depth_def|apply unvisited_nil]. Qed.

(** ** The three rules *)
Lemma aliases_regular : regular own_aliases.
Proof. split; [|split; [|split]]; reflexivity. Qed.
Lemma directives_regular : regular get_directives.
Proof. split; [|split; [|split]]; reflexivity. Qed.

Lemma map_eq (A B : Type) (f g : A -> B) l : Forall (fun x => f x = g x) l -> map f l = map g l.
Proof. intro F. induction F as [|x l H F IH]; cbn [map]; [reflexivity|]. rewrite H, IH. reflexivity. Qed.

Lemma weight_aliases s : weight own_aliases s = aliases s.
Proof.
  induction s as [n a d sub IH|f d|d sub IH] using qsel_ind'; cbn [weight aliases own_aliases].
  - rewrite (map_eq _ _ _ _ _ IH). destruct a; reflexivity.
  - reflexivity.
  - rewrite (map_eq _ _ _ _ _ IH). reflexivity.
Qed.
Lemma weight_directives s : weight get_directives s = directives s.
Proof.
  induction s as [n a d sub IH|f d|d sub IH] using qsel_ind'; cbn [weight directives get_directives].
  - rewrite (map_eq _ _ _ _ _ IH). reflexivity.
  - lia.
  - rewrite (map_eq _ _ _ _ _ IH). reflexivity.
Qed.

Lemma above_none frags N m : kept frags [] m -> above frags N m.
Proof. intros K f def body V E _. specialize (K f def E V). discriminate. Qed.

Lemma generic_decides own limit frags ops ops' total :
  regular own -> (forall o, total o = own (NDef o) + weights own (q_sels o)) ->
  (forall o o', expands_def frags o o' -> own (NDef o') = own (NDef o)) ->
  Forall2 (expands_def frags) ops ops' ->
  decides limit total ops' (count_operations (count_def own limit frags (enough frags)) ops []).
Proof.
  intros R T Ow F.
  apply (operations_decides _ total limit (fun m => counted_ok frags own m /\ kept frags [] m) frags).
  - intros o o' m E [C K]. pose proof E as [Ed Eb].
    pose proof (count_def_good frags own limit R (enough frags) o (q_sels o') m Eb C
                  (fun x _ => above_none frags (size x) m K)) as G.
    rewrite (T o'), (Ow o o' E).
    destruct (count_def own limit frags (enough frags) o m) as [[c| |] m1]; cbn [good] in G; [|exact G|exact I].
    destruct G as [-> [L [C1 K1]]]. split; [reflexivity|]. split; [exact L|]. split; [exact C1|].
    exact (kept_trans _ _ _ _ K K1).
  - exact F.
  - split; [intros f k H; discriminate|apply kept_refl].
  - apply (calm_operations frags _ (length frags)); [apply calm_count_def|apply unvisited_nil].
Qed.

Lemma alias_rule_decides limit frags ops ops' :
  Forall2 (expands_def frags) ops ops' -> decides limit total_aliases ops' (alias_rule limit frags ops).
Proof.
  apply generic_decides; [exact aliases_regular| |reflexivity].
  intro o. unfold total_aliases, weights. cbn [own_aliases].
  rewrite (map_eq _ _ (weight own_aliases) aliases); [reflexivity|].
  apply Forall_forall. intros x _. apply weight_aliases.
Qed.

Lemma directive_rule_decides limit frags ops ops' :
  Forall2 (expands_def frags) ops ops' -> decides limit total_directives ops' (directive_rule limit frags ops).
Proof.
  apply generic_decides; [exact directives_regular| |].
  - intro o. unfold total_directives, weights. cbn [get_directives].
    rewrite (map_eq _ _ (weight get_directives) directives); [reflexivity|].
    apply Forall_forall. intros x _. apply weight_directives.
  - intros o o' [H _]. exact H.
Qed.

Lemma depth_rule_decides cfg frags ops ops' :
  Forall2 (expands_def frags) ops ops' -> decides (dc_n cfg) (total_depth cfg) ops' (depth_rule cfg frags ops).
Proof.
  intro F.
  apply (operations_decides _ (total_depth cfg) (dc_n cfg)
           (fun m => dcounted_ok frags cfg m /\ kept frags [] m) frags).
  - intros o o' m E [C K]. pose proof E as [Ed Eb].
    pose proof (depth_def_good frags cfg (enough frags) o (q_sels o') m Eb C
                  (fun x _ => above_none frags (size x) m K)) as G.
    destruct (depth_def cfg frags (enough frags) o m) as [[c| |] m1]; cbn [dgood] in G; [|exact G|exact I].
    destruct G as [G1 [L [C1 K1]]]. change (total_depth cfg o') with (heights cfg (q_sels o')).
    split; [lia|]. split; [lia|]. split; [exact C1|]. exact (kept_trans _ _ _ _ K K1).
  - exact F.
  - split; [intros f k H; discriminate|apply kept_refl].
  - apply (calm_operations frags _ (length frags)); [apply calm_depth_def|apply unvisited_nil].
Qed.

(** ** Accepting is exactly staying within the limit *)
Lemma le_list_dec limit total (l : list qdef) :
  Forall (fun o => total o <= limit) l \/ ~ Forall (fun o => total o <= limit) l.
Proof.
  destruct (Forall_dec (fun o => total o <= limit) (fun o => le_dec (total o) limit) l); [left|right]; assumption.
Qed.

Lemma decides_accepts limit total ops' rs :
  decides limit total ops' rs -> (accepts rs <-> Forall (fun o => total o <= limit) ops').
Proof.
  intros [D1 D2]. split; intro H.
  - destruct (le_list_dec limit total ops') as [Y|N]; [exact Y|]. exfalso.
    apply D2 in N. unfold accepts in H. rewrite Forall_forall in H. destruct (H _ N) as [n E]. discriminate.
  - rewrite (D1 H). unfold accepts. apply Forall_forall. intros r Hr. apply in_map_iff in Hr.
    destruct Hr as [o [<- _]]. eexists. reflexivity.
Qed.

(** ** Every document without fragment cycles has one expansion *)
Section Exist.
Context (frags : known).
Lemma sel_expands s :
  (forall g def, In g (spreads s) -> kfind g frags = Some def ->
     exists body, Forall2 (expands frags) (q_sels def) body) ->
  exists s', expands frags s s'.
Proof.
  assert (L : forall sub, Forall (fun s => (forall g def, In g (spreads s) -> kfind g frags = Some def ->
     exists body, Forall2 (expands frags) (q_sels def) body) -> exists s', expands frags s s') sub ->
     (forall g def, In g (flat_map spreads sub) -> kfind g frags = Some def ->
        exists body, Forall2 (expands frags) (q_sels def) body) ->
     exists sub', Forall2 (expands frags) sub sub').
  { intros sub F. induction F as [|x l Hx F IH]; intro H; [exists []; constructor|].
    destruct Hx as [x' Ex].
    { intros g def Hg. apply H. cbn [flat_map]. apply in_or_app. left. exact Hg. }
    destruct IH as [l' El].
    { intros g def Hg. apply H. cbn [flat_map]. apply in_or_app. right. exact Hg. }
    exists (x' :: l'). constructor; assumption. }
  induction s as [n a d sub IH|f d|d sub IH] using qsel_ind'; intro H.
  - destruct (L sub IH H) as [sub' F]. exists (QField n a d sub'). constructor. exact F.
  - destruct (kfind f frags) as [def|] eqn:K.
    + destruct (H f def (or_introl eq_refl) K) as [body F].
      exists (QInline d [QInline (q_dirs def) body]). apply Ex_spread; assumption.
    + exists (QInline d []). apply Ex_unknown. exact K.
  - destruct (L sub IH H) as [sub' F]. exists (QInline d sub'). constructor. exact F.
Qed.

Lemma sels_expand l :
  (forall g def, In g (flat_map spreads l) -> kfind g frags = Some def ->
     exists body, Forall2 (expands frags) (q_sels def) body) ->
  exists l', Forall2 (expands frags) l l'.
Proof.
  induction l as [|x l IH]; intro H; [exists []; constructor|].
  destruct (sel_expands x) as [x' Ex].
  { intros g def Hg. apply H. cbn [flat_map]. apply in_or_app. left. exact Hg. }
  destruct IH as [l' El].
  { intros g def Hg. apply H. cbn [flat_map]. apply in_or_app. right. exact Hg. }
  exists (x' :: l'). constructor; assumption.
Qed.

Lemma defs_expand : acyclic frags ->
  forall f def, kfind f frags = Some def -> exists body, Forall2 (expands frags) (q_sels def) body.
Proof.
  intros [rank R].
  assert (G : forall n f def, rank f < n -> kfind f frags = Some def ->
            exists body, Forall2 (expands frags) (q_sels def) body).
  { induction n as [|n IH]; intros f def L K; [lia|].
    apply sels_expand. intros g gdef Hg Kg. apply (IH g gdef); [|exact Kg].
    assert (rank g < rank f) by (apply (R f def g K Hg); congruence). lia. }
  intros f def K. exact (G (S (rank f)) f def (le_n _) K).
Qed.

Lemma ops_expand ops : acyclic frags -> exists ops', Forall2 (expands_def frags) ops ops'.
Proof.
  intro A. induction ops as [|o ops [ops' F]]; [exists []; constructor|].
  destruct (sels_expand (q_sels o)) as [l' E].
  { intros g def _ K. exact (defs_expand A g def K). }
  exists ({| q_dirs := q_dirs o; q_sels := l' |} :: ops'). constructor; [|exact F].
  split; [reflexivity|exact E].
Qed.

Lemma ops_expand_once ops o1 o2 :
  Forall2 (expands_def frags) ops o1 -> Forall2 (expands_def frags) ops o2 -> o1 = o2.
Proof.
  intro F. revert o2. induction F as [|o o' ops ops' [D E] F IH]; intros o2 G; inversion G as [|? y ? ? [D2 E2] G2]; subst;
    [reflexivity|].
  f_equal; [|apply IH; exact G2].
  pose proof (body_fun frags _ _ _ E E2). destruct o' as [a b], y as [a' b']. cbn [q_dirs q_sels] in *. congruence.
Qed.
End Exist.

(** ** The order of fragment definitions does not matter *)
Lemma expands_ext frags frags' s s' :
  (forall f, kfind f frags = kfind f frags') -> expands frags s s' -> expands frags' s s'.
Proof.
  intros H E. induction E as [n a d sub sub' F IH|d sub sub' F IH|f d def body K F IH|f d K] using expands_ind'.
  - constructor. exact IH.
  - constructor. exact IH.
  - apply Ex_spread; [rewrite <- H; exact K|exact IH].
  - apply Ex_unknown. rewrite <- H. exact K.
Qed.

Lemma expands_def_ext frags frags' ops ops' :
  (forall f, kfind f frags = kfind f frags') ->
  Forall2 (expands_def frags) ops ops' -> Forall2 (expands_def frags') ops ops'.
Proof.
  intros H F. induction F as [|o o' ops ops' [D E] F IH]; constructor; [|exact IH].
  split; [exact D|]. clear - H E. induction E as [|x x' l l' Ex F IH]; constructor; [|exact IH].
  exact (expands_ext _ _ _ _ H Ex).
Qed.
