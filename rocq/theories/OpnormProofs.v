(** Proofs about the normalisation of operations. *)
From Coq Require Import String Ascii List NArith ZArith Bool Arith Permutation Sorted Lia.
From Verif Require Import OpnormModel OpnormSpec.
Import ListNotations.
Local Open Scope string_scope.
Local Open Scope list_scope.

Lemma transform_from_map {A} (f : A -> transformed A) rest : forall before (changed : bool) result,
  (if changed then result = map (fun x => replaced (f x) x) before else before = map (fun x => replaced (f x) x) before) ->
  replaced (transform_from f before rest changed result) (before ++ rest) = map (fun x => replaced (f x) x) (before ++ rest).
Proof.
  induction rest as [|x rest IH]; intros before changed result H.
  - cbn. rewrite app_nil_r. destruct changed; cbn; congruence.
  - cbn [transform_from]. replace (before ++ x :: rest) with ((before ++ [x]) ++ rest) by (rewrite <- app_assoc; reflexivity).
    destruct (f x) as [|y] eqn:E; apply IH; rewrite map_app; cbn; rewrite E; cbn; destruct changed; congruence.
Qed.
Lemma transform_list_map {A} (f : A -> transformed A) l : replaced (transform_list f l) l = map (fun x => replaced (f x) x) l.
Proof. exact (transform_from_map f l [] false [] eq_refl). Qed.

(** Induction through lists *)
Section ValueInd.
  Variable P : value -> Prop.
  Hypothesis Hv : forall n, P (VVariable n). Hypothesis Hi : forall z, P (VInt z). Hypothesis Hf : forall t, P (VFloat t).
  Hypothesis Hs : forall s, P (VString s). Hypothesis Hb : forall b, P (VBoolean b). Hypothesis Hn : P VNull. Hypothesis He : forall n, P (VEnum n).
  Hypothesis Hl : forall l, Forall P l -> P (VList l).
  Hypothesis Ho : forall l, Forall (fun x => P (snd x)) l -> P (VObject l).
  Fixpoint value_ind' (v : value) : P v :=
    match v with
    | VVariable n => Hv n | VInt z => Hi z | VFloat t => Hf t | VString s => Hs s | VBoolean b => Hb b | VNull => Hn | VEnum n => He n
    | VList l => Hl l ((fix go l := match l return Forall P l with [] => Forall_nil _ | x :: l' => Forall_cons _ (value_ind' x) (go l') end) l)
    | VObject l => Ho l ((fix go l := match l return Forall (fun x => P (snd x)) l with [] => Forall_nil _ | x :: l' => Forall_cons _ (value_ind' (snd x)) (go l') end) l)
    end.
End ValueInd.
Section SelInd.
  Variable P : selection -> Prop.
  Hypothesis Hf : forall a n args dirs sels, Forall P sels -> P (Field a n args dirs sels).
  Hypothesis Hs : forall n dirs, P (Spread n dirs).
  Hypothesis Hi : forall on dirs sels, Forall P sels -> P (Inline on dirs sels).
  Fixpoint sel_ind' (s : selection) : P s :=
    match s with
    | Field a n args dirs sels => Hf a n args dirs sels ((fix go l := match l return Forall P l with [] => Forall_nil _ | x :: l' => Forall_cons _ (sel_ind' x) (go l') end) sels)
    | Spread n dirs => Hs n dirs
    | Inline on dirs sels => Hi on dirs sels ((fix go l := match l return Forall P l with [] => Forall_nil _ | x :: l' => Forall_cons _ (sel_ind' x) (go l') end) sels)
    end.
End SelInd.
Scheme av_ind := Minimality for alike_value Sort Prop with avs_ind := Minimality for alike_values Sort Prop with avx_ind := Minimality for alike_args Sort Prop.
Combined Scheme alike_values_ind from av_ind, avs_ind, avx_ind.
Scheme as_ind := Minimality for alike_sel Sort Prop with ass_ind := Minimality for alike_sels Sort Prop.
Combined Scheme alike_sels_ind from as_ind, ass_ind.
Scheme ms_ind := Minimality for moved_sel Sort Prop with mss_ind := Minimality for moved_sels Sort Prop.
Combined Scheme moved_sels_ind from ms_ind, mss_ind.

(** Stripping picks one of those that are alike *)
Lemma alike_strip_values : (forall v v', alike_value v v' -> strip_value v = strip_value v') /\
  (forall l l', alike_values l l' -> map strip_value l = map strip_value l') /\ (forall l l', alike_args l l' -> strip_args l = strip_args l').
Proof. apply alike_values_ind; intros; cbn; try reflexivity; try congruence; f_equal; auto. f_equal. auto. Qed.
Lemma alike_strip_args l l' : alike_args l l' -> strip_args l = strip_args l'.
Proof. apply alike_strip_values. Qed.
Lemma forall2_map {A B} (R : A -> A -> Prop) (f : A -> B) l l' : (forall x y, R x y -> f x = f y) -> Forall2 R l l' -> map f l = map f l'.
Proof. intros H. induction 1; cbn; [reflexivity | f_equal; auto]. Qed.
Lemma alike_strip_directive d d' : alike_directive d d' -> strip_directive d = strip_directive d'.
Proof. intros (N & A). unfold strip_directive. rewrite N, (alike_strip_args _ _ A). reflexivity. Qed.
Lemma alike_strip_sels : (forall s s', alike_sel s s' -> strip_sel s = strip_sel s') /\ (forall l l', alike_sels l l' -> map strip_sel l = map strip_sel l').
Proof.
  apply alike_sels_ind; intros; cbn; try reflexivity; f_equal; auto; try (apply alike_strip_args; assumption);
    apply (forall2_map alike_directive); auto using alike_strip_directive.
Qed.
Lemma alike_strip d d' : alike d d' -> strip d = strip d'.
Proof.
  apply forall2_map. intros x y H.
  assert (DD : forall l l', Forall2 alike_directive l l' -> map strip_directive l = map strip_directive l') by (intros; apply (forall2_map alike_directive); auto using alike_strip_directive).
  assert (VV : forall l l', Forall2 alike_var l l' -> map strip_var l = map strip_var l').
  { intros l l'. apply forall2_map. intros v v' (N & T & X). unfold strip_var. rewrite N, T. f_equal.
    destruct (v_default v), (v_default v'); try contradiction; cbn; [f_equal; apply alike_strip_values; exact X | reflexivity]. }
  destruct H; cbn; f_equal; auto; apply alike_strip_sels; assumption.
Qed.
Lemma strip_alike_args l : Forall (fun x : string * value => forall v', strip_value (snd x) = strip_value v' -> alike_value (snd x) v') l ->
  forall l', map (fun x => (fst x, strip_value (snd x))) l = map (fun x => (fst x, strip_value (snd x))) l' -> alike_args l l'.
Proof. induction 1 as [|[n v] l H F IH]; intros [|[n' v'] l'] E; try discriminate; [constructor|]. injection E as <- E1 E2. constructor; auto. Qed.
Lemma strip_alike_value v : forall v', strip_value v = strip_value v' -> alike_value v v'.
Proof.
  induction v as [n|z|t|s|b| |n|l H|l H] using value_ind'; intros v' E; destruct v'; cbn in E; try discriminate E; try (injection E as <-); try constructor.
  - injection E as E. revert l0 E. induction H as [|x l X F IH]; intros [|y l'] E; try discriminate; [constructor|]. injection E as E1 E2. constructor; auto.
  - injection E as E. exact (strip_alike_args l H l0 E).
Qed.
Lemma strip_alike_arguments l l' : strip_args l = strip_args l' -> alike_args l l'.
Proof. apply strip_alike_args. apply Forall_forall. intros x _. apply strip_alike_value. Qed.
Lemma map_forall2 {A B} (R : A -> A -> Prop) (f : A -> B) l : (forall x y, In x l -> f x = f y -> R x y) -> forall l', map f l = map f l' -> Forall2 R l l'.
Proof. induction l as [|x l IH]; intros H [|y l'] E; try discriminate; [constructor|]. injection E as E1 E2. constructor; [apply H; [left; reflexivity | exact E1] | apply IH; [|exact E2]]. intros a b I. apply H. right. exact I. Qed.
Lemma strip_alike_directives l l' : map strip_directive l = map strip_directive l' -> Forall2 alike_directive l l'.
Proof. apply map_forall2. intros [n a] [n' a'] _ E. injection E as E1 E2. split; [exact E1 | apply strip_alike_arguments; exact E2]. Qed.
Lemma strip_alike_sels_ l : Forall (fun s => forall s', strip_sel s = strip_sel s' -> alike_sel s s') l -> forall l', map strip_sel l = map strip_sel l' -> alike_sels l l'.
Proof. induction 1 as [|x l X F IH]; intros [|y l'] E; try discriminate; [constructor|]. injection E as E1 E2. constructor; auto. Qed.
Lemma strip_alike_sel s : forall s', strip_sel s = strip_sel s' -> alike_sel s s'.
Proof.
  induction s as [a n args dirs sels H|n dirs|on dirs sels H] using sel_ind'; intros s' E; destruct s'; cbn in E; try discriminate E.
  - injection E as <- E1 E2 E3. constructor; [apply strip_alike_arguments | apply strip_alike_directives | apply (strip_alike_sels_ _ H)]; assumption.
  - injection E as <- E1. constructor. apply strip_alike_directives. exact E1.
  - injection E as <- E1 E2. constructor; [apply strip_alike_directives | apply (strip_alike_sels_ _ H)]; assumption.
Qed.
Lemma strip_alike_sels l l' : map strip_sel l = map strip_sel l' -> alike_sels l l'.
Proof. apply strip_alike_sels_. apply Forall_forall. intros x _. apply strip_alike_sel. Qed.
Lemma strip_alike d d' : strip d = strip d' -> alike d d'.
Proof.
  apply map_forall2. intros x y _ E.
  assert (VV : forall l l', map strip_var l = map strip_var l' -> Forall2 alike_var l l').
  { intros l l'. apply map_forall2. intros [n t v] [n' t' v'] _ F. injection F as <- <- F. unfold alike_var. cbn. split; [reflexivity|]. split; [reflexivity|].
    destruct v, v'; cbn in F; try discriminate; [injection F as F; apply strip_alike_value; exact F | exact Logic.I]. }
  destruct x, y; cbn in E; try discriminate E; injection E; intros; subst; constructor; auto using strip_alike_sels, strip_alike_directives.
Qed.
Lemma strip_value_twice v : strip_value (strip_value v) = strip_value v.
Proof.
  induction v as [n|z|t|s|b| |n|l H|l H] using value_ind'; cbn; try reflexivity; f_equal; rewrite map_map; apply map_ext_in; intros x I; rewrite Forall_forall in H.
  - apply H; exact I.
  - cbn. f_equal. apply (H x I).
Qed.
Lemma strip_args_twice l : strip_args (strip_args l) = strip_args l.
Proof. unfold strip_args. rewrite map_map. apply map_ext. intros x. cbn. rewrite strip_value_twice. reflexivity. Qed.
Lemma strip_directives_twice l : map strip_directive (map strip_directive l) = map strip_directive l.
Proof. rewrite map_map. apply map_ext. intros d. unfold strip_directive. cbn. rewrite strip_args_twice. reflexivity. Qed.
Lemma strip_sel_twice s : strip_sel (strip_sel s) = strip_sel s.
Proof.
  induction s as [a n args dirs sels H|n dirs|on dirs sels H] using sel_ind'; cbn; rewrite ?strip_args_twice, ?strip_directives_twice; try reflexivity;
    f_equal; rewrite map_map; apply map_ext_in; intros x I; rewrite Forall_forall in H; apply H; exact I.
Qed.
Lemma strip_twice d : strip (strip d) = strip d.
Proof.
  unfold strip. rewrite map_map. apply map_ext. intros x.
  assert (SS : forall l, map strip_sel (map strip_sel l) = map strip_sel l) by (intros l; rewrite map_map; apply map_ext; apply strip_sel_twice).
  destruct x as [s|k n vs ds s|n on ds s]; cbn; rewrite ?SS, ?strip_directives_twice; try reflexivity. f_equal. rewrite map_map. apply map_ext. intros [vn vt [v|]]; cbn; [|reflexivity].
  unfold strip_var. cbn. rewrite strip_value_twice. reflexivity.
Qed.

(** Orders *)
Lemma compare_chars c d : Ascii.compare c d = N.compare (N_of_ascii c) (N_of_ascii d).
Proof. reflexivity. Qed.
Lemma n_of_ascii_inj c d : N_of_ascii c = N_of_ascii d -> c = d.
Proof. intros H. rewrite <- (ascii_N_embedding c), <- (ascii_N_embedding d), H. reflexivity. Qed.
Lemma string_trans : forall x y z, String.compare x y <> Gt -> String.compare y z <> Gt -> String.compare x z <> Gt.
Proof.
  induction x as [|c x IH]; intros y z; [destruct z; cbn; congruence|].
  destruct y as [|d y]; [cbn; congruence|]. destruct z as [|e z]; [cbn; congruence|]. cbn. rewrite !compare_chars.
  destruct (N.compare_spec (N_of_ascii c) (N_of_ascii d)) as [E|E|E], (N.compare_spec (N_of_ascii d) (N_of_ascii e)) as [F|F|F], (N.compare_spec (N_of_ascii c) (N_of_ascii e)) as [G|G|G];
    intros H K; try congruence; try (exfalso; lia). exact (IH y z H K).
Qed.
Lemma string_preorder : preorder String.compare.
Proof. split; [apply String.compare_antisym | exact string_trans]. Qed.
Lemma preorder_key {A K} (kc : K -> K -> comparison) (k : A -> K) cmp : preorder kc -> (forall x y, cmp x y = kc (k x) (k y)) -> preorder cmp.
Proof.
  intros (S & T) E. split; [intros x y; rewrite !E; apply S|]. unfold below in *. intros x y z. rewrite !E. apply T.
Qed.
Definition tag_compare (a b : tag) : comparison :=
  match a, b with
  | TField n, TField m => String.compare n m
  | TSpread n, TSpread m => String.compare n m
  | TSpread _, _ => Lt | _, TSpread _ => Gt
  | TInline, TInline => Eq
  | TInline, _ => Lt | _, TInline => Gt
  end.
Lemma tag_preorder : preorder tag_compare.
Proof.
  split.
  - intros [n| |n] [m| |m]; cbn; try reflexivity; apply String.compare_antisym.
  - unfold below. intros [n| |n] [m| |m] [p| |p]; cbn; try congruence; apply string_trans.
Qed.
Lemma sels_tag x y : compare_selections x y = tag_compare (tag_of x) (tag_of y).
Proof. destruct x, y; reflexivity. Qed.
Lemma sels_preorder : preorder compare_selections.
Proof. apply (preorder_key tag_compare tag_of); [exact tag_preorder | exact sels_tag]. Qed.
Lemma dirs_preorder : preorder compare_directives.
Proof. apply (preorder_key String.compare d_name); [exact string_preorder | reflexivity]. Qed.
Lemma args_preorder : preorder compare_args.
Proof. apply (preorder_key String.compare fst); [exact string_preorder | reflexivity]. Qed.
Lemma vars_preorder : preorder compare_vars.
Proof. apply (preorder_key String.compare v_name); [exact string_preorder | reflexivity]. Qed.
Definition def_compare (a b : option string) : comparison :=
  match a, b with Some n, Some m => String.compare n m | None, None => Eq | None, Some _ => Lt | Some _, None => Gt end.
Lemma defs_tag x y : compare_definitions x y = def_compare (def_tag x) (def_tag y).
Proof. destruct x, y; reflexivity. Qed.
Lemma defs_preorder : preorder compare_definitions.
Proof.
  apply (preorder_key def_compare def_tag); [|exact defs_tag]. split.
  - intros [n|] [m|]; cbn; try reflexivity. apply String.compare_antisym.
  - unfold below. intros [n|] [m|] [p|]; cbn; try congruence. apply string_trans.
Qed.
Lemma string_eq n m : String.compare n m = Eq -> n = m.
Proof. apply String.compare_eq_iff. Qed.
Lemma tag_eq a b : tag_compare a b = Eq -> a = b.
Proof. destruct a, b; cbn; try congruence; intros H; apply string_eq in H; congruence. Qed.
Lemma def_eq a b : def_compare a b = Eq -> a = b.
Proof. destruct a, b; cbn; try congruence; intros H; apply string_eq in H; congruence. Qed.

Lemma nodup_inj {A B} (k : A -> B) l x y : NoDup (map k l) -> In x l -> In y l -> k x = k y -> x = y.
Proof.
  induction l as [|a l IH]; intros N X Y E; [destruct X|]. cbn in N. inversion N as [|? ? O N']; subst.
  destruct X as [<-|X], Y as [<-|Y]; auto; exfalso; apply O; [rewrite E | rewrite <- E]; apply in_map; assumption.
Qed.
Lemma sorted_same {A} (cmp : A -> A -> comparison) l : preorder cmp -> forall l', StronglySorted (below cmp) l -> StronglySorted (below cmp) l' -> Permutation l l' ->
  (forall x y, In x l -> In y l -> cmp x y = Eq -> x = y) -> l = l'.
Proof.
  intros (S & _). induction l as [|x l IH]; intros l' L L' P U.
  - apply Permutation_nil in P. congruence.
  - destruct l' as [|y l']; [apply Permutation_sym, Permutation_nil in P; discriminate|].
    apply StronglySorted_inv in L as (L & X). apply StronglySorted_inv in L' as (L' & Y). rewrite Forall_forall in X, Y.
    assert (IY : In y (x :: l)) by (apply (Permutation_in y (Permutation_sym P)); left; reflexivity).
    assert (IX : In x (y :: l')) by (apply (Permutation_in x P); left; reflexivity).
    assert (E : x = y).
    { destruct IY as [->|IY]; [reflexivity|]. destruct IX as [->|IX]; [reflexivity|]. apply U; [left; reflexivity | right; exact IY|].
      specialize (X y IY). specialize (Y x IX). unfold below in *. rewrite (S y x) in Y. destruct (cmp x y); cbn in *; congruence. }
    subst. f_equal. apply IH; auto; [apply Permutation_cons_inv in P; exact P|]. intros a b A1 B1. apply U; right; assumption.
Qed.
