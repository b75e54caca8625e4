(* What each rule reports. *)
From Coq Require Import String List Bool Arith Lia.
From Verif Require Import StrUtil Ast ConsumerModel IntroModel CondModel NormModel NormProofs WalkModel LocalModel LocalSpec WalkProofs LocalBase LocalRun.
Import ListNotations.
Local Open Scope string_scope.
Local Open Scope list_scope.

Lemma twice_cons : forall {A} (x y : A) l, twice_in (y :: l) x <-> (x = y /\ In x l) \/ twice_in l x.
Proof.
  intros A x y l. split.
  - intros (a & b & c & E). destruct a as [|z a]; cbn in E.
    + injection E as -> ->. left. split; [reflexivity|]. apply in_app_iff. right. now left.
    + injection E as -> ->. right. now exists a, b, c.
  - intros [[-> I]|(a & b & c & ->)].
    + apply in_split in I. destruct I as (b & c & ->). now exists [], b, c.
    + now exists (y :: a), b, c.
Qed.
Lemma not_twice_nil : forall {A} (x : A), ~ twice_in [] x.
Proof. intros A x (a & b & c & E). destruct a; discriminate E. Qed.
Lemma twice_count : forall l x, twice_in l x <-> 2 <= count_occ string_dec l x.
Proof.
  induction l as [|y l IH]; intros x.
  - split; [intros K; now apply not_twice_nil in K|cbn; lia].
  - rewrite twice_cons, IH. cbn. destruct (string_dec y x) as [->|N].
    + split.
      * intros [[_ I]|K]; [|lia]. apply (count_occ_In string_dec) in I. lia.
      * intros K. destruct (count_occ string_dec l x) eqn:C; [lia|]. left. split; [reflexivity|]. apply (count_occ_In string_dec). lia.
    + split; [intros [[E _]|K]; [congruence|exact K]|now right].
Qed.
(* counters *)
Fixpoint counted (n : string) (m : list (string * nat)) : nat :=
  match m with [] => 0 | (k, c) :: m' => if String.eqb n k then c else counted n m' end.
Lemma counted_up : forall n k m, counted n (count_up k m) = if String.eqb n k then S (counted n m) else counted n m.
Proof.
  intros n k m. induction m as [|[k' c] m IH]; cbn.
  - destruct (String.eqb n k) eqn:E; reflexivity.
  - destruct (String.eqb k k') eqn:E; cbn.
    + apply String.eqb_eq in E. subst k'. now destruct (String.eqb n k).
    + rewrite IH. destruct (String.eqb n k') eqn:F; [|reflexivity]. apply String.eqb_eq in F. subst k'.
      rewrite String.eqb_sym, E. reflexivity.
Qed.
Lemma count_up_keys : forall k m, NoDup (map fst m) -> NoDup (map fst (count_up k m)) /\ forall x, In x (map fst (count_up k m)) -> x = k \/ In x (map fst m).
Proof.
  intros k m. induction m as [|[k' c] m IH]; intros ND; cbn.
  - split; [constructor; [intros []|constructor]|]. intros x [->|[]]. now left.
  - inversion ND as [|a b NI ND']; subst. destruct (String.eqb k k') eqn:E; cbn.
    + split; [exact ND|]. intros x I. now right.
    + destruct (IH ND') as [N K]. split.
      * constructor; [|exact N]. intros I. apply K in I. destruct I as [->|I]; [now rewrite String.eqb_refl in E|contradiction].
      * intros x [->|I]; [right; now left|]. apply K in I. destruct I as [->|I]; [now left|right; now right].
Qed.
Lemma twice_counted : forall m n, NoDup (map fst m) -> (In n (twice m) <-> 2 <= counted n m).
Proof.
  intros m n. induction m as [|[k c] m IH]; intros ND.
  - split; [intros []|cbn; lia].
  - inversion ND as [|a b NI ND']; subst. unfold twice in *. cbn [filter map snd].
    cbn [counted]. destruct (Nat.ltb 1 c) eqn:C; cbn [map fst In].
    + apply Nat.ltb_lt in C. destruct (String.eqb n k) eqn:E.
      * apply String.eqb_eq in E. subst k. split; [lia|now left].
      * rewrite IH by exact ND'. split; [intros [->|K]; [now rewrite String.eqb_refl in E|exact K]|now right].
    + apply Nat.ltb_ge in C. destruct (String.eqb n k) eqn:E; [|now apply IH].
      apply String.eqb_eq in E. subst k. split; [|lia]. intros K. exfalso. apply NI. apply in_map_iff in K. destruct K as (x & <- & K).
      apply filter_In in K. apply in_map. tauto.
Qed.
Definition count_all (l : list string) (m : list (string * nat)) : list (string * nat) := fold_left (fun m n => count_up n m) l m.
Lemma count_all_keys : forall l m, NoDup (map fst m) -> NoDup (map fst (count_all l m)).
Proof. induction l as [|x l IH]; intros m ND; [exact ND|]. cbn. apply IH. now apply count_up_keys. Qed.
Lemma counted_all : forall l m n, counted n (count_all l m) = counted n m + count_occ string_dec l n.
Proof.
  induction l as [|x l IH]; intros m n; cbn; [lia|]. unfold count_all in IH. rewrite IH, counted_up.
  destruct (string_dec x n) as [->|N]; [rewrite String.eqb_refl; lia|]. destruct (String.eqb n x) eqn:E; [apply String.eqb_eq in E; congruence|lia].
Qed.
Lemma twice_all : forall l n, In n (twice (count_all l [])) <-> twice_in l n.
Proof.
  intros l n. rewrite twice_counted by (apply count_all_keys; constructor). rewrite counted_all, twice_count. cbn. reflexivity.
Qed.
Lemma not_twice : forall {A} (l : list A), NoDup l -> forall x, ~ twice_in l x.
Proof.
  intros A l ND x (a & b & c & ->). apply NoDup_remove_2 in ND. apply ND. apply in_app_iff. right. apply in_app_iff. right. now left.
Qed.

Lemma starts_reserved : forall n, starts_with "__" n = true <-> reserved n.
Proof.
  intros n. unfold reserved. split.
  - destruct n as [|a [|b n]]; [discriminate| |].
    + cbn [starts_with]. now rewrite andb_false_r.
    + cbn [starts_with]. rewrite !andb_true_iff. intros (A & B & _). apply Ascii.eqb_eq in A. apply Ascii.eqb_eq in B. subst a b. now exists n.
  - intros (m & ->). reflexivity.
Qed.
Lemma is_composite_iff : forall t, is_composite t = true <-> composite t.
Proof. intros []; cbn; split; easy. Qed.
Lemma is_leaf_iff : forall t, is_leaf t = true <-> leaf t.
Proof. intros []; cbn; split; easy. Qed.
Lemma is_input_iff : forall t, is_input t = true <-> takes_input t.
Proof. intros []; unfold takes_input; cbn; split; intuition discriminate. Qed.
Lemma is_required_iff : forall v, is_required v = true <-> required v.
Proof.
  intros v. unfold is_required, required. destruct (iv_type v) as [n|t|t].
  - split; [discriminate|]. intros [(t & E) _]. discriminate E.
  - split; [discriminate|]. intros [(t' & E) _]. discriminate E.
  - destruct (iv_default v); split; try discriminate; try (intros [_ E]; discriminate E); [|reflexivity]. intros _. split; [now exists t|reflexivity].
Qed.

Section Rules.
  Variable sch : list definition.
  Variable doc : list qdef.
  Hypothesis WF : well_formed sch.
  Variable l : list call.
  Hypothesis W : walk sch doc = Some l.

  (* the calls inside definitions *)
  Definition deep (e : event) : bool :=
    match e with EnterDocument | LeaveDocument | EnterOp _ _ _ _ _ | LeaveOp | EnterFrag _ _ _ _ | LeaveFrag => false | _ => true end.
  Lemma own_deep : forall ty y x, In x (own sch ty y) -> deep (snd x) = true.
  Proof.
    intros ty y x K. rewrite own_pre in K. apply in_app_iff in K. destruct K as [K|[<-|[]]]; [|now destruct y].
    destruct (directing (snd x)) eqn:D; [now destruct (snd x)|]. apply pre_high in K; [|exact D]. subst x. now destruct y.
  Qed.
  Lemma sub_deep : forall ty set x, In x (walk_sub sch ty set) -> deep (snd x) = true.
  Proof. intros ty set x K. apply sub_in in K. destruct K as (ty' & set' & y & _ & _ & O). now apply own_deep in O. Qed.
  Lemma dirs_deep : forall c ds x, In x (walk_directives sch c ds) -> deep (snd x) = true.
  Proof. intros c ds x K. apply directives_directing in K. now destruct (snd x). Qed.
  Lemma vars_deep : forall c vs x, In x (flat_map (walk_variable sch c) vs) -> deep (snd x) = true.
  Proof. intros c vs x K. apply variables_valued in K. destruct K as [K|(v & _ & ->)]; [now destruct (snd x)|reflexivity]. Qed.
  Lemma deep_nil : forall {A} (f : call -> list A), (forall x, deep (snd x) = true -> f x = []) ->
    forall b, (forall x, In x b -> deep (snd x) = true) -> flat_map f b = [].
  Proof. intros A f F b. induction b as [|x b IH]; intros B; [reflexivity|]. cbn. rewrite F, IH; [reflexivity| |]; intros; apply B; [now right|now left]. Qed.
  Lemma calls_flat : forall {A} (f : call -> list A) d ty, (forall x, deep (snd x) = true -> f x = []) -> start_type sch d = Some ty ->
    flat_map f (calls sch d) = f (match d with QFrag n tc ds set => (def_ctx ty, EnterFrag n tc ds set) | QOp k n ds vs set => (def_ctx ty, EnterOp k n ds vs set) end) ++ f (foot d ty).
  Proof.
    intros A f d ty F S. rewrite (calls_eq _ _ _ S), !flat_map_app. rewrite (deep_nil f F (walk_sub _ _ _)) by apply sub_deep. cbn [app flat_map].
    rewrite app_nil_r. destruct d as [n tc ds set|k n ds vs set]; cbn [head flat_map]; f_equal; rewrite ?flat_map_app.
    - rewrite (deep_nil f F (walk_directives _ _ _)) by apply dirs_deep. now rewrite app_nil_r.
    - rewrite (deep_nil f F (walk_directives _ _ _)) by apply dirs_deep. rewrite (deep_nil f F (flat_map _ _)) by apply vars_deep. now rewrite app_nil_r.
  Qed.
  Lemma counter_run : forall (f : call -> list string) (g : string -> lerr),
    let step := fun m x => (count_all (f x) m, match snd x with LeaveDocument => map g (twice m) | _ => [] end) in
    (forall x, snd x = EnterDocument \/ snd x = LeaveDocument -> f x = []) ->
    forall e, In e (out step [] l) <-> exists n, e = g n /\ twice_in (flat_map f l) n.
  Proof.
    intros f g step Z e. destruct (walk_parts _ _ _ W) as [EQ T]. rewrite EQ. rewrite out_cons, out_app. cbn [flat_map snd fst step].
    rewrite (Z (no_ctx, EnterDocument)) by now left. rewrite flat_map_app. cbn [flat_map]. rewrite (Z (no_ctx, LeaveDocument)) by now right. cbn [count_all fold_left app]. rewrite app_nil_r.
    assert (B : forall x, In x (flat_map (calls sch) doc) -> snd x <> EnterDocument /\ snd x <> LeaveDocument).
    { intros x I. apply in_flat_map in I. destruct I as (d & D & I). destruct (start_type sch d) as [ty|] eqn:S; [|now destruct (T _ D)].
      rewrite (calls_eq _ _ _ S), !in_app_iff in I. destruct I as [I|[I|[<-|[]]]].
      - destruct d; cbn [head In] in I; (destruct I as [<-|I]; [split; discriminate|]).
        + apply dirs_deep in I. destruct (snd x); try discriminate I; split; discriminate.
        + apply in_app_iff in I. destruct I as [I|I]; [apply dirs_deep in I|apply vars_deep in I]; destruct (snd x); try discriminate I; split; discriminate.
      - apply sub_deep in I. destruct (snd x); try discriminate I; split; discriminate.
      - destruct d; split; discriminate. }
    assert (R : forall b m, (forall x, In x b -> snd x <> EnterDocument /\ snd x <> LeaveDocument) -> out step m b = [] /\ fin step m b = count_all (flat_map f b) m).
    { induction b as [|x b IH]; intros m Q; [split; reflexivity|]. rewrite out_cons, fin_cons. cbn [step fst snd flat_map].
      destruct (IH (count_all (f x) m)) as [I1 I2]; [intros y Y; apply Q; now right|].
      fold step in I1, I2 |- *. rewrite I1, I2. split.
      - destruct (Q x (or_introl eq_refl)) as [_ Q2]. destruct (snd x); try reflexivity. contradiction.
      - unfold count_all. now rewrite fold_left_app. }
    destruct (R _ [] B) as [R1 R2]. rewrite R1, R2. cbn [app]. rewrite out_one. cbn [step snd]. rewrite in_map_iff. split.
    - intros (n & <- & K). exists n. split; [reflexivity|]. now apply twice_all.
    - intros (n & -> & K). exists n. split; [reflexivity|]. now apply twice_all.
  Qed.
  Lemma step_same : forall {E S} (f g : S -> call -> S * list E), (forall s x, f s x = g s x) -> forall b s, out f s b = out g s b.
  Proof. intros E S f g H b. induction b as [|x b IH]; intros s; [reflexivity|]. rewrite !out_cons, H. now rewrite IH. Qed.
  Lemma flat_calls : forall {A} (f : call -> list A) (g : qdef -> list A),
    (forall x, deep (snd x) = true -> f x = []) -> (forall c, f (c, EnterDocument) = [] /\ f (c, LeaveDocument) = []) ->
    (forall d ty, start_type sch d = Some ty -> f (match d with QFrag n tc ds set => (def_ctx ty, EnterFrag n tc ds set) | QOp k n ds vs set => (def_ctx ty, EnterOp k n ds vs set) end) ++ f (foot d ty) = g d) ->
    flat_map f l = flat_map g doc.
  Proof.
    intros A f g F D G. destruct (walk_parts _ _ _ W) as [EQ T]. rewrite EQ. cbn [flat_map]. rewrite flat_map_app. cbn [flat_map].
    rewrite (proj1 (D _)), (proj2 (D _)). cbn [app]. rewrite app_nil_r.
    revert T. generalize doc as rest. induction rest as [|d rest IH]; intros T; [reflexivity|]. cbn [flat_map]. rewrite flat_map_app, IH; [|intros; apply T; now right].
    f_equal. destruct (start_type sch d) as [ty|] eqn:S; [|now destruct (T d (or_introl eq_refl))]. rewrite (calls_flat f _ _ F S). now apply G.
  Qed.
  Lemma unique_operation_names_ok : forall e, In e (errors_of unique_operation_names l) <->
    exists n, e = TwoOperations n /\ twice_in (operation_names doc) n.
  Proof.
    intros e. set (f := fun x : call => match snd x with EnterOp _ (Some n) _ _ _ => [n] | _ => [] end).
    assert (F : flat_map f l = operation_names doc).
    { apply flat_calls.
      - intros [c x] D. now destruct x.
      - intros c. now split.
      - now intros [n tc ds set|k [n|] ds vs set] ty _. }
    rewrite <- F, <- counter_run; [|intros [c x] [K|K]; cbn in K; subst x; reflexivity].
    unfold errors_of. change (snd (run (v_step unique_operation_names) (v_start unique_operation_names) l)) with (out (v_step unique_operation_names) [] l).
    rewrite (step_same _ (fun m x => (count_all (f x) m, match snd x with LeaveDocument => map TwoOperations (twice m) | _ => [] end))); [reflexivity|].
    intros s [c x]. destruct x; try reflexivity. now destruct name.
  Qed.
  Lemma unique_fragment_names_ok : forall e, In e (errors_of unique_fragment_names l) <->
    exists n, e = TwoFragments n /\ twice_in (fragment_names doc) n.
  Proof.
    intros e. set (f := fun x : call => match snd x with EnterFrag n _ _ _ => [n] | _ => [] end).
    assert (F : flat_map f l = fragment_names doc).
    { apply flat_calls.
      - intros [c x] D. now destruct x.
      - intros c. now split.
      - now intros [n tc ds set|k [n|] ds vs set] ty _. }
    rewrite <- F, <- counter_run; [|intros [c x] [K|K]; cbn in K; subst x; reflexivity].
    unfold errors_of. change (snd (run (v_step unique_fragment_names) (v_start unique_fragment_names) l)) with (out (v_step unique_fragment_names) [] l).
    rewrite (step_same _ (fun m x => (count_all (f x) m, match snd x with LeaveDocument => map TwoFragments (twice m) | _ => [] end))); [reflexivity|].
    intros s [c x]. now destruct x.
  Qed.

  Lemma in_document : exists c, In (c, EnterDocument) l.
  Proof. exists no_ctx. apply (walk_in _ _ _ W). now left. Qed.
  Lemma several_count : forall ds, several ds <-> 1 < List.length (filter is_operation ds).
  Proof.
    induction ds as [|d ds IH].
    - split; [|cbn; lia]. intros (a & o & b & p & c & E & _). destruct a; discriminate E.
    - cbn [filter]. destruct (is_operation d) eqn:O; cbn [List.length].
      + split.
        * intros (a & o & b & p & c & E & OO & OP). destruct a as [|z a]; cbn in E.
          -- injection E as -> ->. rewrite filter_app, app_length. cbn [filter]. destruct p; [contradiction|]. cbn. lia.
          -- injection E as -> ->. assert (K : several (a ++ o :: b ++ p :: c)) by now exists a, o, b, p, c. apply IH in K. lia.
        * intros K. destruct (filter is_operation ds) as [|p rest] eqn:F; [cbn in K; lia|].
          assert (I : In p (filter is_operation ds)) by (rewrite F; now left). apply filter_In in I. destruct I as [I P].
          apply in_split in I. destruct I as (b & c & ->). exists [], d, b, p, c. split; [reflexivity|]. now destruct d, p.
      + rewrite <- IH. split.
        * intros (a & o & b & p & c & E & OO & OP). destruct a as [|z a]; cbn in E; injection E as -> ->.
          -- now destruct o.
          -- now exists a, o, b, p, c.
        * intros (a & o & b & p & c & -> & OO & OP). now exists (d :: a), o, b, p, c.
  Qed.
  Lemma lone_anonymous_operation_ok : forall e, In e (errors_of (lone_anonymous_operation doc) l) <->
    e = NotAlone /\ several doc /\ exists k ds vs set, In (QOp k None ds vs set) doc.
  Proof.
    intros e. unfold lone_anonymous_operation. rewrite stateless_in. split.
    - intros ([c x] & I & K). destruct x; try destruct K. cbn [snd] in K. apply in_flat_map in K. destruct K as (d & D & K).
      destruct d as [|k [n|] ds vs set]; try destruct K. destruct (Nat.ltb _ _) eqn:C in K; [|destruct K]. destruct K as [<-|[]].
      apply Nat.ltb_lt in C. apply several_count in C. split; [reflexivity|]. split; [exact C|]. now exists k, ds, vs, set.
    - intros (-> & C & k & ds & vs & set & I). destruct in_document as (c & D). exists (c, EnterDocument). split; [exact D|]. cbn [snd].
      apply in_flat_map. eexists. split; [exact I|]. apply several_count in C. apply Nat.ltb_lt in C. cbv beta iota zeta. rewrite C. now left.
  Qed.

  Let T := starts sch doc l W.
  Lemma known_type_names_ok : forall e, In e (errors_of (known_type_names sch) l) <->
    exists n, e = UnknownType n /\ mentions_type doc n /\ (forall t, ~ named sch n t) /\ ~ reserved n.
  Proof.
    intros e. unfold known_type_names. rewrite stateless_in.
    assert (U : forall n, In e (unknown_type sch n) <-> e = UnknownType n /\ (forall t, ~ named sch n t) /\ ~ reserved n).
    { intros n. unfold unknown_type. destruct (type_by_name sch n) as [t|] eqn:E.
      - split; [intros []|]. intros (_ & K & _). destruct (K t). apply type_by_name_in. exact E.
      - pose proof (proj1 (type_by_name_none _ _ (wf_types _ WF)) E) as NT. destruct (starts_with "__" n) eqn:R.
        + apply starts_reserved in R. split; [intros []|]. tauto.
        + split; [intros [<-|[]]|intros (-> & _); now left]. split; [reflexivity|]. split; [exact NT|]. intros K. apply starts_reserved in K. congruence. }
    split.
    - intros ([c x] & I & K). destruct x; try destruct K.
      + cbn [snd] in K. apply U in K. exists tc. split; [tauto|]. split; [|tauto]. left. exists name, dirs, set. apply (ev_frag _ _ _ W). now exists c.
      + cbn [snd] in K. apply U in K. exists (inner_type (vd_type v)). split; [tauto|]. split; [|tauto]. right; right. exists v. split; [|symmetry; apply base_inner].
        apply (ev_variable _ _ _ W). now exists c.
      + destruct tc as [tc|]; [|destruct K]. cbn [snd] in K. apply U in K. exists tc. split; [tauto|]. split; [|tauto]. right; left. exists dirs, sub.
        apply (ev_inline _ _ WF _ W) in I. destruct I as (ty & set & O & J & _). apply (item_iff _ WF _ T). now exists ty, set.
    - intros (n & -> & M & N & R).
      assert (K : In (UnknownType n) (unknown_type sch n)) by now apply U.
      destruct M as [(f & ds & set & I)|[(ds & sub & I)|(v & V & E)]].
      + apply (ev_frag _ _ _ W) in I. destruct I as (c & I). exists (c, EnterFrag f n ds set). now split.
      + apply (item_iff _ WF _ T) in I. destruct I as (ty & set & O & J). exists (in_inline sch ty (Some n), EnterInline (Some n) ds sub). split; [|exact K].
        apply (ev_inline _ _ WF _ W). exists ty, set. auto.
      + apply (ev_variable _ _ _ W) in V. destruct V as (c & V). exists (c, EnterVariable v). split; [exact V|]. cbn [snd]. rewrite base_inner, E. exact K.
  Qed.
  Lemma fragments_on_composite_types_ok : forall e, In e (errors_of (fragments_on_composite_types sch) l) <->
    exists f tc t, e = NotComposite f tc /\ named sch tc t /\ ~ composite t /\
      match f with Some n => exists ds set, In (QFrag n tc ds set) doc | None => exists ds sub, item doc (NInline (Some tc) ds sub) end.
  Proof.
    intros e. unfold fragments_on_composite_types. rewrite stateless_in.
    assert (U : forall f n, In e (not_composite sch f n) <-> exists t, e = NotComposite f n /\ named sch n t /\ ~ composite t).
    { intros f n. unfold not_composite. destruct (type_by_name sch n) as [t|] eqn:E.
      - apply type_by_name_ok in E; [|apply (wf_types _ WF)]. destruct (is_composite t) eqn:C.
        + split; [intros []|]. intros (t' & _ & K & NC). apply type_by_name_ok in K, E; try apply (wf_types _ WF).
          rewrite K in E. injection E as <-. now apply is_composite_iff in C.
        + split; [intros [<-|[]]; exists t; split; [reflexivity|]; split; [exact E|]; intros K; apply is_composite_iff in K; congruence|].
          intros (t' & -> & _). now left.
      - split; [intros []|]. intros (t' & _ & K & NC). apply type_by_name_ok in K; [congruence|apply (wf_types _ WF)]. }
    split.
    - intros ([c x] & I & K). destruct x; try destruct K.
      + cbn [snd] in K. apply U in K. destruct K as (t & -> & N & C). exists (Some name), tc, t. split; [reflexivity|].
        split; [exact N|]. split; [exact C|]. exists dirs, set. apply (ev_frag _ _ _ W). now exists c.
      + destruct tc as [tc|]; [|destruct K]. cbn [snd] in K. apply U in K. destruct K as (t & -> & N & C). exists None, tc, t. split; [reflexivity|].
        split; [exact N|]. split; [exact C|]. exists dirs, sub.
        apply (ev_inline _ _ WF _ W) in I. destruct I as (ty & set & O & J & _). apply (item_iff _ WF _ T). now exists ty, set.
    - intros (f & tc & t & -> & N & C & P).
      assert (K : In (NotComposite f tc) (not_composite sch f tc)) by (apply U; now exists t).
      destruct f as [n|].
      + destruct P as (ds & set & I). apply (ev_frag _ _ _ W) in I. destruct I as (c & I). exists (c, EnterFrag n tc ds set). now split.
      + destruct P as (ds & sub & I). apply (item_iff _ WF _ T) in I. destruct I as (ty & set & O & J). exists (in_inline sch ty (Some tc), EnterInline (Some tc) ds sub). split; [|exact K].
        apply (ev_inline _ _ WF _ W). exists ty, set. auto.
  Qed.
  Lemma variables_are_input_types_ok : forall e, In e (errors_of (variables_are_input_types sch) l) <->
    exists v t, e = NotInput (vd_name v) (vd_type v) /\ variable_of doc v /\ named sch (base (vd_type v)) t /\ ~ takes_input t.
  Proof.
    intros e. unfold variables_are_input_types. rewrite stateless_in. split.
    - intros ([c x] & I & K). destruct x; try destruct K. cbn [snd] in K. destruct (type_by_name sch _) as [t|] eqn:E; [|destruct K].
      destruct (is_input t) eqn:C; [destruct K|]. destruct K as [<-|[]]. exists v, t. split; [reflexivity|]. split; [apply (ev_variable _ _ _ W); now exists c|].
      rewrite base_inner in E. split; [now apply type_by_name_in|]. intros K. apply is_input_iff in K. congruence.
    - intros (v & t & -> & V & N & C). apply (ev_variable _ _ _ W) in V. destruct V as (c & V). exists (c, EnterVariable v). split; [exact V|]. cbn [snd].
      apply type_by_name_ok in N; [|apply (wf_types _ WF)]. rewrite base_inner, N. destruct (is_input t) eqn:I; [|now left]. now apply is_input_iff in I.
  Qed.
  Lemma leaf_field_selections_ok : forall e, In e (errors_of (leaf_field_selections sch) l) <->
    exists ty n args sub f t, field_at sch doc ty n args sub /\ selects sch ty n f /\ named sch (base (f_type f)) t /\
      ((leaf t /\ sub <> [] /\ e = LeafSelection n (f_type f)) \/ (~ leaf t /\ sub = [] /\ e = NoSelection n (f_type f))).
  Proof.
    intros e. unfold leaf_field_selections. rewrite stateless_in. split.
    - intros ([c x] & I & K). destruct x; try destruct K. apply (ev_field _ _ WF _ W) in I. destruct I as (ty & set & O & J & ->).
      cbn [snd fst in_field c_type] in K. destruct (typed sch (sub_type sch ty n)) as [t|] eqn:E; [|destruct K].
      destruct (sub_type sch ty n) as [u|] eqn:U; [|destruct K]. apply (sub_type_ok _ WF) in U. destruct U as (f & S & <-).
      apply (typed_ok _ WF) in E. destruct E as (u' & [= <-] & N).
      exists ty, n, args, sub, f, t. split; [now exists set, al, dirs|]. split; [exact S|]. split; [exact N|].
      destruct (is_leaf t) eqn:L.
      + apply is_leaf_iff in L. destruct sub; [destruct K|]. destruct K as [<-|[]]. left. split; [exact L|]. split; [discriminate|reflexivity].
      + destruct sub; [|destruct K]. destruct K as [<-|[]]. right. split; [|now split]. intros X. apply is_leaf_iff in X. congruence.
    - intros (ty & n & args & sub & f & t & (set & al & ds & O & J) & S & N & K).
      exists (in_field sch ty n, EnterField al n args ds sub). split; [apply (ev_field _ _ WF _ W); exists ty, set; auto|].
      cbn [snd fst in_field c_type]. assert (U : sub_type sch ty n = Some (f_type f)) by (apply (sub_type_ok _ WF); now exists f). rewrite U.
      assert (E : typed sch (Some (f_type f)) = Some t) by (apply (typed_ok _ WF); now exists (f_type f)). rewrite E.
      destruct K as [(L & NE & ->)|(L & -> & ->)].
      + apply is_leaf_iff in L. rewrite L. destruct sub; [contradiction|]. now left.
      + destruct (is_leaf t) eqn:X; [now apply is_leaf_iff in X|]. now left.
  Qed.
  Lemma fields_on_correct_type_ok : forall e, In e (errors_of (fields_on_correct_type) l) <->
    (exists ty n args sub t, e = NoField n (type_name t) /\ field_at sch doc ty n args sub /\ stands sch ty t /\ ~ reserved n /\
       forall f, In f (fields_of t) -> f_name f <> n) \/
    (e = RootTypename /\ exists n ds vs set al args ds' sub, In (QOp KSubscription n ds vs set) doc /\ In (NField al "__typename" args ds' sub) set).
  Proof.
    intros e. unfold fields_on_correct_type. rewrite stateless_in. split.
    - intros ([c x] & I & K). destruct x; try destruct K.
      + cbn [snd] in K. destruct k; try destruct K. right. apply in_flat_map in K. destruct K as (s & S & K).
        destruct s as [al n args ds sub| |]; try destruct K. destruct (String.eqb n "__typename") eqn:E; [|destruct K]. destruct K as [<-|[]]. apply String.eqb_eq in E. subst n.
        split; [reflexivity|]. exists name, dirs, vars, set, al, args, ds, sub. split; [|exact S]. apply (ev_op _ _ _ W). now exists c.
      + left. apply (ev_field _ _ WF _ W) in I. destruct I as (ty & set & O & J & ->). cbn [snd fst in_field c_parent] in K.
        destruct (typed sch ty) as [t|] eqn:E; [|destruct K]. destruct (starts_with "__" n) eqn:R; [destruct K|].
        destruct (field_by_name t n) as [f|] eqn:F; [destruct K|]. destruct K as [<-|[]].
        apply (typed_ok _ WF) in E. exists ty, n, args, sub, t. split; [reflexivity|]. split; [now exists set, al, dirs|]. split; [exact E|].
        split; [intros X; apply starts_reserved in X; congruence|]. intros f FI FN.
        rewrite field_by_name_fields in F. apply (find_none _ _ F) in FI. rewrite FN, String.eqb_refl in FI. discriminate.
    - intros [(ty & n & args & sub & t & -> & (set & al & ds & O & J) & S & R & F)|(-> & n & ds & vs & set & al & args & ds' & sub & I & S)].
      + exists (in_field sch ty n, EnterField al n args ds sub). split; [apply (ev_field _ _ WF _ W); exists ty, set; auto|].
        cbn [snd fst in_field c_parent]. apply (typed_ok _ WF) in S. rewrite S.
        destruct (starts_with "__" n) eqn:X; [now apply starts_reserved in X|].
        destruct (field_by_name t n) as [f|] eqn:FN; [|now left]. rewrite field_by_name_fields in FN. apply find_some in FN. destruct FN as [FI FE].
        apply String.eqb_eq in FE. now destruct (F f FI).
      + apply (ev_op _ _ _ W) in I. destruct I as (c & I). exists (c, EnterOp KSubscription n ds vs set). split; [exact I|]. cbn [snd].
        apply in_flat_map. eexists. split; [exact S|]. cbn. now left.
  Qed.
  Lemma known_fragment_names_ok : forall e, In e (errors_of (known_fragment_names doc) l) <->
    exists n ds, e = UnknownFragment n /\ item doc (NSpread n ds) /\ ~ In n (fragment_names doc).
  Proof.
    intros e. unfold known_fragment_names. rewrite stateless_in. split.
    - intros ([c x] & I & K). destruct x; try destruct K. cbn [snd] in K. destruct (known_fragment doc n None) eqn:F; [destruct K|]. destruct K as [<-|[]].
      exists n, dirs. split; [reflexivity|]. apply known_fragment_none in F. split; [|exact F].
      apply (ev_spread _ _ WF _ W) in I. destruct I as (ty & set & O & J & _). apply (item_iff _ WF _ T). now exists ty, set.
    - intros (n & ds & -> & I & F). apply (item_iff _ WF _ T) in I. destruct I as (ty & set & O & J). exists (at_type sch ty, EnterSpread n ds).
      split; [apply (ev_spread _ _ WF _ W); exists ty, set; auto|]. cbn [snd]. apply known_fragment_none in F. rewrite F. now left.
  Qed.

  Lemma two_arguments_in : forall args e, In e (two_arguments args) <-> exists n, e = TwoArguments n /\ twice_in (map fst args) n.
  Proof.
    intros args e. unfold two_arguments.
    assert (F : forall m, fold_left (fun m (a : string * gvalue) => count_up (fst a) m) args m = count_all (map fst args) m).
    { induction args as [|a args IH]; intros m; [reflexivity|]. cbn. now rewrite IH. }
    rewrite F, in_map_iff. split.
    - intros (n & <- & K). exists n. split; [reflexivity|]. now apply twice_all.
    - intros (n & -> & K). exists n. split; [reflexivity|]. now apply twice_all.
  Qed.
  Lemma unique_argument_names_ok : forall e, In e (errors_of unique_argument_names l) <->
    exists n args, e = TwoArguments n /\ twice_in (map fst args) n /\
      ((exists al f ds sub, item doc (NField al f args ds sub)) \/ (exists d, directive_used doc d /\ d_args d = args)).
  Proof.
    intros e. unfold unique_argument_names. rewrite stateless_in. split.
    - intros ([c x] & I & K). destruct x; try destruct K; cbn [snd] in K; apply two_arguments_in in K; destruct K as (m & -> & K).
      + exists m, (d_args d). split; [reflexivity|]. split; [exact K|]. right. exists d. split; [|reflexivity]. apply (ev_directive _ _ WF _ W). now exists c.
      + exists m, args. split; [reflexivity|]. split; [exact K|]. left. exists al, n, dirs, sub.
        apply (ev_field _ _ WF _ W) in I. destruct I as (ty & set & O & J & _). apply (item_iff _ WF _ T). now exists ty, set.
    - intros (n & args & -> & K & [(al & f & ds & sub & I)|(d & U & <-)]).
      + apply (item_iff _ WF _ T) in I. destruct I as (ty & set & O & J). exists (in_field sch ty f, EnterField al f args ds sub).
        split; [apply (ev_field _ _ WF _ W); exists ty, set; auto|]. cbn [snd]. apply two_arguments_in. now exists n.
      + apply (ev_directive _ _ WF _ W) in U. destruct U as (c & U). exists (c, EnterDirective d). split; [exact U|]. cbn [snd].
        apply two_arguments_in. now exists n.
  Qed.

  Lemma missing_in : forall used defs m, In m (missing used defs) <-> In m defs /\ required m /\ ~ In (iv_name m) (map fst used).
  Proof.
    intros used defs m. unfold missing. rewrite filter_In, andb_true_iff, negb_true_iff, is_required_iff. split.
    - intros (I & R & N). split; [exact I|]. split; [exact R|]. intros K. apply in_map_iff in K. destruct K as (a & E & K).
      assert (X : existsb (fun a : string * gvalue => String.eqb (fst a) (iv_name m)) used = true); [|congruence].
      apply existsb_exists. exists a. split; [exact K|]. now apply String.eqb_eq.
    - intros (I & R & N). split; [exact I|]. split; [exact R|]. destruct (existsb _ used) eqn:X; [|reflexivity]. exfalso. apply N.
      apply existsb_exists in X. destruct X as (a & K & E). apply String.eqb_eq in E. rewrite <- E. now apply in_map.
  Qed.
  Lemma provided_required_arguments_ok : forall e, In e (errors_of (provided_required_arguments sch) l) <->
    (exists ty n args sub f m, e = MissingFieldArgument n (iv_name m) (iv_type m) /\ field_at sch doc ty n args sub /\ selects sch ty n f /\
       In m (f_args f) /\ required m /\ ~ In (iv_name m) (map fst args)) \/
    (exists d defs rep ls m, e = MissingDirectiveArgument (d_name d) (iv_name m) (iv_type m) /\ directive_used doc d /\
       defines sch (d_name d) defs rep ls /\ In m defs /\ required m /\ ~ In (iv_name m) (map fst (d_args d))).
  Proof.
    intros e. unfold provided_required_arguments. rewrite stateless_in. split.
    - intros ([c x] & I & K). destruct x; try destruct K; cbn [snd fst] in K.
      + right. rewrite known_directive_same in K by apply (wf_directives _ WF). destruct (directive_by_name sch (d_name d)) as [dd|] eqn:D; [|destruct K].
        apply directive_by_name_ok in D; [|apply (wf_directives _ WF)]. destruct D as [DN D]. apply in_map_iff in K. destruct K as (m & <- & K). apply missing_in in K.
        exists d, (dd_args dd), (dd_repeatable dd), (dd_locations dd), m. split; [reflexivity|]. split; [apply (ev_directive _ _ WF _ W); now exists c|]. tauto.
      + left. apply (ev_field _ _ WF _ W) in I. destruct I as (ty & set & O & J & ->). cbn [in_field c_parent] in K.
        destruct (typed sch ty) as [t|] eqn:E; [|destruct K]. destruct (field_by_name t n) as [f|] eqn:F; [|destruct K].
        apply in_map_iff in K. destruct K as (m & <- & K). apply missing_in in K.
        exists ty, n, args, sub, f, m. split; [reflexivity|]. split; [now exists set, al, dirs|]. split; [|tauto].
        apply (found_ok _ WF). unfold found. now rewrite E.
    - intros [(ty & n & args & sub & f & m & -> & (set & al & ds & O & J) & S & K)|(d & defs & rep & ls & m & -> & U & D & K)].
      + exists (in_field sch ty n, EnterField al n args ds sub). split; [apply (ev_field _ _ WF _ W); exists ty, set; auto|].
        cbn [snd fst in_field c_parent]. apply (found_ok _ WF) in S. unfold found in S. destruct (typed sch ty) as [t|]; [|discriminate]. rewrite S.
        apply in_map_iff. exists m. split; [reflexivity|]. now apply missing_in.
      + apply (ev_directive _ _ WF _ W) in U. destruct U as (c & U). exists (c, EnterDirective d). split; [exact U|]. cbn [snd].
        rewrite known_directive_same by apply (wf_directives _ WF).
        assert (X : directive_by_name sch (d_name d) = Some (mkddef (d_name d) defs rep ls)) by (apply directive_by_name_ok; [apply (wf_directives _ WF)|split; [reflexivity|exact D]]).
        rewrite X. cbn [dd_args]. apply in_map_iff. exists m. split; [reflexivity|]. now apply missing_in.
  Qed.

  Lemma again_in : forall o seen e, In e (again seen o) <-> exists k, e = TwoInputFields k /\ ((In k seen /\ In k (map fst o)) \/ twice_in (map fst o) k).
  Proof.
    induction o as [|[k v] o IH]; intros seen e; cbn [again map fst].
    - split; [intros []|]. intros (k & _ & [[_ []]|K]). now apply not_twice_nil in K.
    - destruct (smem k seen) eqn:M.
      + apply smem_iff in M. cbn [In]. rewrite IH. split.
        * intros [<-|(k' & -> & K)]; [exists k; split; [reflexivity|]; left; split; [exact M|now left]|].
          exists k'. split; [reflexivity|]. rewrite twice_cons. destruct K as [[A B]|K]; [left; split; [exact A|now right]|right; now right].
        * intros (k' & -> & [[A [->|B]]|K]); [now left|right; exists k'; split; [reflexivity|left; now split]|].
          apply twice_cons in K. destruct K as [[-> B]|K]; right; eexists; (split; [reflexivity|]); [left; now split|now right].
      + assert (M' : ~ In k seen) by (intros X; apply smem_iff in X; congruence). rewrite IH. split.
        * intros (k' & -> & K). exists k'. split; [reflexivity|]. rewrite twice_cons. destruct K as [[[->|A] B]|K].
          -- right; left. now split.
          -- left. split; [exact A|now right].
          -- right; now right.
        * intros (k' & -> & K). exists k'. split; [reflexivity|]. rewrite twice_cons in K. destruct K as [[A [->|B]]|[[-> B]|K]].
          -- contradiction.
          -- left. split; [now right|exact B].
          -- left. split; [now left|exact B].
          -- now right.
  Qed.
  Lemma unique_input_field_names_ok : forall e, In e (errors_of unique_input_field_names l) <->
    exists k o, e = TwoInputFields k /\ value_of doc (GObj o) /\ twice_in (map fst o) k.
  Proof.
    intros e. unfold unique_input_field_names. rewrite stateless_in. split.
    - intros ([c x] & I & K). destruct x; try destruct K. cbn [snd] in K. apply again_in in K. destruct K as (k & -> & [[[] _]|K]).
      exists k, o. split; [reflexivity|]. split; [|exact K]. apply (ev_object _ _ WF _ W). now exists c.
    - intros (k & o & -> & V & K). apply (ev_object _ _ WF _ W) in V. destruct V as (c & V). exists (c, EnterObject o). split; [exact V|]. cbn [snd].
      apply again_in. exists k. split; [reflexivity|now right].
  Qed.

  Definition single (n : string) : Prop := exists args ls, defines sch n args false ls.
  Lemma directive_unique : forall n a r ls a' r' ls', defines sch n a r ls -> defines sch n a' r' ls' -> a = a' /\ r = r' /\ ls = ls'.
  Proof.
    intros n a r ls a' r' ls' A B.
    assert (X : directive_by_name sch n = Some (mkddef n a r ls)) by (apply directive_by_name_ok; [apply (wf_directives _ WF)|split; [reflexivity|exact A]]).
    assert (Y : directive_by_name sch n = Some (mkddef n a' r' ls')) by (apply directive_by_name_ok; [apply (wf_directives _ WF)|split; [reflexivity|exact B]]).
    rewrite X in Y. injection Y as -> -> ->. auto.
  Qed.
  Lemma single_ok : forall n, (match known_directive sch n None with Some dd => dd_repeatable dd = false | None => False end) <-> single n.
  Proof.
    intros n. rewrite known_directive_same by apply (wf_directives _ WF). destruct (directive_by_name sch n) as [dd|] eqn:D.
    - apply directive_by_name_ok in D; [|apply (wf_directives _ WF)]. destruct D as [DN D]. split.
      + intros R. rewrite R in D. now exists (dd_args dd), (dd_locations dd).
      + intros (a & ls & K). pose proof (directive_unique _ _ _ _ _ _ _ D K). tauto.
    - split; [intros []|]. intros (a & ls & K).
      assert (X : directive_by_name sch n = Some (mkddef n a false ls)) by (apply directive_by_name_ok; [apply (wf_directives _ WF)|split; [reflexivity|exact K]]). congruence.
  Qed.
  Lemma duplicates_in : forall ds seen e, In e (duplicates sch seen ds) <->
    exists n, e = TwoDirectives n /\ single n /\ ((In n seen /\ In n (map d_name ds)) \/ twice_in (map d_name ds) n).
  Proof.
    induction ds as [|d ds IH]; intros seen e; cbn [duplicates map].
    - split; [intros []|]. intros (k & _ & _ & [[_ []]|K]). now apply not_twice_nil in K.
    - pose proof (single_ok (d_name d)) as SO. destruct (known_directive sch (d_name d) None) as [dd|].
      + destruct (dd_repeatable dd).
        * assert (NS : ~ single (d_name d)) by (intros X; apply SO in X; discriminate). rewrite IH. split.
          -- intros (n & -> & S & K). exists n. split; [reflexivity|]. split; [exact S|]. rewrite twice_cons. destruct K as [[A B]|K]; [left; split; [exact A|now right]|right; now right].
          -- intros (n & -> & S & K). exists n. split; [reflexivity|]. split; [exact S|]. rewrite twice_cons in K.
             destruct K as [[A [B|B]]|[[B _]|K]]; [subst n; contradiction|left; now split|subst n; contradiction|now right].
        * assert (S : single (d_name d)) by now apply SO. destruct (smem (d_name d) seen) eqn:M.
          -- apply smem_iff in M. cbn [In]. rewrite IH. split.
             ++ intros [<-|(n & -> & S' & K)]; [exists (d_name d); split; [reflexivity|]; split; [exact S|]; left; split; [exact M|now left]|].
                exists n. split; [reflexivity|]. split; [exact S'|]. rewrite twice_cons. destruct K as [[A B]|K]; [left; split; [exact A|now right]|right; now right].
             ++ intros (n & -> & S' & [[A [<-|B]]|K]); [now left|right; exists n; split; [reflexivity|]; split; [exact S'|]; left; now split|].
                apply twice_cons in K. destruct K as [[-> B]|K]; right; eexists; (split; [reflexivity|]; split; [assumption|]); [left; now split|now right].
          -- assert (M' : ~ In (d_name d) seen) by (intros X; apply smem_iff in X; congruence). rewrite IH. split.
             ++ intros (n & -> & S' & K). exists n. split; [reflexivity|]. split; [exact S'|]. rewrite twice_cons. destruct K as [[[<-|A] B]|K].
                ** right; left. now split.
                ** left. split; [exact A|now right].
                ** right; now right.
             ++ intros (n & -> & S' & K). exists n. split; [reflexivity|]. split; [exact S'|]. rewrite twice_cons in K. destruct K as [[A [<-|B]]|[[-> B]|K]].
                ** contradiction.
                ** left. split; [now right|exact B].
                ** left. split; [now left|exact B].
                ** now right.
      + assert (NS : ~ single (d_name d)) by (intros X; now apply SO in X). rewrite IH. split.
        * intros (n & -> & S & K). exists n. split; [reflexivity|]. split; [exact S|]. rewrite twice_cons. destruct K as [[A B]|K]; [left; split; [exact A|now right]|right; now right].
        * intros (n & -> & S & K). exists n. split; [reflexivity|]. split; [exact S|]. rewrite twice_cons in K.
          destruct K as [[A [B|B]]|[[B _]|K]]; [subst n; contradiction|left; now split|subst n; contradiction|now right].
  Qed.
  Lemma unique_directives_per_location_ok : forall e, In e (errors_of (unique_directives_per_location sch) l) <->
    exists n loc ds args ls, e = TwoDirectives n /\ directed doc loc ds /\ defines sch n args false ls /\ twice_in (map d_name ds) n.
  Proof.
    intros e. unfold unique_directives_per_location. rewrite stateless_in. split.
    - intros ([c x] & I & K).
      assert (G : forall ds, In e (duplicates sch [] ds) -> (exists loc, directed doc loc ds) ->
        exists n loc ds args ls, e = TwoDirectives n /\ directed doc loc ds /\ defines sch n args false ls /\ twice_in (map d_name ds) n).
      { intros ds J (loc & D). apply duplicates_in in J. destruct J as (n & -> & (args & ls & S) & [[[] _]|J]). exists n, loc, ds, args, ls. auto. }
      destruct x; try destruct K; cbn [snd] in K; apply (G _ K).
      + eexists. apply directed_operation with (n := name) (vs := vars) (set := set). apply (ev_op _ _ _ W). exists c. exact I.
      + eexists. apply directed_fragment with (n := name) (tc := tc) (set := set). apply (ev_frag _ _ _ W). now exists c.
      + eexists. apply (ev_field _ _ WF _ W) in I. destruct I as (ty & set & O & J & _). eapply directed_field. apply (item_iff _ WF _ T). exists ty, set. split; [exact O|exact J].
      + eexists. apply (ev_spread _ _ WF _ W) in I. destruct I as (ty & set & O & J & _). eapply directed_spread. apply (item_iff _ WF _ T). exists ty, set. split; [exact O|exact J].
      + eexists. apply (ev_inline _ _ WF _ W) in I. destruct I as (ty & set & O & J & _). eapply directed_inline. apply (item_iff _ WF _ T). exists ty, set. split; [exact O|exact J].
    - intros (n & loc & ds & args & ls & -> & D & S & K).
      assert (J : In (TwoDirectives n) (duplicates sch [] ds)).
      { apply duplicates_in. exists n. split; [reflexivity|]. split; [now exists args, ls|now right]. }
      destruct D as [k m ds vs set I|m tc ds set I|al m as' ds sub I|m ds I|tc ds sub I].
      + apply (ev_op _ _ _ W) in I. destruct I as (c & I). eexists. split; [exact I|exact J].
      + apply (ev_frag _ _ _ W) in I. destruct I as (c & I). eexists. split; [exact I|exact J].
      + apply (item_iff _ WF _ T) in I. destruct I as (ty & set & O & I). eexists (_, _). split; [apply (ev_field _ _ WF _ W); exists ty, set; eauto|exact J].
      + apply (item_iff _ WF _ T) in I. destruct I as (ty & set & O & I). eexists (_, _). split; [apply (ev_spread _ _ WF _ W); exists ty, set; eauto|exact J].
      + apply (item_iff _ WF _ T) in I. destruct I as (ty & set & O & I). eexists (_, _). split; [apply (ev_inline _ _ WF _ W); exists ty, set; eauto|exact J].
  Qed.
End Rules.
