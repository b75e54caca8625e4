(** Proofs about splitting operations. *)
From Coq Require Import String Ascii List Bool.
From Verif Require Import Ast AstHashModel SplitModel SplitSpec.
Import ListNotations.
Local Open Scope string_scope.
Local Open Scope list_scope.

Definition theirs (w : list step * wanted) : bool := match snd w with Schema _ => false | _ => true end.
Lemma about_iff name : (String.prefix "__" name && negb (String.eqb name "__typename"))%bool = true <-> about_schema name.
Proof.
  rewrite andb_true_iff, negb_true_iff, String.eqb_neq. unfold about_schema.
  assert (E : String.prefix "__" name = true <-> exists s, name = ("__" ++ s)%string).
  { destruct name as [|a [|b s]]; cbn [String.prefix].
    - split; [discriminate|]. intros [s E]. discriminate E.
    - split; [destruct (ascii_dec "_" a); discriminate|]. intros [s E]. discriminate E.
    - destruct (ascii_dec "_" a) as [<-|Ha]; [destruct (ascii_dec "_" b) as [<-|Hb]|].
      + split; [|intros _; destruct s; reflexivity]. intros _. exists s. reflexivity.
      + split; [discriminate|]. intros [s' [= E _]]. congruence.
      + split; [discriminate|]. intros [s' [= E _]]. congruence. }
  now rewrite E.
Qed.
Lemma about_dec name : about_schema name \/ ~ about_schema name.
Proof.
  destruct (String.prefix "__" name && negb (String.eqb name "__typename"))%bool eqn:E.
  - left. now apply about_iff.
  - right. intros H. apply about_iff in H. congruence.
Qed.
Lemma not_about name : ~ about_schema name -> (String.prefix "__" name && negb (String.eqb name "__typename"))%bool = false.
Proof. intros H. apply not_true_iff_false. intros E. apply H. now apply about_iff. Qed.

Definition all_items := (fix all (l : list sel) : list sel * list sel :=
                match l with
                | [] => ([], [])
                | y :: l' => let '(d, i) := partition_item y in let '(ds, is) := all l' in ((d ++ ds)%list, (i ++ is)%list)
                end).
Lemma all_items_is l : all_items l = partition_selection_set l.
Proof.
  unfold partition_selection_set. induction l as [|x l IH]; [reflexivity|]. cbn [all_items map List.concat]. rewrite IH. now destruct (partition_item x).
Qed.
Lemma partition_cons x l : partition_selection_set (x :: l) =
  (fst (partition_item x) ++ fst (partition_selection_set l), snd (partition_item x) ++ snd (partition_selection_set l)).
Proof. reflexivity. Qed.

(** * What is wanted *)
Lemma wants_total_all l : Forall (fun x => exists w, wants [x] w) l -> exists w, wants l w.
Proof.
  induction 1 as [|x l [w Hw] Hl [w' Hw']]; [exists []; constructor|].
  inversion Hw as [|nm al ar i s o sub l0 w0 Ha H0|nm al ar i s o l0 w0 Ha H0|nm al ar i s o sub l0 w1 w0 Ha Hs H1 H0|t i s sub l0 w1 w0 H1 H0|nm l0 w0 H0]; subst;
    eexists; econstructor; eassumption.
Qed.
Lemma wants_one x : exists w, wants [x] w.
Proof.
  induction x as [n a args inc skip om sub IH|t inc skip sub IH|n] using sel_ind'.
  - destruct (about_dec n) as [Ha|Ha]; [eexists; apply wants_schema; [exact Ha|constructor]|].
    destruct sub as [|y sub]; [eexists; apply wants_plain; [exact Ha|constructor]|].
    apply wants_total_all in IH. destruct IH as [w Hw]. eexists. eapply wants_below; [exact Ha|discriminate|exact Hw|constructor].
  - apply wants_total_all in IH. destruct IH as [w Hw]. eexists. eapply wants_on; [exact Hw|constructor].
  - eexists. apply wants_spread. constructor.
Qed.
Lemma wants_exists l : exists w, wants l w.
Proof. apply wants_total_all. apply Forall_forall. intros x _. apply wants_one. Qed.
Lemma wants_unique l w : wants l w -> forall w', wants l w' -> w = w'.
Proof.
  induction 1 as [|nm al ar i s o sub l w Ha H IH|nm al ar i s o l w Ha H IH|nm al ar i s o sub l w1 w Ha Hs H1 IH1 H IH|t i s sub l w1 w H1 IH1 H IH|nm l w H IH];
    intros w' H'; inversion H'; subst; try contradiction; try congruence;
    repeat match goal with
           | IH : forall w', wants ?l w' -> _ = w', H : wants ?l _ |- _ => apply IH in H; subst
           end; reflexivity.
Qed.
Lemma wants_app l1 w1 l2 w2 : wants l1 w1 -> wants l2 w2 -> wants (l1 ++ l2) (w1 ++ w2).
Proof.
  intros H H2. induction H as [|nm al ar i s o sub l w Ha H IH|nm al ar i s o l w Ha H IH|nm al ar i s o sub l w1 w Ha Hs H1 _ H IH|t i s sub l w1 w H1 _ H IH|nm l w H IH];
    cbn [app]; try rewrite <- app_assoc; try (constructor; assumption). exact H2.
Qed.

Definition down (w : list (list step * wanted)) := filter theirs w.
Definition intro (w : list (list step * wanted)) := filter (fun x => negb (theirs x)) w.
Lemma filter_under (f : list step * wanted -> bool) st w : (forall p, f (st :: fst p, snd p) = f p) ->
  filter f (map (fun p => (st :: fst p, snd p)) w) = map (fun p => (st :: fst p, snd p)) (filter f w).
Proof. intros H. induction w as [|p w IH]; cbn [map filter]; [reflexivity|]. rewrite H, IH. destruct (f p); reflexivity. Qed.
Lemma wants_nothing w : wants [] w -> w = [].
Proof. intros H. now inversion H. Qed.

Lemma wants_cons x l w : wants (x :: l) w -> exists w1 w2, w = w1 ++ w2 /\ wants [x] w1 /\ wants l w2.
Proof.
  intros Hw.
  inversion Hw as [|nm al ar i s o sub l0 w0 Ha H0|nm al ar i s o l0 w0 Ha H0|nm al ar i s o sub l0 w1 w0 Ha Hs H1 H0|t i s sub l0 w1 w0 H1 H0|nm l0 w0 H0]; subst.
  - eexists [_], w0. split; [reflexivity|]. split; [|exact H0]. apply wants_schema; [exact Ha|constructor].
  - eexists [_], w0. split; [reflexivity|]. split; [|exact H0]. apply wants_plain; [exact Ha|constructor].
  - eexists (_ ++ []), w0. split; [rewrite app_nil_r; reflexivity|]. split; [|exact H0]. eapply wants_below; [exact Ha|exact Hs|exact H1|constructor].
  - eexists (_ ++ []), w0. split; [rewrite app_nil_r; reflexivity|]. split; [|exact H0]. eapply wants_on; [exact H1|constructor].
  - eexists [_], w0. split; [reflexivity|]. split; [|exact H0]. apply wants_spread. constructor.
Qed.
Definition split_ok (l : list sel) : Prop :=
  forall w, wants l w -> wants (fst (partition_selection_set l)) (down w) /\ wants (snd (partition_selection_set l)) (intro w).
Lemma split_app x l : split_ok [x] -> split_ok l -> split_ok (x :: l).
Proof.
  intros Hx Hl w Hw. rewrite partition_cons. cbn [fst snd].
  pose proof (wants_cons x l w Hw) as Hs.
  destruct Hs as [w1 [w2 [-> [H1 H2]]]]. destruct (Hx w1 H1) as [Hd Hi]. destruct (Hl w2 H2) as [Hd' Hi'].
  rewrite partition_cons in Hd, Hi. cbn in Hd, Hi. rewrite app_nil_r in Hd, Hi.
  unfold down, intro. rewrite !filter_app. split; apply wants_app; assumption.
Qed.
Lemma split_all l : Forall (fun x => split_ok [x]) l -> split_ok l.
Proof.
  induction 1 as [|x l Hx Hl IH]; [|now apply split_app]. intros w Hw. apply wants_nothing in Hw. subst. split; constructor.
Qed.
Lemma item_field name al args inc skip om sub : ~ about_schema name -> partition_item (SField name al args inc skip om sub) =
  let '(down, intro) := partition_selection_set sub in
  (if ((match sub with [] => true | _ => false end) || (match down with [] => false | _ => true end))%bool then [SField name al args inc skip om down] else [],
   if (match intro with [] => false | _ => true end) then [SField name al args inc skip om intro] else []).
Proof.
  intros Ha. rewrite <- all_items_is. apply not_about in Ha.
  change (partition_item (SField name al args inc skip om sub)) with
    (if (String.prefix "__" name && negb (String.eqb name "__typename"))%bool then ([], [SField name al args inc skip om sub])
      else
        let '(down, intro) := all_items sub in
        (if ((match sub with [] => true | _ => false end) || (match down with [] => false | _ => true end))%bool then [SField name al args inc skip om down] else [],
         if (match intro with [] => false | _ => true end) then [SField name al args inc skip om intro] else [])).
  now rewrite Ha.
Qed.
Lemma item_schema name al args inc skip om sub : about_schema name -> partition_item (SField name al args inc skip om sub) = ([], [SField name al args inc skip om sub]).
Proof. intros Ha. apply about_iff in Ha. cbn [partition_item]. now rewrite Ha. Qed.
Lemma item_fragment t inc skip sub : partition_item (SFrag t inc skip sub) =
  let '(down, intro) := partition_selection_set sub in
  (match down with [] => [] | _ => [SFrag t inc skip down] end, match intro with [] => [] | _ => [SFrag t inc skip intro] end).
Proof. rewrite <- all_items_is. reflexivity. Qed.

Lemma split_one x : split_ok [x].
Proof.
  induction x as [n a args inc skip om sub IH|t inc skip sub IH|n] using sel_ind'; intros w Hw; rewrite partition_cons; cbn [fst snd partition_selection_set map List.concat]; rewrite !app_nil_r.
  - inversion Hw as [|nm al ar i s o sub0 l0 w0 Ha H0|nm al ar i s o l0 w0 Ha H0|nm al ar i s o sub0 l0 w1 w0 Ha Hs H1 H0|t i s sub0 l0 w1 w0 H1 H0|nm l0 w0 H0]; subst; apply wants_nothing in H0; subst.
    + rewrite item_schema by exact Ha. cbn [fst snd]. split; [constructor|]. apply wants_schema; [exact Ha|constructor].
    + rewrite item_field by exact Ha. cbn [partition_selection_set map List.concat fst snd orb]. split; [|constructor]. apply wants_plain; [exact Ha|constructor].
    + apply split_all in IH. destruct (IH w1 H1) as [Hd Hi]. rewrite item_field by exact Ha. destruct (partition_selection_set sub) as [d i0]. cbn [fst snd] in *.
      unfold down, intro. rewrite app_nil_r, !filter_under by reflexivity. fold (down w1). fold (intro w1). split.
      * destruct sub as [|y sub]; [congruence|]. cbn [orb]. destruct d as [|d0 ds]; [apply wants_nothing in Hd; rewrite Hd; constructor|].
        rewrite <- (app_nil_r (map _ (down w1))). eapply wants_below; [exact Ha|discriminate|exact Hd|constructor].
      * destruct i0 as [|d0 ds]; [apply wants_nothing in Hi; rewrite Hi; constructor|].
        rewrite <- (app_nil_r (map _ (intro w1))). eapply wants_below; [exact Ha|discriminate|exact Hi|constructor].
  - inversion Hw as [| | | |t0 i s sub0 l0 w1 w0 H1 H0|]; subst. apply wants_nothing in H0; subst. apply split_all in IH. destruct (IH w1 H1) as [Hd Hi].
    rewrite item_fragment. destruct (partition_selection_set sub) as [d i0]. cbn [fst snd] in *.
    unfold down, intro. rewrite app_nil_r, !filter_under by reflexivity. fold (down w1). fold (intro w1). split.
    + destruct d as [|d0 ds]; [apply wants_nothing in Hd; rewrite Hd; constructor|]. rewrite <- (app_nil_r (map _ (down w1))). eapply wants_on; [exact Hd|constructor].
    + destruct i0 as [|d0 ds]; [apply wants_nothing in Hi; rewrite Hi; constructor|]. rewrite <- (app_nil_r (map _ (intro w1))). eapply wants_on; [exact Hi|constructor].
  - inversion Hw; subst. match goal with H : wants [] _ |- _ => apply wants_nothing in H; subst end. split; [apply wants_spread|]; constructor.
Qed.
Lemma split_good l : split_ok l.
Proof. apply split_all. apply Forall_forall. intros x _. apply split_one. Qed.

Lemma ours_iff (p : list step * wanted) : theirs p = false <-> ours (snd p).
Proof. destruct p as [st [x|n al ar i s o|n]]; cbn; split; try discriminate; try (intros _; constructor); try reflexivity; intros H; inversion H. Qed.
Lemma chosen_filter {A} (P : A -> Prop) f l : (forall a, In a l -> (f a = true <-> P a)) -> chosen P l (filter f l).
Proof.
  induction l as [|a l IH]; intros H; cbn [filter]; [constructor|]. assert (Ha := H a (or_introl eq_refl)). specialize (IH (fun b Hb => H b (or_intror Hb))).
  destruct (f a); [apply chosen_keep; [now apply Ha|exact IH]|apply chosen_skip; [|exact IH]]. intros Hp. apply Ha in Hp. discriminate.
Qed.
Lemma down_chosen w : chosen (fun p => ~ ours (snd p)) w (down w).
Proof.
  apply chosen_filter. intros p _. rewrite <- ours_iff. destruct (theirs p); split; congruence.
Qed.
Lemma intro_chosen w : chosen (fun p => ours (snd p)) w (intro w).
Proof. apply chosen_filter. intros p _. rewrite <- ours_iff, negb_true_iff. reflexivity. Qed.

(** * Nothing superfluous *)
Definition lean_parts (l : list sel) : Prop := Forall lean (fst (partition_selection_set l)) /\ Forall lean (snd (partition_selection_set l)).
Lemma lean_all l : Forall (fun x => lean_parts [x]) l -> lean_parts l.
Proof.
  induction 1 as [|x l [H1 H2] Hl [IH1 IH2]]; [split; constructor|]. unfold lean_parts. rewrite partition_cons in *. cbn [fst snd partition_selection_set map List.concat] in *.
  rewrite app_nil_r in *. split; apply Forall_app; now split.
Qed.
Lemma lean_one x : lean_parts [x].
Proof.
  induction x as [n a args inc skip om sub IH|t inc skip sub IH|n] using sel_ind'; unfold lean_parts; rewrite partition_cons; cbn [fst snd partition_selection_set map List.concat]; rewrite !app_nil_r.
  - apply lean_all in IH. destruct IH as [H1 H2]. destruct (about_dec n) as [Ha|Ha].
    + rewrite item_schema by exact Ha. cbn [fst snd]. split; [constructor|]. constructor; [now apply lean_schema|constructor].
    + rewrite item_field by exact Ha. destruct sub as [|y sub].
      * cbn [partition_selection_set map List.concat fst snd orb]. split; [|constructor]. constructor; [apply lean_plain|constructor].
      * destruct (partition_selection_set (y :: sub)) as [d i]. cbn [fst snd orb] in *. split.
        -- destruct d as [|d0 ds]; constructor; [|constructor]. apply lean_field; [exact H1|discriminate].
        -- destruct i as [|d0 ds]; constructor; [|constructor]. apply lean_field; [exact H2|discriminate].
  - apply lean_all in IH. destruct IH as [H1 H2]. rewrite item_fragment. destruct (partition_selection_set sub) as [d i]. cbn [fst snd] in *. split.
    + destruct d as [|d0 ds]; constructor; [|constructor]. apply lean_fragment; [exact H1|discriminate].
    + destruct i as [|d0 ds]; constructor; [|constructor]. apply lean_fragment; [exact H2|discriminate].
  - cbn. split; repeat constructor.
Qed.
Lemma lean_good l : lean_parts l.
Proof. apply lean_all. apply Forall_forall. intros x _. apply lean_one. Qed.
(** ... so each part is empty only if nothing is wanted of it. *)
Lemma lean_wants l w : Forall lean l -> wants l w -> w = [] -> l = [].
Proof.
  intros Hl Hw. induction Hw as [|nm al ar i s o sub l w Ha H IH|nm al ar i s o l w Ha H IH|nm al ar i s o sub l w1 w Ha Hs H1 IH1 H IH|t i s sub l w1 w H1 IH1 H IH|nm l w H IH];
    try discriminate; [reflexivity| |]; intros E; apply app_eq_nil in E; destruct E as [E _]; apply map_eq_nil in E; exfalso; apply Forall_inv in Hl; inversion Hl; subst; try contradiction;
    match goal with H : ?s <> [] |- _ => apply H; now apply IH1 end.
Qed.

(** * Variables *)
Lemma in_value_iff n v : In n (value_usages v) <-> in_value n v.
Proof.
  induction v as [nm|z|b|s|b| |s|l IH|o IH] using gvalue_ind'; cbn [value_usages]; try (split; [intros []|intros H; now inversion H]).
  - split; [intros [->|[]]; constructor|]. intros H. inversion H. now left.
  - rewrite in_flat_map. rewrite Forall_forall in IH. split.
    + intros [v [Hi Hn]]. eapply in_list; [exact Hi|]. now apply IH.
    + intros H. inversion H as [|l' v Hi Hn|]; subst. exists v. split; [exact Hi|]. now apply IH.
  - rewrite in_flat_map. rewrite Forall_forall in IH. split.
    + intros [[k v] [Hi Hn]]. eapply in_object; [exact Hi|]. now apply (IH (k, v)).
    + intros H. inversion H as [| |o' k v Hi Hn]; subst. exists (k, v). split; [exact Hi|]. now apply (IH (k, v)).
Qed.
Lemma in_conditions n i s : In n (condition_usages i s) <-> i = Some n \/ s = Some n.
Proof.
  unfold condition_usages. rewrite in_app_iff. destruct i as [i|], s as [s|]; cbn [In]; intuition congruence.
Qed.
Lemma in_usages n x : In n (usages x) <-> in_selection n x.
Proof.
  induction x as [nm a args inc skip om sub IH|t inc skip sub IH|nm] using sel_ind'; cbn [usages].
  - rewrite !in_app_iff, in_conditions, in_flat_map. rewrite Forall_forall in IH. split.
    + intros [H|[[->| ->]|[x [Hi Hx]]]]; [|constructor|constructor|eapply in_field_below; [exact Hi|]; now apply IH].
      destruct args as [args|]; [|destruct H]. apply in_flat_map in H. destruct H as [[k v] [Hi Hv]]. eapply in_argument; [exact Hi|]. now apply in_value_iff.
    + intros H. inversion H; subst.
      * left. apply in_flat_map. eexists. split; [eassumption|]. now apply in_value_iff.
      * tauto.
      * tauto.
      * right; right. eexists. split; [eassumption|]. now apply IH.
  - rewrite in_app_iff, in_conditions, in_flat_map. rewrite Forall_forall in IH. split.
    + intros [[->| ->]|[x [Hi Hx]]]; [constructor|constructor|]. eapply in_fragment_below; [exact Hi|]. now apply IH.
    + intros H. inversion H; subst; [tauto|tauto|]. right. eexists. split; [eassumption|]. now apply IH.
  - split; [intros []|]. intros H. inversion H.
Qed.
(** Variables of the parts are variables of the whole. *)
Definition vars_ok (l : list sel) : Prop :=
  forall n, (in_selections n (fst (partition_selection_set l)) -> in_selections n l) /\ (in_selections n (snd (partition_selection_set l)) -> in_selections n l).
Lemma in_selections_app n l l' : in_selections n (l ++ l') <-> in_selections n l \/ in_selections n l'.
Proof.
  unfold in_selections. split.
  - intros [x [Hi Hx]]. apply in_app_iff in Hi. destruct Hi; [left|right]; now exists x.
  - intros [[x [Hi Hx]]|[x [Hi Hx]]]; exists x; (split; [apply in_app_iff; tauto|exact Hx]).
Qed.
Lemma vars_all l : Forall (fun x => vars_ok [x]) l -> vars_ok l.
Proof.
  induction 1 as [|x l Hx Hl IH]; intros n; [split; intros [y [[] _]]|]. change (x :: l) with ([x] ++ l). rewrite in_selections_app. cbn [app].
  specialize (Hx n). specialize (IH n). rewrite partition_cons in *. cbn [fst snd partition_selection_set map List.concat] in *. rewrite !app_nil_r in Hx. rewrite !in_selections_app. tauto.
Qed.
Lemma in_one n x : in_selections n [x] <-> in_selection n x.
Proof. unfold in_selections. split; [intros [y [[<-|[]] H]]; exact H|]. intros H. exists x. split; [now left|exact H]. Qed.
Lemma field_vars n nm a args i s o sub sub' : (in_selections n sub' -> in_selections n sub) -> in_selection n (SField nm a args i s o sub') -> in_selection n (SField nm a args i s o sub).
Proof.
  intros Hs H. inversion H; subst; try (econstructor; eassumption). destruct Hs as [y [Hi Hy]]; [eexists; split; eassumption|]. eapply in_field_below; eassumption.
Qed.
Lemma fragment_vars n t i s sub sub' : (in_selections n sub' -> in_selections n sub) -> in_selection n (SFrag t i s sub') -> in_selection n (SFrag t i s sub).
Proof.
  intros Hs H. inversion H; subst; try (econstructor; eassumption). destruct Hs as [y [Hi Hy]]; [eexists; split; eassumption|]. eapply in_fragment_below; eassumption.
Qed.
Lemma vars_one x : vars_ok [x].
Proof.
  induction x as [nm a args inc skip om sub IH|t inc skip sub IH|nm] using sel_ind'; intros n; rewrite partition_cons; cbn [fst snd partition_selection_set map List.concat]; rewrite !app_nil_r, in_one.
  - apply vars_all in IH. specialize (IH n). destruct (about_dec nm) as [Ha|Ha].
    + rewrite item_schema by exact Ha. cbn [fst snd]. rewrite in_one. split; [intros [y [[] _]]|trivial].
    + rewrite item_field by exact Ha. destruct (partition_selection_set sub) as [d i]. cbn [fst snd] in *. split.
      * destruct (_ || _)%bool; [rewrite in_one; apply field_vars; tauto|intros [y [[] _]]].
      * destruct i as [|i0 i]; [intros [y [[] _]]|]. rewrite in_one. apply field_vars. tauto.
  - apply vars_all in IH. specialize (IH n). rewrite item_fragment. destruct (partition_selection_set sub) as [d i]. cbn [fst snd] in *. split.
    + destruct d as [|i0 d]; [intros [y [[] _]]|]. rewrite in_one. apply fragment_vars. tauto.
    + destruct i as [|i0 i]; [intros [y [[] _]]|]. rewrite in_one. apply fragment_vars. tauto.
  - cbn. rewrite in_one. split; [trivial|intros [y [[] _]]].
Qed.
Lemma vars_good l : vars_ok l.
Proof. apply vars_all. apply Forall_forall. intros x _. apply vars_one. Qed.

(** * Operations *)
Lemma whole op d i : partition_operation op = (d, i) ->
  op_sels d = fst (partition_selection_set (op_sels op)) /\ op_name d = op_name op /\ op_kind d = op_kind op /\ op_vars d = op_vars op
  /\ match i with
     | None => snd (partition_selection_set (op_sels op)) = []
     | Some i => op_sels i = snd (partition_selection_set (op_sels op)) /\ op_sels i <> [] /\ op_name i = op_name op /\ op_kind i = op_kind op
                 /\ op_vars i = option_map (filter (fun d => existsb (String.eqb (vd_name d)) (flat_map usages (op_sels i)))) (op_vars op)
     end.
Proof.
  unfold partition_operation. destruct (partition_selection_set (op_sels op)) as [down intro]. intros [= <- <-]. cbn [op_sels op_name op_kind op_vars fst snd].
  repeat (split; [reflexivity|]). destruct intro as [|x intro]; [reflexivity|]. cbn [op_sels op_name op_kind op_vars]. repeat split. discriminate.
Qed.
Lemma splits op d i w : partition_operation op = (d, i) -> wants (op_sels op) w ->
  (exists wd, chosen (fun p => ~ ours (snd p)) w wd /\ wants (op_sels d) wd)
  /\ match i with
     | Some i => exists wi, chosen (fun p => ours (snd p)) w wi /\ wi <> [] /\ wants (op_sels i) wi
     | None => Forall (fun p => ~ ours (snd p)) w
     end.
Proof.
  intros E Hw. apply whole in E. destruct E as [Ed [_ [_ [_ Hi]]]]. destruct (split_good _ w Hw) as [H1 H2]. rewrite <- Ed in H1. split.
  - exists (down w). split; [apply down_chosen|exact H1].
  - destruct i as [i|].
    + destruct Hi as [Ei [Hne _]]. rewrite <- Ei in H2. exists (intro w). split; [apply intro_chosen|]. split; [|exact H2]. intros E. apply Hne.
      eapply lean_wants; [rewrite Ei; apply lean_good|exact H2|exact E].
    + rewrite Hi in H2. apply wants_nothing in H2. apply Forall_forall. intros p Hp Ho. apply ours_iff in Ho.
      assert (Hin : In p (intro w)) by (apply filter_In; split; [exact Hp|now rewrite Ho]). rewrite H2 in Hin. destruct Hin.
Qed.
Lemma nothing_more op d i : partition_operation op = (d, i) -> Forall lean (op_sels d) /\ forall i', i = Some i' -> Forall lean (op_sels i').
Proof.
  intros E. apply whole in E. destruct E as [Ed [_ [_ [_ Hi]]]]. rewrite Ed. split; [apply lean_good|]. intros i' ->. destruct Hi as [-> _]. apply lean_good.
Qed.
Lemma headed op d i : partition_operation op = (d, i) ->
  op_name d = op_name op /\ op_kind d = op_kind op /\ op_vars d = op_vars op /\ forall i', i = Some i' -> op_name i' = op_name op /\ op_kind i' = op_kind op.
Proof. intros E. apply whole in E. destruct E as [_ [H1 [H2 [H3 Hi]]]]. repeat (split; [assumption|]). intros i' ->. tauto. Qed.
Lemma variables_kept op d i : partition_operation op = (d, Some i) ->
  match op_vars op with
  | Some l => exists l', op_vars i = Some l' /\ chosen (fun v => in_selections (vd_name v) (op_sels i)) l l'
  | None => op_vars i = None
  end.
Proof.
  intros E. apply whole in E. destruct E as [_ [_ [_ [_ [_ [_ [_ [_ ->]]]]]]]]. destruct (op_vars op) as [l|]; [|reflexivity]. eexists. split; [reflexivity|].
  apply chosen_filter. intros v _. rewrite existsb_exists. unfold in_selections. split.
  - intros [n [Hn He]]. apply String.eqb_eq in He. subst n. apply in_flat_map in Hn. destruct Hn as [x [Hi Hx]]. exists x. split; [exact Hi|]. now apply in_usages.
  - intros [x [Hi Hx]]. exists (vd_name v). split; [|apply String.eqb_refl]. apply in_flat_map. exists x. split; [exact Hi|]. now apply in_usages.
Qed.
Lemma still_defined op d i : partition_operation op = (d, i) -> variables_defined op -> variables_defined d /\ forall i', i = Some i' -> variables_defined i'.
Proof.
  intros E Hop. pose proof (whole _ _ _ E) as [Ed [_ [_ [Ev Hi]]]]. split.
  - intros n Hn. rewrite Ed in Hn. rewrite Ev. apply Hop. exact (proj1 (vars_good _ n) Hn).
  - intros i' -> n Hn. destruct Hi as [Ei _]. pose proof Hn as Hn'. rewrite Ei in Hn'. apply (proj2 (vars_good _ n)) in Hn'. destruct (Hop n Hn') as [l [v [El [Hv En]]]].
    pose proof (variables_kept _ _ _ E) as Hk. rewrite El in Hk. destruct Hk as [l' [El' Hc]]. exists l', v. split; [exact El'|]. split; [|exact En].
    clear - Hc Hv Hn En. induction Hc as [|a l l' Hp Hc IH|a l l' Hp Hc IH]; [destruct Hv| |].
    + destruct Hv as [->|Hv]; [|now apply IH]. rewrite En in Hp. contradiction.
    + destruct Hv as [->|Hv]; [now left|right; now apply IH].
Qed.
