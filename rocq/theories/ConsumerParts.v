(** Proofs about the consumer schema, part by part. *)
From Coq Require Import String List Bool.
From Verif Require Import Ast ConsumerModel ConsumerSpec ConsumerProofs.
Import ListNotations.
Local Open Scope string_scope.
Local Open Scope list_scope.

Notation opened := (Forall (fun ds => ~ marked ds)).

Lemma in_open_inputs v l : In v (open_inputs l) <-> In v l /\ ~ marked (iv_dirs v).
Proof. unfold open_inputs. rewrite filter_In. now rewrite accessible_iff. Qed.
Lemma in_open_fields f l : In f (open_fields l) <-> In f l /\ ~ marked (f_dirs f).
Proof. unfold open_fields. rewrite filter_In. now rewrite accessible_iff. Qed.
Lemma pruned_fields_in fs f : In f fs -> ~ marked (f_dirs f) -> In (pruned_field f) (pruned_fields fs).
Proof.
  intros Hf Hm. assert (Hin : In f (open_fields fs)) by (now apply in_open_fields). unfold pruned_fields.
  destruct (open_fields fs) eqn:E; [destruct Hin|]. rewrite <- E in *. apply in_map. exact Hin.
Qed.
Lemma pruned_fields_only fs f : (fs = [] \/ exists f, In f fs /\ ~ marked (f_dirs f)) -> In f (pruned_fields fs) ->
  exists f0, In f0 fs /\ ~ marked (f_dirs f0) /\ f = pruned_field f0.
Proof.
  intros Hc Hin. unfold pruned_fields in Hin. destruct (open_fields fs) as [|g0 gs] eqn:E.
  - destruct Hc as [->|[f' [Hf' Hm]]]; [destruct Hin|]. assert (Hx : In f' (open_fields fs)) by now apply in_open_fields.
    rewrite E in Hx. destruct Hx.
  - rewrite <- E in Hin. apply in_map_iff in Hin. destruct Hin as [f0 [<- Hf]]. apply in_open_fields in Hf. exists f0. tauto.
Qed.

Lemma pruned_part d e ds p : part d e ds p -> opened p -> accessible_definition d = true /\ part (pruned_definition d) e ds p.
Proof.
  intros Hp Ho. split.
  - inversion Hp; subst; try reflexivity; cbn; apply accessible_iff; now inversion Ho.
  - inversion Hp; subst; cbn [pruned_definition]; try (now constructor).
    + change (f_name f) with (f_name (pruned_field f)). change (f_type f) with (f_type (pruned_field f)).
      change (f_desc f) with (f_desc (pruned_field f)). change (f_dirs f) with (f_dirs (pruned_field f)).
      constructor. apply pruned_fields_in; [assumption|]. now apply Forall_inv_tail, Forall_inv in Ho.
    + change (f_name f) with (f_name (pruned_field f)). change (f_dirs f) with (f_dirs (pruned_field f)).
      constructor; [apply pruned_fields_in; [assumption|now apply Forall_inv_tail, Forall_inv in Ho]|].
      apply in_open_inputs. split; [assumption|]. now apply Forall_inv_tail, Forall_inv_tail, Forall_inv in Ho.
    + change (f_name f) with (f_name (pruned_field f)). change (f_type f) with (f_type (pruned_field f)).
      change (f_desc f) with (f_desc (pruned_field f)). change (f_dirs f) with (f_dirs (pruned_field f)).
      constructor. apply pruned_fields_in; [assumption|]. now apply Forall_inv_tail, Forall_inv in Ho.
    + change (f_name f) with (f_name (pruned_field f)). change (f_dirs f) with (f_dirs (pruned_field f)).
      constructor; [apply pruned_fields_in; [assumption|now apply Forall_inv_tail, Forall_inv in Ho]|].
      apply in_open_inputs. split; [assumption|]. now apply Forall_inv_tail, Forall_inv_tail, Forall_inv in Ho.
    + constructor. apply filter_In. split; [assumption|]. apply accessible_iff. now apply Forall_inv_tail, Forall_inv in Ho.
    + constructor. apply in_open_inputs. split; [assumption|]. now apply Forall_inv_tail, Forall_inv in Ho.
    + constructor. apply in_open_inputs. split; [assumption|]. now apply Forall_inv in Ho.
Qed.
Lemma pruned_part_only d e ds p' : accessible_definition d = true ->
  (forall n de im ds fs, (d = TypeDef (Object n de im ds fs) \/ d = TypeDef (Interface n de im ds fs)) ->
     ~ marked ds -> fs = [] \/ exists f, In f fs /\ ~ marked (f_dirs f)) ->
  part (pruned_definition d) e ds p' -> exists p, part d e ds p /\ opened p.
Proof.
  intros Ha Hc Hp. destruct d as [ds0 q m s|t|n|n de args r ls].
  - cbn in Hp. inversion Hp; subst. eexists. split; constructor.
  - destruct t as [n d ds0|n d im ds0 fs|n d im ds0 fs|n d ds0 ms|n d ds0 vs|n d ds0 fs]; cbn in Ha; apply accessible_iff in Ha; cbn in Hp.
    + inversion Hp; subst. eexists. split; [constructor|repeat (constructor; trivial)].
    + specialize (Hc n d im ds0 fs (or_introl eq_refl) Ha). inversion Hp; subst.
      * eexists. split; [constructor|repeat (constructor; trivial)].
      * destruct (pruned_fields_only fs f Hc) as [f0 [Hf [Hm ->]]]; [assumption|]. cbn [pruned_field f_name f_type f_desc f_dirs].
        eexists. split; [now constructor|repeat (constructor; trivial)].
      * destruct (pruned_fields_only fs f Hc) as [f0 [Hf [Hm ->]]]; [assumption|]. cbn [pruned_field f_name f_args] in *.
        match goal with H : In a _ |- _ => apply in_open_inputs in H; destruct H as [Hia Hma] end.
        eexists. split; [now constructor|repeat (constructor; trivial)].
      * eexists. split; [now constructor|repeat (constructor; trivial)].
    + specialize (Hc n d im ds0 fs (or_intror eq_refl) Ha). inversion Hp; subst.
      * eexists. split; [constructor|repeat (constructor; trivial)].
      * destruct (pruned_fields_only fs f Hc) as [f0 [Hf [Hm ->]]]; [assumption|]. cbn [pruned_field f_name f_type f_desc f_dirs].
        eexists. split; [now constructor|repeat (constructor; trivial)].
      * destruct (pruned_fields_only fs f Hc) as [f0 [Hf [Hm ->]]]; [assumption|]. cbn [pruned_field f_name f_args] in *.
        match goal with H : In a _ |- _ => apply in_open_inputs in H; destruct H as [Hia Hma] end.
        eexists. split; [now constructor|repeat (constructor; trivial)].
      * eexists. split; [now constructor|repeat (constructor; trivial)].
    + inversion Hp; subst; (eexists; split; [now constructor|repeat (constructor; trivial)]).
    + inversion Hp; subst.
      * eexists; split; [now constructor|repeat (constructor; trivial)].
      * match goal with H : In v _ |- _ => apply filter_In in H; destruct H as [Hiv Hmv] end. apply accessible_iff in Hmv.
        eexists; split; [now constructor|repeat (constructor; trivial)].
    + inversion Hp; subst.
      * eexists; split; [now constructor|repeat (constructor; trivial)].
      * match goal with H : In f _ |- _ => apply in_open_inputs in H; destruct H as [Hiv Hmv] end.
        eexists; split; [now constructor|repeat (constructor; trivial)].
  - inversion Hp.
  - cbn in Hp. inversion Hp; subst.
    + eexists; split; [now constructor|constructor].
    + match goal with H : In a _ |- _ => apply in_open_inputs in H; destruct H as [Hiv Hmv] end.
      eexists; split; [now constructor|repeat (constructor; trivial)].
Qed.

Lemma stripped_part d e ds p : part d e ds p -> exists p', part (stripped_definition d) e (public_dirs ds) p'.
Proof.
  intros Hp. inversion Hp; subst; cbn [stripped_definition]; eexists.
  1-3: now constructor.
  - exact (part_object_field n d0 im (public_dirs ds0) (map stripped_field fs) (stripped_field f) (in_map _ _ _ H)).
  - exact (part_object_arg n d0 im (public_dirs ds0) (map stripped_field fs) (stripped_field f) (stripped_input a) (in_map _ _ _ H) (in_map _ _ _ H0)).
  - now apply part_object_implements.
  - now constructor.
  - exact (part_interface_field n d0 im (public_dirs ds0) (map stripped_field fs) (stripped_field f) (in_map _ _ _ H)).
  - exact (part_interface_arg n d0 im (public_dirs ds0) (map stripped_field fs) (stripped_field f) (stripped_input a) (in_map _ _ _ H) (in_map _ _ _ H0)).
  - now apply part_interface_implements.
  - now constructor.
  - now apply part_member.
  - now constructor.
  - exact (part_value n d0 (public_dirs ds0) (map stripped_value vs) (stripped_value v) (in_map _ _ _ H)).
  - now constructor.
  - exact (part_input_field n d0 (public_dirs ds0) (map stripped_input fs) (stripped_input f) (in_map _ _ _ H)).
  - now constructor.
  - exact (part_directive_arg n d0 (map stripped_input args) r ls (stripped_input a) (in_map _ _ _ H)).
Qed.
Ltac from_map H := let x := fresh "x" in let E := fresh "E" in apply in_map_iff in H; destruct H as [x [E H]]; subst;
  cbn [stripped_field stripped_input stripped_value f_name f_type f_desc f_dirs f_args iv_name iv_type iv_default iv_desc iv_dirs ev_name ev_desc ev_dirs] in *.
Lemma stripped_part_only d e ds p' : part (stripped_definition d) e ds p' -> exists ds0 p, part d e ds0 p /\ ds = public_dirs ds0.
Proof.
  intros Hp. destruct d as [ds0 q m s|t|n|n de args r ls].
  - inversion Hp; subst. eexists _, _. split; [constructor|reflexivity].
  - destruct t as [n d ds0|n d im ds0 fs|n d im ds0 fs|n d ds0 ms|n d ds0 vs|n d ds0 fs]; cbn in Hp; inversion Hp; subst.
    + eexists _, _. split; [constructor|reflexivity].
    + eexists _, _. split; [constructor|reflexivity].
    + match goal with H : In f _ |- _ => from_map H end. eexists _, _. split; [now apply part_object_field|reflexivity].
    + match goal with H : In f _ |- _ => from_map H end. match goal with H : In a _ |- _ => cbn in H; from_map H end.
      eexists _, _. split; [eapply part_object_arg; eassumption|reflexivity].
    + eexists [], _. split; [now apply part_object_implements|reflexivity].
    + eexists _, _. split; [constructor|reflexivity].
    + match goal with H : In f _ |- _ => from_map H end. eexists _, _. split; [now apply part_interface_field|reflexivity].
    + match goal with H : In f _ |- _ => from_map H end. match goal with H : In a _ |- _ => cbn in H; from_map H end.
      eexists _, _. split; [eapply part_interface_arg; eassumption|reflexivity].
    + eexists [], _. split; [now apply part_interface_implements|reflexivity].
    + eexists _, _. split; [constructor|reflexivity].
    + eexists [], _. split; [now apply part_member|reflexivity].
    + eexists _, _. split; [constructor|reflexivity].
    + match goal with H : In v _ |- _ => from_map H end. eexists _, _. split; [now apply part_value|reflexivity].
    + eexists _, _. split; [constructor|reflexivity].
    + match goal with H : In f _ |- _ => from_map H end. eexists _, _. split; [now apply part_input_field|reflexivity].
  - inversion Hp.
  - cbn in Hp. inversion Hp; subst.
    + eexists [], _. split; [constructor|reflexivity].
    + match goal with H : In a _ |- _ => from_map H end. eexists _, _. split; [now apply part_directive_arg|reflexivity].
Qed.
Lemma some_true b : Some b = Some true <-> b = true.
Proof. split; [now intros [= ->]|now intros ->]. Qed.
Lemma public_part d e ds p : part d e ds p -> (public_definition d = Some true <-> public e).
Proof.
  intros Hp. inversion Hp; subst; cbn [public_definition public type_name]; rewrite ?some_true;
    try (apply negb_iff; apply internal_type_iff); try (apply negb_iff; apply internal_directive_iff); tauto.
Qed.
Lemma public_dirs_without ds : without_internal ds (public_dirs ds).
Proof.
  induction ds as [|d ds IH]; [constructor|]. unfold public_dirs. cbn [filter]. fold (public_dirs ds).
  destruct (mem (d_name d) directives_to_strip) eqn:E; cbn [negb].
  - apply without_drop; [now apply internal_directive_iff|exact IH].
  - apply without_keep; [|exact IH]. intros Hi. apply internal_directive_iff in Hi. congruence.
Qed.
Lemma without_fun ds r : without_internal ds r -> r = public_dirs ds.
Proof.
  intros H. induction H as [|d l l' Hi H IH|d l l' Hi H IH]; unfold public_dirs; cbn [filter].
  - reflexivity.
  - apply internal_directive_iff in Hi. rewrite Hi. exact IH.
  - destruct (mem (d_name d) directives_to_strip) eqn:E; cbn [negb]; [|f_equal; exact IH]. destruct Hi. now apply internal_directive_iff.
Qed.

(** * The query type *)
Lemma root_schema pick default l fb q :
  (forall ds a b c x, In (SchemaDef ds a b c) l -> pick a b c = Some x -> x = q) ->
  (exists ds a b c, In (SchemaDef ds a b c) l /\ pick a b c = Some q) -> root_name default pick fb l = Some q.
Proof.
  revert fb. induction l as [|d l IH]; intros fb Hu [ds [a [b [c [Hi Hp]]]]]; [destruct Hi|].
  assert (Hu' : forall ds a b c x, In (SchemaDef ds a b c) l -> pick a b c = Some x -> x = q) by (intros; eapply Hu; [right|]; eassumption).
  assert (Hn : (forall ds a b c, d <> SchemaDef ds a b c) -> exists ds a b c, In (SchemaDef ds a b c) l /\ pick a b c = Some q).
  { intros Hd. exists ds, a, b, c. split; [|exact Hp]. destruct Hi as [Hi|Hi]; [now destruct (Hd ds a b c)|exact Hi]. }
  destruct d as [ds' a' b' c'|t|n|n de args r ls]; cbn [root_name].
  - destruct (pick a' b' c') as [x|] eqn:E.
    + f_equal. eapply Hu; [now left|exact E].
    + apply IH; [exact Hu'|]. exists ds, a, b, c. split; [|exact Hp]. destruct Hi as [Hi|Hi]; [|exact Hi]. injection Hi as -> -> -> ->. congruence.
  - destruct t; try (apply IH; [exact Hu'|apply Hn; discriminate]).
    destruct fb; (apply IH; [exact Hu'|apply Hn; discriminate]).
  - apply IH; [exact Hu'|apply Hn; discriminate].
  - apply IH; [exact Hu'|apply Hn; discriminate].
Qed.
Lemma root_default pick default l fb :
  (forall ds a b c, In (SchemaDef ds a b c) l -> pick a b c = None) -> (fb = None \/ fb = Some default) ->
  (fb = Some default \/ exists d im ds fs, In (TypeDef (Object default d im ds fs)) l) -> root_name default pick fb l = Some default.
Proof.
  revert fb. induction l as [|d l IH]; intros fb Hn Hfb Hx.
  - destruct Hx as [->|[? [? [? [? []]]]]]. reflexivity.
  - assert (Hn' : forall ds a b c, In (SchemaDef ds a b c) l -> pick a b c = None) by (intros; eapply Hn; right; eassumption).
    assert (Hx' : (forall d' im ds fs, d <> TypeDef (Object default d' im ds fs)) -> fb = Some default \/ exists d im ds fs, In (TypeDef (Object default d im ds fs)) l).
    { intros Hd. destruct Hx as [Hx|[d' [im [ds [fs [Hi|Hi]]]]]]; [now left|now destruct (Hd d' im ds fs)|right; now exists d', im, ds, fs]. }
    destruct d as [ds' a' b' c'|t|n|n de args r ls]; cbn [root_name].
    + rewrite (Hn ds' a' b' c' (or_introl eq_refl)). apply IH; [exact Hn'|exact Hfb|apply Hx'; discriminate].
    + destruct t; try (apply IH; [exact Hn'|exact Hfb|apply Hx'; discriminate]). destruct Hfb as [->| ->].
      * destruct (String.eqb_spec name default) as [->|Hne].
        -- apply IH; [exact Hn'|now right|now left].
        -- apply IH; [exact Hn'|now left|]. right. destruct (Hx' ltac:(congruence)) as [|Hx'']; [discriminate|exact Hx''].
      * apply IH; [exact Hn'|now right|now left].
    + apply IH; [exact Hn'|exact Hfb|apply Hx'; discriminate].
    + apply IH; [exact Hn'|exact Hfb|apply Hx'; discriminate].
Qed.

(** * What introspection adds *)
Definition has_object (q : string) (l : list definition) : Prop := exists d im ds fs, In (TypeDef (Object q d im ds fs)) l.
Lemma extended q fs l : has_object q l -> exists l1 l2 d im ds fs', l = l1 ++ TypeDef (Object q d im ds fs') :: l2 /\
  extend_query q fs l = Some (l1 ++ TypeDef (Object q d im ds (fs' ++ fs)) :: l2).
Proof.
  induction l as [|x l IH]; intros [d [im [ds [fs0 Hi]]]]; [destruct Hi|].
  destruct x as [ds' a' b' c'|t|n|n de args r ls]; cbn [extend_query].
  1,3,4: destruct Hi as [Hi|Hi]; [discriminate|]; destruct IH as [l1 [l2 [d1 [im1 [ds1 [fs1 [-> E]]]]]]]; [now exists d, im, ds, fs0|];
    rewrite E; cbn [option_map]; match goal with |- exists _ _ _ _ _ _, ?x :: _ = _ /\ _ => exists (x :: l1) end; now exists l2, d1, im1, ds1, fs1.
  destruct t.
  1,3,4,5,6: destruct Hi as [Hi|Hi]; [discriminate|]; destruct IH as [l1 [l2 [d1 [im1 [ds1 [fs1 [-> E]]]]]]]; [now exists d, im, ds, fs0|];
    rewrite E; cbn [option_map]; match goal with |- exists _ _ _ _ _ _, ?x :: _ = _ /\ _ => exists (x :: l1) end; now exists l2, d1, im1, ds1, fs1.
  destruct (String.eqb_spec name q) as [->|Hne].
  - exists [], l, desc, impls, dirs, fields. split; reflexivity.
  - destruct Hi as [Hi|Hi]; [congruence|]. destruct IH as [l1 [l2 [d1 [im1 [ds1 [fs1 [-> E]]]]]]]; [now exists d, im, ds, fs0|].
    rewrite E. cbn [option_map]. exists (TypeDef (Object name desc impls dirs fields) :: l1), l2, d1, im1, ds1, fs1. split; reflexivity.
Qed.
Lemma says_app l1 l2 e ds : says (l1 ++ l2) e ds <-> says l1 e ds \/ says l2 e ds.
Proof.
  unfold says. split.
  - intros [d [p [Hi Hp]]]. apply in_app_or in Hi. destruct Hi; [left|right]; now exists d, p.
  - intros [[d [p [Hi Hp]]]|[d [p [Hi Hp]]]]; exists d, p; (split; [apply in_or_app; tauto|exact Hp]).
Qed.
Lemma says_cons d l e ds : says (d :: l) e ds <-> (exists p, part d e ds p) \/ says l e ds.
Proof.
  unfold says. split.
  - intros [d' [p [[<-|Hi] Hp]]]; [left; now exists p|right; now exists d', p].
  - intros [[p Hp]|[d' [p [Hi Hp]]]]; [exists d, p; split; [now left|exact Hp]|exists d', p; split; [now right|exact Hp]].
Qed.
Inductive of_fields (q : string) (fs : list field) : element -> list directive -> Prop :=
| of_field f : In f fs -> of_fields q fs (EField q (f_name f) (f_type f) (f_desc f)) (f_dirs f)
| of_arg f a : In f fs -> In a (f_args f) -> of_fields q fs (EArg q (f_name f) (iv_name a) (iv_type a) (iv_default a) (iv_desc a)) (iv_dirs a).
Lemma object_more q d im ds fs fs' e x :
  (exists p, part (TypeDef (Object q d im ds (fs ++ fs'))) e x p) <-> (exists p, part (TypeDef (Object q d im ds fs)) e x p) \/ of_fields q fs' e x.
Proof.
  split.
  - intros [p Hp]. inversion Hp; subst.
    + left. eexists. constructor.
    + match goal with H : In f (_ ++ _) |- _ => apply in_app_or in H; destruct H as [H|H] end; [left|right; now constructor]. eexists. now apply part_object_field.
    + match goal with H : In f (_ ++ _) |- _ => apply in_app_or in H; destruct H as [H|H] end; [left|right; now constructor]. eexists. eapply part_object_arg; eassumption.
    + left. eexists. now apply part_object_implements.
  - intros [[p Hp]|Ho].
    + inversion Hp; subst; eexists.
      * constructor.
      * apply part_object_field. apply in_or_app. now left.
      * eapply part_object_arg; [apply in_or_app; left; eassumption|assumption].
      * now apply part_object_implements.
    + inversion Ho; subst; eexists.
      * apply part_object_field. apply in_or_app. now right.
      * eapply part_object_arg; [apply in_or_app; right; eassumption|assumption].
Qed.
Lemma add_says q l d : has_object q l -> has_object q (add_definition q l d) /\
  forall e ds, says (add_definition q l d) e ds <-> says l e ds \/ added [d] q e ds.
Proof.
  intros Ho.
  assert (Happ : has_object q (l ++ [d])) by (destruct Ho as [a [b [c [x Hi]]]]; exists a, b, c, x; apply in_or_app; now left).
  assert (Plain : (forall n de im dd fs, d = TypeDef (Object n de im dd fs) -> n <> "Query") -> forall e ds, says (l ++ [d]) e ds <-> says l e ds \/ added [d] q e ds).
  { intros Hd e ds. rewrite says_app. split; (intros [H|H]; [now left|right]).
    - destruct H as [d' [p [[<-|[]] Hp]]]. eapply added_own; [now left|exact Hd|exact Hp].
    - inversion H; subst.
      + destruct H0 as [<-|[]]. exists d, p. split; [now left|assumption].
      + destruct H0 as [->|[]]. now destruct (Hd _ _ _ _ _ eq_refl).
      + destruct H0 as [->|[]]. now destruct (Hd _ _ _ _ _ eq_refl). }
  destruct d as [ds' a' b' c'|t|n|n de args r ls]; cbn [add_definition].
  1,3,4: split; [exact Happ|apply Plain; discriminate].
  destruct t. 1,3,4,5,6: split; [exact Happ|apply Plain; discriminate].
  destruct (String.eqb_spec name "Query") as [->|Hne].
  - destruct (extended q fields l Ho) as [l1 [l2 [d1 [im1 [ds1 [fs1 [-> E]]]]]]]. rewrite E. split.
    + exists d1, im1, ds1, (fs1 ++ fields). apply in_or_app. right. now left.
    + intros e ds. rewrite !says_app, !says_cons, object_more.
      assert (Hof : of_fields q fields e ds <-> added [TypeDef (Object "Query" desc impls dirs fields)] q e ds).
      { split; intros H; inversion H; subst.
        - eapply added_field; [now left|assumption].
        - eapply added_arg; [now left| |]; eassumption.
        - destruct H0 as [<-|[]]. now destruct (H1 _ _ _ _ _ eq_refl).
        - destruct H0 as [[= <- <- <- <-]|[]]. now constructor.
        - destruct H0 as [[= <- <- <- <-]|[]]. now constructor. }
      rewrite Hof. tauto.
  - split; [exact Happ|]. apply Plain. now intros n de im dd fs [= <- <- <- <- <-].
Qed.
Lemma added_cons d l q e ds : added (d :: l) q e ds <-> added [d] q e ds \/ added l q e ds.
Proof.
  split.
  - intros H. inversion H; subst.
    + destruct H0 as [<-|H0]; [left; eapply added_own; [now left| |]; eassumption|right; eapply added_own; eassumption].
    + destruct H0 as [->|H0]; [left; eapply added_field; [now left|assumption]|right; eapply added_field; eassumption].
    + destruct H0 as [->|H0]; [left; eapply added_arg; [now left| |]; eassumption|right; eapply added_arg; eassumption].
  - intros [H|H]; inversion H; subst.
    + destruct H0 as [<-|[]]. eapply added_own; [now left| |]; eassumption.
    + destruct H0 as [->|[]]. eapply added_field; [now left|assumption].
    + destruct H0 as [->|[]]. eapply added_arg; [now left| |]; eassumption.
    + eapply added_own; [right| |]; eassumption.
    + eapply added_field; [right|]; eassumption.
    + eapply added_arg; [right| |]; eassumption.
Qed.
Lemma fold_says q intro l : has_object q l -> forall e ds, says (fold_left (add_definition q) intro l) e ds <-> says l e ds \/ added intro q e ds.
Proof.
  revert l. induction intro as [|d intro IH]; intros l Ho e ds; cbn [fold_left].
  - split; [now left|]. intros [H|H]; [exact H|]. inversion H; now subst.
  - destruct (add_says q l d Ho) as [Ho' Hs]. rewrite (IH _ Ho'), Hs, (added_cons d intro). tauto.
Qed.

(** * The whole *)
Lemma pruned_ext l : extensionless l -> extensionless (map pruned_definition (filter accessible_definition l)).
Proof.
  intros Hx n Hi. apply in_map_iff in Hi. destruct Hi as [d [E Hd]]. apply filter_In in Hd. apply (Hx n).
  assert (d = TypeExtension n) as <-; [|tauto]. destruct d as [|t| |]; cbn in E; try discriminate; [destruct t; discriminate|exact E].
Qed.
Lemma schema_pruned l ds q m s : In (SchemaDef ds q m s) (map pruned_definition (filter accessible_definition l)) <-> In (SchemaDef ds q m s) l.
Proof.
  rewrite in_map_iff. split.
  - intros [d [E Hd]]. apply filter_In in Hd. destruct d as [|t| |]; cbn in E; try discriminate; [|destruct t; discriminate]. rewrite <- E. tauto.
  - intros Hi. exists (SchemaDef ds q m s). split; [reflexivity|]. apply filter_In. split; [exact Hi|reflexivity].
Qed.
Theorem built introspection l q : extensionless l -> answers l -> queried l q ->
  exists r, consumer_schema introspection l = Some r
    /\ (forall e ds, shown l e ds -> public e -> exists ds', without_internal ds ds' /\ says r e ds')
    /\ (forall e ds, added introspection q e ds -> says r e ds)
    /\ (composed l -> forall e ds', says r e ds' ->
          (exists ds, shown l e ds /\ public e /\ without_internal ds ds') \/ added introspection q e ds').
Proof.
  intros Hx Ha [Hq [Hqi [dq [dsq Hqs]]]]. unfold consumer_schema. rewrite (prune_done l Hx Ha).
  set (l1 := map pruned_definition (filter accessible_definition l)).
  assert (Hx1 : extensionless l1) by now apply pruned_ext.
  destruct (strip_some l1 Hx1) as [r0 [r [Er0 [Er Hr]]]]. rewrite Er.
  destruct (public_some l1 Hx1) as [r0' [E [Hi Hin]]]. rewrite Er0 in E. injection E as <-.
  (* what is shown survives pruning *)
  assert (Hkeep : forall e ds, shown l e ds -> public e -> exists d p, In d r0 /\ part d e ds p).
  { intros e ds [d [p [Hd [Hp Hop]]]] Hpub. destruct (pruned_part d e ds p Hp Hop) as [Hac Hp'].
    exists (pruned_definition d), p. split; [|exact Hp']. apply Hi. split.
    - apply in_map. apply filter_In. now split.
    - now apply (public_part _ _ _ _ Hp'). }
  destruct (Hkeep _ _ Hqs Hqi) as [dq0 [pq [Hdq Hpq]]].
  destruct Hr as [->|[_ Hr]]; [|destruct (Hr dq0 Hdq) as [n [de [args [rp [ls ->]]]]]; inversion Hpq].
  assert (Hobj : has_object q (map stripped_definition r0)).
  { inversion Hpq; subst. eexists _, _, _, _. apply in_map_iff. eexists. split; [|exact Hdq]. reflexivity. }
  assert (Hsch : forall ds q' m s, In (SchemaDef ds q' m s) (map stripped_definition r0) -> exists ds0, In (SchemaDef ds0 q' m s) l).
  { intros ds q' m s H. apply in_map_iff in H. destruct H as [d [E Hd]].
    destruct d as [ds0 a b c|t| |]; cbn in E; try discriminate; [|destruct t; discriminate]. injection E as <- -> -> ->.
    exists ds0. apply Hin in Hd. exact (proj1 (schema_pruned _ _ _ _ _) Hd). }
  assert (Hqn : query_type_name (map stripped_definition r0) = Some q).
  { unfold query_type_name. destruct Hq as [[[ds [m [s Hs]]] Hu]|[Hn ->]].
    - apply root_schema.
      + intros ds' a b c x H [= ->]. destruct (Hsch _ _ _ _ H) as [ds0 H0]. eapply Hu. exact H0.
      + exists (public_dirs ds), (Some q), m, s. split; [|reflexivity]. change (SchemaDef (public_dirs ds) (Some q) m s) with (stripped_definition (SchemaDef ds (Some q) m s)).
        apply in_map. apply Hi. split; [now apply schema_pruned|reflexivity].
    - apply root_default; [|now left|now right]. intros ds a b c H. destruct (Hsch _ _ _ _ H) as [ds0 H0]. destruct a as [a|]; [|reflexivity].
      now destruct (Hn ds0 a b c). }
  rewrite Hqn. eexists. split; [reflexivity|]. split; [|split].
  - intros e ds Hs Hp. exists (public_dirs ds). split; [apply public_dirs_without|]. apply fold_says; [exact Hobj|]. left.
    destruct (Hkeep e ds Hs Hp) as [d [p [Hd Hpt]]]. destruct (stripped_part _ _ _ _ Hpt) as [p' Hp'].
    exists (stripped_definition d), p'. split; [now apply in_map|exact Hp'].
  - intros e ds H. apply fold_says; [exact Hobj|now right].
  - intros Hc e ds' H. apply fold_says in H; [|exact Hobj]. destruct H as [[d [p [Hd Hp]]]|H]; [left|now right].
    apply in_map_iff in Hd. destruct Hd as [d1 [<- Hd1]]. destruct (stripped_part_only _ _ _ _ Hp) as [ds [p1 [Hp1 ->]]].
    exists ds. apply Hi in Hd1. destruct Hd1 as [Hd1 Hpub]. split; [|split; [exact (proj1 (public_part _ _ _ _ Hp1) Hpub)|apply public_dirs_without]].
    apply in_map_iff in Hd1. destruct Hd1 as [d0 [<- Hd0]]. apply filter_In in Hd0. destruct Hd0 as [Hd0 Hac].
    destruct (pruned_part_only d0 e ds p1 Hac (Hc d0 Hd0) Hp1) as [p0 [Hp0 Hop]]. now exists d0, p0.
Qed.
