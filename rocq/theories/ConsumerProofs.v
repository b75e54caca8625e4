(** Proofs about the consumer schema. *)
From Coq Require Import String List Bool.
From Verif Require Import Ast ConsumerModel ConsumerSpec.
Import ListNotations.
Local Open Scope string_scope.

(** * Booleans *)
Lemma inaccessible_iff ds : inaccessible ds = true <-> marked ds.
Proof.
  unfold inaccessible, marked. rewrite existsb_exists. split; intros [d [Hi He]]; exists d; split; trivial.
  - now apply String.eqb_eq.
  - now apply String.eqb_eq.
Qed.
Lemma accessible_iff ds : negb (inaccessible ds) = true <-> ~ marked ds.
Proof. rewrite <- inaccessible_iff. destruct (inaccessible ds); cbn; split; congruence. Qed.
Lemma mem_iff s l : mem s l = true <-> In s l.
Proof.
  unfold mem. rewrite existsb_exists. split.
  - intros [x [Hi He]]. apply String.eqb_eq in He. now subst.
  - intros Hi. exists s. split; [exact Hi|apply String.eqb_refl].
Qed.
Lemma internal_directive_iff n : mem n directives_to_strip = true <-> internal_directive n.
Proof. rewrite mem_iff. unfold internal_directive, directives_to_strip. cbn [In]. tauto. Qed.
Lemma internal_type_iff n : mem n definitions_to_strip = true <-> internal_type n.
Proof. rewrite mem_iff. unfold internal_type, definitions_to_strip. cbn [In]. tauto. Qed.
Lemma negb_iff b P : (b = true <-> P) -> (negb b = true <-> ~ P).
Proof. intros H. rewrite <- H. destruct b; cbn; split; congruence. Qed.

(** * Lists that change *)
Lemma list_same {A} (f : A -> change A) l : or_else (transform_list f l) l = map (fun a => or_else (f a) a) l.
Proof.
  unfold transform_list. destruct (forallb _ l) eqn:E; cbn [or_else]; [|reflexivity].
  rewrite forallb_forall in E. symmetry. rewrite <- (map_id l) at 2. apply map_ext_in. intros a Ha. specialize (E a Ha).
  destruct (f a); [reflexivity|discriminate].
Qed.
Lemma list_replaced {A} (f : A -> A) l : transform_list (fun a => Replace (f a)) l = match l with [] => Keep | _ => Replace (map f l) end.
Proof. destruct l; reflexivity. Qed.

(** * Pruning, definition by definition *)
Definition open_inputs (l : list input_value) : list input_value := filter (fun v => negb (inaccessible (iv_dirs v))) l.
Definition open_fields (l : list field) : list field := filter (fun f => negb (inaccessible (f_dirs f))) l.
Definition pruned_field (f : field) : field := mkfield (f_name f) (f_desc f) (open_inputs (f_args f)) (f_type f) (f_dirs f).
Definition pruned_fields (l : list field) : list field :=
  match open_fields l with [] => l | _ => map pruned_field (open_fields l) end.
Definition pruned_definition (d : definition) : definition :=
  match d with
  | TypeDef (Object n de im ds fs) => TypeDef (Object n de im ds (pruned_fields fs))
  | TypeDef (Interface n de im ds fs) => TypeDef (Interface n de im ds (pruned_fields fs))
  | TypeDef (Enum n de ds vs) => TypeDef (Enum n de ds (filter (fun v => negb (inaccessible (ev_dirs v))) vs))
  | TypeDef (InputObject n de ds fs) => TypeDef (InputObject n de ds (open_inputs fs))
  | DirectiveDef n de args r ls => DirectiveDef n de (open_inputs args) r ls
  | _ => d
  end.
Lemma prune_fields_kept fs : prune_fields fs = match open_fields fs with [] => Keep | _ => Replace (map pruned_field (open_fields fs)) end.
Proof. unfold prune_fields. fold (open_fields fs). apply list_replaced. Qed.
Lemma prune_fields_is fs : or_else (prune_fields fs) fs = pruned_fields fs.
Proof. rewrite prune_fields_kept. unfold pruned_fields. destruct (open_fields fs); reflexivity. Qed.
Lemma prune_definition d : (forall n, d <> TypeExtension n) ->
  exists c, transform_definition keep_directives prune_inputs prune_fields prune_enum prune_input_object d = Some c
            /\ or_else c d = pruned_definition d.
Proof.
  intros Hx. destruct d as [ds q m s|t|n|n de args r ls].
  - eexists. split; reflexivity.
  - destruct t as [n d ds|n d im ds fs|n d im ds fs|n d ds ms|n d ds vs|n d ds fs]; (eexists; split; [reflexivity|]); cbn; try reflexivity.
    + rewrite <- prune_fields_is. destruct (prune_fields fs); reflexivity.
    + rewrite <- prune_fields_is. destruct (prune_fields fs); reflexivity.
  - now destruct (Hx n).
  - eexists. split; reflexivity.
Qed.

(** * Stripping, definition by definition *)
Definition public_dirs (ds : list directive) : list directive := filter (fun d => negb (mem (d_name d) directives_to_strip)) ds.
Definition stripped_input (v : input_value) : input_value := mkinput (iv_name v) (iv_desc v) (iv_type v) (iv_default v) (public_dirs (iv_dirs v)).
Definition stripped_field (f : field) : field :=
  mkfield (f_name f) (f_desc f) (map stripped_input (f_args f)) (f_type f) (public_dirs (f_dirs f)).
Definition stripped_value (v : enum_value) : enum_value := mkenumvalue (ev_name v) (ev_desc v) (public_dirs (ev_dirs v)).
Definition stripped_definition (d : definition) : definition :=
  match d with
  | SchemaDef ds q m s => SchemaDef (public_dirs ds) q m s
  | TypeDef (Scalar n de ds) => TypeDef (Scalar n de (public_dirs ds))
  | TypeDef (Object n de im ds fs) => TypeDef (Object n de im (public_dirs ds) (map stripped_field fs))
  | TypeDef (Interface n de im ds fs) => TypeDef (Interface n de im (public_dirs ds) (map stripped_field fs))
  | TypeDef (Union n de ds ms) => TypeDef (Union n de (public_dirs ds) ms)
  | TypeDef (Enum n de ds vs) => TypeDef (Enum n de (public_dirs ds) (map stripped_value vs))
  | TypeDef (InputObject n de ds fs) => TypeDef (InputObject n de (public_dirs ds) (map stripped_input fs))
  | DirectiveDef n de args r ls => DirectiveDef n de (map stripped_input args) r ls
  | TypeExtension n => d
  end.
Lemma strip_inputs_is l : or_else (strip_inputs l) l = map stripped_input l.
Proof. unfold strip_inputs. now rewrite list_same. Qed.
Lemma strip_fields_is l : or_else (strip_fields l) l = map stripped_field l.
Proof.
  unfold strip_fields. rewrite list_same. apply map_ext. intros f. unfold transform_field, stripped_field. cbn. now rewrite strip_inputs_is.
Qed.
Lemma strip_definition d : (forall n, d <> TypeExtension n) ->
  exists c, transform_definition strip_directives strip_inputs strip_fields strip_enum strip_input_object d = Some c
            /\ or_else c d = stripped_definition d
            /\ (match d with DirectiveDef _ _ _ _ _ => True | _ => kept c = false end).
Proof.
  intros Hx. destruct d as [ds q m s|t|n|n de args r ls].
  - eexists. repeat split.
  - destruct t as [n d ds|n d im ds fs|n d im ds fs|n d ds ms|n d ds vs|n d ds fs]; (eexists; split; [reflexivity|]); cbn; split; try reflexivity.
    + now rewrite strip_fields_is.
    + now rewrite strip_fields_is.
    + now rewrite list_same.
    + now rewrite strip_inputs_is.
  - now destruct (Hx n).
  - eexists. split; [reflexivity|]. split; [|exact I]. cbn. rewrite <- (strip_inputs_is args).
    destruct (strip_inputs args); reflexivity.
Qed.

(** * Documents *)
Section Documents.
  Variable directives_of : list directive -> change (list directive).
  Variable input_values_of : list input_value -> change (list input_value).
  Variable fields_of : list field -> change (list field).
  Variable enum_of : typedef -> change typedef.
  Variable input_object_of : typedef -> change typedef.
  Let tr := transform_definition directives_of input_values_of fields_of enum_of input_object_of.
  Variable g : definition -> definition.

  Lemma all_done l : (forall d, In d l -> exists c, tr d = Some c /\ or_else c d = g d) ->
    exists r, transform_all directives_of input_values_of fields_of enum_of input_object_of l = Some r
              /\ map (fun p => or_else (snd p) (fst p)) r = map g l
              /\ (forall d, In d l -> exists c, tr d = Some c /\ In (d, c) r).
  Proof.
    induction l as [|d l IH]; intros H; cbn [transform_all].
    - exists []. repeat split. intros d [].
    - destruct (H d (or_introl eq_refl)) as [c [Hc Hg]]. unfold tr in Hc. rewrite Hc.
      destruct IH as [r [-> [Hr Hi]]]; [intros d' Hd'; apply H; now right|].
      exists ((d, c) :: r). split; [reflexivity|]. cbn [map fst snd]. split; [now rewrite Hg, Hr|].
      intros d' [<-|Hd'].
      + exists c. split; [exact Hc|now left].
      + destruct (Hi d' Hd') as [c' [Hc' Hin]]. exists c'. split; [exact Hc'|now right].
  Qed.
  Lemma document_done l d0 : (forall d, In d l -> exists c, tr d = Some c /\ or_else c d = g d) ->
    In d0 l -> (forall c, tr d0 = Some c -> kept c = false) ->
    default_document directives_of input_values_of fields_of enum_of input_object_of l = Some (Replace (map g l)).
  Proof.
    intros H Hi Hk. unfold default_document. destruct (all_done l H) as [r [-> [Hr Hin]]]. cbn [option_map].
    destruct (forallb (fun p => kept (snd p)) r) eqn:E; [|now rewrite Hr].
    rewrite forallb_forall in E. destruct (Hin d0 Hi) as [c [Hc Hir]]. specialize (E _ Hir). cbn in E. now rewrite (Hk c Hc) in E.
  Qed.
  Lemma document_some l : (forall d, In d l -> exists c, tr d = Some c /\ or_else c d = g d) ->
    exists c, default_document directives_of input_values_of fields_of enum_of input_object_of l = Some c
              /\ (c = Keep /\ map g l = l \/ c = Replace (map g l)).
  Proof.
    intros H. unfold default_document. destruct (all_done l H) as [r [Er [Hr Hin]]]. rewrite Er. cbn [option_map].
    eexists. split; [reflexivity|]. destruct (forallb _ r) eqn:E; [left|right; now rewrite Hr].
    split; [reflexivity|]. rewrite <- Hr.
    clear Hr Hin H. revert r Er E. induction l as [|d l IH]; cbn [transform_all]; intros r Er E.
    - injection Er as <-. reflexivity.
    - destruct (transform_definition _ _ _ _ _ d) as [c|]; [|discriminate].
      destruct (transform_all _ _ _ _ _ l) as [r'|]; [|discriminate]. injection Er as <-. cbn [map fst snd forallb] in *.
      apply andb_prop in E. destruct E as [E1 E2]. destruct c; [|discriminate]. cbn. now rewrite (IH r' eq_refl E2).
  Qed.
End Documents.

Lemma ext_free l d : extensionless l -> In d l -> forall n, d <> TypeExtension n.
Proof. intros H Hd n ->. now apply (H n). Qed.
Lemma prune_some l : extensionless l ->
  exists r, prune l = Some r /\ (r = map pruned_definition (filter accessible_definition l)
                                 \/ r = l /\ map pruned_definition (filter accessible_definition l) = filter accessible_definition l).
Proof.
  intros Hx. unfold prune.
  destruct (document_some keep_directives prune_inputs prune_fields prune_enum prune_input_object pruned_definition
              (filter accessible_definition l)) as [c [-> Hc]].
  - intros d Hd. apply filter_In in Hd. apply prune_definition. now apply (ext_free l).
  - cbn [option_map]. eexists. split; [reflexivity|]. destruct Hc as [[-> E]| ->]; [right|left]; cbn [or_else]; [now split|reflexivity].
Qed.
Lemma prune_done l : extensionless l -> answers l -> prune l = Some (map pruned_definition (filter accessible_definition l)).
Proof.
  intros Hx [t [f [ty [de [ds [d [p [Hd [Hp Ho]]]]]]]]]. unfold prune.
  rewrite (document_done keep_directives prune_inputs prune_fields prune_enum prune_input_object pruned_definition
             (filter accessible_definition l) d); [reflexivity| | |].
  - intros d' Hd'. apply filter_In in Hd'. apply prune_definition. now apply (ext_free l).
  - apply filter_In. split; [exact Hd|]. inversion Hp; subst; cbn; apply accessible_iff; now inversion Ho.
  - assert (K : forall fs f', In f' fs -> ~ marked (f_dirs f') -> kept (prune_fields fs) = false).
    { intros fs f' Hf' Hm. rewrite prune_fields_kept. assert (Hin : In f' (open_fields fs)) by (apply filter_In; split; [exact Hf'|now apply accessible_iff]).
      destruct (open_fields fs); [destruct Hin|reflexivity]. }
    intros c Hc. inversion Hp; subst; cbn in Hc; injection Hc as <-;
      (rewrite (K fs f0); [reflexivity|assumption|now apply Forall_inv_tail, Forall_inv in Ho]).
Qed.
Lemma public_some l : extensionless l -> exists r, public_definitions l = Some r /\
  (forall d, In d r <-> In d l /\ public_definition d = Some true) /\ (forall d, In d r -> In d l).
Proof.
  induction l as [|d l IH]; intros Hx; cbn [public_definitions].
  - exists []. repeat split; intros; [destruct H|destruct H|tauto|destruct H].
  - destruct IH as [r [-> [Hi Hin]]]; [intros n Hn; apply (Hx n); now right|].
    assert (Hd : exists b, public_definition d = Some b).
    { destruct d; try (eexists; reflexivity). exfalso. apply (Hx name). now left. }
    destruct Hd as [b Hb]. rewrite Hb. eexists. split; [reflexivity|].
    assert (Hm : forall d', In d' (if b then d :: r else r) <-> In d' (d :: l) /\ public_definition d' = Some true).
    { intros d'. destruct b; cbn [In]; rewrite Hi; split.
      - intros [<-|[H1 H2]]; tauto.
      - intros [[<-|H1] H2]; tauto.
      - intros [H1 H2]; tauto.
      - intros [[<-|H1] H2]; [congruence|tauto]. }
    split; [exact Hm|]. intros d' Hd'. now apply Hm in Hd'.
Qed.
Lemma strip_some l : extensionless l -> exists r0 r, public_definitions l = Some r0 /\ strip l = Some r /\
   (r = map stripped_definition r0 \/ (r = l /\ forall d, In d r0 -> exists n de args rp ls, d = DirectiveDef n de args rp ls)).
Proof.
  intros Hx. destruct (public_some l Hx) as [r0 [E [Hi Hin]]]. unfold strip. rewrite E.
  assert (Hd : forall d, In d r0 -> exists c, transform_definition strip_directives strip_inputs strip_fields strip_enum strip_input_object d = Some c
            /\ or_else c d = stripped_definition d).
  { intros d Hd. destruct (strip_definition d) as [c [H1 [H2 _]]]; [apply (ext_free l); [exact Hx|now apply Hin]|]. now exists c. }
  destruct (document_some strip_directives strip_inputs strip_fields strip_enum strip_input_object stripped_definition r0 Hd) as [c [Ec Hc]].
  exists r0. rewrite Ec. cbn [option_map]. eexists. split; [reflexivity|]. split; [reflexivity|].
  destruct Hc as [[-> _]| ->]; [right|now left]. split; [reflexivity|]. intros d Hdr.
  destruct (strip_definition d) as [c [H1 [H2 H3]]]; [apply (ext_free l); [exact Hx|now apply Hin]|].
  destruct d; try (eexists _, _, _, _, _; reflexivity).
  - rewrite (document_done _ _ _ _ _ stripped_definition r0 _ Hd Hdr) in Ec; [discriminate|]. intros c' Hc'. now rewrite H1 in Hc'; injection Hc' as <-.
  - rewrite (document_done _ _ _ _ _ stripped_definition r0 _ Hd Hdr) in Ec; [discriminate|]. intros c' Hc'. now rewrite H1 in Hc'; injection Hc' as <-.
  - rewrite (document_done _ _ _ _ _ stripped_definition r0 _ Hd Hdr) in Ec; [discriminate|]. intros c' Hc'. now rewrite H1 in Hc'; injection Hc' as <-.
Qed.
