From Coq Require Import String List Bool ZArith NArith Lia.
From Verif Require Import Ast CoerceModel CoerceSpec.
Import ListNotations.
Local Open Scope string_scope.

Section JsonInd.
  Variable P : json -> Prop.
  Hypothesis Hn : P JNull.
  Hypothesis Hb : forall b, P (JBool b).
  Hypothesis Hi : forall z, P (JInt z).
  Hypothesis Hf : forall b, P (JFloat b).
  Hypothesis Hs : forall s, P (JStr s).
  Hypothesis Ha : forall l, Forall P l -> P (JArr l).
  Hypothesis Ho : forall o, Forall (fun kv => P (snd kv)) o -> P (JObj o).
  Fixpoint json_ind' (v : json) : P v :=
    match v with
    | JNull => Hn
    | JBool b => Hb b
    | JInt z => Hi z
    | JFloat b => Hf b
    | JStr s => Hs s
    | JArr l => Ha l ((fix go (l : list json) : Forall P l :=
                         match l with
                         | [] => Forall_nil _
                         | x :: l' => Forall_cons x (json_ind' x) (go l')
                         end) l)
    | JObj o => Ho o ((fix go (o : list (string * json)) : Forall (fun kv => P (snd kv)) o :=
                         match o with
                         | [] => Forall_nil _
                         | kv :: o' => Forall_cons kv (json_ind' (snd kv)) (go o')
                         end) o)
    end.
End JsonInd.

(** ** Association lists *)
Lemma kget_kremove {A} k n (l : list (string * A)) :
  kget k (kremove n l) = if String.eqb k n then None else kget k l.
Proof.
  induction l as [|[k' v] l IH]; cbn [kremove filter kget fst].
  - destruct (String.eqb k n); reflexivity.
  - destruct (String.eqb_spec n k') as [->|Hn]; cbn [negb].
    + fold (kremove k' l). rewrite IH. destruct (String.eqb k k'); reflexivity.
    + cbn [kget]. fold (kremove n l). rewrite IH. destruct (String.eqb_spec k k') as [->|Hk]; [|reflexivity].
      destruct (String.eqb_spec k' n); [congruence|reflexivity].
Qed.

Lemma kget_kput {A} k n (v : A) l : kget k (kput n v l) = if String.eqb k n then Some v else kget k l.
Proof.
  unfold kput. cbn [kget]. destruct (String.eqb k n) eqn:E; [reflexivity|].
  rewrite kget_kremove, E. reflexivity.
Qed.

(** ** Metadata *)
Lemma metadata_snoc ds d : schema_metadata (ds ++ [d]) = add_definition (schema_metadata ds) d.
Proof. unfold schema_metadata. rewrite fold_left_app. reflexivity. Qed.

Lemma nodup_snoc (l : list string) x : NoDup (l ++ [x]) -> NoDup l /\ ~ In x l.
Proof.
  intro H. assert (H' : NoDup (l ++ x :: [])) by exact H.
  split.
  - apply NoDup_remove_1 in H'. rewrite app_nil_r in H'. exact H'.
  - apply NoDup_remove_2 in H'. rewrite app_nil_r in H'. exact H'.
Qed.

Lemma enum_values_spec ds n vs :
  NoDup (map def_name ds) ->
  (kget n (enum_values (schema_metadata ds)) = Some vs <-> In (DEnum n vs) ds).
Proof.
  induction ds as [|d ds IH] using rev_ind; intro N.
  - split; [discriminate|intros []].
  - rewrite map_app in N. cbn [map] in N. apply nodup_snoc in N. destruct N as [N1 N2].
    specialize (IH N1). rewrite metadata_snoc.
    assert (Keep : enum_values (add_definition (schema_metadata ds) d) = enum_values (schema_metadata ds) ->
             (forall a b, d <> DEnum a b) ->
             (kget n (enum_values (add_definition (schema_metadata ds) d)) = Some vs <->
              In (DEnum n vs) (ds ++ [d]))).
    { intros -> Hd. rewrite IH. split.
      - intro H. apply in_or_app. left. exact H.
      - intro H. apply in_app_or in H. destruct H as [H|[H|[]]]; [exact H|].
        exfalso. exact (Hd _ _ H). }
    destruct d as [a b|a b|a b|a b|a|a b]; try (apply Keep; [reflexivity|intros; discriminate]).
    cbn [add_definition enum_values]. rewrite kget_kput.
    destruct (String.eqb_spec n a) as [->|Hn].
    + split.
      * intro H. injection H as ->. apply in_or_app. right. left. reflexivity.
      * intro H. apply in_app_or in H. destruct H as [H|[H|[]]].
        -- exfalso. apply N2. apply in_map_iff. eexists. split; [|exact H]. reflexivity.
        -- injection H as ->. reflexivity.
    + rewrite IH. split.
      * intro H. apply in_or_app. left. exact H.
      * intro H. apply in_app_or in H. destruct H as [H|[H|[]]]; [exact H|congruence].
Qed.

Lemma type_fields_spec ds n fs :
  kget n (type_fields (schema_metadata ds)) = Some fs ->
  exists d, In d ds /\ def_name d = n /\
    ((exists f, d = DObject n f) \/ (exists f, d = DInterface n f)).
Proof.
  revert fs. induction ds as [|d ds IH] using rev_ind; intro fs; [discriminate|].
  rewrite metadata_snoc.
  assert (Keep : type_fields (add_definition (schema_metadata ds) d) = type_fields (schema_metadata ds) ->
     kget n (type_fields (add_definition (schema_metadata ds) d)) = Some fs ->
     exists d', In d' (ds ++ [d]) /\ def_name d' = n /\
       ((exists f, d' = DObject n f) \/ (exists f, d' = DInterface n f))).
  { intros -> H. apply IH in H. destruct H as [d' [H1 H2]]. exists d'. split; [|exact H2].
    apply in_or_app. left. exact H1. }
  destruct d as [a b|a b|a b|a b|a|a b]; try (apply Keep; reflexivity);
    cbn [add_definition type_fields]; rewrite kget_kput;
    (destruct (String.eqb_spec n a) as [->|Hn];
     [intros _; eexists; split; [apply in_or_app; right; left; reflexivity|];
      split; [reflexivity|]; ((left; eexists; reflexivity) || (right; eexists; reflexivity))
     |intro H; apply IH in H; destruct H as [d' [H1 H2]]; exists d'; split; [|exact H2];
      apply in_or_app; left; exact H1]).
Qed.

Lemma nodup_def ds d d' :
  NoDup (map def_name ds) -> In d ds -> In d' ds -> def_name d = def_name d' -> d = d'.
Proof.
  induction ds as [|x ds IH]; intros N H H' E; [destruct H|].
  cbn [map] in N. inversion N as [|? ? Nx N']; subst.
  destruct H as [->|H], H' as [->|H'].
  - reflexivity.
  - exfalso. apply Nx. rewrite E. apply in_map. exact H'.
  - exfalso. apply Nx. rewrite <- E. apply in_map. exact H.
  - apply IH; assumption.
Qed.

(** ** Equations of the validator *)
Lemma nullable_iff t : nullable t <-> is_non_null t = false.
Proof.
  unfold nullable. destruct t; cbn; split; try reflexivity; try discriminate.
  intros H. exfalso. eapply H; reflexivity.
Qed.
Lemma v_null m t :
  validate_runtime_value m JNull t = if is_non_null t then Some UnexpectedNull else None.
Proof. destruct t; reflexivity. Qed.
Lemma v_nonnull m v t : v <> JNull -> validate_runtime_value m v (TNonNull t) = validate_runtime_value m v t.
Proof. destruct v; [congruence|..]; reflexivity. Qed.

Definition v_all (m : metadata) (t : tnode) : list json -> option coercion_error :=
  fix all (l : list json) : option coercion_error :=
    match l with
    | [] => None
    | x :: l' => match validate_runtime_value m x t with Some e => Some e | None => all l' end
    end.
Lemma v_array m l t : validate_runtime_value m (JArr l) (TList t) = v_all m t l.
Proof. reflexivity. Qed.
Lemma v_all_none m t l :
  v_all m t l = None <-> Forall (fun x => validate_runtime_value m x t = None) l.
Proof.
  induction l as [|x l IH]; cbn [v_all].
  - split; [constructor|reflexivity].
  - destruct (validate_runtime_value m x t) eqn:E.
    + split; [discriminate|]. intro F. inversion F; congruence.
    + fold (v_all m t). rewrite IH. split; [intro F; constructor; assumption|].
      intro F. inversion F; assumption.
Qed.
Lemma v_single m v t :
  (forall l, v <> JArr l) -> v <> JNull ->
  validate_runtime_value m v (TList t) = validate_runtime_value m v t.
Proof.
  intros Ha Hn. destruct v; try reflexivity; [congruence|]. exfalso. eapply Ha. reflexivity.
Qed.
Lemma v_enum m v n vs :
  v <> JNull -> kget n (enum_values m) = Some vs ->
  validate_runtime_value m v (TNamed n) =
  match v with
  | JStr s => if existsb (String.eqb s) vs then None else Some (InvalidEnumValue s n)
  | _ => Some (ExpectedEnumString n)
  end.
Proof.
  intros Hn E. destruct v; [congruence|..]; cbn [validate_runtime_value]; rewrite E; reflexivity.
Qed.
Lemma v_scalar m v n :
  v <> JNull -> kget n (enum_values m) = None -> kget n (type_fields m) = None ->
  validate_runtime_value m v (TNamed n) = validate_scalar n v.
Proof.
  intros Hn E1 E2. destruct v; [congruence|..]; cbn [validate_runtime_value];
    rewrite E1, E2; reflexivity.
Qed.

Lemma eqb_in s vs : existsb (String.eqb s) vs = true <-> In s vs.
Proof.
  rewrite existsb_exists. split.
  - intros [x [H E]]. apply String.eqb_eq in E. subst. exact H.
  - intro H. exists s. split; [exact H|apply String.eqb_refl].
Qed.

Lemma json_null_dec v : {v = JNull} + {v <> JNull}.
Proof. destruct v; [left; reflexivity|right; discriminate..]. Qed.
Lemma json_arr_dec v : (exists l, v = JArr l) \/ (forall l, v <> JArr l).
Proof. destruct v; try (right; intros; discriminate). left. eexists. reflexivity. Qed.

Lemma is_i64_iff z : is_i64 (JInt z) = true <-> int64 z.
Proof.
  unfold is_i64, int64. rewrite andb_true_iff, !Z.leb_le. reflexivity.
Qed.

(** A leaf name is either a known enum, or validated as a scalar. *)
Lemma leaf_cases ds n :
  wf_schema ds ->
  In n builtins \/ (exists vs, In (DEnum n vs) ds) \/ In (DScalar n) ds ->
  (exists vs, In (DEnum n vs) ds /\ kget n (enum_values (schema_metadata ds)) = Some vs) \/
  (kget n (enum_values (schema_metadata ds)) = None /\
   kget n (type_fields (schema_metadata ds)) = None /\
   (In n builtins \/ (~ In n builtins /\ In (DScalar n) ds))).
Proof.
  intros [N B] H.
  destruct (kget n (enum_values (schema_metadata ds))) as [vs|] eqn:E.
  - left. exists vs. split; [|reflexivity]. apply enum_values_spec; assumption.
  - right. split; [reflexivity|].
    assert (Hne : ~ exists vs, In (DEnum n vs) ds).
    { intros [vs Hv]. apply (enum_values_spec ds n vs N) in Hv. congruence. }
    assert (K : In n builtins \/ In (DScalar n) ds) by tauto.
    split.
    + destruct (kget n (type_fields (schema_metadata ds))) as [fs|] eqn:F; [|reflexivity].
      exfalso. apply type_fields_spec in F. destruct F as [d [Hd [Hn Hk]]].
      assert (Hs : exists k, d = DScalar k).
      { destruct K as [K|K].
        - apply B; [exact Hd|]. rewrite Hn. exact K.
        - exists n. apply (nodup_def ds); [exact N|exact Hd|exact K|exact Hn]. }
      destruct Hs as [k ->]. destruct Hk as [[f X]|[f X]]; discriminate X.
    + destruct (in_dec string_dec n builtins) as [Hb|Hb]; [left; exact Hb|right].
      split; [exact Hb|]. destruct K as [K|K]; [contradiction|exact K].
Qed.

Lemma not_builtin_scalar n v : ~ In n builtins -> validate_scalar n v = None.
Proof.
  intro H. unfold validate_scalar.
  repeat match goal with
  | |- context [String.eqb n ?k] =>
      destruct (String.eqb_spec n k) as [->|]; [exfalso; apply H; unfold builtins; simpl; tauto|]
  end.
  reflexivity.
Qed.

Lemma scalar_sound ds n v :
  v <> JNull -> In n builtins -> validate_scalar n v = None -> conforms ds int64 (TNamed n) v.
Proof.
  intros Hn Hb. destruct Hb as [<-|[<-|[<-|[<-|[<-|[]]]]]]; unfold validate_scalar.
  - change (String.eqb "Int" "String") with false. change (String.eqb "Int" "ID") with false.
    change (String.eqb "Int" "Int") with true. cbv iota.
    destruct v; try discriminate. destruct (is_i64 (JInt z)) eqn:E; [|discriminate]. intros _.
    apply Co_int. apply is_i64_iff. exact E.
  - change (String.eqb "Float" "String") with false. change (String.eqb "Float" "ID") with false.
    change (String.eqb "Float" "Int") with false. change (String.eqb "Float" "Float") with true.
    cbv iota. destruct v; try discriminate; intros _; [apply Co_float_int|apply Co_float].
  - change (String.eqb "String" "String") with true. cbv iota.
    destruct v; try discriminate. intros _. apply Co_string.
  - change (String.eqb "Boolean" "String") with false. change (String.eqb "Boolean" "ID") with false.
    change (String.eqb "Boolean" "Int") with false. change (String.eqb "Boolean" "Float") with false.
    change (String.eqb "Boolean" "Boolean") with true. cbv iota.
    destruct v; try discriminate. intros _. apply Co_boolean.
  - change (String.eqb "ID" "String") with false. change (String.eqb "ID" "ID") with true. cbv iota.
    destruct v; try discriminate. intros _. apply Co_id_string.
Qed.

Lemma named_sound ds n v :
  wf_schema ds -> leaf_type ds (TNamed n) -> v <> JNull ->
  validate_runtime_value (schema_metadata ds) v (TNamed n) = None -> conforms ds int64 (TNamed n) v.
Proof.
  intros W L Hn. destruct (leaf_cases ds n W L) as [[vs [Hv E]]|[E1 [E2 K]]].
  - rewrite (v_enum _ _ _ _ Hn E). destruct v; try discriminate.
    destruct (existsb (String.eqb s) vs) eqn:X; [|discriminate]. intros _.
    apply (Co_enum _ _ _ vs); [exact Hv|]. apply eqb_in. exact X.
  - rewrite (v_scalar _ _ _ Hn E1 E2). destruct K as [K|[K1 K2]].
    + apply scalar_sound; assumption.
    + intros _. apply Co_scalar; assumption.
Qed.

Lemma validate_sound ds v t :
  wf_schema ds -> leaf_type ds t ->
  validate_runtime_value (schema_metadata ds) v t = None -> conforms ds int64 t v.
Proof.
  intros W. revert t.
  induction v as [|b|z|b|s|l IH|o IH] using json_ind'; intro t;
    (induction t as [n|t IHt|t IHt]; intros L H).
  1-3: rewrite v_null in H; destruct (is_non_null _) eqn:E in H; [discriminate|];
       apply Co_null, nullable_iff; exact E.
  all: try (apply named_sound; [exact W|exact L|discriminate|exact H]).
  all: try (rewrite v_nonnull in H by discriminate;
            apply Co_nonnull; [discriminate|apply IHt; [exact L|exact H]]).
  all: try (rewrite v_single in H by (intros; discriminate);
            apply Co_single; [intros; discriminate|discriminate|apply IHt; [exact L|exact H]]).
  rewrite v_array, v_all_none in H. apply Co_list.
  rewrite Forall_forall in IH, H |- *. intros x Hx. apply (IH x Hx); [exact L|exact (H x Hx)].
Qed.

Lemma ids_list t l :
  ids_and_floats t (JArr l) <-> Forall (ids_and_floats t) l.
Proof.
  cbn [ids_and_floats]. induction l as [|x l IH].
  - split; [constructor|exact (fun _ => I)].
  - split.
    + intros [H1 H2]. constructor; [exact H1|]. apply IH. exact H2.
    + intro F. inversion F; subst. split; [assumption|]. apply IH. assumption.
Qed.
Lemma ids_wrap t v : ids_and_floats (TNonNull t) v -> ids_and_floats t v.
Proof.
  induction v as [|b|z|b|s|l IH|o IH] using json_ind'; intro H; try exact H.
  rewrite ids_list in *. rewrite Forall_forall in *. intros x Hx. apply IH; [exact Hx|]. apply H. exact Hx.
Qed.
Lemma ids_wrap_list t v : ids_and_floats (TList t) v -> ids_and_floats t v.
Proof.
  induction v as [|b|z|b|s|l IH|o IH] using json_ind'; intro H; try exact H.
  rewrite ids_list in *. rewrite Forall_forall in *. intros x Hx. apply IH; [exact Hx|]. apply H. exact Hx.
Qed.

Lemma builtin_conforms ds (R : Z -> Prop) n v :
  wf_schema ds -> In n builtins -> (forall z, R z -> int64 z) ->
  conforms ds R (TNamed n) v -> v <> JNull -> ids_and_floats (TNamed n) v ->
  validate_scalar n v = None.
Proof.
  intros [Nd W] Hb HR C Hn I.
  inversion C as [t E| | | |z Hz|b|z|s|b|s|z|n' vs s Hd Hs|n' v' Hd Hb'|n' fs o Hd]; subst.
  - congruence.
  - pose proof (proj2 (is_i64_iff z) (HR z Hz)) as HI. unfold validate_scalar.
    change (String.eqb "Int" "String") with false. change (String.eqb "Int" "ID") with false.
    change (String.eqb "Int" "Int") with true. cbv iota. rewrite HI. reflexivity.
  - reflexivity.
  - destruct I as [_ I]. specialize (I eq_refl). apply is_i64_iff in I.
    unfold validate_scalar.
    change (String.eqb "Float" "String") with false. change (String.eqb "Float" "ID") with false.
    change (String.eqb "Float" "Int") with false. change (String.eqb "Float" "Float") with true.
    cbv iota. rewrite I. rewrite orb_true_r. reflexivity.
  - reflexivity.
  - reflexivity.
  - reflexivity.
  - destruct I as [I _]. exfalso. apply I. reflexivity.
  - destruct (W _ Hd Hb) as [k E]. discriminate E.
  - contradiction.
  - destruct (W _ Hd Hb) as [k E]. discriminate E.
Qed.

Lemma named_complete ds (R : Z -> Prop) n v :
  wf_schema ds -> leaf_type ds (TNamed n) -> (forall z, R z -> int64 z) ->
  v <> JNull -> ids_and_floats (TNamed n) v ->
  conforms ds R (TNamed n) v -> validate_runtime_value (schema_metadata ds) v (TNamed n) = None.
Proof.
  intros W L HR Hn I C. destruct (leaf_cases ds n W L) as [[vs [Hv E]]|[E1 [E2 K]]].
  - rewrite (v_enum _ _ _ _ Hn E). destruct W as [N B].
    assert (U : forall d, In d ds -> def_name d = n -> d = DEnum n vs).
    { intros d Hd Hdn. apply (nodup_def ds); [exact N|exact Hd|exact Hv|exact Hdn]. }
    assert (Nb : ~ In n builtins).
    { intro Hb. destruct (B _ Hv Hb) as [k X]. discriminate X. }
    inversion C as [t E'| | | |z Hz|b|z|s|b|s|z|n' vs' s Hd Hs|n' v' Hd Hb'|n' fs o Hd]; subst;
      try (exfalso; apply Nb; unfold builtins; simpl; tauto).
    + assert (X : DEnum n vs' = DEnum n vs) by (apply U; [exact Hd|reflexivity]).
      injection X as ->. apply eqb_in in Hs. rewrite Hs. reflexivity.
    + assert (X : DScalar n = DEnum n vs) by (apply U; [exact Hd|reflexivity]). discriminate X.
    + assert (X : DInput n fs = DEnum n vs) by (apply U; [exact Hd|reflexivity]). discriminate X.
  - rewrite (v_scalar _ _ _ Hn E1 E2). destruct K as [K|[K1 K2]].
    + apply (builtin_conforms ds R); assumption.
    + apply not_builtin_scalar. exact K1.
Qed.

Lemma validate_complete ds (R : Z -> Prop) v t :
  wf_schema ds -> leaf_type ds t -> (forall z, R z -> int64 z) -> ids_and_floats t v ->
  conforms ds R t v -> validate_runtime_value (schema_metadata ds) v t = None.
Proof.
  intros W L HR. revert t L.
  induction v as [|b|z|b|s|l IH|o IH] using json_ind'; intro t;
    (induction t as [n|t IHt|t IHt]; intros L I C).
  1-3: rewrite v_null; inversion C; subst; try congruence;
       match goal with H : nullable _ |- _ => apply nullable_iff in H; rewrite H; reflexivity | _ => idtac end.
  all: try (apply (named_complete ds R); [exact W|exact L|exact HR|discriminate|exact I|exact C]).
  all: try (rewrite v_nonnull by discriminate; apply IHt; [exact L|apply ids_wrap; exact I|];
            inversion C; subst; assumption).
  all: try (rewrite v_single by (intros; discriminate); apply IHt; [exact L|apply ids_wrap_list; exact I|];
            inversion C; subst; assumption).
  rewrite v_array, v_all_none.
  inversion C as [| |t' l' F|t' v' Ha| | | | | | | | | | ]; subst;
    [|exfalso; exact (Ha l eq_refl)].
  apply ids_wrap_list in I. rewrite ids_list in I. rewrite Forall_forall in *.
  intros x Hx. apply (IH x Hx); [exact L|exact (I x Hx)|exact (F x Hx)].
Qed.

(** ** The whole map *)
Section Collect.
Context (finite : N -> bool) (m : metadata).
Definition accepted (t : tnode) (v : json) : Prop := validate_runtime_value m v t = None.

Lemma coerced_kremove d n vars :
  vd_name d <> n -> coerced finite d (kremove n vars) = coerced finite d vars.
Proof.
  intro H. unfold coerced. rewrite kget_kremove. destruct (String.eqb_spec (vd_name d) n); [contradiction|reflexivity].
Qed.

Lemma collect_each_spec defs vars r :
  NoDup (map vd_name defs) ->
  (collect_each finite m defs vars = Ok r <->
   (forall d, In d defs -> variable_ok finite accepted d vars) /\
   r = coerced_all finite defs vars).
Proof.
  revert vars r. induction defs as [|d defs IH]; intros vars r N.
  - cbn [collect_each coerced_all flat_map]. split.
    + intro E. injection E as <-. split; [intros d []|reflexivity].
    + intros [_ ->]. reflexivity.
  - cbn [map] in N. inversion N as [|? ? Nd N']; subst. cbn [collect_each].
    assert (Same : forall vars',
       (forall d', In d' defs -> coerced finite d' vars' = coerced finite d' vars) ->
       ((forall d', In d' defs -> variable_ok finite accepted d' vars') <->
        (forall d', In d' defs -> variable_ok finite accepted d' vars)) /\
       coerced_all finite defs vars' = coerced_all finite defs vars).
    { intros vars' H. split.
      - split; intros X d' Hd'; specialize (X d' Hd'); unfold variable_ok in *;
          rewrite (H d' Hd') in *; exact X.
      - unfold coerced_all. clear - H. induction defs as [|x defs IHd]; [reflexivity|].
        cbn [flat_map]. rewrite (H x (or_introl eq_refl)), IHd; [reflexivity|].
        intros d' Hd'. apply H. right. exact Hd'. }
    assert (Split : (forall d', In d' (d :: defs) -> variable_ok finite accepted d' vars) <->
       variable_ok finite accepted d vars /\
       (forall d', In d' defs -> variable_ok finite accepted d' vars)).
    { split.
      - intro X. split; [apply X; left; reflexivity|]. intros d' Hd'. apply X. right. exact Hd'.
      - intros [X Y] d' [<-|Hd']; [exact X|apply Y; exact Hd']. }
    rewrite Split. unfold variable_ok at 1, coerced, coerced_all. cbn [flat_map].
    fold (coerced_all finite defs vars). unfold coerced.
    destruct (kget (vd_name d) vars) as [v|] eqn:K.
    + destruct (Same (kremove (vd_name d) vars)) as [S1 S2].
      { intros d' Hd'. apply coerced_kremove. intro E. apply Nd. rewrite <- E.
        apply in_map. exact Hd'. }
      unfold accepted. destruct (validate_runtime_value m v (vd_type d)) eqn:V.
      { split; [discriminate|]. intros [[X _] _]. discriminate X. }
      pose proof (IH (kremove (vd_name d) vars)) as IHk.
      destruct (collect_each finite m defs (kremove (vd_name d) vars)) as [r'|e].
      * destruct (IHk r' N') as [F _]. destruct (F eq_refl) as [F1 F2]. pose proof (proj1 S1 F1) as F1'. clear F1. rename F1' into F1.
        rewrite S2 in F2. subst r'. cbn [app]. split.
        -- intro E. injection E as <-. split; [split; [reflexivity|exact F1]|reflexivity].
        -- intros [_ ->]. reflexivity.
      * split; [discriminate|]. intros [[_ Y] _]. exfalso.
        destruct (IHk (coerced_all finite defs (kremove (vd_name d) vars)) N') as [_ G].
        assert (X : @Err (list (string * json)) e = Ok (coerced_all finite defs (kremove (vd_name d) vars))).
        { apply G. split; [apply (proj2 S1); exact Y|reflexivity]. }
        discriminate X.
    + destruct (vd_default d) as [g|]; cbn [option_map].
      * unfold accepted. destruct (validate_runtime_value m (value_to_json finite g) (vd_type d)) eqn:V.
        { split; [discriminate|]. intros [[X _] _]. discriminate X. }
        pose proof (IH vars) as IHk.
        destruct (collect_each finite m defs vars) as [r'|e].
        -- destruct (IHk r' N') as [F _]. destruct (F eq_refl) as [F1 F2]. subst r'. cbn [app]. split.
           ++ intro E. injection E as <-. split; [split; [reflexivity|exact F1]|reflexivity].
           ++ intros [_ ->]. reflexivity.
        -- split; [discriminate|]. intros [[_ Y] _]. exfalso.
           destruct (IHk (coerced_all finite defs vars) N') as [_ G].
           assert (X : @Err (list (string * json)) e = Ok (coerced_all finite defs vars)).
           { apply G. split; [exact Y|reflexivity]. }
           discriminate X.
      * cbn [app]. destruct (is_non_null (vd_type d)) eqn:E.
        { split; [discriminate|]. intros [[X _] _]. apply nullable_iff in X. congruence. }
        apply nullable_iff in E.
        rewrite (IH vars r N'). split; [intros [X Y]; split; [split; [exact E|exact X]|exact Y]|].
        intros [[_ X] Y]. split; assumption.
Qed.

Lemma collect_variables_spec op defs vars r :
  op_vars op = Some defs -> NoDup (map vd_name defs) ->
  (collect_variables finite m op vars = Ok r <->
   (forall d, In d defs -> variable_ok finite accepted d vars) /\
   r = no_empty (coerced_all finite defs vars)).
Proof.
  intros E N. unfold collect_variables. rewrite E.
  pose proof (collect_each_spec defs vars) as S0.
  destruct (collect_each finite m defs vars) as [x|e].
  - destruct (S0 x N) as [F _]. destruct (F eq_refl) as [F1 F2].
    replace (match x with [] => Ok None | _ :: _ => Ok (Some x) end) with (@Ok (option (list (string * json))) (no_empty x))
      by (destruct x; reflexivity).
    rewrite <- F2. split.
    + intro H. injection H as <-. split; [exact F1|reflexivity].
    + intros [_ ->]. reflexivity.
  - split; [discriminate|]. intros [X _]. exfalso.
    destruct (S0 (coerced_all finite defs vars) N) as [_ G].
    assert (Y : @Err (list (string * json)) e = Ok (coerced_all finite defs vars)).
    { apply G. split; [exact X|reflexivity]. }
    discriminate Y.
Qed.
End Collect.

Lemma collected_conform finite ds op defs vars r :
  wf_schema ds -> op_vars op = Some defs -> NoDup (map vd_name defs) ->
  (forall d, In d defs -> leaf_type ds (vd_type d)) ->
  collect_variables finite (schema_metadata ds) op vars = Ok r ->
  (forall d, In d defs -> variable_ok finite (conforms ds int64) d vars) /\
  r = no_empty (coerced_all finite defs vars).
Proof.
  intros W E N L H. apply (collect_variables_spec finite _ op defs vars r E N) in H.
  destruct H as [H1 H2]. split; [|exact H2]. intros d Hd. specialize (H1 d Hd).
  unfold variable_ok in *. destruct (coerced finite d vars); [|exact H1].
  apply validate_sound; [exact W|exact (L d Hd)|exact H1].
Qed.

Lemma conform_collected finite ds op defs vars :
  wf_schema ds -> op_vars op = Some defs -> NoDup (map vd_name defs) ->
  (forall d, In d defs -> leaf_type ds (vd_type d)) ->
  (forall d v, In d defs -> coerced finite d vars = Some v -> ids_and_floats (vd_type d) v) ->
  (forall d, In d defs -> variable_ok finite (conforms ds int32) d vars) ->
  collect_variables finite (schema_metadata ds) op vars =
  Ok (no_empty (coerced_all finite defs vars)).
Proof.
  intros W E N L I H. apply (collect_variables_spec finite _ op defs vars _ E N).
  split; [|reflexivity]. intros d Hd. specialize (H d Hd). unfold variable_ok in *.
  destruct (coerced finite d vars) as [v|] eqn:C; [|exact H].
  apply (validate_complete ds int32); [exact W|exact (L d Hd)| |exact (I d v Hd C)|exact H].
  intros z Hz. unfold int32, int64 in *. lia.
Qed.

(** * Default values *)
Lemma denotes_iff finite g v : denotes finite g v <-> value_to_json finite g = v.
Proof.
  revert v. induction g as [n|z|b|s|b| |s|l IH|o IH] using gvalue_ind'; intro v; cbn [value_to_json];
    try (split; [inversion 1; reflexivity|intros <-; constructor]).
  - split; [inversion 1; subst; match goal with H : finite _ = _ |- _ => rewrite H end; reflexivity|].
    intros <-. destruct (finite b) eqn:E; constructor; exact E.
  - split.
    + inversion 1 as [| | | | | | | |? l' H2|]; subst. f_equal. clear H. induction H2 as [|x y l l' Hx H2 IH2]; [reflexivity|].
      inversion IH as [|? ? Hx' IH']; subst. cbn. f_equal; [apply Hx'; exact Hx|auto].
    + intros <-. constructor. induction IH as [|x l Hx IH IH2]; cbn; constructor; [apply Hx; reflexivity|exact IH2].
  - split.
    + inversion 1 as [| | | | | | | | |? o' H2]; subst. f_equal. clear H. induction H2 as [|x y o o' [Hk Hx] H2 IH2]; [reflexivity|].
      inversion IH as [|? ? Hx' IH']; subst. cbn. destruct y as [k' y]. cbn in *. subst k'. f_equal; [f_equal; apply Hx'; exact Hx|auto].
    + intros <-. constructor. induction IH as [|x o Hx IH IH2]; cbn; constructor; [cbn; split; [reflexivity|apply Hx; reflexivity]|exact IH2].
Qed.
