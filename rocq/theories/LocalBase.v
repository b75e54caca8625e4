(* Lookups in schema and document, and the places of the calls. *)
From Coq Require Import String List Bool.
From Verif Require Import Ast ConsumerModel IntroModel CondModel NormModel NormProofs WalkModel LocalModel LocalSpec WalkProofs.
Import ListNotations.
Local Open Scope string_scope.
Local Open Scope list_scope.

Lemma smem_iff : forall n l, smem n l = true <-> In n l.
Proof.
  intros n l. unfold smem. rewrite existsb_exists. split.
  - intros (x & I & E). apply String.eqb_eq in E. now subst.
  - intros I. exists n. split; [exact I|apply String.eqb_refl].
Qed.
Lemma base_inner : forall t, inner_type t = base t.
Proof. induction t; cbn; auto. Qed.

Lemma type_by_name_in : forall l n t, type_by_name l n = Some t -> In (TypeDef t) l /\ type_name t = n.
Proof.
  induction l as [|d l IH]; intros n t; cbn [type_by_name]; [discriminate|].
  destruct d as [ds q m s|t'|x|x y z r ls]; try (intros K; apply IH in K; split; [right|]; tauto).
  destruct (String.eqb (type_name t') n) eqn:E.
  - intros [= <-]. apply String.eqb_eq in E. split; [now left|exact E].
  - intros K. apply IH in K. split; [right|]; tauto.
Qed.
Lemma type_by_name_ok : forall l n t, NoDup (type_names l) -> (type_by_name l n = Some t <-> named l n t).
Proof.
  intros l n t ND. split; [apply type_by_name_in|]. intros [I E]. revert ND I.
  induction l as [|d l IH]; intros ND I; [destruct I|]. cbn [type_by_name].
  destruct d as [ds q m s|t'|x|x y z r ls]; try (destruct I as [I|I]; [discriminate I|]; now apply IH).
  unfold type_names in ND. cbn [flat_map app] in ND. inversion ND as [|a b NI ND']; subst.
  destruct (String.eqb (type_name t') (type_name t)) eqn:E.
  - apply String.eqb_eq in E. destruct I as [I|I]; [now injection I as ->|]. exfalso. apply NI. rewrite E.
    apply in_flat_map. exists (TypeDef t). split; [exact I|now left].
  - destruct I as [I|I]; [injection I as ->; now rewrite String.eqb_refl in E|]. now apply IH.
Qed.
Lemma type_by_name_none : forall l n, NoDup (type_names l) -> (type_by_name l n = None <-> forall t, ~ named l n t).
Proof.
  intros l n ND. destruct (type_by_name l n) as [t|] eqn:E.
  - split; [discriminate|]. intros K. destruct (K t). now apply type_by_name_ok.
  - split; [|reflexivity]. intros _ t K. apply type_by_name_ok in K; [|exact ND]. now rewrite K in E.
Qed.
Lemma field_by_name_fields : forall t n, field_by_name t n = find (fun f => String.eqb (f_name f) n) (fields_of t).
Proof. now intros [] n. Qed.
Lemma find_name : forall {A} (g : A -> string) n l x, NoDup (map g l) -> (find (fun a => String.eqb (g a) n) l = Some x <-> In x l /\ g x = n).
Proof.
  intros A g n l x ND. split.
  - intros K. apply find_some in K. destruct K as [I E]. apply String.eqb_eq in E. now split.
  - intros [I <-]. induction l as [|y l IH]; [destruct I|]. cbn [find]. inversion ND as [|a b NI ND']; subst.
    destruct (String.eqb (g y) (g x)) eqn:E.
    + apply String.eqb_eq in E. destruct I as [->|I]; [reflexivity|]. exfalso. apply NI. rewrite E. now apply in_map.
    + destruct I as [->|I]; [now rewrite String.eqb_refl in E|]. now apply IH.
Qed.

Definition same_def (d : ddef) (n : string) (args : list input_value) (rep : bool) (ls : list string) : Prop :=
  d = mkddef n args rep ls.
Lemma directive_by_name_ok : forall l n d, NoDup (directive_names l) ->
  (directive_by_name l n = Some d <-> dd_name d = n /\ defines l n (dd_args d) (dd_repeatable d) (dd_locations d)).
Proof.
  intros l n d. induction l as [|x l IH]; intros ND.
  - split; [discriminate|]. intros [_ [desc []]].
  - cbn [directive_by_name]. destruct x as [ds q m s|t'|x|x desc args r ls]; try (
      rewrite IH by exact ND; split; intros [E [desc K]]; (split; [exact E|]; exists desc);
      [now right|destruct K as [K|K]; [discriminate K|exact K]]).
    unfold directive_names in ND. cbn [flat_map app] in ND. inversion ND as [|a b NI ND']; subst.
    destruct (String.eqb x n) eqn:E.
    + apply String.eqb_eq in E. subst x. split.
      * intros [= <-]. split; [reflexivity|]. exists desc. now left.
      * intros [E [desc' [K|K]]].
        -- injection K as -> -> -> ->. destruct d as [dn da dr dl]. cbn in E |- *. now rewrite E.
        -- exfalso. apply NI. apply in_flat_map. eexists. split; [exact K|now left].
    + rewrite IH by exact ND'. split; intros [En [desc' K]]; (split; [exact En|]; exists desc').
      * now right.
      * destruct K as [K|K]; [|exact K]. injection K as -> _ _ _ _. now rewrite String.eqb_refl in E.
Qed.
Lemma known_directive_found : forall l n d0, NoDup (directive_names l) ->
  known_directive l n d0 = match directive_by_name l n with Some d => Some d | None => d0 end.
Proof.
  induction l as [|x l IH]; intros n d0 ND; [reflexivity|]. cbn [known_directive directive_by_name].
  destruct x as [ds q m s|t'|x|x desc args r ls]; try (now apply IH).
  unfold directive_names in ND. cbn [flat_map app] in ND. inversion ND as [|a b NI ND']; subst.
  rewrite IH by exact ND'. destruct (String.eqb x n) eqn:E; [|reflexivity].
  destruct (directive_by_name l n) as [d|] eqn:D; [|reflexivity]. exfalso. apply NI. apply String.eqb_eq in E. subst x.
  apply directive_by_name_ok in D; [|exact ND']. destruct D as [_ [desc' K]]. apply in_flat_map. eexists. split; [exact K|now left].
Qed.
Lemma known_directive_same : forall l n, NoDup (directive_names l) -> known_directive l n None = directive_by_name l n.
Proof. intros l n ND. rewrite known_directive_found by exact ND. now destruct (directive_by_name l n). Qed.

Lemma known_fragment_in : forall doc n f0 d, known_fragment doc n f0 = Some d ->
  f0 = Some d \/ exists tc ds set, d = QFrag n tc ds set /\ In d doc.
Proof.
  induction doc as [|x doc IH]; intros n f0 d K; [now left|]. cbn [known_fragment] in K.
  destruct x as [n' tc ds set|k n' ds vs set].
  - apply IH in K. destruct K as [K|(tc' & ds' & set' & -> & I)].
    + destruct (String.eqb n' n) eqn:E; [|now left]. apply String.eqb_eq in E. injection K as <-. right. exists tc, ds, set. subst. split; [reflexivity|now left].
    + right. exists tc', ds', set'. split; [reflexivity|now right].
  - apply IH in K. destruct K as [K|(tc' & ds' & set' & -> & I)]; [now left|]. right. exists tc', ds', set'. split; [reflexivity|now right].
Qed.
Lemma known_fragment_keeps : forall doc n f0, f0 <> None -> known_fragment doc n f0 <> None.
Proof.
  induction doc as [|x doc IH]; intros n f0 K; [exact K|]. cbn [known_fragment]. destruct x; apply IH; [|exact K].
  destruct (String.eqb name n); [discriminate|exact K].
Qed.
Lemma known_fragment_none : forall doc n, known_fragment doc n None = None <-> ~ In n (fragment_names doc).
Proof.
  intros doc n. split.
  - intros K I. unfold fragment_names in I. apply in_flat_map in I. destruct I as ([n' tc ds set|k n' ds vs set] & I & J).
    2:{ destruct J. }
    destruct J as [->|[]]. 
    assert (P : forall f0, known_fragment doc n f0 <> None); [|now apply (P None)]. clear K.
    induction doc as [|x doc IH]; intros f0 K; [destruct I|].
    cbn [known_fragment] in K. destruct I as [->|I].
    + rewrite String.eqb_refl in K. revert K. now apply known_fragment_keeps.
    + destruct x as [n' tc' ds' set'|k' n' ds' vs' set']; eapply IH; eassumption.
  - intros K. destruct (known_fragment doc n None) as [d|] eqn:E; [|reflexivity]. exfalso. apply K.
    apply known_fragment_in in E. destruct E as [E|(tc & ds & set & -> & I)]; [discriminate|].
    apply in_flat_map. eexists. split; [exact I|now left].
Qed.
Lemma known_fragment_ok : forall doc n tc ds set, NoDup (fragment_names doc) ->
  (known_fragment doc n None = Some (QFrag n tc ds set) <-> In (QFrag n tc ds set) doc).
Proof.
  intros doc n tc ds set ND. split.
  - intros K. apply known_fragment_in in K. destruct K as [K|(tc' & ds' & set' & E & I)]; [discriminate|]. exact I.
  - intros I. destruct (known_fragment doc n None) as [d|] eqn:K.
    + apply known_fragment_in in K. destruct K as [K|(tc' & ds' & set' & -> & I')]; [discriminate|].
      f_equal. clear -ND I I'. induction doc as [|x doc IH]; [destruct I|].
      assert (J : forall y t u v, y = QFrag n t u v -> In y doc -> In n (fragment_names doc)).
      { intros y t u v -> Y. apply in_flat_map. eexists. split; [exact Y|now left]. }
      destruct x as [n' t u v|k n' t u v].
      * unfold fragment_names in ND. cbn [flat_map app] in ND. inversion ND as [|a b NI ND']; subst.
        destruct I as [E|I], I' as [E'|I'].
        -- now rewrite <- E, <- E'.
        -- injection E as -> -> -> ->. destruct NI. eapply J; [reflexivity|exact I'].
        -- injection E' as -> -> -> ->. destruct NI. eapply J; [reflexivity|exact I].
        -- now apply IH.
      * destruct I as [E|I]; [discriminate E|]. destruct I' as [E'|I']; [discriminate E'|]. now apply IH.
    + apply known_fragment_none in K. destruct K. apply in_flat_map. eexists. split; [exact I|now left].
Qed.

Lemma root_name_declared : forall def pick l fb n, (forall ds q m s, In (SchemaDef ds q m s) l -> pick q m s = Some n \/ pick q m s = None) ->
  (exists ds q m s, In (SchemaDef ds q m s) l /\ pick q m s = Some n) -> root_name def pick fb l = Some n.
Proof.
  intros def pick l. induction l as [|x l IH]; intros fb n A (ds & q & m & s & I & P); [destruct I|].
  assert (A' : forall ds q m s, In (SchemaDef ds q m s) l -> pick q m s = Some n \/ pick q m s = None) by (intros; eapply A; right; eassumption).
  cbn [root_name]. destruct x as [ds' q' m' s'|t'|x|x desc args r ls].
  - destruct (pick q' m' s') as [n'|] eqn:P'.
    + destruct (A ds' q' m' s' (or_introl eq_refl)) as [E|E]; rewrite P' in E; [exact E|discriminate].
    + apply IH; [exact A'|]. destruct I as [E|I]; [injection E as -> -> -> ->; now rewrite P in P'|]. now exists ds, q, m, s.
  - destruct I as [E|I]; [discriminate E|]. assert (X : exists ds q m s, In (SchemaDef ds q m s) l /\ pick q m s = Some n) by now exists ds, q, m, s.
    destruct t'; try now apply IH. destruct fb; now apply IH.
  - destruct I as [E|I]; [discriminate E|]. apply IH; [exact A'|]. now exists ds, q, m, s.
  - destruct I as [E|I]; [discriminate E|]. apply IH; [exact A'|]. now exists ds, q, m, s.
Qed.
Lemma root_name_default : forall def pick l fb, (forall ds q m s, In (SchemaDef ds q m s) l -> pick q m s = None) ->
  fb = None \/ fb = Some def ->
  root_name def pick fb l = match fb with Some _ => fb | None =>
    if existsb (fun d => match d with TypeDef (Object n _ _ _ _) => String.eqb n def | _ => false end) l then Some def else None end.
Proof.
  intros def pick l. induction l as [|x l IH]; intros fb A F; [now destruct fb|].
  assert (A' : forall ds q m s, In (SchemaDef ds q m s) l -> pick q m s = None) by (intros; eapply A; right; eassumption).
  cbn [root_name existsb]. destruct x as [ds' q' m' s'|t'|x|x desc args r ls]; cbn [orb].
  - rewrite (A ds' q' m' s' (or_introl eq_refl)). now apply IH.
  - destruct t'; cbn [orb]; try now apply IH.
    destruct fb as [x|]; [now apply IH|]. destruct (String.eqb name def) eqn:E; cbn [orb].
    + apply String.eqb_eq in E. subst. rewrite IH; auto.
    + rewrite IH; auto.
  - now apply IH.
  - now apply IH.
Qed.

Definition root_name_of (sch : list definition) (k : opkind) : option string :=
  match k with KQuery => query_type_name sch | KMutation => mutation_type_name sch | KSubscription => subscription_type_name sch end.

Section Base.
  Variable sch : list definition.
  Hypothesis WF : well_formed sch.

  Lemma root_name_eq : forall k, root_name_of sch k = root_name (usual k) (chosen k) None sch.
  Proof. now intros []. Qed.
  Lemma declared_or_not : forall k, (exists n, declares sch k n) \/ forall n, ~ declares sch k n.
  Proof.
    intros k.
    assert (P : forall l, (exists ds q m s n, In (SchemaDef ds q m s) l /\ chosen k q m s = Some n) \/
      forall ds q m s, In (SchemaDef ds q m s) l -> chosen k q m s = None).
    { induction l as [|x l [(ds & q & m & s & n & I & P)|N]].
      - right. intros ds q m s [].
      - left. exists ds, q, m, s, n. split; [now right|exact P].
      - destruct x as [ds q m s|t'|x|x desc args r ls]; try (right; intros a b c d [K|K]; [discriminate K|now apply (N _ _ _ _ K)]).
        destruct (chosen k q m s) as [n|] eqn:E.
        + left. exists ds, q, m, s, n. split; [now left|exact E].
        + right. intros a b c d [K|K]; [injection K as <- <- <- <-; exact E|now apply (N _ _ _ _ K)]. }
    destruct (P sch) as [(ds & q & m & s & n & I & Q)|N].
    - left. exists n, ds, q, m, s. now split.
    - right. intros n (ds & q & m & s & I & Q). rewrite (N _ _ _ _ I) in Q. discriminate.
  Qed.
  Lemma object_by_name : forall n m, object_named sch (Some n) = Some m <-> m = n /\ exists t, named sch n t /\ is_object t.
  Proof.
    intros n m. cbn. destruct (type_by_name sch n) as [t|] eqn:E.
    - pose proof (type_by_name_in _ _ _ E) as [I N]. split.
      + destruct t; try discriminate. intros [= <-]. cbn in N. split; [exact N|]. eexists. split; [split; [exact I|exact N]|exact Logic.I].
      + intros (-> & t' & K & O). apply type_by_name_ok in K; [|apply (wf_types _ WF)]. rewrite K in E. injection E as <-.
        destruct t'; try contradiction. cbn in N. now subst.
    - split; [discriminate|]. intros (_ & t' & K & O). apply type_by_name_ok in K; [|apply (wf_types _ WF)]. now rewrite K in E.
  Qed.
  Lemma object_root : forall k n, object_named sch (root_name_of sch k) = Some n <-> root sch k n.
  Proof.
    intros k n. rewrite root_name_eq. destruct (declared_or_not k) as [[m D]|N].
    - pose proof D as (ds & q & m0 & s & I & P).
      rewrite (root_name_declared (usual k) (chosen k) sch None m).
      + rewrite object_by_name. split.
        * intros [-> O]. split; [exact O|now left].
        * intros [O [(ds' & q' & m' & s' & I' & P')|[_ NO]]]; [|now destruct (NO m)].
          pose proof (wf_one_schema _ WF _ _ _ _ _ _ _ _ I I') as E. injection E as <- <- <-.
          rewrite P in P'. injection P' as <-. now split.
      + intros ds' q' m' s' I'. pose proof (wf_one_schema _ WF _ _ _ _ _ _ _ _ I I') as E. injection E as <- <- <-. now left.
      + exists ds, q, m0, s. now split.
    - rewrite root_name_default; [|intros ds q m s I; destruct (chosen k q m s) as [x|] eqn:E; [destruct (N x); now exists ds, q, m, s|reflexivity]|now left].
      destruct (existsb _ sch) eqn:E.
      + rewrite object_by_name. split.
        * intros [-> O]. split; [exact O|]. right. now split.
        * intros [O [D|[-> _]]]; [now destruct (N n)|]. now split.
      + split; [discriminate|]. intros [(t & [I Nm] & O) [D|[-> _]]]; [now destruct (N n)|]. exfalso.
        assert (X : existsb (fun d => match d with TypeDef (Object n _ _ _ _) => String.eqb n (usual k) | _ => false end) sch = true).
        { apply existsb_exists. exists (TypeDef t). split; [exact I|]. destruct t; try contradiction. cbn in Nm. rewrite Nm. apply String.eqb_refl. }
        congruence.
  Qed.
  Lemma root_of_some : forall k n, root_of sch k = Some (Some n) <-> root sch k n.
  Proof.
    intros k n. rewrite <- object_root. destruct k; cbn [root_of root_name_of].
    - destruct (object_named sch (query_type_name sch)); split; intros K; try discriminate; congruence.
    - split; congruence.
    - split; congruence.
  Qed.
  Lemma root_of_none : forall k, (root_of sch k = Some None -> forall n, ~ root sch k n) /\
    (root_of sch k = None <-> k = KQuery /\ forall n, ~ root sch k n).
  Proof.
    intros k. split.
    - intros K n R. apply root_of_some in R. congruence.
    - split.
      + intros K. split; [now destruct k|]. intros n R. apply root_of_some in R. congruence.
      + intros [-> N]. cbn. destruct (object_named sch (query_type_name sch)) as [n|] eqn:E; [|reflexivity].
        destruct (N n). now apply object_root.
  Qed.

  Lemma typed_ok : forall ty t, typed sch ty = Some t <-> stands sch ty t.
  Proof.
    intros [u|] t; unfold typed, stands.
    - rewrite base_inner, type_by_name_ok by apply (wf_types _ WF). split.
      + intros K. exists u. now split.
      + intros (u' & [= <-] & K). exact K.
    - split; [discriminate|]. intros (u & K & _). discriminate.
  Qed.
  Lemma typed_none : forall ty, typed sch ty = None <-> forall t, ~ stands sch ty t.
  Proof.
    intros ty. destruct (typed sch ty) as [t|] eqn:E.
    - split; [discriminate|]. intros K. destruct (K t). now apply typed_ok.
    - split; [|reflexivity]. intros _ t K. apply typed_ok in K. congruence.
  Qed.
  Lemma by_field : forall t n f, In (TypeDef t) sch -> (field_by_name t n = Some f <-> In f (fields_of t) /\ f_name f = n).
  Proof. intros t n f I. rewrite field_by_name_fields. apply find_name. now apply (wf_fields _ WF). Qed.
  Lemma found_ok : forall ty n f, found sch ty n = Some f <-> selects sch ty n f.
  Proof.
    intros ty n f. unfold found, selects. destruct (typed sch ty) as [t|] eqn:E.
    - pose proof (proj1 (typed_ok _ _) E) as S. pose proof S as (u & -> & I & N). rewrite by_field by exact I. split.
      + intros K. exists t. now split.
      + intros (t' & S' & K). apply typed_ok in S'. rewrite S' in E. now injection E as <-.
    - split; [discriminate|]. intros (t & S & _). apply typed_ok in S. congruence.
  Qed.
  Lemma found_none : forall ty n, found sch ty n = None <-> forall f, ~ selects sch ty n f.
  Proof.
    intros ty n. destruct (found sch ty n) as [f|] eqn:E.
    - split; [discriminate|]. intros K. destruct (K f). now apply found_ok.
    - split; [|reflexivity]. intros _ f K. apply found_ok in K. congruence.
  Qed.
  Lemma sub_type_ok : forall ty n r, sub_type sch ty n = r <-> result sch ty n r.
  Proof.
    intros ty n r. unfold sub_type, result. destruct (found sch ty n) as [f|] eqn:E; cbn [option_map].
    - pose proof (proj1 (found_ok _ _ _) E) as S. split.
      + intros <-. exists f. now split.
      + destruct r as [u|]; [|intros K; now destruct (K f)]. intros (f' & S' & <-). apply found_ok in S'. congruence.
    - split.
      + intros <-. now apply found_none.
      + destruct r as [u|]; [|reflexivity]. intros (f' & S' & _). apply found_ok in S'. congruence.
  Qed.

  Section Doc.
    Variable doc : list qdef.
    Hypothesis TOTAL : forall d, In d doc -> start_type sch d <> None.

    Lemma occurs_from : forall ty0 set0 ty set, inner sch ty0 set0 ty set -> occurs sch doc ty0 set0 -> occurs sch doc ty set.
    Proof.
      intros ty0 set0 ty set K. induction K as [ty set|ty set al n args ds sub ty' set' I K IH|ty set tc ds sub ty' set' I K IH]; intros O.
      - exact O.
      - apply IH. eapply on_field; [exact O|exact I|]. now apply sub_type_ok.
      - apply IH. destruct tc as [tc|]; [eapply on_condition|eapply on_same]; eassumption.
    Qed.
    Lemma inner_more : forall ty0 set0 ty set, inner sch ty0 set0 ty set ->
      (forall al n args ds sub, In (NField al n args ds sub) set -> inner sch ty0 set0 (sub_type sch ty n) sub) /\
      (forall tc ds sub, In (NInline tc ds sub) set -> inner sch ty0 set0 (cond_type ty tc) sub).
    Proof.
      intros ty0 set0 ty set K. induction K as [ty set|ty set al n args ds sub ty' set' I K IH|ty set tc ds sub ty' set' I K IH].
      - split; intros; [eapply inner_field|eapply inner_inline]; try eassumption; constructor.
      - split; intros; (eapply inner_field; [exact I|]); [eapply (proj1 IH)|eapply (proj2 IH)]; eassumption.
      - split; intros; (eapply inner_inline; [exact I|]); [eapply (proj1 IH)|eapply (proj2 IH)]; eassumption.
    Qed.
    Lemma occurs_iff : forall ty set, occurs sch doc ty set <->
      exists d ty0, In d doc /\ start_type sch d = Some ty0 /\ inner sch ty0 (set_of d) ty set.
    Proof.
      intros ty set. split.
      - intros K. induction K as [n tc ds set I|k n ds vs set r I R|k n ds vs set I R|ty set al n args ds sub r O IH I R|ty set tc ds sub O IH I|ty set ds sub O IH I].
        + eexists; exists (Some (TNamed tc)). split; [exact I|]. split; [reflexivity|constructor].
        + eexists; exists (Some (TNamed r)). split; [exact I|]. apply root_of_some in R. cbn. rewrite R. split; [reflexivity|constructor].
        + eexists; exists None. split; [exact I|]. pose proof (TOTAL _ I) as T. cbn in T |- *.
          destruct (root_of sch k) as [[r|]|] eqn:E; [|split; [reflexivity|constructor]|contradiction].
          destruct (R r). now apply root_of_some.
        + destruct IH as (d & ty0 & D & S & N). exists d, ty0. split; [exact D|]. split; [exact S|]. apply sub_type_ok in R. subst r.
          now apply (proj1 (inner_more _ _ _ _ N) al n args ds sub).
        + destruct IH as (d & ty0 & D & S & N). exists d, ty0. split; [exact D|]. split; [exact S|].
          now apply (proj2 (inner_more _ _ _ _ N) (Some tc) ds sub).
        + destruct IH as (d & ty0 & D & S & N). exists d, ty0. split; [exact D|]. split; [exact S|].
          now apply (proj2 (inner_more _ _ _ _ N) None ds sub).
      - intros (d & ty0 & D & S & N). eapply occurs_from; [exact N|]. destruct d as [n tc ds set'|k n ds vs set']; cbn in S |- *.
        + injection S as <-. eapply on_fragment; exact D.
        + destruct (root_of sch k) as [[r|]|] eqn:E; [| |discriminate]; injection S as <-; cbn.
          * eapply on_operation; [exact D|]. now apply root_of_some.
          * eapply on_nothing; [exact D|]. exact (proj1 (root_of_none k) E).
    Qed.

    Lemma inner_within : forall ty0 set0 ty set, inner sch ty0 set0 ty set -> forall x, In x set -> within set0 x.
    Proof.
      intros ty0 set0 ty set K. induction K as [ty set|ty set al n args ds sub ty' set' I K IH|ty set tc ds sub ty' set' I K IH]; intros x X.
      - now constructor.
      - eapply within_field; [exact I|auto].
      - eapply within_inline; [exact I|auto].
    Qed.
    Lemma within_inner : forall set0 x, within set0 x -> forall ty0, exists ty set, inner sch ty0 set0 ty set /\ In x set.
    Proof.
      intros set0 x K. induction K as [set x I|set al n args ds sub x I K IH|set tc ds sub x I K IH]; intros ty0.
      - exists ty0, set. split; [constructor|exact I].
      - destruct (IH (sub_type sch ty0 n)) as (ty & s & A & B). exists ty, s. split; [|exact B]. eapply inner_field; eassumption.
      - destruct (IH (cond_type ty0 tc)) as (ty & s & A & B). exists ty, s. split; [|exact B]. eapply inner_inline; eassumption.
    Qed.
    Lemma item_iff : forall x, item doc x <-> exists ty set, occurs sch doc ty set /\ In x set.
    Proof.
      intros x. split.
      - intros (d & D & W). destruct (start_type sch d) as [ty0|] eqn:E; [|now destruct (TOTAL d D)].
        destruct (within_inner _ _ W ty0) as (ty & set & N & X). exists ty, set. split; [|exact X].
        apply occurs_iff. exists d, ty0. auto.
      - intros (ty & set & O & X). apply occurs_iff in O. destruct O as (d & ty0 & D & S & N). exists d. split; [exact D|].
        eapply inner_within; eassumption.
    Qed.
  End Doc.
End Base.

(* Which calls are for what *)
Definition valued (e : event) : bool :=
  match e with EnterScalar _ | EnterNull | EnterEnum _ | EnterUse _ | EnterList _ | EnterObject _ => true | _ => false end.
Definition argued (e : event) : bool := match e with EnterArgument _ _ => true | _ => valued e end.
Definition directing (e : event) : bool := match e with EnterDirective _ | LeaveDirective => true | _ => argued e end.

Section Calls.
  Variable sch : list definition.
  Lemma value_list : forall c l, walk_value sch c (GList l) = (c, EnterList l) ::
    flat_map (walk_value sch (with_input c (match c_input c with Some (TList t) => Some t | _ => None end) false)) l.
  Proof. reflexivity. Qed.
  Definition entry_ctx (c : ctx) (k : string) : ctx :=
    let f := match typed sch (c_input c) with Some t => input_field_by_name t k | None => None end in
    with_input c (option_map iv_type f) (match f with Some f => match iv_default f with Some _ => true | None => false end | None => false end).
  Lemma value_object : forall c o, walk_value sch c (GObj o) = (c, EnterObject o) ::
    flat_map (fun kv => walk_value sch (entry_ctx c (fst kv)) (snd kv)) o.
  Proof. intros c o. cbn [walk_value]. f_equal. induction o as [|[k x] o IH]; [reflexivity|]. cbn [flat_map fst snd]. now rewrite <- IH. Qed.
  Definition item_ctx (c : ctx) : ctx := with_input c (match c_input c with Some (TList t) => Some t | _ => None end) false.

  Lemma value_valued : forall v c x, In x (walk_value sch c v) -> valued (snd x) = true.
  Proof.
    intros v. induction v as [nm|z|b|s|b| |s|l IH|o IH] using gvalue_ind'; intros c x;
      try (intros [<-|[]]; reflexivity).
    - rewrite value_list. intros [<-|K]; [reflexivity|]. apply in_flat_map in K. destruct K as (y & I & K).
      rewrite Forall_forall in IH. eapply IH; eassumption.
    - rewrite value_object. intros [<-|K]; [reflexivity|]. apply in_flat_map in K. destruct K as (y & I & K).
      rewrite Forall_forall in IH. eapply IH; eassumption.
  Qed.
  Lemma arguments_argued : forall c defs l x, In x (walk_arguments sch c defs l) -> argued (snd x) = true.
  Proof.
    intros c defs l x K. apply in_flat_map in K. destruct K as (a & I & [<-|K]); [reflexivity|].
    apply value_valued in K. destruct (snd x); try discriminate; reflexivity.
  Qed.
  Lemma directives_directing : forall c l x, In x (walk_directives sch c l) -> directing (snd x) = true.
  Proof.
    intros c l x K. apply in_flat_map in K. destruct K as (a & I & [<-|K]); [reflexivity|].
    apply in_app_iff in K. destruct K as [K|[<-|[]]]; [|reflexivity].
    apply arguments_argued in K. destruct (snd x); try discriminate; reflexivity.
  Qed.
  Lemma variables_valued : forall c l x, In x (flat_map (walk_variable sch c) l) ->
    valued (snd x) = true \/ exists v, In v l /\ x = (with_input c (Some (vd_type v)) false, EnterVariable v).
  Proof.
    intros c l x K. apply in_flat_map in K. destruct K as (v & I & [<-|K]).
    - right. now exists v.
    - left. destruct (vd_default v); [|destruct K]. now apply value_valued in K.
  Qed.
  Lemma value_objects : forall v c o, (exists c', In (c', EnterObject o) (walk_value sch c v)) <-> part v (GObj o).
  Proof.
    intros v. induction v as [nm|z|b|s|b| |s|l IH|o' IH] using gvalue_ind'; intros c o;
      try (split; [intros (c' & [K|[]]); discriminate K|intros K; inversion K]).
    - rewrite value_list. rewrite Forall_forall in IH. split.
      + intros (c' & [K|K]); [discriminate K|]. apply in_flat_map in K. destruct K as (y & I & K).
        eapply part_list; [exact I|]. apply (proj1 (IH _ I (item_ctx c) _)). eexists. exact K.
      + intros K. inversion K as [|a y b I P|]; subst. apply (proj2 (IH _ I (item_ctx c) _)) in P. destruct P as (c' & P).
        exists c'. right. apply in_flat_map. exists y. now split.
    - rewrite value_object. rewrite Forall_forall in IH. split.
      + intros (c' & [K|K]); [injection K as _ <-; constructor|]. apply in_flat_map in K. destruct K as ([k y] & I & K).
        eapply part_object; [exact I|]. apply (proj1 (IH _ I (entry_ctx c k) _)). eexists. exact K.
      + intros K. inversion K as [|a y b I P|a k y b I P]; subst.
        * exists c. now left.
        * apply (proj2 (IH _ I (entry_ctx c k) _)) in P. destruct P as (c' & P).
          exists c'. right. apply in_flat_map. exists (k, y). now split.
  Qed.
End Calls.
