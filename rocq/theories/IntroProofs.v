(** Proofs about introspection: the schema and single fields. *)
From Coq Require Import String List Bool Permutation.
From Verif Require Import Ast JsonModel CoerceModel ConsumerModel ConsumerSpec IntroModel IntroSpec.
Import ListNotations.
Local Open Scope string_scope.
Local Open Scope list_scope.

Notation tname := ConsumerModel.type_name.

(** * Small things *)
Lemma kget_in' {A} k (l : list (string * A)) v : kget k l = Some v -> In (k, v) l.
Proof.
  induction l as [|[k' v'] l IH]; cbn [kget]; [discriminate|]. destruct (String.eqb_spec k k') as [->|].
  - intros [= ->]. now left.
  - intros H. right. now apply IH.
Qed.
Lemma kget_none {A} k (l : list (string * A)) : kget k l = None <-> forall v, ~ In (k, v) l.
Proof.
  induction l as [|[k' v'] l IH]; cbn [kget]; [split; [intros _ v []|reflexivity]|].
  destruct (String.eqb_spec k k') as [->|Hne].
  - split; [discriminate|]. intros H. destruct (H v'). now left.
  - rewrite IH. split; intros H v; [intros [[= -> _]|Hi]; [congruence|now apply (H v)]|intros Hi; apply (H v); now right].
Qed.
Lemma in_kget' {A} k (l : list (string * A)) v : NoDup (map fst l) -> In (k, v) l -> kget k l = Some v.
Proof.
  induction l as [|[k' v'] l IH]; cbn [kget map fst]; [intros _ []|]. intros Hn [[= -> ->]|Hi].
  - now rewrite String.eqb_refl.
  - inversion Hn; subst. destruct (String.eqb_spec k k') as [->|]; [|now apply IH].
    match goal with H : ~ In k' _ |- _ => destruct H end. change k' with (fst (k', v)). now apply in_map.
Qed.
Lemma those_filter {A} (P : A -> Prop) p l : (forall a, In a l -> (p a = true <-> P a)) -> those P l (filter p l).
Proof.
  induction l as [|a l IH]; intros H; cbn [filter]; [constructor|].
  assert (Ha := H a (or_introl eq_refl)). specialize (IH (fun b Hb => H b (or_intror Hb))). destruct (p a).
  - apply those_keep; [now apply Ha|exact IH].
  - apply those_skip; [|exact IH]. intros Hp. apply Ha in Hp. discriminate.
Qed.
Lemma those_all {A} (P : A -> Prop) l : (forall a, In a l -> P a) -> those P l l.
Proof. induction l as [|a l IH]; intros H; constructor; [apply H; now left|apply IH; intros b Hb; apply H; now right]. Qed.
Lemma is_deprecated_iff ds : is_deprecated ds = true <-> deprecated ds.
Proof.
  unfold is_deprecated, deprecated. rewrite existsb_exists. split; intros [d [Hi He]]; exists d; (split; [exact Hi|]); now apply String.eqb_eq.
Qed.
Lemma truth_bool (b : bool) P : (b = true <-> P) -> truth P (Leaf (VBool b)).
Proof. intros H. destruct b; [apply truth_true; now apply H|apply truth_false]. intros Hp. apply H in Hp. discriminate. Qed.
Lemma perm_map {A B} (f : A -> B) l l' : Permutation l l' -> Permutation (map f l) (map f l').
Proof. apply Permutation_map. Qed.

(** * The maps *)
Lemma kget_push k x m k' : kget k' (push_entry k x m) =
  if String.eqb k' k then Some (match kget k m with Some l => l ++ [x] | None => [x] end) else kget k' m.
Proof.
  induction m as [|[k0 l0] m IH]; cbn [push_entry kget].
  - destruct (String.eqb_spec k' k) as [->|Hne]; cbn [kget]; [reflexivity|reflexivity].
  - destruct (String.eqb_spec k k0) as [->|Hne]; cbn [kget].
    + destruct (String.eqb_spec k' k0); reflexivity.
    + rewrite IH. destruct (String.eqb_spec k' k0) as [->|Hne']; [|reflexivity]. destruct (String.eqb_spec k0 k) as [->|]; [congruence|reflexivity].
Qed.
Lemma kget_put k l m k' : kget k' (put_entry k l m) = if String.eqb k' k then Some l else kget k' m.
Proof.
  induction m as [|[k0 l0] m IH]; cbn [put_entry kget].
  - reflexivity.
  - destruct (String.eqb_spec k k0) as [->|Hne]; cbn [kget].
    + destruct (String.eqb_spec k' k0); reflexivity.
    + rewrite IH. destruct (String.eqb_spec k' k0) as [->|Hne']; [|reflexivity]. destruct (String.eqb_spec k0 k) as [->|]; [congruence|reflexivity].
Qed.
Lemma in_pushes n im m i o : (exists l, kget i (fold_left (fun m i => push_entry i n m) im m) = Some l /\ In o l) <->
  (exists l, kget i m = Some l /\ In o l) \/ (In i im /\ o = n).
Proof.
  revert m. induction im as [|i0 im IH]; intros m; cbn [fold_left In].
  - split; [now left|]. intros [H|[[] _]]. exact H.
  - rewrite IH, kget_push. destruct (String.eqb_spec i i0) as [->|Hne].
    + split.
      * intros [[l [E Ho]]|[Hi ->]]; [|right; split; [now right|reflexivity]]. injection E as <-. destruct (kget i0 m) as [l0|].
        -- apply in_app_or in Ho. destruct Ho as [Ho|[<-|[]]]; [left; now exists l0|right; split; [now left|reflexivity]].
        -- destruct Ho as [<-|[]]. right; split; [now left|reflexivity].
      * intros [[l [E Ho]]|[[_|Hi] ->]].
        -- left. eexists. split; [reflexivity|]. rewrite E. apply in_or_app. now left.
        -- left. eexists. split; [reflexivity|]. destruct (kget i0 m); [apply in_or_app; right|]; now left.
        -- now right.
    + split.
      * intros [H|[Hi ->]]; [now left|right; split; [now right|reflexivity]].
      * intros [H|[[->|Hi] ->]]; [now left|congruence|now right].
Qed.
Lemma pushes_key n im m i : kget i (fold_left (fun m i => push_entry i n m) im m) <> None <-> kget i m <> None \/ In i im.
Proof.
  revert m. induction im as [|i0 im IH]; intros m; cbn [fold_left In].
  - tauto.
  - rewrite IH, kget_push. destruct (String.eqb_spec i i0) as [->|Hne]; [|intuition congruence].
    split; [intros _; right; now left|]. intros _. left. discriminate.
Qed.
Lemma find_dir_some n ds d : find_dir n ds = Some d -> In d ds /\ d_name d = n.
Proof. intros H. apply find_some in H. destruct H as [Hi He]. apply String.eqb_eq in He. now split. Qed.
Lemma find_dir_none n ds d : find_dir n ds = None -> In d ds -> d_name d <> n.
Proof. intros H Hi E. apply (find_none _ _ H) in Hi. rewrite E, String.eqb_refl in Hi. discriminate. Qed.

Section Answers.
  Variable schema : list definition.
  Variable vars : list (string * value).
  Variable shuffle_names : list string -> list string.
  Variable shuffle_types : list typedef -> list typedef.
  Variable show : gvalue -> string.
  Hypothesis Hshuffle_names : forall l, Permutation l (shuffle_names l).
  Hypothesis Hshuffle_types : forall l, Permutation l (shuffle_types l).
  Hypothesis Hsound : sound schema.
  Hypothesis Hvars : NoDup (map fst vars).

  (** * Types *)
  Lemma type_by_name_in l n t : type_by_name l n = Some t -> In (TypeDef t) l /\ tname t = n.
  Proof.
    induction l as [|d l IH]; cbn [type_by_name]; [discriminate|].
    destruct d as [ds a b c|t0|m|m de i r ls]; try (intros H; destruct (IH H) as [H1 H2]; split; [now right|exact H2]).
    destruct (String.eqb_spec (tname t0) n) as [<-|Hne].
    - intros [= ->]. split; [now left|reflexivity].
    - intros H; destruct (IH H) as [H1 H2]; split; [now right|exact H2].
  Qed.
  Lemma type_by_name_none l n : type_by_name l n = None -> forall t, In (TypeDef t) l -> tname t <> n.
  Proof.
    induction l as [|d l IH]; cbn [type_by_name]; [intros _ t []|].
    destruct d as [ds a b c|t0|m|m de i r ls]; try (intros H t [Hi|Hi]; [discriminate|now apply IH]).
    destruct (String.eqb_spec (tname t0) n) as [<-|Hne]; [discriminate|]. intros H t [[= ->]|Hi]; [exact Hne|now apply IH].
  Qed.
  Lemma by_name t : defined schema t -> type_by_name schema (tname t) = Some t.
  Proof.
    intros Hd. destruct (type_by_name schema (tname t)) as [t'|] eqn:E.
    - apply type_by_name_in in E. f_equal. apply (sound_names _ Hsound); tauto.
    - now destruct (type_by_name_none _ _ E t Hd).
  Qed.
  Lemma known_by_name n : known schema n -> exists t, type_by_name schema n = Some t /\ defined schema t /\ tname t = n.
  Proof. intros [t [Hd <-]]. exists t. split; [now apply by_name|now split]. Qed.
  Lemma unknown_by_name n : type_by_name schema n = None -> ~ known schema n.
  Proof. intros E [t [Hd Hn]]. now destruct (type_by_name_none _ _ E t Hd). Qed.
  Lemma by_name_known n t : type_by_name schema n = Some t -> known schema n.
  Proof. intros E. apply type_by_name_in in E. exists t. exact E. Qed.

  Lemma says_type_known k n d ds : says schema (EType k n d) ds -> known schema n.
  Proof. intros [x [p [Hi Hp]]]. inversion Hp; subst; (eexists; split; [exact Hi|reflexivity]). Qed.
  Lemma refers_known e ds n : says schema e ds -> refers e = Some n -> known schema n.
  Proof. intros Hs Hr. destruct (sound_closed _ Hsound e ds n Hs Hr) as [k [d [ds' H]]]. now apply says_type_known in H. Qed.

  (** [type_map] *)
  Lemma put_type_new t m : ~ In (tname t) (map tname m) -> put_type t m = m ++ [t].
  Proof.
    induction m as [|t' m IH]; cbn; [reflexivity|]. intros H. destruct (String.eqb_spec (tname t) (tname t')) as [E|].
    - destruct H. now left.
    - f_equal. apply IH. tauto.
  Qed.
  Definition types_in (l : list definition) : list typedef := flat_map (fun d => match d with TypeDef t => [t] | _ => [] end) l.
  Lemma in_types_in l t : In t (types_in l) <-> In (TypeDef t) l.
  Proof.
    unfold types_in. rewrite in_flat_map. split.
    - intros [d [Hd Ht]]. destruct d as [ds a b c|t0|m|m de i r ls]; cbn in Ht; try contradiction. destruct Ht as [->|[]]. exact Hd.
    - intros H. exists (TypeDef t). split; [exact H|now left].
  Qed.
  Lemma type_map_app l m : NoDup (map tname (m ++ types_in l)) ->
    fold_left (fun m d => match d with TypeDef t => put_type t m | _ => m end) l m = m ++ types_in l.
  Proof.
    revert m. induction l as [|d l IH]; intros m Hn; cbn [fold_left types_in flat_map].
    - symmetry. apply app_nil_r.
    - destruct d as [ds a b c|t|x|x de i r ls]; cbn [app] in *; try (apply IH; exact Hn).
      fold (types_in l). rewrite put_type_new.
      + rewrite IH; rewrite <- app_assoc; [reflexivity|exact Hn].
      + cbn [types_in flat_map] in Hn. cbn [app] in Hn. rewrite map_app in Hn. cbn [map] in Hn. apply NoDup_remove_2 in Hn.
        intros Hi. apply Hn. apply in_or_app. now left.
  Qed.
  Lemma types_once l : NoDup l -> NoDup (types_in l).
  Proof.
    induction l as [|d l IH]; intros H; cbn [types_in flat_map]; [constructor|]. inversion H; subst.
    destruct d as [ds a b c|t|x|x de i r ls]; cbn [app]; try now apply IH.
    constructor; [|now apply IH]. intros Hi. apply in_types_in in Hi. contradiction.
  Qed.
  Lemma names_once l : NoDup l -> (forall t t', In t l -> In t' l -> tname t = tname t' -> t = t') -> NoDup (map tname l).
  Proof.
    induction l as [|t l IH]; intros H Hu; cbn [map]; constructor; inversion H; subst.
    - rewrite in_map_iff. intros [t' [E Hi]]. assert (t' = t); [apply Hu; [now right|now left|exact E]|]. now subst.
    - apply IH; [assumption|]. intros a b Ha Hb. apply Hu; now right.
  Qed.
  Lemma type_map_is : type_map schema = types_in schema.
  Proof.
    unfold type_map. rewrite type_map_app; [reflexivity|]. cbn [app]. apply names_once.
    - apply types_once. apply (sound_once _ Hsound).
    - intros t t' Ht Ht'. apply in_types_in in Ht. apply in_types_in in Ht'. now apply (sound_names _ Hsound).
  Qed.

  (** Possible types *)
  Definition adds (d : definition) (i o : string) : Prop :=
    match d with
    | TypeDef (Object n _ im _ _) | TypeDef (Interface n _ im _ _) => In i im /\ o = n
    | TypeDef (Union n _ _ ms) => i = n /\ In o ms
    | _ => False
    end.
  Definition keyed (d : definition) (i : string) : Prop :=
    match d with
    | TypeDef (Object _ _ im _ _) | TypeDef (Interface _ _ im _ _) => In i im
    | TypeDef (Union n _ _ _) => i = n
    | _ => False
    end.
  Lemma first_key l m i : kget i (fold_left first_possible l m) <> None <-> kget i m <> None \/ exists d, In d l /\ keyed d i.
  Proof.
    revert m. induction l as [|d l IH]; intros m; cbn [fold_left].
    - split; [now left|]. intros [H|[d [[] _]]]. exact H.
    - rewrite IH. assert (E : kget i (first_possible m d) <> None <-> kget i m <> None \/ keyed d i).
      { destruct d as [ds a b c|t|x|x de j r ls]; cbn [first_possible keyed]; try tauto.
        destruct t; cbn; try tauto; try apply pushes_key. rewrite kget_put. destruct (String.eqb_spec i name) as [->|]; [|tauto]. split; [now right|discriminate]. }
      rewrite E. split.
      + intros [[H|H]|[d' [Hi Hk]]]; [now left|right; exists d; split; [now left|exact H]|right; exists d'; split; [now right|exact Hk]].
      + intros [H|[d' [[<-|Hi] Hk]]]; [now left; left|now left; right|right; now exists d'].
  Qed.
  (** for an interface: no union of that name *)
  Lemma first_of l m i : (forall n d ds ms, In (TypeDef (Union n d ds ms)) l -> n <> i) ->
    forall o, (exists x, kget i (fold_left first_possible l m) = Some x /\ In o x) <->
              (exists x, kget i m = Some x /\ In o x) \/ exists d, In d l /\ adds d i o.
  Proof.
    revert m. induction l as [|d l IH]; intros m Hu o; cbn [fold_left].
    - split; [now left|]. intros [H|[d [[] _]]]. exact H.
    - rewrite IH; [|intros n de ds ms Hi; eapply Hu; right; exact Hi].
      assert (E : (exists x, kget i (first_possible m d) = Some x /\ In o x) <-> (exists x, kget i m = Some x /\ In o x) \/ adds d i o).
      { destruct d as [ds a b c|t|x|x de j r ls]; cbn [first_possible adds]; try tauto.
        destruct t; cbn; try tauto; try apply in_pushes. rewrite kget_put. destruct (String.eqb_spec i name) as [->|]; [|intuition congruence].
        destruct (Hu name desc dirs members); [now left|reflexivity]. }
      rewrite E. split.
      + intros [[H|H]|[d' [Hi Hk]]]; [now left|right; exists d; split; [now left|exact H]|right; exists d'; split; [now right|exact Hk]].
      + intros [H|[d' [[<-|Hi] Hk]]]; [now left; left|now left; right|right; now exists d'].
  Qed.
  (** for a union: nothing implements it, and there is one of that name *)
  Lemma first_union l m u d ds ms : In (TypeDef (Union u d ds ms)) l ->
    (forall d' ds' ms', In (TypeDef (Union u d' ds' ms')) l -> ms' = ms) ->
    (forall x, In x l -> match x with TypeDef (Object _ _ im _ _) | TypeDef (Interface _ _ im _ _) => ~ In u im | _ => True end) ->
    kget u (fold_left first_possible l m) = Some ms.
  Proof.
    intros Hin Hone Hnot.
    assert (G : forall l m, (forall d' ds' ms', In (TypeDef (Union u d' ds' ms')) l -> ms' = ms) ->
                 (forall x, In x l -> match x with TypeDef (Object _ _ im _ _) | TypeDef (Interface _ _ im _ _) => ~ In u im | _ => True end) ->
                 kget u m = Some ms \/ (exists d ds, In (TypeDef (Union u d ds ms)) l) -> kget u (fold_left first_possible l m) = Some ms).
    { clear. induction l as [|x l IH]; intros m Hone Hnot H; cbn [fold_left].
      - destruct H as [H|[d [ds []]]]. exact H.
      - apply IH; [intros; eapply Hone; right; eassumption|intros; apply Hnot; now right|].
        assert (Hp : forall n im m, ~ In u im -> kget u (fold_left (fun m i => push_entry i n m) im m) = kget u m).
        { clear. intros n im. induction im as [|i im IH]; intros m Hi; cbn [fold_left]; [reflexivity|]. rewrite IH; [|intros H; apply Hi; now right].
          rewrite kget_push. destruct (String.eqb_spec u i) as [->|]; [|reflexivity]. destruct Hi. now left. }
        assert (Hx := Hnot x (or_introl eq_refl)). assert (Ho : forall d' ds' ms', x = TypeDef (Union u d' ds' ms') -> ms' = ms) by (intros; eapply Hone; left; eassumption).
        destruct H as [H|[d [ds [Hi|Hi]]]]; [| |right; now exists d, ds].
        + left. destruct x as [a b c e|t|n|n de j r ls]; cbn; try exact H. destruct t; try exact H; try (rewrite Hp; [exact H|exact Hx]).
          rewrite kget_put. destruct (String.eqb_spec u name) as [->|]; [|exact H]. f_equal. eapply Ho. reflexivity.
        + left. subst x. cbn. rewrite kget_put. now rewrite String.eqb_refl. }
    apply G; [exact Hone|exact Hnot|]. right. now exists d, ds.
  Qed.
End Answers.
