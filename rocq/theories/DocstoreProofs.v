(* Lemmas on the stores of persisted documents. *)
From Coq Require Import String Ascii List Bool NArith Lia.
From Verif Require Import StrUtil DocstoreModel DocstoreSpec.
Import ListNotations.
Local Open Scope string_scope.
Local Open Scope list_scope.

(* ids of the CDN *)
Lemma once_none : forall c s, split_once c s = None <-> free c s.
Proof.
  intros c. induction s as [|d s IH]; cbn [split_once free]; [tauto|].
  destruct (Ascii.eqb_spec c d) as [->|N].
  - split; [discriminate|]. intros [K _]. contradiction.
  - destruct (split_once c s) as [[a b]|].
    + split; [discriminate|]. intros [_ K]. apply IH in K. discriminate K.
    + split; [intros _; split; [congruence|now apply IH]|reflexivity].
Qed.

Lemma once_some : forall c s a b, split_once c s = Some (a, b) <-> s = (a ++ String c b)%string /\ free c a.
Proof.
  intros c. induction s as [|d s IH]; intros a b; cbn [split_once].
  - split; [discriminate|]. intros [E _]. destruct a; discriminate E.
  - destruct (Ascii.eqb_spec c d) as [->|N].
    + split.
      * intros [= <- <-]. split; [reflexivity|exact I].
      * intros [E F]. destruct a as [|x a]; [now injection E as ->|].
        injection E as <- _. destruct F as [K _]. contradiction.
    + destruct (split_once c s) as [[a' b']|] eqn:ES.
      * pose proof (proj1 (IH a' b') eq_refl) as [-> F']. split.
        -- intros [= <- <-]. split; [reflexivity|]. split; [congruence|exact F'].
        -- intros [E F]. destruct a as [|x a]; [injection E as E _; congruence|].
           injection E as <- E. destruct F as [_ F].
           assert (K : Some (a', b') = Some (a, b)) by (apply IH; split; assumption). injection K as <- <-. reflexivity.
      * split; [discriminate|]. intros [E F]. destruct a as [|x a]; [injection E as E _; congruence|].
        injection E as <- E. destruct F as [_ F].
        assert (K : None = Some (a, b)) by (apply IH; split; assumption). discriminate K.
Qed.

Lemma syntax_plain : forall v d, id_syntax v = Plain d <-> d = v /\ free "~" v.
Proof.
  intros v d. unfold id_syntax. fold tilde. destruct (split_once tilde v) as [[n r]|] eqn:E1.
  - assert (NF : ~ free tilde v) by (intros K; apply once_none in K; congruence).
    split; [|intros [_ K]; contradiction].
    destruct (String.eqb n ""); [discriminate|]. destruct (split_once tilde r) as [[ve doc]|]; [|discriminate].
    destruct (String.eqb ve ""); [discriminate|]. destruct (String.eqb doc ""); [discriminate|].
    destruct (split_once tilde doc); discriminate.
  - apply once_none in E1. split; [intros [= <-]; auto|intros [-> _]; reflexivity].
Qed.

Lemma syntax_app : forall v i, id_syntax v = App i <-> i = v /\ exists n ve d, app_id n ve d v.
Proof.
  intros v i. unfold id_syntax. split.
  - destruct (split_once tilde v) as [[n r]|] eqn:E1; [|discriminate].
    destruct (String.eqb_spec n "") as [|N1]; [discriminate|].
    destruct (split_once tilde r) as [[ve doc]|] eqn:E2; [|discriminate].
    destruct (String.eqb_spec ve "") as [|N2]; [discriminate|].
    destruct (String.eqb_spec doc "") as [|N3]; [discriminate|].
    destruct (split_once tilde doc) eqn:E3; [discriminate|]. intros [= <-]. split; [reflexivity|].
    apply once_some in E1. destruct E1 as [-> F1]. apply once_some in E2. destruct E2 as [-> F2].
    apply once_none in E3. exists n, ve, doc. now constructor.
  - intros [-> (n & ve & d & H)]. destruct H as [n v d N1 N2 N3 F1 F2 F3].
    assert (E1 : split_once tilde (n ++ "~" ++ v ++ "~" ++ d)%string = Some (n, (v ++ "~" ++ d)%string))
      by (apply once_some; split; [reflexivity|exact F1]).
    assert (E2 : split_once tilde (v ++ "~" ++ d)%string = Some (v, d))
      by (apply once_some; split; [reflexivity|exact F2]).
    rewrite E1. apply String.eqb_neq in N1. rewrite N1. rewrite E2. apply String.eqb_neq in N2. rewrite N2.
    apply String.eqb_neq in N3. rewrite N3. apply once_none in F3. fold tilde in F3. rewrite F3. reflexivity.
Qed.

Lemma app_document_iff : forall name version id r, app_document_id name version id = inl r <->
  (r = id /\ exists n v d, app_id n v d id) \/
  (free "~" id /\ exists n v, name = Some n /\ version = Some v /\ r = (n ++ "~" ++ v ++ "~" ++ id)%string).
Proof.
  intros name version id r. unfold app_document_id. destruct (id_syntax id) as [i|i|] eqn:E.
  - pose proof (proj1 (syntax_app _ _) E) as [-> H]. split.
    + intros [= <-]. left. auto.
    + intros [[-> _]|[F _]]; [reflexivity|].
      assert (K : id_syntax id = Plain id) by (apply syntax_plain; auto). congruence.
  - pose proof (proj1 (syntax_plain _ _) E) as [-> F]. split.
    + destruct name as [n|], version as [v|]; try discriminate. intros [= <-]. right. split; [exact F|]. exists n, v. auto.
    + intros [[-> H]|[_ (n & v & -> & -> & ->)]]; [|reflexivity].
      assert (K : id_syntax id = App id) by (apply syntax_app; auto). congruence.
  - split; [discriminate|]. intros [[_ H]|[F _]]; exfalso.
    + assert (K : id_syntax id = App id) by (apply syntax_app; auto). congruence.
    + assert (K : id_syntax id = Plain id) by (apply syntax_plain; auto). congruence.
Qed.

Lemma slashes_app : forall a b, slashes (a ++ b)%string = (slashes a ++ slashes b)%string.
Proof. induction a as [|c a IH]; intros b; [reflexivity|]. cbn [append slashes]. now rewrite IH. Qed.

Lemma slashes_free : forall a, free "~" a -> slashes a = a.
Proof.
  induction a as [|c a IH]; intros F; [reflexivity|]. destruct F as [N F]. cbn [slashes]. fold tilde in N.
  apply Ascii.eqb_neq in N. now rewrite N, IH.
Qed.

Lemma cut_inj : forall c a b a' b', free c a -> free c a' -> (a ++ String c b = a' ++ String c b')%string -> a = a' /\ b = b'.
Proof.
  intros c. induction a as [|x a IH]; intros b a' b' F F' E.
  - destruct a' as [|y a']; [now injection E as ->|]. injection E as <- _. destruct F' as [K _]. contradiction.
  - destruct a' as [|y a']; [injection E as -> _; destruct F as [K _]; contradiction|].
    injection E as <- E. destruct F as [_ F], F' as [_ F']. destruct (IH _ _ _ F F' E) as [-> ->]. auto.
Qed.

Lemma app_inj : forall a b c, (a ++ b = a ++ c)%string -> b = c.
Proof. induction a as [|d a IH]; intros b c E; [exact E|]. injection E. apply IH. Qed.

Lemma url_tells : forall e n v d n' v' d',
  free "~" n -> free "~" v -> free "~" d -> free "~" n' -> free "~" v' -> free "~" d' ->
  free "/" n -> free "/" v -> free "/" n' -> free "/" v' ->
  cdn_url e (n ++ "~" ++ v ++ "~" ++ d) = cdn_url e (n' ++ "~" ++ v' ++ "~" ++ d') -> n = n' /\ v = v' /\ d = d'.
Proof.
  intros e n v d n' v' d' T1 T2 T3 T4 T5 T6 S1 S2 S4 S5 E. unfold cdn_url in E.
  apply app_inj in E. apply (app_inj "/apps/") in E. repeat rewrite slashes_app in E.
  rewrite (slashes_free n), (slashes_free v), (slashes_free d), (slashes_free n'), (slashes_free v'), (slashes_free d') in E by assumption.
  change (slashes "~") with "/" in E. cbn [append] in E.
  destruct (cut_inj _ _ _ _ _ S1 S4 E) as [-> E2]. destruct (cut_inj _ _ _ _ _ S2 S5 E2) as [-> ->]. auto.
Qed.

(* endpoints *)
Lemma endpoints_ok : forall l last t, from_endpoints last l = inl t <-> served l t.
Proof.
  induction l as [|a l IH]; intros last t; cbn [from_endpoints].
  - split; [discriminate|]. intros H. inversion H.
  - destruct a as [u|c|w]; cbn [from_endpoint].
    + split; [intros [= ->]; constructor|]. intros H. inversion H as [|? ? ? N]; subst; [reflexivity|]. exfalso. now apply (N u).
    + rewrite IH. split; [intros H; constructor; [discriminate|exact H]|]. intros H. inversion H; assumption.
    + rewrite IH. split; [intros H; constructor; [discriminate|exact H]|]. intros H. inversion H; assumption.
Qed.

Lemma endpoints_missing : forall l last, from_endpoints last l = inr NotFound <->
  nobody l /\ ((l = [] /\ last = Some NotFound) \/ exists r c, l = r ++ [Status c]).
Proof.
  induction l as [|a l IH]; intros last; cbn [from_endpoints].
  - split.
    + intros H. split; [intros t []|]. left. destruct last as [e|]; [|discriminate]. now injection H as ->.
    + intros [_ [[_ ->]|([|] & c & E)]]; [reflexivity|discriminate E|discriminate E].
  - destruct a as [u|c|w]; cbn [from_endpoint].
    + split; [discriminate|]. intros [N _]. exfalso. apply (N u). now left.
    + rewrite IH. split.
      * intros [N H]. split; [intros t [K|K]; [discriminate K|now apply (N t)]|]. right.
        destruct H as [[-> _]|(r & c' & ->)]; [exists [], c; reflexivity|exists (Status c :: r), c'; reflexivity].
      * intros [N H]. split; [intros t K; apply (N t); now right|].
        destruct H as [[H _]|(r & c' & H)]; [discriminate H|].
        destruct r as [|x r]; injection H as H1 H2; [left; auto|right; exists r, c'; exact H2].
    + rewrite IH. split.
      * intros [N H]. split; [intros t [K|K]; [discriminate K|now apply (N t)]|]. right.
        destruct H as [[_ K]|(r & c' & ->)]; [discriminate K|exists (Broken w :: r), c'; reflexivity].
      * intros [N H]. split; [intros t K; apply (N t); now right|].
        destruct H as [[H _]|(r & c' & H)]; [discriminate H|].
        destruct r as [|x r]; injection H as H1 H2; [discriminate H1|right; exists r, c'; exact H2].
Qed.

Lemma endpoints_refused : forall l, from_endpoints None l = inr NotFound <-> refused l.
Proof.
  intros l. rewrite endpoints_missing. unfold refused. split.
  - intros [N [[_ K]|H]]; [discriminate K|auto].
  - intros [N H]. auto.
Qed.

(* caches *)
Lemma get_in : forall {A} k (l : list (string * A)) v, get k l = Some v -> In (k, v) l.
Proof.
  intros A k l v. induction l as [|[k' w] l IH]; cbn [get]; [discriminate|].
  destruct (String.eqb_spec k' k) as [->|N]; [intros [= ->]; now left|intros H; right; auto].
Qed.

Lemma drop_in : forall {A} k (l : list (string * A)) e, In e (drop k l) -> In e l.
Proof. intros A k l e H. apply filter_In in H. tauto. Qed.

Lemma get_drop : forall {A} k j (l : list (string * A)), get k (drop j l) = if String.eqb k j then None else get k l.
Proof.
  intros A k j l. induction l as [|[k' w] l IH]; cbn [drop filter get].
  - now destruct (String.eqb k j).
  - cbn [fst]. destruct (String.eqb_spec k' j) as [->|N]; cbn [negb].
    + fold (drop j l). rewrite IH. destruct (String.eqb_spec k j) as [->|NK]; [reflexivity|].
      destruct (String.eqb_spec j k); [congruence|reflexivity].
    + cbn [get]. fold (drop j l). rewrite IH. destruct (String.eqb_spec k' k) as [->|NK]; [|reflexivity].
      apply String.eqb_neq in N. now rewrite N.
Qed.

Section Cdn.
Variable ttl : option N.

Lemma run_app : forall a s b, sdk_run ttl s (a ++ b) = sdk_run ttl (sdk_run ttl s a) b.
Proof. induction a as [|o a IH]; intros s b; [reflexivity|]. cbn [List.app sdk_run]. apply IH. Qed.

Definition sound (H : list sdk_op) (s : sdk) : Prop :=
  (forall id t, In (id, t) (s_cache s) -> exists l, In (Lookup id l) H /\ served l t) /\
  (forall id n, In (id, n) (s_missing s) -> exists H1 H2 l, H = H1 ++ Lookup id l :: H2 /\ refused l /\
     n = s_now (sdk_run ttl sdk_start H1)) /\
  (forall id, missing ttl s id = true -> get id (s_cache s) = None).

Lemma sound_start : sound [] sdk_start.
Proof.
  split; [intros id t []|]. split; [intros id n []|]. intros id _. reflexivity.
Qed.

Lemma later_ops : forall (H : list sdk_op) o id n,
  (exists H1 H2 l, H = H1 ++ Lookup id l :: H2 /\ refused l /\ n = s_now (sdk_run ttl sdk_start H1)) ->
  exists H1 H2 l, H ++ [o] = H1 ++ Lookup id l :: H2 /\ refused l /\ n = s_now (sdk_run ttl sdk_start H1).
Proof.
  intros H o id n (H1 & H2 & l & -> & R & E). exists H1, (H2 ++ [o]), l. rewrite <- app_assoc. auto.
Qed.

Lemma sound_step : forall H o, sound H (sdk_run ttl sdk_start H) ->
  sound (H ++ [o]) (fst (sdk_step ttl (sdk_run ttl sdk_start H) o)).
Proof.
  intros H o S. destruct (sdk_run ttl sdk_start H) as [ca mi now] eqn:ER.
  destruct S as (SC & SM & SX). cbn [s_cache s_missing] in SC, SM.
  assert (C' : forall id t, In (id, t) ca -> exists l, In (Lookup id l) (H ++ [o]) /\ served l t).
  { intros id t K. destruct (SC id t K) as (l & I1 & I2). exists l. split; [apply in_or_app; auto|exact I2]. }
  assert (M' : forall id n, In (id, n) mi -> exists H1 H2 l, H ++ [o] = H1 ++ Lookup id l :: H2 /\ refused l /\
     n = s_now (sdk_run ttl sdk_start H1)) by (intros id n K; apply later_ops; auto).
  destruct o as [id l|id|id|d]; cbn [sdk_step].
  - unfold lookup. destruct (missing ttl (mksdk ca mi now) id) eqn:EM; [cbn [fst]; repeat split; assumption|].
    cbn [s_cache]. destruct (get id ca) as [t|] eqn:EG; [cbn [fst]; repeat split; assumption|].
    destruct (from_endpoints None l) as [t|[|w|]] eqn:EF; cbn [fst]; try (repeat split; assumption).
    + split; [|split]; cbn [s_cache s_missing s_now].
      * intros id' t' [K|K]; [|auto]. injection K as <- <-. exists l.
        split; [apply in_or_app; right; now left|]. now apply endpoints_ok in EF.
      * exact M'.
      * intros id' K. change (missing ttl (mksdk ((id, t) :: ca) mi now) id') with (missing ttl (mksdk ca mi now) id') in K.
        cbn [get]. destruct (String.eqb_spec id id') as [EI|N]; [subst id'; rewrite EM in K; discriminate K|]. exact (SX id' K).
    + apply endpoints_refused in EF. split; [exact C'|]. cbn [s_missing s_cache s_now]. split.
      * intros id' n K. destruct ttl as [d|]; [|auto]. destruct K as [K|K]; [|apply drop_in in K; auto].
        injection K as <- <-. exists H, [], l. rewrite ER. auto.
      * intros id' K. destruct (String.eqb_spec id' id) as [->|N]; [exact EG|]. apply (SX id').
        unfold missing in *. cbn [s_missing s_now] in *. destruct ttl as [d|]; [|discriminate K].
        cbn [get] in K. destruct (String.eqb_spec id id') as [E|_]; [congruence|].
        rewrite get_drop in K. apply String.eqb_neq in N. now rewrite N in K.
  - cbn [fst]. split; [intros id' t K; apply drop_in in K; auto|]. split; [exact M'|].
    intros id' K. cbn [s_cache]. rewrite get_drop. destruct (String.eqb id' id); [reflexivity|]. exact (SX id' K).
  - cbn [fst]. split; [exact C'|]. split; [intros id' n K; apply drop_in in K; auto|].
    intros id' K. apply (SX id'). unfold missing in *. cbn [s_missing s_now] in *. destruct ttl as [d|]; [|discriminate K].
    rewrite get_drop in K. destruct (String.eqb id' id); [discriminate K|exact K].
  - cbn [fst]. split; [exact C'|]. split; [exact M'|].
    intros id' K. apply (SX id'). unfold missing in *. cbn [s_missing s_now] in *. destruct ttl as [d'|]; [|discriminate K].
    destruct (get id' mi) as [t0|]; [|discriminate K]. apply N.ltb_lt in K. apply N.ltb_lt. lia.
Qed.

Lemma always_sound : forall H, sound H (sdk_run ttl sdk_start H).
Proof.
  intros H. induction H as [|o H IH] using rev_ind; [exact sound_start|].
  rewrite run_app. cbn [sdk_run]. now apply sound_step.
Qed.

Lemma text_was_served : forall H id l s' t, lookup ttl (sdk_run ttl sdk_start H) id l = (s', inl t) ->
  exists l', In (Lookup id l') (H ++ [Lookup id l]) /\ served l' t.
Proof.
  intros H id l s' t E. pose proof (always_sound H) as (SC & _ & _). unfold lookup in E.
  destruct (missing ttl (sdk_run ttl sdk_start H) id); [discriminate|].
  destruct (get id (s_cache (sdk_run ttl sdk_start H))) as [u|] eqn:EG.
  - injection E as _ <-. apply get_in in EG. destruct (SC _ _ EG) as (l' & I1 & I2).
    exists l'. split; [apply in_or_app; auto|exact I2].
  - destruct (from_endpoints None l) as [u|[|w|]] eqn:EF; try discriminate. injection E as _ <-.
    apply endpoints_ok in EF. exists l. split; [apply in_or_app; right; now left|exact EF].
Qed.

Lemma not_found_why : forall H id l s', lookup ttl (sdk_run ttl sdk_start H) id l = (s', inr NotFound) ->
  refused l \/ exists d H1 H2 l', ttl = Some d /\ H = H1 ++ Lookup id l' :: H2 /\ refused l' /\
    (s_now (sdk_run ttl sdk_start H) < s_now (sdk_run ttl sdk_start H1) + d)%N.
Proof.
  intros H id l s' E. pose proof (always_sound H) as (_ & SM & _). unfold lookup in E.
  destruct (missing ttl (sdk_run ttl sdk_start H) id) eqn:EM.
  - right. unfold missing in EM. destruct ttl as [d|] eqn:ET; [|discriminate].
    destruct (get id (s_missing (sdk_run (Some d) sdk_start H))) as [n|] eqn:EG; [|discriminate].
    apply get_in in EG. destruct (SM _ _ EG) as (H1 & H2 & l' & E1 & R & ->). apply N.ltb_lt in EM.
    exists d, H1, H2, l'. auto.
  - left. destruct (get id (s_cache (sdk_run ttl sdk_start H))) as [u|]; [discriminate|].
    destruct (from_endpoints None l) as [u|[|w|]] eqn:EF; try discriminate. now apply endpoints_refused.
Qed.

Lemma failover : forall s id l t, missing ttl s id = false -> get id (s_cache s) = None -> served l t ->
  snd (lookup ttl s id l) = inl t.
Proof.
  intros s id l t M G S. unfold lookup. rewrite M, G. apply (endpoints_ok l None) in S. now rewrite S.
Qed.

Lemma no_conflict : forall H id, missing ttl (sdk_run ttl sdk_start H) id = true ->
  get id (s_cache (sdk_run ttl sdk_start H)) = None.
Proof. intros H. exact (proj2 (proj2 (always_sound H))). Qed.

Lemma cached_stays : forall H id l t l',
  snd (lookup ttl (sdk_run ttl sdk_start H) id l) = inl t ->
  snd (lookup ttl (fst (lookup ttl (sdk_run ttl sdk_start H) id l)) id l') = inl t.
Proof.
  intros H id l t l' E. set (s := sdk_run ttl sdk_start H) in *. unfold lookup in E at 1.
  destruct (missing ttl s id) eqn:EM; [discriminate|].
  destruct (get id (s_cache s)) as [u|] eqn:EG.
  - cbn [snd] in E. unfold lookup at 2. rewrite EM, EG. cbn [fst]. unfold lookup. rewrite EM, EG. exact E.
  - destruct (from_endpoints None l) as [u|[|w|]] eqn:EF; try discriminate. cbn [snd] in E.
    unfold lookup at 2. rewrite EM, EG, EF. cbn [fst]. unfold lookup.
    change (missing ttl (mksdk ((id, u) :: s_cache s) (s_missing s) (s_now s)) id) with (missing ttl s id).
    rewrite EM. cbn [s_cache get]. rewrite String.eqb_refl. exact E.
Qed.
End Cdn.

(* manifests *)
Lemma get_some : forall {A} k (o : list (string * A)) v, get k o = Some v <->
  exists b a, o = b ++ (k, v) :: a /\ forall x, ~ In (k, x) b.
Proof.
  intros A k o v. induction o as [|[k' w] o IH]; cbn [get].
  - split; [discriminate|]. intros ([|] & a & E & _); discriminate E.
  - destruct (String.eqb_spec k' k) as [->|N].
    + split.
      * intros [= ->]. exists [], o. split; [reflexivity|]. intros x [].
      * intros ([|[k2 x] b] & a & E & H).
        -- now injection E as ->.
        -- injection E as <- <- _. exfalso. apply (H w). now left.
    + rewrite IH. split.
      * intros (b & a & -> & H). exists ((k', w) :: b), a. split; [reflexivity|].
        intros x [E|E]; [injection E as E _; contradiction|now apply (H x)].
      * intros ([|[k2 x] b] & a & E & H).
        -- injection E as E _ _. contradiction.
        -- injection E as <- <- ->. exists b, a. split; [reflexivity|]. intros x K. apply (H x). now right.
Qed.

Lemma find_last : forall docs id t, find_document docs id = Some t <-> last_entry docs id t.
Proof.
  intros docs id t. unfold find_document, last_entry. rewrite get_some. split.
  - intros (b & a & E & N). exists (rev a), (rev b).
    split; [|intros x K; apply (N x); now apply in_rev in K].
    rewrite <- (rev_involutive docs), E, rev_app_distr. cbn [rev]. now rewrite <- app_assoc.
  - intros (b & a & -> & N). exists (rev a), (rev b).
    split; [rewrite rev_app_distr; cbn [rev]; now rewrite <- app_assoc|]. intros x K. apply (N x). now apply in_rev.
Qed.

Lemma documents_iff : forall m d, documents m = Some d <->
  m = KeyValue d \/ m = Apollo "apollo-persisted-query-manifest" 1 d.
Proof.
  intros [f v ops|es] d; cbn [documents].
  - destruct (String.eqb_spec f "apollo-persisted-query-manifest") as [->|NF]; cbn [negb].
    + destruct (N.eqb_spec v 1) as [->|NV]; cbn [negb].
      * split; [intros [= ->]; now right|intros [K|K]; [discriminate K|now injection K as ->]].
      * split; [discriminate|]. intros [K|K]; [discriminate K|]. injection K as K _. contradiction.
    + split; [discriminate|]. intros [K|K]; [discriminate K|]. injection K as K _ _. contradiction.
  - split; [intros [= ->]; now left|intros [K|K]; [now injection K as ->|discriminate K]].
Qed.

Section Watching.
Variable parse : string -> option manifest.

Definition fresh (w : watch) : Prop := forall d, load parse (w_file w) = Some d -> w_docs w = d.

Definition on_its_way (w : watch) : Prop :=
  match w_phase w with Storing c => c = w_file w | Reading => True | _ => fresh w end \/
  w_unseen w = true \/
  (w_dirty w = true /\ (w_marked w = true \/ w_permit w = true \/ w_phase w = Debouncing)).

Lemma way_step : forall w e, w_phase w <> Starting -> e <> ReadFails ->
  on_its_way w -> on_its_way (watch_step parse w e).
Proof.
  intros [f u m di p ph docs] e NS C W. unfold on_its_way, fresh in *.
  cbn [w_file w_unseen w_marked w_dirty w_permit w_phase w_docs] in *.
  destruct e as [c| | | | | | | |]; cbn [watch_step w_file w_unseen w_marked w_dirty w_permit w_phase w_docs].
  - right. left. destruct ph; [contradiction| | | |]; reflexivity.
  - destruct ph; [contradiction| | | |]; cbn; exact W.
  - destruct u; cbn; [|exact W]. right. right. split; [reflexivity|]. now left.
  - destruct m; cbn; [|exact W]. destruct W as [W|[W|[W1 W2]]]; [now left|right; now left|].
    right. right. split; [exact W1|]. right. now left.
  - destruct ph; cbn; try exact W. destruct p; cbn; [|exact W].
    destruct W as [W|[W|[W1 W2]]]; [now left|right; now left|].
    right. right. split; [exact W1|]. right. now right.
  - destruct ph; cbn; try exact W. destruct di; cbn; [now left|].
    destruct W as [W|[W|[W1 W2]]]; [now left|right; now left|discriminate W1].
  - destruct ph; cbn; try exact W. now left.
  - contradiction.
  - destruct ph as [| | | |c]; cbn; try exact W.
    destruct W as [W|[W|[W1 W2]]].
    + left. subst c. intros d H. now rewrite H.
    + right. now left.
    + right. right. split; [exact W1|]. destruct W2 as [W2|[W2|W2]]; [now left|right; now left|discriminate W2].
Qed.

Lemma phase_step : forall w e, w_phase w <> Starting -> w_phase (watch_step parse w e) <> Starting.
Proof.
  intros [f u m di p ph docs] e N. cbn in N.
  destruct e; cbn; destruct u, m, di, p, ph; cbn; congruence.
Qed.

Lemma way_run : forall es w, w_phase w <> Starting -> ~ In ReadFails es -> on_its_way w ->
  on_its_way (watch_run parse w es).
Proof.
  induction es as [|e es IH]; intros w N C W; [exact W|]. unfold watch_run. cbn [fold_left]. apply IH.
  - now apply phase_step.
  - intros K. apply C. now right.
  - apply way_step; [exact N| |exact W]. intros ->. apply C. now left.
Qed.

Lemma settled_fresh : forall c w es, watch_start parse c = Some w -> ~ In ReadFails es ->
  settled (watch_run parse w (Watch :: es)) ->
  forall d, load parse (w_file (watch_run parse w (Watch :: es))) = Some d ->
  w_docs (watch_run parse w (Watch :: es)) = d.
Proof.
  intros c w es E C (S1 & S2 & S3 & S4). unfold watch_start in E. destruct (load parse c) as [d0|] eqn:EL; [|discriminate].
  injection E as <-. unfold watch_run in *. cbn [fold_left watch_step w_phase w_file w_unseen w_marked w_dirty w_permit w_docs] in *.
  set (w1 := mkwatch c false false false false Waiting d0) in *.
  assert (W : on_its_way (watch_run parse w1 es)).
  { apply way_run; [discriminate|exact C|]. left. intros d H. cbn in H. cbn. congruence. }
  unfold watch_run in W. destruct W as [W|[W|[W1 W2]]].
  - rewrite S1 in W. exact W.
  - congruence.
  - exfalso. destruct W2 as [W2|[W2|W2]]; congruence.
Qed.

(* the documents are always those of contents the file has had *)
Definition kept (cs : list string) (w : watch) : Prop :=
  (exists c, In c cs /\ load parse c = Some (w_docs w)) /\ In (w_file w) cs /\
  match w_phase w with Storing c => In c cs | _ => True end.

Lemma kept_step : forall cs w e, kept cs w -> kept (cs ++ written [e]) (watch_step parse w e).
Proof.
  intros cs [f u m di p ph docs] e ((c & I1 & L) & IF & IS). unfold kept in *.
  cbn [w_file w_unseen w_marked w_dirty w_permit w_phase w_docs] in *.
  assert (G : forall x, In x cs -> In x (cs ++ written [e])) by (intros x K; apply in_or_app; now left).
  destruct e as [c'| | | | | | | |]; cbn [watch_step w_file w_unseen w_marked w_dirty w_permit w_phase w_docs].
  9: { destruct ph as [| | | |c']; cbn; try solve [split; [exists c; auto|]; split; auto].
       split; [|auto]. destruct (load parse c') as [d|] eqn:EL; [exists c'; auto|exists c; auto]. }
  1: { split; [exists c; auto|]. split; [apply in_or_app; right; now left|]. destruct ph; auto. }
  all: destruct u, m, di, p, ph; cbn [w_file w_unseen w_marked w_dirty w_permit w_phase w_docs];
    (split; [exists c; split; [now apply G|exact L]|split; [now apply G|first [exact I|now apply G]]]).
Qed.

Lemma written_app : forall a b, written (a ++ b) = written a ++ written b.
Proof. induction a as [|[] a IH]; intros b; cbn; rewrite ?IH; reflexivity. Qed.

Lemma kept_run : forall c w es, watch_start parse c = Some w ->
  exists c', In c' (c :: written es) /\ load parse c' = Some (w_docs (watch_run parse w es)).
Proof.
  intros c w es E. cut (kept (c :: written es) (watch_run parse w es)); [intros (H & _); exact H|].
  induction es as [|e es IH] using rev_ind.
  - unfold watch_start in E. destruct (load parse c) as [d|] eqn:EL; [|discriminate]. injection E as <-.
    split; [exists c; split; [now left|exact EL]|]. split; [now left|exact I].
  - unfold watch_run in *. rewrite fold_left_app. cbn [fold_left]. rewrite written_app.
    exact (kept_step (c :: written es) _ e IH).
Qed.

Lemma quiet_settles : forall w, w_phase w <> Starting -> settled (watch_run parse w quiet).
Proof.
  intros [f u m di p ph docs] N. cbn in N.
  destruct u, m, di, p, ph; try contradiction; cbn; repeat split.
Qed.

Lemma quiet_file : forall w, w_file (watch_run parse w quiet) = w_file w.
Proof. intros [f u m di p ph docs]. destruct u, m, di, p, ph; reflexivity. Qed.

Lemma catches_up : forall c w es, watch_start parse c = Some w -> ~ In ReadFails es ->
  forall d, load parse (w_file (watch_run parse w (Watch :: es))) = Some d ->
  w_docs (watch_run parse w (Watch :: es ++ quiet)) = d.
Proof.
  intros c w es E C d L.
  assert (AP : watch_run parse w (Watch :: es ++ quiet) = watch_run parse (watch_run parse w (Watch :: es)) quiet).
  { unfold watch_run. rewrite app_comm_cons. apply fold_left_app. }
  apply (settled_fresh c w (es ++ quiet) E).
  - intros K. apply in_app_or in K. destruct K as [K|K]; [contradiction|]. cbn in K.
    repeat (destruct K as [K|K]; [discriminate K|]). exact K.
  - rewrite AP. apply quiet_settles.
    assert (P : forall l v, w_phase v <> Starting -> w_phase (watch_run parse v l) <> Starting).
    { induction l as [|e l IH]; intros v NV; [exact NV|]. unfold watch_run. cbn [fold_left]. apply IH. now apply phase_step. }
    unfold watch_start in E. destruct (load parse c); [|discriminate]. injection E as <-.
    unfold watch_run. cbn [fold_left]. apply P. discriminate.
  - rewrite AP, quiet_file. exact L.
Qed.

(* polling *)
Definition polls (p : polled) (os : list (option object)) : polled := fold_left (poll parse) os p.

Lemma seen_app : forall a b, seen (a ++ b) = seen a ++ seen b.
Proof. induction a as [|[o|] a IH]; intros b; cbn; rewrite ?IH; reflexivity. Qed.

Lemma polled_from : forall o p os, poll_start parse o = Some p ->
  exists c, In (mkobject c (o_etag (polls p os))) (o :: seen os) /\ load parse c = Some (o_docs (polls p os)).
Proof.
  intros o p os E. induction os as [|x os IH] using rev_ind.
  - destruct o as [c e]. cbn [poll_start] in E. destruct (load parse c) as [d|] eqn:EL; [|discriminate].
    injection E as <-. exists c. split; [now left|exact EL].
  - unfold polls in *. rewrite fold_left_app, seen_app. cbn [fold_left].
    assert (OLD : exists c, In (mkobject c (o_etag (fold_left (poll parse) os p))) (o :: seen os ++ seen [x]) /\
                            load parse c = Some (o_docs (fold_left (poll parse) os p))).
    { destruct IH as (c & I1 & L). exists c. split; [|exact L].
      destruct I1 as [I1|I1]; [now left|right; apply in_or_app; now left]. }
    destruct x as [[c e]|]; [|exact OLD]. cbn [poll].
    destruct (unchanged (o_etag (fold_left (poll parse) os p)) e); [exact OLD|].
    destruct (load parse c) as [d|] eqn:EL; [|exact OLD].
    exists c. cbn [o_etag o_docs]. split; [|exact EL]. right. apply in_or_app. right. now left.
Qed.

Lemma poll_fresh : forall o p os c e d, poll_start parse o = Some p ->
  tags_tell (o :: seen os ++ [mkobject c e]) -> load parse c = Some d ->
  o_docs (poll parse (polls p os) (Some (mkobject c e))) = d.
Proof.
  intros o p os c e d E T L. destruct (polled_from o p os E) as (c' & I1 & L'). cbn [poll].
  destruct (unchanged (o_etag (polls p os)) e) eqn:EU; [|now rewrite L].
  unfold unchanged in EU. destruct (o_etag (polls p os)) as [a|]; [|discriminate]. destruct e as [b|]; [|discriminate].
  apply String.eqb_eq in EU. subst b.
  assert (c' = c).
  { apply (T c' c a).
    - destruct I1 as [I1|I1]; [now left|right; apply in_or_app; now left].
    - right. apply in_or_app. right. now left. }
  subst. congruence.
Qed.

Lemma poll_keeps : forall p o, (forall c e, o = Some (mkobject c e) -> load parse c = None) -> poll parse p o = p.
Proof.
  intros p [[c e]|] H; [|reflexivity]. cbn [poll]. rewrite (H c e eq_refl). destruct (unchanged (o_etag p) e); reflexivity.
Qed.
End Watching.
