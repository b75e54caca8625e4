From Coq Require Import String List NArith ZArith Bool Lia PeanoNat.
From Verif Require Import Ast NormModel NormProofs OverlapModel OverlapSpec.
Import ListNotations.
Local Open Scope string_scope.
Local Open Scope list_scope.

Definition fdef (p : option tdef) (n : string) : option tnode := match p with Some t => field_by_name t n | None => None end.
Definition cond (sch : list tdef) (tc : option string) (p : option tdef) : option tdef :=
  match (match tc with Some c => type_by_name sch c | None => None end) with Some t => Some t | None => p end.

Lemma smem_in : forall n l, smem n l = true <-> In n l.
Proof.
  intros n l. unfold smem. rewrite existsb_exists. split.
  - intros (x & Hx & E). apply String.eqb_eq in E. now subst.
  - intros H. exists n. split; [exact H|apply String.eqb_refl].
Qed.

Lemma type_by_name_ok : forall sch n o, unique_types sch -> (the_type sch n o <-> type_by_name sch n = o).
Proof.
  unfold unique_types. induction sch as [|t sch IH]; intros n o U; cbn.
  - split; [destruct o; [intros [[] _]|reflexivity]|intros <-; intros t []].
  - cbn in U. inversion U as [|? ? U1 U2]; subst. destruct (String.eqb_spec (t_name t) n) as [E|E].
    + split.
      * destruct o as [u|]; cbn.
        -- intros [[->|H] K]; [reflexivity|]. exfalso. apply U1. rewrite E, <- K. now apply in_map.
        -- intros H. exfalso. exact (H t (or_introl eq_refl) E).
      * intros <-. cbn. tauto.
    + rewrite <- (IH n o U2). destruct o as [u|]; cbn.
      * split; [intros [[<-|H] K]; [contradiction|tauto]|tauto].
      * split; [intros H v Hv; apply H; tauto|intros H v [<-|Hv]; [exact E|now apply H]].
Qed.

Lemma kfind_ok : forall n l ty, kfind n l = Some ty <-> exists b a, l = b ++ (n, ty) :: a /\ ~ In n (map fst b).
Proof.
  intros n. induction l as [|[k t] l IH]; intros ty; cbn.
  - split; [discriminate|]. intros ([|? ?] & a & H & _); discriminate.
  - destruct (String.eqb_spec k n) as [->|E].
    + split.
      * intros H. injection H as ->. exists [], l. split; [reflexivity|intros []].
      * intros ([|[k' t'] b] & a & H & N); cbn in *; injection H.
        -- intros _ ->. reflexivity.
        -- intros _ _ <-. exfalso. apply N. now left.
    + rewrite IH. split.
      * intros (b & a & -> & N). exists ((k, t) :: b), a. split; [reflexivity|]. cbn. tauto.
      * intros ([|[k' t'] b] & a & H & N); cbn in *; injection H; intros.
        -- congruence.
        -- subst. exists b, a. split; [reflexivity|tauto].
Qed.
Lemma declares_ok : forall p n ty, declares p n ty <-> fdef p n = Some ty.
Proof.
  intros p n ty. unfold declares, fdef, field_by_name. split.
  - intros (t & b & a & -> & K & E & N).
    assert (H : kfind n (t_fields t) = Some ty) by (apply kfind_ok; eauto).
    destruct K as [-> | ->]; exact H.
  - destruct p as [t|]; [|discriminate]. destruct (t_kind t) eqn:K; try discriminate; intros H;
      apply kfind_ok in H; destruct H as (b & a & E & N); exists t, b, a; rewrite K; tauto.
Qed.
Lemma base_ok : forall t n, base t n <-> inner_type t = n.
Proof.
  induction t as [k|t IH|t IH]; intros n; cbn; split; intros H.
  - now inversion H.
  - subst. constructor.
  - inversion H; subst. now apply IH.
  - constructor. now apply IH.
  - inversion H; subst. now apply IH.
  - constructor. now apply IH.
Qed.

Section Types.
  Variable sch : list tdef.
  Hypothesis Ht : unique_types sch.

  Lemma inside_ok : forall p n q, inside sch p n q <-> q = type_of_def sch (fdef p n).
  Proof.
    intros p n q. unfold inside. split.
    - intros [(ty & k & D & B & T)|(D & ->)].
      + apply declares_ok in D. rewrite D. cbn. apply base_ok in B. rewrite B. symmetry. now apply type_by_name_ok.
      + destruct (fdef p n) as [ty|] eqn:E; [|reflexivity]. exfalso. apply (D ty). now apply declares_ok.
    - intros ->. destruct (fdef p n) as [ty|] eqn:E.
      + left. exists ty, (inner_type ty). repeat split; [now apply declares_ok|now apply base_ok|].
        cbn. now apply type_by_name_ok.
      + right. split; [|reflexivity]. intros ty D. apply declares_ok in D. congruence.
  Qed.

  Lemma leaf_ok : forall n, leaf sch n <-> leaf_named sch n = true.
  Proof.
    intros n. unfold leaf, leaf_named. split.
    - intros (t & T & K). apply type_by_name_ok in T; [|exact Ht]. rewrite T. unfold is_leaf. now rewrite K.
    - destruct (type_by_name sch n) as [t|] eqn:E; [|discriminate]. unfold is_leaf. intros K.
      exists t. split; [now apply type_by_name_ok|]. destruct (t_kind t); congruence.
  Qed.
  Lemma shape_ok : forall t u, same_shape sch t u <-> type_conflict sch t u = false.
  Proof.
    induction t as [a|t IH|t IH]; intros u; split.
    - intros H. inversion H as [| |n|x y L1 L2]; subst; cbn.
      + rewrite String.eqb_refl. now destruct (leaf_named sch a || leaf_named sch a).
      + assert (A : leaf_named sch a = false) by (destruct (leaf_named sch a) eqn:E; [apply leaf_ok in E; contradiction|reflexivity]).
        assert (B : leaf_named sch y = false) by (destruct (leaf_named sch y) eqn:E; [apply leaf_ok in E; contradiction|reflexivity]).
        rewrite A, B. reflexivity.
    - destruct u as [b|u|u]; cbn; try discriminate. destruct (String.eqb_spec a b) as [->|E]; [constructor|].
      destruct (leaf_named sch a) eqn:A; [discriminate|]. destruct (leaf_named sch b) eqn:B; [discriminate|].
      intros _. apply shape_composite; rewrite leaf_ok; congruence.
    - intros H. inversion H; subst. cbn. now apply IH.
    - destruct u; cbn; try discriminate. intros H. constructor. now apply IH.
    - intros H. inversion H; subst. cbn. now apply IH.
    - destruct u; cbn; try discriminate. intros H. constructor. now apply IH.
  Qed.

  Lemma apart_ok : forall p q, apart p q <-> exclusive false p q = true.
  Proof.
    intros p q. unfold apart, exclusive, is_object. split.
    - intros (t & u & -> & -> & K & K' & N). rewrite K, K'. apply String.eqb_neq in N. now rewrite N.
    - destruct p as [t|]; [|discriminate]. destruct q as [u|]; [|discriminate].
      destruct (String.eqb_spec (t_name t) (t_name u)) as [E|E]; [discriminate|].
      destruct (t_kind t) eqn:K; try discriminate. destruct (t_kind u) eqn:K'; try discriminate.
      intros _. exists t, u. repeat split; assumption.
  Qed.
  Lemma exclusive_ok : forall m p q Excl, (m = true <-> Excl) -> (exclusive m p q = true <-> Excl \/ apart p q).
  Proof.
    intros m p q Excl H. rewrite apart_ok. destruct m; cbn [exclusive]; [tauto|].
    split; [now right|]. intros [K|K]; [apply H in K; discriminate|exact K].
  Qed.
  Lemma exclusive_sym : forall m p q, exclusive m p q = exclusive m q p.
  Proof.
    intros m p q. destruct m; [reflexivity|]. destruct p as [t|], q as [u|]; try reflexivity. cbn.
    rewrite (String.eqb_sym (t_name u)). destruct (String.eqb (t_name t) (t_name u)); [reflexivity|]. cbn. apply andb_comm.
  Qed.
End Types.

Lemma frag_find_miss : forall n l found, ~ In n (frag_names l) -> frag_find n l found = found.
Proof.
  intros n. induction l as [|d l IH]; intros found H; [reflexivity|].
  destruct d as [k tc set|r set]; cbn in *; [|now apply IH].
  destruct (String.eqb_spec k n) as [->|E]; [exfalso; apply H; now left|]. apply IH. tauto.
Qed.
Lemma frag_find_hit : forall n l found, In n (frag_names l) -> frag_find n l found = frag_find n l None.
Proof.
  intros n. induction l as [|d l IH]; intros found H; [destruct H|].
  destruct d as [k tc set|r set]; cbn in *; [|now apply IH].
  destruct (String.eqb_spec k n) as [->|E]; [reflexivity|]. apply IH. destruct H; [contradiction|assumption].
Qed.
Lemma frag_get_ok : forall doc n tc set, unique_fragments doc -> (In (Frag n tc set) doc <-> frag_get doc n = Some (tc, set)).
Proof.
  unfold unique_fragments, frag_get. intros doc n tc set.
  induction doc as [|d doc IH]; cbn; [split; [intros []|discriminate]|].
  destruct d as [k tc' set'|r set']; intros U.
  - cbn in U. inversion U as [|? ? U1 U2]; subst. specialize (IH U2).
    destruct (smem n (frag_names doc)) eqn:M.
    + rewrite frag_find_hit by now apply smem_in. rewrite <- IH. split; [intros [H|H]; [|exact H]|now right].
      injection H as -> -> ->. exfalso. apply U1. now apply smem_in.
    + rewrite frag_find_miss by (rewrite <- smem_in; congruence). split.
      * intros [H|H].
        -- injection H as -> -> ->. now rewrite String.eqb_refl.
        -- exfalso. enough (smem n (frag_names doc) = true) by congruence. apply smem_in.
           apply in_flat_map. exists (Frag n tc set). split; [exact H|now left].
      * destruct (String.eqb_spec k n) as [->|E]; [|discriminate]. intros H. injection H as -> ->. now left.
  - rewrite <- (IH U). split; [intros [H|H]; [discriminate|exact H]|now right].
Qed.

(** * Collecting *)
Inductive direct (sch : list tdef) (p : option tdef) (set : list nsel) : entry -> Prop :=
| direct_field : forall al n args ds sub, In (NField al n args ds sub) set ->
    direct sch p set (mkentry p (mkfield al n args sub) (fdef p n))
| direct_inline : forall tc ds sub e, In (NInline tc ds sub) set -> direct sch (cond sch tc p) sub e -> direct sch p set e.

Definition held (m : field_map) (k : string) (e : entry) : Prop := exists l, map_get k m = Some l /\ In e l.

Lemma map_get_in : forall m k l, NoDup (map fst m) -> (map_get k m = Some l <-> In (k, l) m).
Proof.
  induction m as [|[k' l'] m IH]; intros k l U; cbn; [split; [discriminate|intros []]|].
  inversion U as [|? ? U1 U2]; subst. destruct (String.eqb_spec k' k) as [->|E].
  - split; [intros H; injection H as ->; now left|]. intros [H|H]; [congruence|].
    exfalso. apply U1. now apply (in_map fst) in H.
  - rewrite (IH k l U2). split; [now right|]. intros [H|H]; [congruence|exact H].
Qed.
Lemma push_get : forall n e m k,
  map_get k (push n e m) = if String.eqb n k then Some (match map_get n m with Some l => l ++ [e] | None => [e] end) else map_get k m.
Proof.
  intros n e. induction m as [|[k' l] m IH]; intros k; cbn; [reflexivity|].
  destruct (String.eqb_spec k' n) as [->|E]; cbn.
  - destruct (String.eqb_spec n k) as [->|]; reflexivity.
  - rewrite IH. destruct (String.eqb_spec k' k) as [->|]; [|reflexivity].
    destruct (String.eqb_spec n k) as [->|]; [congruence|reflexivity].
Qed.
Lemma push_held : forall n e m k x, held (push n e m) k x <-> held m k x \/ (k = n /\ x = e).
Proof.
  intros n e m k x. unfold held. rewrite push_get. destruct (String.eqb_spec n k) as [->|E].
  - split.
    + intros (l & H & I). injection H as <-. destruct (map_get k m) as [l0|].
      * apply in_app_iff in I. destruct I as [I|[<-|[]]]; [left; eauto|now right].
      * destruct I as [<-|[]]. now right.
    + intros [(l & -> & I)|[_ ->]]; eexists; (split; [reflexivity|]); [apply in_app_iff; now left|].
      destruct (map_get k m); [apply in_app_iff; right|]; now left.
  - split; [now left|]. intros [H|[-> _]]; [exact H|congruence].
Qed.
Lemma push_keys : forall n e m, map fst (push n e m) = if smem n (map fst m) then map fst m else map fst m ++ [n].
Proof.
  intros n e. induction m as [|[k l] m IH]; cbn; [reflexivity|]. rewrite (String.eqb_sym n k).
  destruct (String.eqb_spec k n) as [->|E]; cbn; [reflexivity|]. rewrite IH. unfold smem. now destruct (existsb _ _).
Qed.
Lemma nodup_add : forall n (l : list string), NoDup l -> NoDup (if smem n l then l else l ++ [n]).
Proof.
  intros n l U. destruct (smem n l) eqn:E; [exact U|].
  assert (N : ~ In n l) by (rewrite <- smem_in; congruence). clear E.
  induction U as [|x l X U IH]; cbn; [repeat constructor; intros []|].
  constructor; [|apply IH; cbn in N; tauto]. rewrite in_app_iff. cbn in *. intuition congruence.
Qed.

Section Collect.
  Variable sch : list tdef.
  Definition added (p : option tdef) (set : list nsel) (a b : field_map * list string) : Prop :=
    (forall k e, held (fst b) k e <-> held (fst a) k e \/ (k = response_name (e_field e) /\ direct sch p set e))
    /\ (forall n, In n (snd b) <-> In n (snd a) \/ spreads n set)
    /\ (NoDup (map fst (fst a)) -> NoDup (map fst (fst b)))
    /\ (NoDup (snd a) -> NoDup (snd b)).

  Lemma direct_cons : forall p x l e, direct sch p (x :: l) e <-> direct sch p [x] e \/ direct sch p l e.
  Proof.
    intros p x l e. split.
    - intros H. inversion H as [al n args ds sub I|tc ds sub e' I D]; subst; destruct I as [->|I].
      + left. apply (direct_field _ _ _ al n args ds sub). now left.
      + right. now apply (direct_field _ _ _ al n args ds sub).
      + left. now apply (direct_inline _ _ _ tc ds sub); [left|].
      + right. now apply (direct_inline _ _ _ tc ds sub).
    - intros [H|H]; inversion H as [al n args ds sub I|tc ds sub e' I D]; subst.
      + destruct I as [->|[]]. apply (direct_field _ _ _ al n args ds sub). now left.
      + destruct I as [->|[]]. apply (direct_inline _ _ _ tc ds sub); [now left|exact D].
      + apply (direct_field _ _ _ al n args ds sub). now right.
      + apply (direct_inline _ _ _ tc ds sub); [now right|exact D].
  Qed.
  Lemma spreads_cons : forall n x l, spreads n (x :: l) <-> spreads n [x] \/ spreads n l.
  Proof.
    intros n x l. split.
    - intros H. inversion H as [ds I|tc ds sub I D]; subst; destruct I as [->|I].
      + left. apply (spreads_here _ _ ds). now left.
      + right. now apply (spreads_here _ _ ds).
      + left. now apply (spreads_inline _ _ tc ds sub); [left|].
      + right. now apply (spreads_inline _ _ tc ds sub).
    - intros [H|H]; inversion H as [ds I|tc ds sub I D]; subst.
      + destruct I as [->|[]]. apply (spreads_here _ _ ds). now left.
      + destruct I as [->|[]]. apply (spreads_inline _ _ tc ds sub); [now left|exact D].
      + apply (spreads_here _ _ ds). now right.
      + apply (spreads_inline _ _ tc ds sub); [now right|exact D].
  Qed.
  Lemma added_nil : forall p a, added p [] a a.
  Proof.
    intros p a. split; [|split; [|split; auto]]; intros *; (split; [now left|intros [H|H]; [exact H|]]).
    - destruct H as [_ H]. inversion H; contradiction.
    - inversion H; contradiction.
  Qed.
  Lemma added_cons : forall p x l a b c, added p [x] a b -> added p l b c -> added p (x :: l) a c.
  Proof.
    intros p x l a b c (A1 & A2 & A3 & A4) (B1 & B2 & B3 & B4).
    split; [|split; [|split; auto]]; intros *.
    - rewrite B1, A1, (direct_cons p x l). tauto.
    - rewrite B2, A2, (spreads_cons _ x l). tauto.
  Qed.
  Lemma collect_one_ok : forall x p a, added p [x] a (collect_one sch p x a).
  Proof.
    induction x as [al n args ds sub IH|n ds|tc ds sub IH] using nsel_ind'; intros p a.
    - cbn [collect_one]. split; [|split; [|split]]; cbn [fst snd].
      + intros k e. rewrite push_held. split; (intros [H|H]; [now left|right]).
        * destruct H as [-> ->]. split; [reflexivity|]. apply (direct_field _ _ _ al n args ds sub). now left.
        * destruct H as [-> H]. inversion H as [al' n' args' ds' sub' I|tc ds' sub' e' I D]; subst; destruct I as [I|[]].
          -- injection I as <- <- <- <- <-. split; reflexivity.
          -- discriminate.
      + intros k. split; [now left|]. intros [H|H]; [exact H|]. inversion H as [ds' I|? ? ? I]; destruct I as [I|[]]; discriminate.
      + intros U. rewrite push_keys. now apply nodup_add.
      + tauto.
    - cbn [collect_one].
      assert (E : (if smem n (snd a) then a else (fst a, snd a ++ [n])) = (fst a, if smem n (snd a) then snd a else snd a ++ [n]))
        by (destruct a; now destruct (smem n _)).
      rewrite E. split; [|split; [|split]]; cbn [fst snd].
      + intros k e. split; [now left|]. intros [H|[_ H]]; [exact H|]. inversion H as [? ? ? ? ? I|? ? ? ? I]; destruct I as [I|[]]; discriminate.
      + intros k. assert (S : spreads k [NSpread n ds] <-> k = n).
        { split.
          - intros H. inversion H as [ds' I|? ? ? I]; destruct I as [I|[]]; [|discriminate]. congruence.
          - intros ->. apply (spreads_here _ _ ds). now left. }
        rewrite S. destruct (smem n (snd a)) eqn:M.
        * apply smem_in in M. split; [now left|]. intros [H| ->]; assumption.
        * rewrite in_app_iff. cbn. intuition congruence.
      + tauto.
      + intros U. now apply nodup_add.
    - cbn [collect_one]. change (match match tc with Some c => type_by_name sch c | None => None end with Some t => Some t | None => p end) with (cond sch tc p).
      set (q := cond sch tc p).
      assert (G : added q sub a ((fix go (l : list nsel) (acc : field_map * list string) := match l with [] => acc | y :: l' => go l' (collect_one sch q y acc) end) sub a)).
      { clear -IH. revert a. induction IH as [|x l Hx Hl IHl]; intros a; [apply added_nil|].
        eapply added_cons; [apply Hx|apply IHl]. }
      destruct G as (G1 & G2 & G3 & G4). split; [|split; [|split; assumption]]; intros *.
      + rewrite G1. assert (D : direct sch p [NInline tc ds sub] e <-> direct sch q sub e).
        { split.
          - intros H. inversion H as [? ? ? ? ? I|? ? ? ? I D]; subst; destruct I as [I|[]]; [discriminate|]. injection I as <- <- <-. exact D.
          - intros H. apply (direct_inline _ _ _ tc ds sub); [now left|exact H]. }
        rewrite D. tauto.
      + rewrite G2. assert (D : spreads n [NInline tc ds sub] <-> spreads n sub).
        { split.
          - intros H. inversion H as [? I|? ? ? I D]; subst; destruct I as [I|[]]; [discriminate|]. injection I as <- <- <-. exact D.
          - intros H. apply (spreads_inline _ _ tc ds sub); [now left|exact H]. }
        rewrite D. tauto.
  Qed.
  Lemma collect_ok : forall l p a, added p l a (collect sch p l a).
  Proof.
    induction l as [|x l IH]; intros p a; [apply added_nil|]. cbn. eapply added_cons; [apply collect_one_ok|apply IH].
  Qed.
  Lemma fields_ok : forall p set m n, fields_and_fragments sch p set = (m, n) ->
    (forall k e, held m k e <-> k = response_name (e_field e) /\ direct sch p set e)
    /\ (forall a, In a n <-> spreads a set) /\ NoDup (map fst m) /\ NoDup n.
  Proof.
    unfold fields_and_fragments. intros p set m n E. pose proof (collect_ok set p ([], [])) as (A & B & C & D).
    rewrite E in *. cbn [fst snd] in *. split; [|split; [|split]].
    - intros k e. rewrite A. split; [|now right]. intros [(l & H & _)|H]; [discriminate|exact H].
    - intros a. rewrite B. split; [|now right]. intros [[]|H]. exact H.
    - apply C. constructor.
    - apply D. constructor.
  Qed.
End Collect.

Lemma pairs_ok : forall m1 m2 k e1 e2, NoDup (map fst m1) -> (In (k, e1, e2) (pairs m1 m2) <-> held m1 k e1 /\ held m2 k e2).
Proof.
  intros m1 m2 k e1 e2 U. unfold pairs, held. rewrite in_flat_map. split.
  - intros ([k' l1] & I & H). cbn [fst snd] in H. destruct (map_get k' m2) as [l2|] eqn:G; [|contradiction].
    apply in_flat_map in H. destruct H as (a & Ia & H). apply in_map_iff in H. destruct H as (b & E & Ib).
    injection E as -> -> ->. split; [exists l1|exists l2]; (split; [|assumption]); [now apply map_get_in|assumption].
  - intros [(l1 & G1 & I1) (l2 & G2 & I2)]. exists (k, l1). split; [now apply map_get_in|]. cbn [fst snd]. rewrite G2.
    apply in_flat_map. exists e1. split; [exact I1|]. apply in_map_iff. now exists e2.
Qed.
Lemma later_in : forall A (l : list A) x y, In (x, y) (later l) -> In x l /\ In y l.
Proof.
  induction l as [|a l IH]; intros x y; cbn; [intros []|]. rewrite in_app_iff, in_map_iff.
  intros [(b & E & I)|H]; [injection E as -> ->; tauto|]. apply IH in H. tauto.
Qed.
Lemma later_all : forall A (l : list A) x y, In x l -> In y l -> x = y \/ In (x, y) (later l) \/ In (y, x) (later l).
Proof.
  induction l as [|a l IH]; intros x y; [intros []|]. cbn [later].
  intros [->|I] [J|J].
  - now left.
  - right. left. apply in_app_iff. left. apply in_map_iff. now exists y.
  - subst. right. right. apply in_app_iff. left. apply in_map_iff. now exists x.
  - destruct (IH x y I J) as [E|[H|H]]; [now left|right; left|right; right]; apply in_app_iff; now right.
Qed.
Lemma within_in : forall m k e1 e2, NoDup (map fst m) -> In (k, e1, e2) (pairs_within m) -> held m k e1 /\ held m k e2.
Proof.
  intros m k e1 e2 U. unfold pairs_within, held. rewrite in_flat_map. intros ([k' l] & I & H). cbn [fst snd] in H.
  apply in_map_iff in H. destruct H as ([a b] & E & H). injection E as -> -> ->. apply later_in in H.
  apply map_get_in in I; [|exact U]. cbn [fst snd]. split; exists l; tauto.
Qed.
Lemma within_all : forall m k e1 e2, NoDup (map fst m) -> held m k e1 -> held m k e2 ->
  e1 = e2 \/ In (k, e1, e2) (pairs_within m) \/ In (k, e2, e1) (pairs_within m).
Proof.
  intros m k e1 e2 U (l & G & I1) (l' & G' & I2). rewrite G in G'. injection G' as <-.
  destruct (later_all _ l e1 e2 I1 I2) as [E|[H|H]]; [now left|right; left|right; right];
    (apply in_flat_map; exists (k, l); split; [now apply map_get_in|]; cbn [fst snd]; apply in_map_iff);
    [now exists (e1, e2)|now exists (e2, e1)].
Qed.
Lemma key_ok : forall f k, key f k <-> k = response_name f.
Proof.
  intros f k. unfold key, response_name. destruct (f_alias f) as [a|].
  - split; [intros [H|[H _]]; congruence|intros ->; now left].
  - split; [intros [H|[_ H]]; congruence|intros ->; right; split; reflexivity].
Qed.
