(* Maps, and the searches along spreads. *)
From Coq Require Import String List Bool Arith Lia.
From Verif Require Import StrUtil Ast ConsumerModel IntroModel CondModel NormModel NormProofs WalkModel LocalModel LocalSpec LocalBase ReachModel ReachSpec.
Import ListNotations.
Local Open Scope string_scope.
Local Open Scope list_scope.

Section Maps.
  Context {K V : Type}.
  Variable eqb : K -> K -> bool.
  Hypothesis EQ : forall a b, eqb a b = true <-> a = b.
  Lemma eqb_same : forall a, eqb a a = true.
  Proof. intros a. now apply EQ. Qed.
  Lemma eqb_not : forall a b, a <> b -> eqb a b = false.
  Proof. intros a b N. destruct (eqb a b) eqn:E; [|reflexivity]. apply EQ in E. contradiction. Qed.
  Lemma mget_put : forall (m : list (K * V)) k v k', mget eqb (mput eqb m k v) k' = if eqb k' k then Some v else mget eqb m k'.
  Proof.
    induction m as [|[k0 v0] m IH]; intros k v k'; cbn [mput mget]; [reflexivity|].
    destruct (eqb k k0) eqn:E; cbn [mget].
    - apply EQ in E. subst. now destruct (eqb k' k0).
    - rewrite IH. destruct (eqb k' k0) eqn:E0; [|reflexivity]. apply EQ in E0. subst.
      destruct (eqb k0 k) eqn:E1; [|reflexivity]. apply EQ in E1. subst. now rewrite eqb_same in E.
  Qed.
  Lemma mget_del : forall (m : list (K * V)) k k', mget eqb (mdel eqb m k) k' = if eqb k' k then None else mget eqb m k'.
  Proof.
    induction m as [|[k0 v0] m IH]; intros k k'; cbn [mdel mget]; [now destruct (eqb k' k)|].
    destruct (eqb k k0) eqn:E; cbn [mget].
    - apply EQ in E. subst. rewrite IH. now destruct (eqb k' k0).
    - rewrite IH. destruct (eqb k' k0) eqn:E0; [|reflexivity]. apply EQ in E0. subst.
      destruct (eqb k0 k) eqn:E1; [|reflexivity]. apply EQ in E1. subst. now rewrite eqb_same in E.
  Qed.
  Lemma mput_keys : forall (m : list (K * V)) k v, NoDup (map fst m) -> NoDup (map fst (mput eqb m k v)) /\
    forall x, In x (map fst (mput eqb m k v)) <-> x = k \/ In x (map fst m).
  Proof.
    induction m as [|[k0 v0] m IH]; intros k v ND; cbn [mput].
    - split; [constructor; [intros []|constructor]|]. intros x. cbn. intuition.
    - inversion ND as [|a b NI ND']; subst. destruct (eqb k k0) eqn:E.
      + apply EQ in E. subst. split; [exact ND|]. intros x. cbn. intuition.
      + destruct (IH k v ND') as [A B]. cbn [map fst]. split.
        * constructor; [|exact A]. rewrite B. intros [->|C]; [now rewrite eqb_same in E|contradiction].
        * intros x. cbn [In]. rewrite B. intuition.
  Qed.
  Lemma mget_in : forall (m : list (K * V)) k v, mget eqb m k = Some v -> In (k, v) m.
  Proof.
    induction m as [|[k0 v0] m IH]; intros k v; cbn [mget]; [discriminate|].
    destruct (eqb k k0) eqn:E; [apply EQ in E; intros [= ->]; subst; now left|]. intros H. right. now apply IH.
  Qed.
  Lemma in_mget : forall (m : list (K * V)) k v, NoDup (map fst m) -> In (k, v) m -> mget eqb m k = Some v.
  Proof.
    induction m as [|[k0 v0] m IH]; intros k v ND I; [destruct I|]. inversion ND as [|a b NI ND']; subst. cbn [mget].
    destruct I as [[= -> ->]|I]; [now rewrite eqb_same|]. rewrite eqb_not; [now apply IH|]. intros ->. apply NI. change k0 with (fst (k0, v)). now apply in_map.
  Qed.
  Lemma mget_key : forall (m : list (K * V)) k, In k (map fst m) -> exists v, mget eqb m k = Some v.
  Proof.
    induction m as [|[k0 v0] m IH]; intros k I; [destruct I|]. cbn [mget]. destruct (eqb k k0) eqn:E; [now exists v0|].
    destruct I as [<-|I]; [cbn in E; now rewrite eqb_same in E|]. now apply IH.
  Qed.
End Maps.
Lemma mlist_add {K V} (eqb : K -> K -> bool) (EQ : forall a b, eqb a b = true <-> a = b) : forall (m : list (K * list V)) k l k',
  mlist eqb (madd eqb m k l) k' = mlist eqb m k' ++ if eqb k' k then l else [].
Proof.
  intros m k l k'. unfold mlist at 1, madd. rewrite (mget_put eqb EQ). destruct (eqb k' k) eqn:E.
  - apply EQ in E. subst. reflexivity.
  - unfold mlist. now rewrite app_nil_r.
Qed.
Lemma sinsert_in : forall n l x, In x (sinsert n l) <-> x = n \/ In x l.
Proof.
  intros n l x. unfold sinsert. destruct (smem n l) eqn:E.
  - apply smem_iff in E. split; [now right|]. intros [->|I]; assumption.
  - rewrite in_app_iff. cbn. intuition.
Qed.
Lemma sinsert_nodup : forall n l, NoDup l -> NoDup (sinsert n l).
Proof.
  intros n l ND. unfold sinsert. destruct (smem n l) eqn:E; [exact ND|].
  assert (NI : ~ In n l) by (intros I; apply smem_iff in I; congruence). clear E.
  induction ND as [|y l NI' ND IH]; cbn; [constructor; [intros []|constructor]|].
  constructor; [|apply IH; intros I; apply NI; now right].
  rewrite in_app_iff. intros [I|[->|[]]]; [contradiction|]. apply NI. now left.
Qed.
Lemma smem_not : forall n l, smem n l = false <-> ~ In n l.
Proof. intros n l. rewrite <- smem_iff. destruct (smem n l); split; congruence. Qed.

Lemma name_eqb_ok : forall a b, name_eqb a b = true <-> a = b.
Proof.
  intros [a|] [b|]; cbn; try (split; congruence). rewrite String.eqb_eq. split; congruence.
Qed.
Lemma scope_eqb_ok : forall a b, scope_eqb a b = true <-> a = b.
Proof.
  intros [a|a] [b|b]; cbn; try (split; congruence).
  - rewrite name_eqb_ok. split; congruence.
  - rewrite String.eqb_eq. split; congruence.
Qed.
Lemma scope_mem_iff : forall s l, scope_mem s l = true <-> In s l.
Proof.
  intros s l. unfold scope_mem. rewrite existsb_exists. split.
  - intros (x & I & E). apply scope_eqb_ok in E. now subst.
  - intros I. exists s. split; [exact I|]. now apply scope_eqb_ok.
Qed.

(* The search from a scope *)
Definition left_in (u : list string) (v : list scope) : nat := List.length (filter (fun n => negb (scope_mem (InFragment n) v)) u).
Section Explore.
  Context {A : Type}.
  Variable look : scope -> A -> A.
  Variable spr : list (scope * list string).
  Notation succs := (mlist scope_eqb spr).
  Inductive scope_reach (from : scope) : scope -> Prop :=
  | scope_self : scope_reach from from
  | scope_next s n : scope_reach from s -> In n (mlist scope_eqb spr s) -> scope_reach from (InFragment n).

  (* new scopes, in the order of the visits *)
  Definition extends (s s' : list scope * A) (from_ok : scope -> Prop) : Prop :=
    exists new, fst s' = rev new ++ fst s /\ snd s' = fold_left (fun a x => look x a) new (snd s) /\
      (forall x, In x new -> from_ok x) /\
      (forall x n, In x new -> In n (succs x) -> In (InFragment n) (fst s')).
  Lemma extends_refl : forall s P, extends s s P.
  Proof. intros s P. exists []. cbn. repeat split; intros; contradiction. Qed.
  Lemma extends_trans : forall s s1 s2 P, extends s s1 P -> extends s1 s2 P -> extends s s2 P.
  Proof.
    intros s s1 s2 P (a & A1 & A2 & A3 & A4) (b & B1 & B2 & B3 & B4). exists (a ++ b). split; [|split; [|split]].
    - now rewrite B1, A1, rev_app_distr, app_assoc.
    - now rewrite B2, A2, fold_left_app.
    - intros x I. apply in_app_iff in I. destruct I; auto.
    - intros x n I J. apply in_app_iff in I. destruct I as [I|I]; [|eauto]. rewrite B1. apply in_app_iff. right. eauto.
  Qed.
  Lemma extends_weaken : forall s s' (P Q : scope -> Prop), extends s s' P -> (forall x, P x -> Q x) -> extends s s' Q.
  Proof. intros s s1 P Q (a & A1 & A2 & A3 & A4) H. exists a. split; [exact A1|]. split; [exact A2|]. split; [auto|exact A4]. Qed.

  Lemma explore_good : forall fuel from s s', explore look spr fuel from s = Some s' ->
    extends s s' (scope_reach from) /\ In from (fst s').
  Proof.
    induction fuel as [|fuel IH]; intros from s s'; cbn [explore]; [discriminate|].
    destruct (scope_mem from (fst s)) eqn:M.
    - intros [= <-]. apply scope_mem_iff in M. split; [apply extends_refl|exact M].
    - intros K.
      assert (P : forall l s1, (forall n, In n l -> In n (succs from)) ->
        explore_all (explore look spr fuel) l s1 = Some s' -> extends s1 s' (scope_reach from) /\ forall n, In n l -> In (InFragment n) (fst s')).
      { induction l as [|n l IHl]; intros s1 SUB H.
        - cbn in H. injection H as <-. split; [apply extends_refl|intros n []].
        - cbn [explore_all] in H. destruct (explore look spr fuel (InFragment n) s1) as [s2|] eqn:E; [|discriminate].
          apply IH in E. destruct E as [E1 E2]. destruct (IHl s2) as [H1 H2]; [intros m I; apply SUB; now right|exact H|].
          split.
          + eapply extends_trans; [|exact H1]. eapply extends_weaken; [exact E1|]. intros x R. clear -R SUB.
            induction R as [|x m R IH I]; [|now apply (scope_next from x)].
            apply (scope_next from from); [constructor|]. apply SUB. now left.
          + intros m [<-|I]; [|now apply H2]. destruct H1 as (new & N & _). rewrite N. apply in_app_iff. now right. }
      destruct (P _ _ (fun n I => I) K) as [(new & N1 & N2 & N3 & N4) G]. cbn [fst snd] in *.
      assert (IN : In from (fst s')) by (rewrite N1; apply in_app_iff; right; now left).
      split; [|exact IN].
      exists (from :: new). cbn [rev fold_left]. rewrite <- app_assoc. split; [exact N1|]. split; [exact N2|]. split.
      + intros x [<-|I]; [constructor|]. now apply N3.
      + intros x n [<-|I] J; [now apply G|]. eapply N4; eassumption.
  Qed.

  (* enough fuel *)
  Notation univ := (flat_map snd spr).
  Notation left_over := (left_in univ).
  Lemma succs_univ : forall s n, In n (succs s) -> In n univ.
  Proof.
    intros s n I. unfold mlist in I. destruct (mget scope_eqb spr s) as [l|] eqn:E; [|destruct I].
    apply (mget_in _ scope_eqb_ok) in E. apply in_flat_map. exists (s, l). now split.
  Qed.
  Lemma left_mono : forall v v', (forall x, In x v -> In x v') -> left_over v' <= left_over v.
  Proof.
    intros v v' H. unfold left_in. induction univ as [|n u IH]; [reflexivity|]. cbn [filter].
    destruct (scope_mem (InFragment n) v) eqn:E.
    - apply scope_mem_iff in E. apply H in E. apply scope_mem_iff in E. rewrite E. exact IH.
    - destruct (scope_mem (InFragment n) v'); cbn [negb List.length]; lia.
  Qed.
  Lemma left_less : forall v n, In n univ -> ~ In (InFragment n) v -> left_over (InFragment n :: v) < left_over v.
  Proof.
    intros v n I NI. unfold left_in.
    assert (G : forall u, List.length (filter (fun m => negb (scope_mem (InFragment m) (InFragment n :: v))) u) <= List.length (filter (fun m => negb (scope_mem (InFragment m) v)) u)).
    { induction u as [|m u IH]; [reflexivity|]. cbn [filter]. destruct (scope_mem (InFragment m) v) eqn:E.
      - apply scope_mem_iff in E. assert (E' : scope_mem (InFragment m) (InFragment n :: v) = true) by (apply scope_mem_iff; now right). rewrite E'. exact IH.
      - destruct (scope_mem (InFragment m) (InFragment n :: v)); cbn [negb List.length]; lia. }
    revert I. generalize univ. induction l as [|m u IH]; intros I; [destruct I|]. cbn [filter].
    destruct I as [->|I].
    - assert (E : scope_mem (InFragment n) v = false) by (destruct (scope_mem (InFragment n) v) eqn:E; [apply scope_mem_iff in E; contradiction|reflexivity]).
      assert (E' : scope_mem (InFragment n) (InFragment n :: v) = true) by (apply scope_mem_iff; now left).
      rewrite E, E'. cbn [negb List.length]. specialize (G u). lia.
    - specialize (IH I). destruct (scope_mem (InFragment m) v) eqn:E.
      + apply scope_mem_iff in E. assert (E' : scope_mem (InFragment m) (InFragment n :: v) = true) by (apply scope_mem_iff; now right). rewrite E'. exact IH.
      + destruct (scope_mem (InFragment m) (InFragment n :: v)); cbn [negb List.length]; lia.
  Qed.
  Lemma explore_ends : forall fuel n s, In n univ -> left_over (fst s) < fuel -> exists s', explore look spr fuel (InFragment n) s = Some s'.
  Proof.
    induction fuel as [|fuel IH]; intros n s U H; [lia|]. cbn [explore].
    destruct (scope_mem (InFragment n) (fst s)) eqn:M; [now exists s|].
    assert (NI : ~ In (InFragment n) (fst s)) by (intros I; apply scope_mem_iff in I; congruence).
    pose proof (left_less _ _ U NI) as L.
    assert (P : forall l s1, (forall m, In m l -> In m univ) -> left_over (fst s1) < fuel -> exists s', explore_all (explore look spr fuel) l s1 = Some s').
    { induction l as [|m l IHl]; intros s1 SUB B; [now exists s1|]. cbn [explore_all].
      destruct (IH m s1) as [s2 E]; [apply SUB; now left|exact B|]. rewrite E. apply IHl; [intros m' I; apply SUB; now right|].
      apply explore_good in E. destruct E as [(new & N & _) _]. eapply Nat.le_lt_trans; [|exact B]. apply left_mono. intros x I. rewrite N. apply in_app_iff. now right. }
    apply P; [intros m I; now apply succs_univ in I|]. cbn [fst]. lia.
  Qed.
  Lemma explore_all_ends : forall fuel l s1, (forall m, In m l -> In m univ) -> left_over (fst s1) < fuel ->
    exists s', explore_all (explore look spr fuel) l s1 = Some s'.
  Proof.
    intros fuel. induction l as [|m l IHl]; intros s1 SUB B; [now exists s1|]. cbn [explore_all].
    destruct (explore_ends fuel m s1) as [s2 E]; [apply SUB; now left|exact B|]. rewrite E. apply IHl; [intros m' I; apply SUB; now right|].
    apply explore_good in E. destruct E as [(new & N & _) _]. eapply Nat.le_lt_trans; [|exact B]. apply left_mono. intros x I. rewrite N. apply in_app_iff. now right.
  Qed.
  Lemma explored : forall from start, exists order, explore_from look spr from start = Some (fold_left (fun a x => look x a) order start) /\
    forall x, In x order <-> scope_reach from x.
  Proof.
    intros from start. unfold explore_from.
    assert (K : exists s', explore look spr (2 + List.length (flat_map snd spr)) from ([], start) = Some s').
    { change (2 + List.length univ) with (S (S (List.length univ))). set (f := S (List.length univ)). cbn [explore fst snd]. destruct (scope_mem from []) eqn:M; [eauto|]. apply explore_all_ends.
      - intros m I. now apply succs_univ in I.
      - unfold left_in, f. apply Nat.lt_succ_r.
        clear. induction univ as [|n u IH]; [reflexivity|]. cbn [filter]. destruct (negb _); cbn [List.length] in *; lia. }
    destruct K as [s' K]. rewrite K. apply explore_good in K. destruct K as [(new & N1 & N2 & N3 & N4) R]. cbn [fst snd] in *.
    rewrite app_nil_r in N1. exists new. split; [now rewrite N2|].
    assert (IN : forall x, In x (fst s') <-> In x new) by (intros x; rewrite N1; symmetry; apply in_rev).
    intros x. split; [apply N3|]. intros X. induction X as [|x n X IH I]; [now apply IN|]. apply IN. now apply (N4 x).
  Qed.
End Explore.

(* The queue of fragments *)
Definition weigh (m : list (string * list string)) (r : list string) : nat := List.length (flat_map (fun kl => if smem (fst kl) r then [] else snd kl) m).
Section Queue.
  Variable spr : list (string * list string).
  Inductive queue_reach (start : list string) : string -> Prop :=
  | queue_start n : In n start -> queue_reach start n
  | queue_next m l n : queue_reach start m -> mget String.eqb spr m = Some l -> In n l -> queue_reach start n.
  Notation weight := (weigh spr).
  Lemma weight_step : forall r f l, mget String.eqb spr f = Some l -> ~ In f r -> weight (r ++ [f]) + List.length l <= weight r.
  Proof.
    intros r f l K NI. unfold weigh. induction spr as [|[k v] m IH]; [discriminate|]. cbn [mget flat_map fst snd] in *.
    assert (MONO : forall m, List.length (flat_map (fun kl : string * list string => if smem (fst kl) (r ++ [f]) then [] else snd kl) m) <=
      List.length (flat_map (fun kl => if smem (fst kl) r then [] else snd kl) m)).
    { clear. induction m as [|[k v] m IH]; [reflexivity|]. cbn [flat_map fst snd]. rewrite !app_length. destruct (smem k r) eqn:E.
      - apply smem_iff in E. assert (E' : smem k (r ++ [f]) = true) by (apply smem_iff, in_app_iff; now left). rewrite E'. exact IH.
      - destruct (smem k (r ++ [f])); cbn [List.length]; lia. }
    rewrite !app_length. destruct (String.eqb f k) eqn:E.
    - injection K as ->. apply String.eqb_eq in E. subst k.
      assert (A : smem f (r ++ [f]) = true) by (apply smem_iff, in_app_iff; right; now left).
      assert (B : smem f r = false) by now apply smem_not. rewrite A, B. cbn [List.length]. specialize (MONO m). lia.
    - specialize (IH K). destruct (smem k r) eqn:E0.
      + apply smem_iff in E0. assert (E' : smem k (r ++ [f]) = true) by (apply smem_iff, in_app_iff; now left). rewrite E'. cbn [List.length]. exact IH.
      + assert (E' : smem k (r ++ [f]) = false).
        { apply smem_not. rewrite in_app_iff. intros [I|[->|[]]]; [apply smem_iff in I; congruence|]. now rewrite String.eqb_refl in E. }
        rewrite E'. lia.
  Qed.
  Lemma filter_less : forall {X} (f : X -> bool) l, List.length (filter f l) <= List.length l.
  Proof. induction l as [|x l IH]; cbn; [lia|]. destruct (f x); cbn; lia. Qed.
  Lemma weight_mono : forall r f, weight (r ++ [f]) <= weight r.
  Proof.
    intros r f. unfold weigh. induction spr as [|[k v] m IH]; [reflexivity|]. cbn [flat_map fst snd]. rewrite !app_length. destruct (smem k r) eqn:E.
    - apply smem_iff in E. assert (E' : smem k (r ++ [f]) = true) by (apply smem_iff, in_app_iff; now left). rewrite E'. exact IH.
    - destruct (smem k (r ++ [f])); cbn [List.length]; lia.
  Qed.
  Lemma queue_ends : forall fuel r q, List.length q + weight r <= fuel -> exists r', reach_queue fuel spr r q = Some r'.
  Proof.
    induction fuel as [|fuel IH]; intros r q H; destruct q as [|f q]; try (exists r; reflexivity); cbn [reach_queue List.length] in *; [lia|].
    destruct (smem f r) eqn:M; [apply IH; lia|]. apply smem_not in M.
    destruct (mget String.eqb spr f) as [l|] eqn:E.
    - apply IH. rewrite app_length. pose proof (weight_step _ _ _ E M). pose proof (filter_less (fun s => negb (smem s (r ++ [f]))) l). lia.
    - apply IH. pose proof (weight_mono r f). lia.
  Qed.
  Lemma queue_good : forall start fuel r q r', reach_queue fuel spr r q = Some r' ->
    (forall n, In n r -> queue_reach start n) -> (forall n, In n q -> queue_reach start n) ->
    (forall m l n, In m r -> mget String.eqb spr m = Some l -> In n l -> In n r \/ In n q) ->
    (forall n, In n r' -> queue_reach start n) /\ (forall n, In n r \/ In n q -> In n r') /\
    (forall m l n, In m r' -> mget String.eqb spr m = Some l -> In n l -> In n r').
  Proof.
    intros start. induction fuel as [|fuel IH]; intros r q r' K R Q C; destruct q as [|f q]; cbn [reach_queue] in K.
    - injection K as <-. split; [exact R|]. split; [intros n [I|[]]; exact I|]. intros m l n I E J. destruct (C m l n I E J) as [X|[]]. exact X.
    - discriminate.
    - injection K as <-. split; [exact R|]. split; [intros n [I|[]]; exact I|]. intros m l n I E J. destruct (C m l n I E J) as [X|[]]. exact X.
    - destruct (smem f r) eqn:M.
      + apply smem_iff in M. destruct (IH _ _ _ K R) as (A & B & D).
        * intros n I. apply Q. now right.
        * intros m l n I E J. destruct (C m l n I E J) as [X|[<-|X]]; auto.
        * split; [exact A|]. split; [|exact D]. intros n [I|[<-|I]]; apply B; auto.
      + apply smem_not in M.
        assert (R' : forall n, In n (r ++ [f]) -> queue_reach start n).
        { intros n I. apply in_app_iff in I. destruct I as [I|[<-|[]]]; [now apply R|]. apply Q. now left. }
        destruct (mget String.eqb spr f) as [l0|] eqn:E.
        * destruct (IH _ _ _ K R') as (A & B & D).
          -- intros n I. apply in_app_iff in I. destruct I as [I|I]; [apply Q; now right|]. apply filter_In in I. eapply queue_next; [|exact E|apply I]. apply Q. now left.
          -- intros m l n I E' J. rewrite !in_app_iff. destruct (smem n (r ++ [f])) eqn:MN.
             { apply smem_iff in MN. left. now apply in_app_iff in MN. }
             apply in_app_iff in I. destruct I as [I|[<-|[]]].
             ++ destruct (C m l n I E' J) as [X|[<-|X]]; [left; now left|left; right; now left|right; now left].
             ++ rewrite E in E'. injection E' as <-. right; right. apply filter_In. split; [exact J|]. now rewrite MN.
          -- split; [exact A|]. split; [|exact D]. intros n [I|[<-|I]]; apply B; rewrite !in_app_iff; cbn; auto.
        * destruct (IH _ _ _ K R') as (A & B & D).
          -- intros n I. apply Q. now right.
          -- intros m l n I E' J. rewrite in_app_iff. apply in_app_iff in I. destruct I as [I|[<-|[]]]; [|congruence].
             destruct (C m l n I E' J) as [X|[<-|X]]; [left; now left|left; right; now left|now right].
          -- split; [exact A|]. split; [|exact D]. intros n [I|[<-|I]]; apply B; rewrite ?in_app_iff; cbn; auto.
  Qed.
  Lemma queued : forall start fuel, List.length start + List.length (flat_map snd spr) <= fuel ->
    exists r, reach_queue fuel spr [] start = Some r /\ forall n, In n r <-> queue_reach start n.
  Proof.
    intros start fuel H. destruct (queue_ends fuel [] start) as [r E].
    - assert (L : weight [] = List.length (flat_map snd spr)); [|lia].
      unfold weigh. clear. induction spr as [|[k v] m IH]; [reflexivity|]. cbn [flat_map fst snd]. rewrite !app_length, IH. reflexivity.
    - exists r. split; [exact E|]. destruct (queue_good start _ _ _ _ E) as (A & B & C).
      + intros n [].
      + intros n I. now constructor.
      + intros m l n [].
      + intros n. split; [apply A|]. intros Q. induction Q as [n I|m l n Q IH G I]; [apply B; now right|]. eapply C; eassumption.
  Qed.
End Queue.
