(** Keeping the cheapest paths. *)
From Coq Require Import String List NArith Bool Arith Lia.
From Verif Require Import Ast StrOrd PathModel PathSpec.
Import ListNotations.
Local Open Scope list_scope.

Lemma best_fold : forall l c ps, (0 < c)%N -> Forall (fun q => (0 < o_cost q)%N) l -> Forall (fun q => o_cost q = c) ps -> ps <> [] ->
  let r := fold_left best_step l (c, ps) in
  (0 < fst r)%N /\ snd r <> [] /\ Forall (fun q => o_cost q = fst r) (snd r) /\
  (forall q, In q (snd r) <-> (In q ps \/ In q l) /\ (fst r = o_cost q)) /\ (fst r <= c)%N /\ (forall q, In q l -> (fst r <= o_cost q)%N).
Proof.
  intros l. induction l as [|x l IH]; intros c ps PC PL PP NE.
  - cbn. rewrite Forall_forall in PP. split; [exact PC|]. split; [exact NE|]. split; [now apply Forall_forall|].
    split; [|split; [lia|now intros q []]]. intros q. split; [|tauto]. intros I. split; [now left|]. symmetry. auto.
  - inversion PL as [|? ? PX PL']; subst. cbn [fold_left].
    change (best_step (c, ps) x) with (if (c =? 0)%N then (o_cost x, [x]) else if (c =? o_cost x)%N then (c, ps ++ [x]) else if (o_cost x <? c)%N then (o_cost x, [x]) else (c, ps)).
    destruct (N.eqb_spec c 0) as [->|NZ]; [lia|]. rewrite Forall_forall in PP.
    destruct (N.eqb_spec c (o_cost x)) as [E|NEQ]; [|destruct (N.ltb_spec (o_cost x) c) as [L|L]].
    + destruct (IH c (ps ++ [x]) PC PL') as [A [B [C [D [F G]]]]].
      { apply Forall_forall. intros q I. apply in_app_iff in I. destruct I as [I|[<-|[]]]; auto. }
      { now destruct ps. }
      cbn zeta in *. split; [exact A|]. split; [exact B|]. split; [exact C|]. split; [|split].
      * intros q. rewrite D, in_app_iff. cbn. tauto.
      * exact F.
      * intros q [<-|I]; [lia|auto].
    + destruct (IH (o_cost x) [x] PX PL') as [A [B [C [D [F G]]]]]; [repeat constructor|discriminate|].
      cbn zeta in *. split; [exact A|]. split; [exact B|]. split; [exact C|]. split; [|split].
      * intros q. rewrite D. cbn. split; [tauto|]. intros [[H|H] H']; [|tauto]. apply PP in H. lia.
      * lia.
      * intros q [<-|I]; [lia|auto].
    + destruct (IH c ps PC PL') as [A [B [C [D [F G]]]]]; [now apply Forall_forall|exact NE|].
      cbn zeta in *. split; [exact A|]. split; [exact B|]. split; [exact C|]. split; [|split].
      * intros q. rewrite D. cbn. split; [tauto|]. intros [[H|[<-|H]] H']; [tauto|lia|tauto].
      * exact F.
      * intros q [<-|I]; [lia|auto].
Qed.
Lemma best_ok : forall l, Forall (fun q => (0 < o_cost q)%N) l ->
  (forall q, In q (find_best_paths l) <-> In q l /\ forall q', In q' l -> (o_cost q <= o_cost q')%N) /\
  (l <> [] -> find_best_paths l <> []).
Proof.
  intros l P. unfold find_best_paths. destruct l as [|x l].
  - split; [|tauto]. intros q. split; [now intros []|]. intros [[] _].
  - inversion P as [|? ? PX PL]; subst. cbn [fold_left].
    change (best_step (0%N, []) x) with (o_cost x, [x]).
    destruct (best_fold l (o_cost x) [x] PX PL) as [A [B [C [D [F G]]]]]; [repeat constructor|discriminate|].
    cbn zeta in *. set (r := fold_left best_step l (o_cost x, [x])) in *. split; [|intros _; exact B].
    intros q. rewrite D. split.
    + intros [I E]. split; [destruct I as [[<-|[]]|I]; cbn; auto|]. intros q' [<-|I']; [lia|]. rewrite <- E. auto.
    + intros [I M]. split; [destruct I as [<-|I]; cbn; auto|].
      assert (E : forall q0, In q0 (x :: l) -> (fst r <= o_cost q0)%N) by (intros q0 [<-|I0]; [lia|auto]).
      apply N.le_antisymm; [now apply E|].
      destruct (snd r) as [|y ys] eqn:ES; [now destruct B|]. assert (IY : In y (y :: ys)) by now left.
      apply D in IY. destruct IY as [IY EY]. rewrite EY. apply M. destruct IY as [[<-|[]]|IY]; cbn; auto.
Qed.

(** The tracker *)
Definition track_all (c : list (string * opath)) (t : tracker) : tracker := fold_left (fun tk y => track tk (fst y) (snd y)) c t.
Definition cheapest (C : list (string * opath)) (id : string) (q : opath) : Prop :=
  In (id, q) C /\ forall q', In (id, q') C -> (o_cost q <= o_cost q')%N.
Definition entry_ok (C : list (string * opath)) (x : string * (list opath * N)) : Prop :=
  fst (snd x) <> [] /\ (forall q, In q (fst (snd x)) -> o_cost q = snd (snd x)) /\
  forall q, In q (fst (snd x)) <-> cheapest C (fst x) q.
Definition tracks (C : list (string * opath)) (t : tracker) : Prop :=
  keys_sorted t /\ Forall (entry_ok C) t /\ forall id q, In (id, q) C -> In id (map fst t).

Lemma entry_other : forall C id p x, fst x <> id -> entry_ok C x -> entry_ok (C ++ [(id, p)]) x.
Proof.
  intros C id p x N [A [B D]]. split; [exact A|]. split; [exact B|]. intros q. rewrite D. unfold cheapest.
  assert (K : forall q', In (fst x, q') (C ++ [(id, p)]) <-> In (fst x, q') C).
  { intros q'. rewrite in_app_iff. split; [|tauto]. intros [I|[E|[]]]; [exact I|]. congruence. }
  rewrite K. split; intros [I M]; (split; [exact I|]); intros q' I'; apply M; now apply K.
Qed.
Lemma entry_new : forall C id p, (forall q, ~ In (id, q) C) -> entry_ok (C ++ [(id, p)]) (id, ([p], o_cost p)).
Proof.
  intros C id p N. split; [discriminate|]. split; [now intros q [<-|[]]|]. intros q. cbn. unfold cheapest.
  setoid_rewrite in_app_iff. split.
  - intros [<-|[]]. split; [right; now left|]. intros q' [I|[E|[]]]; [now destruct (N q')|]. injection E as <-. lia.
  - intros [[I|[E|[]]] _]; [now destruct (N q)|]. injection E as <-. now left.
Qed.
Lemma entry_same : forall C id p l c, entry_ok C (id, (l, c)) ->
  entry_ok (C ++ [(id, p)]) (id, match N.compare (o_cost p) c with Lt => ([p], o_cost p) | Eq => (l ++ [p], c) | Gt => (l, c) end).
Proof.
  intros C id p l c [A [B D]]. cbn in A, B, D. unfold entry_ok, cheapest in *. setoid_rewrite in_app_iff.
  destruct l as [|x l]; [now destruct A|]. assert (EX : o_cost x = c) by (apply B; now left).
  assert (MX : forall q', In (id, q') C -> (c <= o_cost q')%N).
  { intros q' I. rewrite <- EX. assert (IX : In x (x :: l)) by now left. apply D in IX. now apply IX. }
  destruct (N.compare_spec (o_cost p) c) as [E|L|L]; cbn [fst snd].
  - split; [discriminate|]. split.
    + intros q I. apply in_app_iff in I. destruct I as [I|[<-|[]]]; auto.
    + intros q. rewrite in_app_iff. split.
      * intros [I|[<-|[]]].
        -- assert (I' := I). apply D in I'. destruct I' as [I1 I2]. split; [now left|]. intros q' [J|[J|[]]]; [now apply I2|].
           injection J as <-. rewrite E. apply B in I. lia.
        -- split; [right; now left|]. intros q' [J|[J|[]]]; [rewrite E; auto|]. injection J as <-. lia.
      * intros [[I|[I|[]]] M]; [left|right; left; congruence]. apply D. split; [exact I|]. intros q' J. apply M. now left.
  - split; [discriminate|]. split; [now intros q [<-|[]]|]. intros q. split.
    + intros [<-|[]]. split; [right; now left|]. intros q' [J|[J|[]]]; [apply MX in J; lia|]. injection J as <-. lia.
    + intros [[I|[I|[]]] M]; [|left; congruence]. exfalso. specialize (M p (or_intror (or_introl eq_refl))). apply MX in I. lia.
  - split; [exact A|]. split; [exact B|]. intros q. split.
    + intros I. assert (I' := I). apply D in I'. destruct I' as [I1 I2]. split; [now left|]. intros q' [J|[J|[]]]; [now apply I2|].
      injection J as <-. apply B in I. lia.
    + intros [[I|[I|[]]] M]; [|injection I as <-; specialize (M x)].
      * apply D. split; [exact I|]. intros q' J. apply M. now left.
      * exfalso. assert (IX : In (id, x) C) by (assert (J : In x (x :: l)) by (now left); apply D in J; tauto).
        specialize (M (or_introl IX)). lia.
Qed.
Lemma track_tracks : forall C t id p, tracks C t -> tracks (C ++ [(id, p)]) (track t id p).
Proof.
  intros C t id p [S [F K]].
  assert (KK : forall t', keys_sorted t' -> Forall (fun x => entry_ok C x) t' -> (forall q, In (id, q) C -> In id (map fst t')) ->
    keys_sorted (track t' id p) /\ Forall (entry_ok (C ++ [(id, p)])) (track t' id p) /\ In id (map fst (track t' id p)) /\
    (forall k, In k (map fst t') -> In k (map fst (track t' id p))) /\
    (forall k, In k (map fst (track t' id p)) -> k = id \/ In k (map fst t'))).
  { clear S F K t. intros t. induction t as [|[k [l c]] t IH]; intros S F K.
    - cbn. split; [repeat constructor|]. split; [|split; [now left|split; [now intros k []|intros k [<-|[]]; now left]]].
      constructor; [|constructor]. apply entry_new. intros q I. destruct (K q I).
    - inversion F as [|? ? F1 F2]; subst. cbn [track]. destruct (String.compare id k) eqn:E.
      + apply str_compare_eq in E. subst k. cbn [map fst In]. split; [exact S|]. split; [|split; [now left|split; [auto|intros k [<-|I]; auto]]].
        constructor; [now apply entry_same|]. apply keys_sorted_nodup in S. inversion S; subst.
        rewrite Forall_forall in *. intros x I. apply entry_other; [|auto]. intros EQ. apply H1. rewrite <- EQ. now apply in_map.
      + assert (NI : ~ In id (map fst ((k, (l, c)) :: t))).
        { apply keys_sorted_inv in S. destruct S as [_ S]. intros [<-|I].
          - now rewrite str_compare_refl in E.
          - rewrite Forall_forall in S. apply S in I. exact (str_lt_asym _ _ E I). }
        split; [|split; [|split; [|split]]].
        * assert (S' := S). apply keys_sorted_inv in S'. destruct S' as [S1 S2].
          constructor; [exact S|]. cbn. constructor; [exact E|]. eapply Forall_impl; [|exact S2]. intros a. now apply str_lt_trans.
        * constructor.
          -- apply entry_new. intros q I. apply NI. now apply K in I.
          -- rewrite Forall_forall in *. intros x I. apply entry_other; [|auto]. intros EQ. apply NI. rewrite <- EQ. now apply in_map.
        * now left.
        * intros k' I. now right.
        * intros k' [<-|I]; auto.
      + apply str_lt_gt in E. assert (S' := S). apply keys_sorted_inv in S'. destruct S' as [S1 S2].
        destruct (IH S1 F2) as [A [B [D [G H]]]].
        { intros q I. apply K in I. destruct I as [<-|I]; [now destruct (str_lt_irrefl _ E)|exact I]. }
        cbn [map fst In]. split; [|split; [|split; [|split]]].
        * constructor; [exact A|]. apply Forall_forall. intros x I. apply H in I. destruct I as [->|I]; [exact E|].
          rewrite Forall_forall in S2. auto.
        * constructor; [|exact B]. apply entry_other; [|exact F1]. cbn. intros ->. exact (str_lt_irrefl _ E).
        * now right.
        * intros k' [<-|I]; auto.
        * intros k' [<-|I]; [now (right; left)|]. apply H in I. tauto. }
  destruct (KK t S F) as [A [B [D [G H]]]]; [intros q I; now apply K in I|].
  split; [exact A|]. split; [exact B|]. intros id' q I. apply in_app_iff in I. destruct I as [I|[I|[]]].
  - apply G. now apply K in I.
  - injection I as <- <-. exact D.
Qed.
Lemma track_all_app : forall a b t, track_all (a ++ b) t = track_all b (track_all a t).
Proof. intros. apply fold_left_app. Qed.
Lemma track_all_tracks : forall D C t, tracks C t -> tracks (C ++ D) (track_all D t).
Proof.
  intros D. induction D as [|[id p] D IH]; intros C t T; [now rewrite app_nil_r|]. cbn.
  rewrite (app_assoc C [(id, p)] D : C ++ (id, p) :: D = _). apply IH. now apply track_tracks.
Qed.
Lemma tracks_nil : tracks [] [].
Proof. split; [constructor|]. split; [constructor|]. intros id q []. Qed.
Lemma best_of_ok : forall C t q, tracks C t -> (In q (best_of t) <-> exists id, cheapest C id q).
Proof.
  intros C t q [S [F K]]. unfold best_of. rewrite in_flat_map. rewrite Forall_forall in F. split.
  - intros [x [I J]]. exists (fst x). now apply (F x I).
  - intros [id H]. assert (I := proj1 H). apply K in I. apply in_map_iff in I. destruct I as [x [<- I]]. exists x.
    split; [exact I|]. now apply (F x I).
Qed.
Lemma cheapest_exists : forall C id q, In (id, q) C -> exists q', cheapest C id q' /\ (o_cost q' <= o_cost q)%N.
Proof.
  intros C id q I. assert (T := track_all_tracks C [] [] tracks_nil). cbn in T. destruct T as [S [F K]].
  assert (J := I). apply K in J. apply in_map_iff in J. destruct J as [x [<- J]]. rewrite Forall_forall in F.
  destruct (F x J) as [A [B D]]. destruct (fst (snd x)) as [|y l]; [now destruct A|]. exists y.
  assert (Y : cheapest C (fst x) y) by (apply D; now left). split; [exact Y|]. now apply Y.
Qed.
