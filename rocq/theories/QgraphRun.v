(** What putting nodes and edges in a graph one after another leads to. *)
From Coq Require Import Ascii String List NArith Bool Arith Lia.
From Verif Require Import StrOrd StrUtil Ast QplanModel OverrideModel NormModel PathModel OpwalkModel FragDoc QgraphModel QgraphSpec QgraphBase.
Import ListNotations.
Local Open Scope list_scope.

Definition mentions (c : cmd) (n : gnode) : Prop := match c with CNode m => n = m | CEdge h _ t => n = h \/ n = t end.
Definition inv (b : builder) : Prop :=
  NoDup (map display (b_nodes b)) /\ forall i j k, In (i, j, k) (b_edges b) -> i < length (b_nodes b) /\ j < length (b_nodes b).
Definition joined (b : builder) (dh : string) (k : gkind) (dt : string) : Prop :=
  exists i j hn tn, In (i, j, k) (b_edges b) /\ nth_error (b_nodes b) i = Some hn /\ nth_error (b_nodes b) j = Some tn /\ display hn = dh /\ display tn = dt.
Definition grows (b b' : builder) : Prop := exists l, b_nodes b' = b_nodes b ++ l.
Lemma grows_refl : forall b, grows b b.
Proof. intros b. exists []. now rewrite app_nil_r. Qed.
Lemma grows_trans : forall a b c, grows a b -> grows b c -> grows a c.
Proof. intros a b c [l E] [l' F]. exists (l ++ l'). now rewrite F, E, app_assoc. Qed.
Lemma grows_nth : forall b b' i n, grows b b' -> nth_error (b_nodes b) i = Some n -> nth_error (b_nodes b') i = Some n.
Proof. intros b b' i n [l ->] E. rewrite nth_error_app1; [exact E|]. apply nth_error_Some. now rewrite E. Qed.
Lemma grows_len : forall b b', grows b b' -> length (b_nodes b) <= length (b_nodes b').
Proof. intros b b' [l ->]. rewrite app_length. lia. Qed.

Lemma index_some : forall name l i, index_of name l = Some i -> exists n, nth_error l i = Some n /\ display n = name.
Proof.
  intros name l. induction l as [|n l IH]; intros i E; cbn in E; [discriminate|]. destruct (String.eqb_spec (display n) name) as [D|D].
  - injection E as <-. now exists n.
  - destruct (index_of name l) as [j|]; [|discriminate]. injection E as <-. now apply IH.
Qed.
Lemma index_none : forall name l, index_of name l = None -> ~ In name (map display l).
Proof.
  intros name l. induction l as [|n l IH]; intros E I; [destruct I|]; cbn in E; destruct I as [D|I].
  - rewrite D, String.eqb_refl in E. discriminate.
  - destruct (String.eqb (display n) name); [discriminate|]. destruct (index_of name l); [discriminate|]. now apply IH.
Qed.
Lemma put_node : forall b n b' i, inv b -> upsert_node b n = (b', i) ->
  inv b' /\ grows b b' /\ b_edges b' = b_edges b /\ (forall m, In m (b_nodes b') -> In m (b_nodes b) \/ m = n) /\ exists m, nth_error (b_nodes b') i = Some m /\ display m = display n.
Proof.
  intros b n b' i [ND V] E. unfold upsert_node in E. destruct (index_of (display n) (b_nodes b)) as [j|] eqn:X; injection E as <- <-.
  - split; [now split|]. split; [apply grows_refl|]. split; [reflexivity|]. split; [now left|]. now apply index_some.
  - split; [|split; [now exists [n]|split; [reflexivity|split]]].
    + split; cbn; [rewrite map_app; apply NoDup_snoc; [exact ND|now apply index_none]|]. intros x y k I. apply V in I. rewrite app_length. lia.
    + intros m I. apply in_app_or in I. destruct I as [I|[<-|[]]]; auto.
    + exists n. split; [|reflexivity]. cbn. rewrite nth_error_app2 by lia. now rewrite Nat.sub_diag.
Qed.

Section Run.
  Variable tas_eqb : tas -> tas -> bool.
  Notation same := (kind_eqb tas_eqb).
  Notation run := (run tas_eqb).
  Notation run_all := (run_all tas_eqb).

  Lemma run_ok : forall b c, inv b ->
    inv (run b c) /\ grows b (run b c) /\ (forall m, In m (b_nodes (run b c)) -> In m (b_nodes b) \/ mentions c m) /\
    (forall m, mentions c m -> In (display m) (map display (b_nodes (run b c)))) /\
    (forall e, In e (b_edges b) -> In e (b_edges (run b c))) /\
    (forall i j k, In (i, j, k) (b_edges (run b c)) -> In (i, j, k) (b_edges b) \/
       exists h t hn tn, c = CEdge h k t /\ nth_error (b_nodes (run b c)) i = Some hn /\ nth_error (b_nodes (run b c)) j = Some tn /\ display hn = display h /\ display tn = display t) /\
    (forall h k t, c = CEdge h k t -> exists k', joined (run b c) (display h) k' (display t) /\ (k' = k \/ same k' k = true)).
  Proof.
    intros b [n|h k t] IV.
    - cbn. destruct (upsert_node b n) as [b' i] eqn:E. destruct (put_node _ _ _ _ IV E) as (V & G & D & M & m & X & Y). cbn.
      split; [exact V|]. split; [exact G|]. split; [exact M|]. split; [intros m' ->; rewrite <- Y; apply in_map; eapply nth_error_In; exact X|].
      split; [intros e I; now rewrite D|]. split; [intros i' j k I; rewrite D in I; now left|]. discriminate.
    - cbn [QgraphModel.run]. destruct (upsert_node b h) as [b1 i] eqn:E1. destruct (upsert_node b1 t) as [b2 j] eqn:E2.
      destruct (put_node _ _ _ _ IV E1) as (V1 & G1 & D1 & M1 & hn & X1 & Y1). destruct (put_node _ _ _ _ V1 E2) as (V2 & G2 & D2 & M2 & tn & X2 & Y2).
      pose proof (grows_nth _ _ _ _ G2 X1) as X1'.
      assert (NN : b_nodes (upsert_edge tas_eqb b2 i j k) = b_nodes b2) by (unfold upsert_edge; now destruct (existsb _ _)).
      assert (EE : exists k', In (i, j, k') (b_edges (upsert_edge tas_eqb b2 i j k)) /\ (k' = k \/ same k' k = true)).
      { unfold upsert_edge. destruct (existsb _ (b_edges b2)) eqn:X.
        - apply existsb_exists in X. destruct X as [[[i' j'] k'] [I X]]. apply andb_true_iff in X. destruct X as [X K]. apply andb_true_iff in X. destruct X as [A B].
          apply Nat.eqb_eq in A. apply Nat.eqb_eq in B. subst. exists k'. split; [exact I|now right].
        - exists k. split; [cbn; apply in_or_app; right; now left|now left]. }
      assert (OLD : forall e, In e (b_edges b) -> In e (b_edges (upsert_edge tas_eqb b2 i j k))).
      { intros e I. rewrite <- D1, <- D2 in I. unfold upsert_edge. destruct (existsb _ _); [exact I|cbn; apply in_or_app; now left]. }
      assert (NEW : forall i' j' k', In (i', j', k') (b_edges (upsert_edge tas_eqb b2 i j k)) -> In (i', j', k') (b_edges b) \/ (i', j', k') = (i, j, k)).
      { intros i' j' k' I. unfold upsert_edge in I. destruct (existsb _ _); [left; now rewrite <- D1, <- D2|]. cbn in I. apply in_app_or in I.
        destruct I as [I|[<-|[]]]; [left; now rewrite <- D1, <- D2|now right]. }
      set (b3 := upsert_edge tas_eqb b2 i j k) in *.
      assert (GG : grows b b3) by (apply (grows_trans _ b1); [exact G1|]; apply (grows_trans _ b2); [exact G2|]; exists []; now rewrite app_nil_r).
      split; [|split; [|split; [|split; [|split; [|split]]]]].
      + split; [rewrite NN; exact (proj1 V2)|]. intros i' j' k' I. rewrite NN. apply NEW in I. destruct I as [I|I].
        * apply (proj2 IV) in I. pose proof (grows_len _ _ G1). pose proof (grows_len _ _ G2). lia.
        * injection I as -> -> ->. split; apply nth_error_Some; congruence.
      + exact GG.
      + intros m I. rewrite NN in I. apply M2 in I. destruct I as [I| ->]; [|right; now right]. apply M1 in I. destruct I as [I| ->]; [now left|right; now left].
      + intros m [-> | ->]; rewrite NN; [rewrite <- Y1|rewrite <- Y2]; apply in_map; eapply nth_error_In; [exact X1'|exact X2].
      + exact OLD.
      + intros i' j' k' I. apply NEW in I. destruct I as [I|I]; [now left|]. injection I as -> -> ->. right. exists h, t, hn, tn. rewrite NN. now repeat split.
      + intros h' k0 t' E. injection E as <- <- <-. destruct EE as [k' [I K]]. exists k'. split; [|exact K]. exists i, j, hn, tn. rewrite NN. now repeat split.
  Qed.
  Lemma run_all_ok : forall l b, inv b ->
    inv (run_all b l) /\ grows b (run_all b l) /\ (forall m, In m (b_nodes (run_all b l)) -> In m (b_nodes b) \/ exists c, In c l /\ mentions c m) /\
    (forall c m, In c l -> mentions c m -> In (display m) (map display (b_nodes (run_all b l)))) /\
    (forall e, In e (b_edges b) -> In e (b_edges (run_all b l))) /\
    (forall i j k, In (i, j, k) (b_edges (run_all b l)) -> In (i, j, k) (b_edges b) \/
       exists h t hn tn, In (CEdge h k t) l /\ nth_error (b_nodes (run_all b l)) i = Some hn /\ nth_error (b_nodes (run_all b l)) j = Some tn /\ display hn = display h /\ display tn = display t) /\
    (forall h k t, In (CEdge h k t) l -> exists k', joined (run_all b l) (display h) k' (display t) /\ (k' = k \/ same k' k = true)).
  Proof.
    induction l as [|c l IH]; intros b IV.
    - cbn. split; [exact IV|]. split; [apply grows_refl|]. split; [now left|]. split; [intros c m []|]. split; [auto|]. split; [now left|]. intros h k t [].
    - change (run_all b (c :: l)) with (run_all (run b c) l). destruct (run_ok b c IV) as (V & G & M & D & O & N & E). destruct (IH _ V) as (V' & G' & M' & D' & O' & N' & E').
      split; [exact V'|]. split; [now apply (grows_trans _ (run b c))|]. split; [|split; [|split; [|split]]].
      + intros m I. apply M' in I. destruct I as [I|[c' [I J]]]; [|right; exists c'; split; [now right|exact J]]. apply M in I. destruct I as [I|I]; [now left|right; exists c; split; [now left|exact I]].
      + intros c' m [<-|I] J; [|now apply (D' c')]. apply D in J. destruct G' as [x ->]. rewrite map_app. apply in_or_app. now left.
      + auto.
      + intros i j k I. apply N' in I. destruct I as [I|[h [t [hn [tn [J R]]]]]]; [|right; exists h, t, hn, tn; split; [now right|exact R]].
        apply N in I. destruct I as [I|[h [t [hn [tn [-> [X [Y R]]]]]]]]; [now left|]. right. exists h, t, hn, tn. split; [now left|]. split; [now apply (grows_nth (run b (CEdge h k t)))|]. split; [now apply (grows_nth (run b (CEdge h k t)))|exact R].
      + intros h k t [->|I]; [|now apply E']. destruct (E h k t eq_refl) as [k' [(i & j & hn & tn & J & X & Y & R) K]]. exists k'. split; [|exact K].
        exists i, j, hn, tn. split; [now apply O'|]. split; [eapply grows_nth; [exact G'|exact X]|]. split; [eapply grows_nth; [exact G'|exact Y]|exact R].
  Qed.
  Lemma run_all_app : forall b l m, run_all b (l ++ m) = run_all (run_all b l) m.
  Proof. intros b l m. apply fold_left_app. Qed.
  Lemma inv_empty : inv (mkb [] []).
  Proof. split; [constructor|intros i j k []]. Qed.
End Run.
