(** The search ends, without an error, on any graph whose indexes are in order. *)
From Coq Require Import String List NArith Bool Arith Lia.
From Verif Require Import Ast QplanModel BestModel OverrideModel SafeModel PathModel PathSpec PathCycle PathBase PathBest PathSound.
Import ListNotations.
Local Open Scope list_scope.

Definition ok {A} (r : res A) : Prop := exists a, r = Ok a.
Lemma ok_bind : forall {A B} (r : res A) (f : A -> res B), ok r -> (forall a, r = Ok a -> ok (f a)) -> ok (bind r f).
Proof. intros A B r f [a ->] K. now apply K. Qed.
Lemma ok_ret : forall {A} (a : A), ok (Ok a).
Proof. intros A a. now exists a. Qed.
Lemma each_total : forall {A B} (f : A -> res B) l, (forall x, In x l -> ok (f x)) -> ok (each f l).
Proof.
  intros A B f l. induction l as [|x l IH]; cbn; intros K; [apply ok_ret|].
  apply ok_bind; [apply K; now left|]. intros y _. apply ok_bind; [apply IH; intros z I; apply K; now right|]. intros ys _. apply ok_ret.
Qed.

Section Total.
  Variable g : pgraph.
  Variable ctx : context.
  Variable objects_of : string -> option (list string).
  Variable resolvable : string -> string -> list string.
  Variable ahash : option (list (string * gvalue)) -> N.
  Variable known : list tas -> tas -> bool.
  Hypothesis SG : sound_graph g.

  Definition tail_ok (p : opath) : Prop := exists id, graph_of g (tail_of p) id.
  Lemma node_ok : forall n id, graph_of g n id -> exists x, node_at g n = Ok x /\ n_graph x = Some id.
  Proof. intros n id [x [E G]]. exists x. unfold node_at. now rewrite E. Qed.
  Lemma edge_tail : forall i e, edge_at g i e -> exists id, graph_of g (g_tail e) id.
  Proof. intros i e E. apply edge_in in E. destruct (SG e E) as [_ [n [id [K G]]]]. exists id, n. auto. Qed.
  Lemma chain_end : forall n c l m d, chain g n c l m d -> l <> [] -> exists id, graph_of g m id.
  Proof.
    intros n c l m d H. induction H as [|n c s e d0 l m c' A B C D E H IH]; [tauto|]. intros _. destruct l as [|x l].
    - inversion H; subst. eapply edge_tail; exact A.
    - apply IH. discriminate.
  Qed.
  Lemma extends_tail : forall p q l, tail_ok p -> extends g p q l -> tail_ok q.
  Proof.
    intros p q l T [new [R [S [M C]]]]. destruct new as [|x new].
    - assert (EQ : tail_of q = tail_of p) by (inversion C; congruence). unfold tail_ok in *. now rewrite EQ.
    - eapply chain_end; [exact C|discriminate].
  Qed.
  Lemma segments_total : forall l pos, Forall (fun s => exists e, edge_at g (sg_edge s) e) l ->
    exists t, from_segments (map best_edge (edges g)) (map (fun s => mkseg (sg_edge s) (sg_tree s) (sg_attrs s) (sg_cond s)) l) pos = Done t.
  Proof.
    intros l. induction l as [|s l IH]; intros pos F; [now exists None|]. inversion F as [|? ? [e E] F']; subst. cbn.
    unfold edge_at in E. rewrite nth_error_map, E. cbn. destruct (IH None F') as [t ->]. now eexists.
  Qed.
  Lemma path_total : forall p pos, path_of g p -> exists t, from_path (map best_edge (edges g)) (to_best p) pos = Done t.
  Proof.
    intros p pos [m C]. apply chain_edges in C. unfold from_path, to_best. cbn [p_segments p_root].
    destruct (segments_total (o_segs p) pos C) as [t ->]. now eexists.
  Qed.
  Lemma tree_total : forall paths, Forall (path_of g) paths -> ok (tree_of g paths).
  Proof.
    intros [|p paths] F; [now exists None|]. unfold tree_of, from_paths. cbn [map]. inversion F as [|? ? P F']; subst.
    destruct (path_total p None P) as [t ->].
    assert (K : forall l acc, Forall (path_of g) l -> exists t', from_rest (map best_edge (edges g)) (map to_best l) None acc = Done t').
    { intros l. induction l as [|q l IH]; intros acc FL; [now exists acc|]. inversion FL; subst. cbn.
      destruct (path_total q None) as [u ->]; [assumption|]. now apply IH. }
    destruct (K paths t F') as [t' ->]. now eexists.
  Qed.

  Definition sat_total (sat : satisfier) : Prop := forall i e p ex od,
    edge_at g i e -> g_head e = tail_of p -> path_of g p -> tail_ok p -> ok (sat i e p ex od).

  Section Finders.
    Variable sat : satisfier.
    Hypothesis SND : sat_sound g ctx objects_of sat.
    Hypothesis TOT : sat_total sat.

    Lemma sat_tree : forall i e p ex od paths, edge_at g i e -> g_head e = tail_of p -> path_of g p -> sat i e p ex od = Ok (Some paths) -> ok (tree_of g paths).
    Proof.
      intros i e p ex od paths E H P K. apply tree_total. destruct (SND _ _ _ _ _ _ E H P K) as [_ [W _]].
      apply Forall_forall. intros w I. destruct (W w I) as [r [c [_ [_ [_ [_ [PW _]]]]]]]. exact PW.
    Qed.
    Lemma try_total : forall p i e t, edge_at g i e -> g_head e = tail_of p -> path_of g p -> tail_ok p -> ok (try_advance g sat p (i, e) t).
    Proof.
      intros p i e t E H P T. unfold try_advance. cbn [fst snd]. apply ok_bind; [now apply TOT|]. intros [paths|] S; [|apply ok_ret].
      apply ok_bind; [eapply sat_tree; eassumption|]. intros tr _. apply ok_ret.
    Qed.
    Lemma direct_total : forall p t, path_of g p -> tail_ok p -> ok (find_direct_paths g sat p t).
    Proof.
      intros p t P T. unfold find_direct_paths. destruct (out_of_scope p t); [apply ok_ret|].
      apply ok_bind; [|intros l _; apply ok_ret]. apply each_total. intros [i e] I. apply filter_In in I. destruct I as [I _].
      apply edges_from_iff in I. destruct I as [E H]. now apply try_total.
    Qed.
    Lemma worth_total : forall t src ty vis reqs e id, ok (worth_trying objects_of ahash known t src ty vis reqs e id).
    Proof.
      intros t src ty vis reqs e id. unfold worth_trying.
      destruct (negb match t with TField _ (Some ids) => existsb (String.eqb id) ids | _ => true end); [apply ok_ret|].
      destruct (existsb (String.eqb id) vis); [apply ok_ret|].
      destruct (String.eqb id src && negb match g_kind e with InterfaceObjectMove _ _ => true | _ => false end); [apply ok_ret|].
      destruct (requirements (g_kind e)) as [r|]; [|apply ok_ret]. apply ok_bind; [|intros d _; apply ok_ret].
      destruct t as [f ids|n c]; [|apply ok_ret]. destruct (depends_ok objects_of ahash ty r f) as [b [-> _]]. apply ok_ret.
    Qed.
    Lemma explore_edge_total : forall t src ty vis reqs p acc i e, path_of g p -> tail_ok p -> edge_at g i e -> g_head e = tail_of p ->
      ok (explore_edge g objects_of ahash known sat t src ty vis reqs p acc (i, e)).
    Proof.
      intros t src ty vis reqs p acc i e P T E H. unfold explore_edge. cbn [fst snd].
      destruct (edge_tail _ _ E) as [id GO]. destruct (node_ok _ _ GO) as [x [NX GX]].
      apply ok_bind; [now exists x|]. intros x' EX. rewrite NX in EX. injection EX as <-. rewrite GX.
      apply ok_bind; [apply worth_total|]. intros b _. destruct b; [|apply ok_ret]. cbn [negb].
      apply ok_bind; [now apply TOT|]. intros [paths|] S; [|apply ok_ret].
      apply ok_bind; [eapply sat_tree; eassumption|]. intros tr _.
      assert (X := advance_extends g p i e tr t E H). set (q := advance g p i e tr t) in *.
      assert (PQ : path_of g q) by (eapply extends_path; eassumption). assert (TQ : tail_ok q) by (eapply extends_tail; eassumption).
      apply ok_bind; [now apply direct_total|]. intros [|d ds] D; [apply ok_ret|]. apply ok_bind; [|intros ids _; apply ok_ret].
      apply each_total. intros q' I. destruct (direct_sound _ _ _ _ SND _ _ _ _ PQ D I) as [j [e' [_ [_ [_ [_ [X' _]]]]]]].
      destruct (extends_tail _ _ _ TQ X') as [id' GO']. destruct (node_ok _ _ GO') as [y [NY GY]].
      apply ok_bind; [now exists y|]. intros y' EY. rewrite NY in EY. injection EY as <-. rewrite GY. apply ok_ret.
    Qed.
    Lemma explore_edges_total : forall t src ty vis reqs p l acc, path_of g p -> tail_ok p ->
      (forall x, In x l -> edge_at g (fst x) (snd x) /\ g_head (snd x) = tail_of p) ->
      ok (explore_edges g objects_of ahash known sat t src ty vis reqs p l acc).
    Proof.
      intros t src ty vis reqs p l. induction l as [|[i e] l IH]; intros acc P T L; [apply ok_ret|]. cbn [explore_edges].
      destruct (L (i, e) (or_introl eq_refl)) as [E H]. apply ok_bind; [now apply explore_edge_total|].
      intros a _. apply IH; auto. intros x I. apply L. now right.
    Qed.
    (** Edges that may still be taken *)
    Definition fresh (seen : list nat) : nat := length (filter (fun e => negb (existsb (Nat.eqb (g_head e)) seen)) (edges g)).
    Lemma from_length : forall n, length (edges_from g n) = length (filter (fun e => Nat.eqb (g_head e) n) (edges g)).
    Proof.
      intros n. unfold edges_from. rewrite rev_length. generalize 0. induction (edges g) as [|e l IH]; intros a; [reflexivity|].
      cbn. destruct (Nat.eqb (g_head e) n); cbn; now rewrite IH.
    Qed.
    Lemma fresh_less : forall n seen, existsb (Nat.eqb n) seen = false -> fresh (n :: seen) + length (edges_from g n) = fresh seen.
    Proof.
      intros n seen NS. rewrite from_length. unfold fresh. induction (edges g) as [|e l IH]; [reflexivity|]. cbn [filter].
      change (existsb (Nat.eqb (g_head e)) (n :: seen)) with (Nat.eqb (g_head e) n || existsb (Nat.eqb (g_head e)) seen).
      destruct (Nat.eqb_spec (g_head e) n) as [E|E]; cbn [orb negb].
      - rewrite E, NS. cbn [negb length]. lia.
      - destruct (existsb (Nat.eqb (g_head e)) seen); cbn [negb length]; lia.
    Qed.
    Lemma filter_le : forall {A} (f : A -> bool) l, length (filter f l) <= length l.
    Proof. intros A f l. induction l as [|x l IH]; [apply le_n|]. cbn. destruct (f x); cbn; lia. Qed.
    Lemma explore_total : forall p0 t src ty exg n stack seen tk, path_of g p0 -> wanted_in t (stand p0) -> tail_ok p0 ->
      Forall (reached g ctx objects_of p0 t src exg) stack -> length stack + fresh seen <= n ->
      ok (explore g objects_of ahash known sat n t src ty stack seen tk).
    Proof.
      intros p0 t src ty exg n. induction n as [|n IH]; intros [|[[vis reqs] p] stack] seen tk P0 W0 T0 R L; cbn [explore]; try apply ok_ret; [cbn in L; lia|].
      cbn [length] in L. inversion R as [|? ? R1 R2]; subst. destruct (existsb (Nat.eqb (tail_of p)) seen) eqn:S; [apply IH; auto; lia|].
      assert (R1' := R1). destruct R1' as [h [gs [_ [X _]]]]. cbn [snd] in X.
      assert (P : path_of g p) by (eapply extends_path; eassumption). assert (T : tail_ok p) by (eapply extends_tail; eassumption).
      apply ok_bind.
      - apply explore_edges_total; auto. intros x I. apply move_edges in I. tauto.
      - intros a K. destruct (explore_edges_sound g ctx objects_of resolvable ahash known sat SND p0 t src ty exg P0 W0 _ _ _ _ _ _ R1 (move_edges g p) K) as [new [D [A [_ [C [_ LN]]]]]].
        cbn [fst] in A. apply IH; auto.
        + rewrite A. now apply Forall_app.
        + rewrite A, app_length. assert (K2 := fresh_less (tail_of p) seen S).
          assert (K3 := filter_le (fun x => moves (g_kind (snd x))) (edges_from g (tail_of p))). lia.
    Qed.
    Lemma indirect_total : forall p t ex, path_of g p -> tail_ok p -> ok (find_indirect_paths g objects_of ahash known sat p t ex).
    Proof.
      intros p t ex P T. unfold find_indirect_paths. assert (T' := T). destruct T' as [id GO]. destruct (node_ok _ _ GO) as [x [NX GX]].
      apply ok_bind; [now exists x|]. intros x' EX. rewrite NX in EX. injection EX as <-. rewrite GX.
      destruct (out_of_scope p t) eqn:SC; [apply ok_ret|]. apply scope_iff in SC. apply ok_bind; [|intros tk _; apply ok_ret].
      eapply (explore_total p t id (n_name x) (ex_graphs ex)); [exact P|exact SC|exact T| |].
      - constructor; [|constructor]. exists [], []. cbn. split; [constructor|]. split; [apply extends_refl|]. repeat split; auto using NoDup_nil, Forall2_nil.
      - cbn [length]. unfold fresh. assert (K := filter_le (fun e => negb (existsb (Nat.eqb (g_head e)) [])) (edges g)). lia.
    Qed.

    Definition fine (p : opath) : Prop := path_of g p /\ tail_ok p.
    Lemma target_ids_total : forall name paths, Forall fine paths -> ok (target_ids g resolvable name paths).
    Proof.
      intros name paths F. unfold target_ids. apply ok_bind.
      - apply each_total. intros p I. rewrite Forall_forall in F. destruct (F p I) as [_ [id GO]]. destruct (node_ok _ _ GO) as [x [NX _]].
        rewrite NX. apply ok_ret.
      - intros types _. destruct (flat_map (fun t => resolvable t name) types); apply ok_ret.
    Qed.
    Lemma field_total : forall paths f ex od, Forall fine paths -> ok (field_requirement g objects_of resolvable ahash known sat paths f ex od).
    Proof.
      intros paths f ex od F. unfold field_requirement. apply ok_bind; [now apply target_ids_total|]. intros ids _.
      apply ok_bind; [|intros found _; apply ok_ret]. rewrite Forall_forall in F. apply each_total. intros p I. destruct (F p I) as [P T].
      apply ok_bind; [now apply direct_total|]. intros d _. apply ok_bind; [|intros; apply ok_ret].
      destruct (negb od && negb match d with [] => false | _ :: _ => match fl_sub f with [] => true | _ :: _ => false end end); [now apply indirect_total|apply ok_ret].
    Qed.
    Lemma fragment_total : forall paths tc ex, Forall fine paths -> ok (fragment_requirement g objects_of ahash known sat paths tc ex).
    Proof.
      intros paths tc ex F. unfold fragment_requirement. rewrite Forall_forall in F. apply ok_bind.
      - apply each_total. intros p I. destruct (F p I) as [P T]. assert (T' := T). destruct T' as [id GO]. destruct (node_ok _ _ GO) as [x [NX _]].
        apply ok_bind; [now exists x|]. intros y _. destruct (type_matches objects_of (n_name y) tc); [apply ok_ret|now apply direct_total].
      - intros d _. apply ok_bind; [|intros; apply ok_ret]. apply each_total. intros p I. destruct (F p I) as [P T]. now apply indirect_total.
    Qed.
    Lemma stepped_fine : forall x paths next, Forall fine paths -> stepped g ctx objects_of x paths next -> Forall fine next.
    Proof.
      intros x paths next F ST. rewrite Forall_forall in *. intros q' I. destruct (ST q' I) as [q [l [IQ [X _]]]]. destruct (F q IQ) as [P T].
      split; [eapply extends_path|eapply extends_tail]; eassumption.
    Qed.
    Lemma weights_sum : forall (q : list (list opath * sel)) (next : list opath) sub,
      weights (map snd (q ++ rev (map (fun y => (next, y)) sub))) = weights (map snd q) + weights sub.
    Proof.
      intros q next sub. assert (A : forall a b, weights (a ++ b) = weights a + weights b).
      { intros a b. induction a as [|x a IH]; [reflexivity|]. cbn [app]. rewrite !weights_cons, IH. lia. }
      rewrite map_app, A, map_rev, map_map. f_equal. cbn. rewrite map_id. clear A. induction sub as [|x sub IH]; [reflexivity|]. cbn [rev].
      assert (A : forall a b, weights (a ++ b) = weights a + weights b).
      { intros a b. induction a as [|y a IHa]; [reflexivity|]. cbn [app]. rewrite !weights_cons, IHa. lia. }
      rewrite A, IH, !weights_cons. change (weights []) with 0. lia.
    Qed.
    Lemma require_total : forall n self ex od queue acc, (forall paths x, In (paths, x) queue -> Forall fine paths) ->
      weights (map snd queue) <= n -> ok (require g objects_of resolvable ahash known sat n self ex od queue acc).
    Proof.
      intros n. induction n as [|n IH]; intros self ex od [|[paths x] queue] acc Q L; cbn [require]; try apply ok_ret.
      - cbn [map snd] in L. rewrite weights_cons in L. destruct x; cbn in L; lia.
      - cbn [map snd] in L. rewrite weights_cons in L. assert (F : Forall fine paths) by (eapply Q; now left).
        assert (FP : Forall (path_of g) paths) by (eapply Forall_impl; [|exact F]; intros a [A _]; exact A).
        assert (GO : forall next acc' y, stepped g ctx objects_of y paths next -> S (weights (sub_of y)) + weights (map snd queue) <= S n ->
          ok (require g objects_of resolvable ahash known sat n self ex od (queue ++ rev (map (fun z => (next, z)) (sub_of y))) acc')).
        { intros next acc' y ST LE. apply IH; [|rewrite weights_sum; lia]. intros ps z I. apply in_app_iff in I. destruct I as [I|I]; [eapply Q; right; exact I|].
          apply in_rev in I. apply in_map_iff in I. destruct I as [w [E _]]. injection E as <- <-. eapply stepped_fine; eassumption. }
        destruct x as [name alias args inc skip om sub|tc inc skip sub|name].
        + rewrite weight_field in L. apply ok_bind; [now apply field_total|]. intros next K. assert (ST := field_stepped g ctx objects_of resolvable ahash known sat SND _ _ _ _ _ _ om _ _ _ _ FP K).
          destruct next as [|q next]; [apply ok_ret|]. eapply (GO _ _ (SField name alias args inc skip om sub)); [exact ST|cbn [sub_of]; lia].
        + rewrite weight_frag in L. apply ok_bind; [now apply fragment_total|]. intros next K. assert (ST := fragment_stepped g ctx objects_of resolvable ahash known sat SND _ _ inc skip sub _ _ FP K).
          destruct next as [|q next]; [apply ok_ret|]. eapply (GO _ _ (SFrag tc inc skip sub)); [exact ST|cbn [sub_of]; lia].
        + apply IH; [|cbn in L; lia]. intros ps z I. eapply Q. right. exact I.
    Qed.
    Lemma check_total : forall e p ex od, path_of g p -> tail_ok p -> ok (check_edge g ctx objects_of resolvable ahash known sat e p ex od).
    Proof.
      intros e p ex od P T. unfold check_edge. destruct (match g_kind e with FieldMove _ _ m => negb (satisfies m ctx) | _ => false end); [apply ok_ret|].
      destruct (requirements (g_kind e)) as [r|]; [|apply ok_ret]. apply require_total.
      - intros ps x I. apply in_map_iff in I. destruct I as [y [E _]]. injection E as <- <-. constructor; [now split|constructor].
      - rewrite map_map. cbn. now rewrite map_id.
    Qed.
  End Finders.

  Lemma can_satisfy_total : forall n active, NoDup (map snd active) ->
    (forall a, In a active -> exists e, edge_at g (snd a) e /\ g_head e = fst a) -> length (edges g) < n + length active ->
    sat_total (can_satisfy_edge g ctx objects_of resolvable ahash known n active).
  Proof.
    intros n. induction n as [|n IH]; intros active ND AC L i e p ex od E H P T.
    - exfalso. assert (K : incl (map snd active) (seq 0 (length (edges g)))).
      { intros j I. apply in_map_iff in I. destruct I as [a [<- I]]. destruct (AC a I) as [e' [E' _]]. apply in_seq. apply edge_bound in E'. lia. }
      apply NoDup_incl_length in K; [|exact ND]. rewrite map_length, seq_length in K. lia.
    - cbn [can_satisfy_edge]. destruct (existsb (fun a => Nat.eqb (fst a) (tail_of p) && Nat.eqb (snd a) i) active) eqn:A; [apply ok_ret|].
      apply check_total; auto; [apply can_satisfy_sound|]. apply IH.
      + cbn. constructor; [|exact ND]. intros I. apply in_map_iff in I. destruct I as [a [EA I]].
        assert (existsb (fun a => Nat.eqb (fst a) (tail_of p) && Nat.eqb (snd a) i) active = true); [|congruence].
        apply existsb_exists. exists a. split; [exact I|]. destruct (AC a I) as [e' [E' H']]. rewrite EA in E'. unfold edge_at in E, E'.
        assert (e' = e) by congruence. subst e'. rewrite EA, <- H', H, !Nat.eqb_refl. reflexivity.
      + intros a [<-|I]; [|auto]. exists e. cbn. now split.
      + cbn. lia.
  Qed.
  Lemma satisfied_total : sat_total (satisfied g ctx objects_of resolvable ahash known).
  Proof. apply can_satisfy_total; [constructor|intros a []|cbn; lia]. Qed.
End Total.
