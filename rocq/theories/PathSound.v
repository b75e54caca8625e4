(** What the search returns. *)
From Coq Require Import String List NArith Bool Arith Lia.
From Verif Require Import Ast QplanModel BestModel OverrideModel OverrideSpec SafeModel PathModel PathSpec PathCycle PathBase PathBest.
Import ListNotations.
Local Open Scope list_scope.

Lemma bind_ok : forall {A B} (r : res A) (f : A -> res B) b, bind r f = Ok b -> exists a, r = Ok a /\ f a = Ok b.
Proof. intros A B [a|e| |] f b H; try discriminate. now exists a. Qed.
Lemma each_ok : forall {A B} (f : A -> res B) l ys, each f l = Ok ys -> Forall2 (fun x y => f x = Ok y) l ys.
Proof.
  intros A B f l. induction l as [|x l IH]; cbn; intros ys H; [injection H as <-; constructor|].
  apply bind_ok in H. destruct H as [y [E H]]. apply bind_ok in H. destruct H as [ys' [E' H]]. injection H as <-.
  constructor; auto.
Qed.
Lemma f2_right : forall {A B} (R : A -> B -> Prop) l l' y, Forall2 R l l' -> In y l' -> exists x, In x l /\ R x y.
Proof.
  intros A B R l l' y H. induction H as [|a b l l' K _ IH]; [intros []|]. intros [<-|I]; [exists a; cbn; auto|].
  destruct (IH I) as [x [J X]]. exists x. cbn. auto.
Qed.
Lemma f2_left : forall {A B} (R : A -> B -> Prop) l l' x, Forall2 R l l' -> In x l -> exists y, In y l' /\ R x y.
Proof.
  intros A B R l l' y H. induction H as [|a b l l' K _ IH]; [intros []|]. intros [<-|I]; [exists b; cbn; auto|].
  destruct (IH I) as [x [J X]]. exists x. cbn. auto.
Qed.
Lemma keep_in : forall {A} (l : list (option A)) x, In x (keep_some l) <-> In (Some x) l.
Proof.
  intros A l x. induction l as [|[y|] l IH]; cbn; [tauto| |].
  - rewrite IH. split; intros [E|I]; auto; left; congruence.
  - rewrite IH. split; [auto|]. intros [E|I]; [discriminate|exact I].
Qed.

Section Sound.
  Variable g : pgraph.
  Variable ctx : context.
  Variable objects_of : string -> option (list string).
  Variable resolvable : string -> string -> list string.
  Variable ahash : option (list (string * gvalue)) -> N.
  Variable known : list tas -> tas -> bool.
  Notation takes := (takes g ctx objects_of).
  Notation moves_by := (moves_by g ctx objects_of).
  Notation follows := (follows g ctx objects_of).
  Notation found_directly := (found_directly g ctx objects_of).
  Notation found_indirectly := (found_indirectly g ctx objects_of).
  Notation witness := (witness g ctx objects_of).
  Notation witnesses := (witnesses g ctx objects_of).

  Lemma follows_app : forall s c l s1 c' l' s2, follows s c l s1 -> follows s1 c' l' s2 -> follows s (c ++ c') (l ++ l') s2.
  Proof.
    intros s c l s1 c' l' s2 H. revert c' l' s2. induction H; intros c'' l'' s3 K; [exact K| | |].
    - rewrite <- !app_assoc. cbn [app]. eapply follows_field; eauto.
    - cbn [app]. eapply follows_stay; eauto.
    - rewrite <- !app_assoc. cbn [app]. eapply follows_type; eauto.
  Qed.

  Definition fulfilled (p : opath) (k : kind) : Prop :=
    allowed ctx k /\ forall r c, needs k = Some r -> below (ts_sels r) c -> exists l s, follows (stand p) c l s.
  Definition sat_sound (sat : satisfier) : Prop := forall i e p ex od paths,
    edge_at g i e -> g_head e = tail_of p -> path_of g p -> sat i e p ex od = Ok (Some paths) ->
    fulfilled p (g_kind e) /\ witnesses p (g_kind e) paths.

  Lemma takes_ok : forall i e p tr t, edge_at g i e -> g_head e = tail_of p -> fulfilled p (g_kind e) ->
    takes (stand p) i (stand (advance g p i e tr t)).
  Proof.
    intros i e p tr t E H [A F]. eapply takes_edge; [exact E|exact H|exact A|exact (tail_advance g p i e tr t)|apply advance_scope|exact F].
  Qed.
  Lemma leads_iff : forall t k, leads_to t k = true <-> reaches t k.
  Proof.
    intros t k. destruct t as [f ids|n c]; cbn; unfold field_edge, type_edge.
    - destruct k; split; try discriminate; try (intros [[? [? K]]|K]; discriminate); try (intros [K|[? K]]; discriminate).
      + intros E. apply String.eqb_eq in E. subst. left. eauto.
      + intros [[? [? K]]|K]; [|discriminate]. injection K as -> -> ->. apply String.eqb_refl.
      + intros E. apply String.eqb_eq in E. subst. now right.
      + intros [[? [? K]]|K]; [discriminate|]. injection K as ->. apply String.eqb_refl.
    - destruct k; split; try discriminate; try (intros [K|[? K]]; discriminate).
      + intros E. apply String.eqb_eq in E. subst. now left.
      + intros [K|[? K]]; [|discriminate]. injection K as ->. apply String.eqb_refl.
      + intros E. apply String.eqb_eq in E. subst. right. eauto.
      + intros [K|[? K]]; [discriminate|]. injection K as -> ->. apply String.eqb_refl.
  Qed.
  Lemma resolves_iff : forall p m, can_resolve_union_member p m = true <-> in_scope (stand p) m.
  Proof.
    intros p m. unfold can_resolve_union_member, in_scope, stand. cbn. destruct (o_union p) as [u|]; cbn.
    - rewrite existsb_exists. split.
      + intros [x [I E]] l K. injection K as <-. apply String.eqb_eq in E. now subst x.
      + intros K. exists m. split; [now apply K|apply String.eqb_refl].
    - split; [intros _ l K; discriminate|reflexivity].
  Qed.
  Lemma scope_iff : forall p t, out_of_scope p t = false <-> wanted_in t (stand p).
  Proof. intros p t. destruct t; cbn; [tauto|]. now rewrite negb_false_iff, resolves_iff. Qed.
  Lemma moves_iff : forall k, moves k = true <-> moving k.
  Proof.
    intros k. unfold moving. destruct k; cbn; split; try discriminate; try (intros [[? K]|[? [? K]]]; discriminate); try reflexivity; intros _; eauto.
  Qed.

  Section Finders.
    Variable sat : satisfier.
    Hypothesis SND : sat_sound sat.

    Lemma try_sound : forall p i e t q, path_of g p -> edge_at g i e -> g_head e = tail_of p -> try_advance g sat p (i, e) t = Ok (Some q) ->
      takes (stand p) i (stand q) /\ extends g p q [i] /\ (forall s, In s (o_segs q) -> In s (o_segs p) \/ carries t s) /\
      exists paths tr, sat i e p no_excluded false = Ok (Some paths) /\ tree_of g paths = Ok tr /\ q = advance g p i e tr t.
    Proof.
      intros p i e t q P E H K. unfold try_advance in K. cbn [fst snd] in K. apply bind_ok in K. destruct K as [[paths|] [R K]]; [|discriminate].
      apply bind_ok in K. destruct K as [tr [TR K]]. injection K as <-.
      destruct (SND _ _ _ _ _ _ E H P R) as [F _].
      split; [now apply takes_ok|]. split; [now apply advance_extends|]. split; [apply advance_carries|]. now exists paths, tr.
    Qed.
    Lemma direct_sound : forall p t l q, path_of g p -> find_direct_paths g sat p t = Ok l -> In q l -> exists i, found_directly p t q i.
    Proof.
      intros p t l q P K I. unfold find_direct_paths in K. destruct (out_of_scope p t) eqn:S; [injection K as <-; destruct I|].
      apply scope_iff in S. apply bind_ok in K. destruct K as [os [K L]]. injection L as <-. apply keep_in in I.
      apply each_ok in K. destruct (f2_right _ _ _ _ K I) as [[i e] [J T]]. apply filter_In in J. destruct J as [J L].
      apply edges_from_iff in J. destruct J as [E H]. apply leads_iff in L.
      destruct (try_sound _ _ _ _ _ P E H T) as [A [B [C _]]]. exists i, e. auto 10.
    Qed.
    Lemma direct_complete : forall p t l i e, find_direct_paths g sat p t = Ok l ->
      edge_at g i e -> g_head e = tail_of p -> reaches t (g_kind e) -> wanted_in t (stand p) ->
      sat i e p no_excluded false = Ok None \/ exists q paths tr, In q l /\ sat i e p no_excluded false = Ok (Some paths) /\ tree_of g paths = Ok tr /\ q = advance g p i e tr t.
    Proof.
      intros p t l i e K E H R W. unfold find_direct_paths in K. apply scope_iff in W. rewrite W in K.
      apply bind_ok in K. destruct K as [os [K L]]. injection L as <-. apply each_ok in K.
      assert (J : In (i, e) (filter (fun x => leads_to t (g_kind (snd x))) (edges_from g (tail_of p)))).
      { apply filter_In. split; [now apply edges_from_iff|]. now apply leads_iff. }
      destruct (f2_left _ _ _ _ K J) as [o [IO T]]. unfold try_advance in T. cbn [fst snd] in T.
      apply bind_ok in T. destruct T as [[paths|] [SR T]]; [|now left]. right.
      apply bind_ok in T. destruct T as [tr [TR T]]. injection T as <-.
      exists (advance g p i e tr t), paths, tr. split; [now apply keep_in|]. auto.
    Qed.

    Section Indirect.
      Variables (p0 : opath) (t : target) (source stype : string) (exg : list string).
      Hypothesis P0 : path_of g p0.
      Hypothesis W0 : wanted_in t (stand p0).
      Definition hop (j : nat) (id : string) : Prop := exists e', edge_at g j e' /\ proper g t source exg e' id.
      Definition reached (w : work) : Prop :=
        exists h gs, moves_by (stand p0) h (stand (snd w)) /\ extends g p0 (snd w) h /\ Forall2 hop h gs /\ NoDup gs /\
          fst (fst w) = rev gs ++ exg /\ forall x, In x (o_segs (snd w)) -> In x (o_segs p0) \/ carries t x.
      Definition good_cand (y : string * opath) : Prop :=
        graph_of g (tail_of (snd y)) (fst y) /\ found_indirectly p0 t source exg (snd y).

      Lemma worth_ok : forall visited reqs e id,
        worth_trying objects_of ahash known t source stype visited reqs e id = Ok true ->
        (forall f ids, t = TField f (Some ids) -> In id ids) /\ ~ In id visited /\ (id = source -> exists o r, g_kind e = InterfaceObjectMove o r).
      Proof.
        intros visited reqs e id K. unfold worth_trying in K.
        destruct (match t with TField _ (Some ids) => existsb (String.eqb id) ids | _ => true end) eqn:A; [|discriminate].
        cbn [negb] in K. destruct (existsb (String.eqb id) visited) eqn:B; [discriminate|].
        destruct (String.eqb id source && negb match g_kind e with InterfaceObjectMove _ _ => true | _ => false end) eqn:C; [discriminate|].
        split; [|split].
        - intros f ids ->. apply existsb_exists in A. destruct A as [x [I X]]. apply String.eqb_eq in X. now subst x.
        - intros I. assert (existsb (String.eqb id) visited = true); [|congruence]. apply existsb_exists. exists id. split; [exact I|apply String.eqb_refl].
        - intros ->. rewrite String.eqb_refl in C. cbn in C. destruct (g_kind e); try discriminate. eauto.
      Qed.
      Lemma explore_edge_sound : forall visited reqs p acc i e r,
        reached (visited, reqs, p) -> edge_at g i e -> g_head e = tail_of p -> moving (g_kind e) ->
        explore_edge g objects_of ahash known sat t source stype visited reqs p acc (i, e) = Ok r ->
        exists new D, fst r = new ++ fst acc /\ snd r = track_all D (snd acc) /\ Forall reached new /\ Forall good_cand D /\ length new <= 1.
      Proof.
        intros visited reqs p acc i e r R E H M K. unfold explore_edge in K. cbn [fst snd] in K.
        assert (NONE : r = acc -> exists new D, fst r = new ++ fst acc /\ snd r = track_all D (snd acc) /\ Forall reached new /\ Forall good_cand D /\ length new <= 1).
        { intros ->. exists [], []. repeat split; auto. }
        apply bind_ok in K. destruct K as [n [NA K]]. destruct (n_graph n) as [id|] eqn:G; [|discriminate].
        apply bind_ok in K. destruct K as [b [W K]]. destruct b; cbn [negb] in K; [|apply NONE; congruence].
        apply bind_ok in K. destruct K as [[paths|] [S K]]; [|apply NONE; congruence].
        apply bind_ok in K. destruct K as [tr [TR K]].
        apply bind_ok in K. destruct K as [direct [DR K]].
        destruct R as [h [gs [MV [EX [HG [ND [VS CR]]]]]]]. cbn [fst snd] in *.
        assert (P : path_of g p) by (eapply extends_path; eassumption).
        destruct (SND _ _ _ _ _ _ E H P S) as [F _].
        assert (TK := takes_ok i e p tr t E H F). set (q := advance g p i e tr t) in *.
        assert (EX' : extends g p0 q (h ++ [i])) by (eapply extends_trans; [exact EX|now apply advance_extends]).
        assert (MV' : moves_by (stand p0) (h ++ [i]) (stand q)) by (eapply moves_more; eassumption).
        destruct (worth_ok _ _ _ _ W) as [W1 [W2 W3]].
        assert (HP : hop i id).
        { exists e. split; [exact E|]. unfold node_at in NA. destruct (nth_error (nodes g) (g_tail e)) as [n'|] eqn:NE; [|discriminate].
          injection NA as ->. split; [now exists n|]. split; [|split; [exact W1|exact W3]]. intros I. apply W2. rewrite VS, in_app_iff. now right. }
        assert (HG' : Forall2 hop (h ++ [i]) (gs ++ [id])) by (apply Forall2_app; [exact HG|constructor; [exact HP|constructor]]).
        assert (ND' : NoDup (gs ++ [id])).
        { apply NoDup_rev in ND. rewrite <- (rev_involutive (gs ++ [id])). apply NoDup_rev. rewrite rev_app_distr. cbn. constructor; [|exact ND].
          intros I. apply W2. rewrite VS, in_app_iff. now left. }
        assert (CR' : forall x, In x (o_segs q) -> In x (o_segs p0) \/ carries t x).
        { intros x I. apply advance_carries in I. destruct I as [I|I]; auto. }
        assert (PQ : path_of g q) by (eapply extends_path; [exact P0|exact EX']).
        destruct direct as [|d ds] eqn:DD.
        - injection K as <-. cbn [fst snd]. eexists [_], []. split; [reflexivity|]. split; [reflexivity|]. repeat split; auto.
          constructor; [|constructor]. exists (h ++ [i]), (gs ++ [id]). cbn [fst snd]. repeat split; auto.
          rewrite VS, rev_app_distr. reflexivity.
        - rewrite <- DD in *. apply bind_ok in K. destruct K as [ids [IDS K]]. injection K as <-. cbn [fst snd].
          exists [], (combine ids direct). split; [reflexivity|]. split; [reflexivity|]. split; [constructor|]. split; [|cbn; lia].
          apply Forall_forall. intros [id' q'] I. apply each_ok in IDS.
          assert (GR : In q' direct /\ graph_of g (tail_of q') id').
          { revert I. clear - IDS. induction IDS as [|a b l l' K _ IH]; cbn; [tauto|]. intros [X|I]; [|destruct (IH I); auto].
            injection X as <- <-. split; [now left|]. apply bind_ok in K. destruct K as [m [A K]]. unfold node_at in A.
            destruct (nth_error (nodes g) (tail_of a)) as [m'|] eqn:NE; [|discriminate]. injection A as ->.
            exists m. split; [exact NE|]. destruct (n_graph m); congruence. }
          destruct GR as [IQ GQ]. split; [exact GQ|]. cbn [snd].
          destruct (direct_sound _ _ _ _ PQ DR IQ) as [j [e' [E' [RC [WI [TJ [EJ CJ]]]]]]].
          exists (h ++ [i]), (gs ++ [id]), (stand q), j, e'. split; [now destruct h|].
          split; [exact W0|]. split; [exact MV'|]. split; [exact E'|]. split; [exact RC|]. split; [exact WI|]. split; [exact TJ|].
          split; [eapply extends_trans; [exact EX'|exact EJ]|]. split; [exact HG'|]. split; [exact ND'|].
          intros x IX. apply CJ in IX. destruct IX as [IX|IX]; auto.
      Qed.
      Lemma explore_edges_sound : forall visited reqs p l acc r,
        reached (visited, reqs, p) -> (forall x, In x l -> edge_at g (fst x) (snd x) /\ g_head (snd x) = tail_of p /\ moving (g_kind (snd x))) ->
        explore_edges g objects_of ahash known sat t source stype visited reqs p l acc = Ok r ->
        exists new D, fst r = new ++ fst acc /\ snd r = track_all D (snd acc) /\ Forall reached new /\ Forall good_cand D /\ length new <= length l.
      Proof.
        intros visited reqs p l. induction l as [|[i e] l IH]; intros acc r R L K.
        - injection K as <-. exists [], []. repeat split; auto.
        - cbn [explore_edges] in K. apply bind_ok in K. destruct K as [acc' [K1 K2]].
          destruct (L (i, e) (or_introl eq_refl)) as [E [H M]]. cbn [fst snd] in *.
          destruct (explore_edge_sound _ _ _ _ _ _ _ R E H M K1) as [n1 [D1 [A1 [B1 [C1 [F1 G1]]]]]].
          destruct (IH acc' r R) as [n2 [D2 [A2 [B2 [C2 [F2 G2]]]]]]; [intros x I; apply L; now right|exact K2|].
          exists (n2 ++ n1), (D1 ++ D2). rewrite A2, A1, app_assoc, B2, B1, track_all_app. repeat split; auto.
          + apply Forall_app; auto.
          + apply Forall_app; auto.
          + rewrite app_length. cbn. lia.
      Qed.
      Lemma move_edges : forall p x, In x (filter (fun x => moves (g_kind (snd x))) (edges_from g (tail_of p))) ->
        edge_at g (fst x) (snd x) /\ g_head (snd x) = tail_of p /\ moving (g_kind (snd x)).
      Proof.
        intros p [i e] I. apply filter_In in I. destruct I as [I M]. apply edges_from_iff in I. apply moves_iff in M. destruct I as [E H]. exact (conj E (conj H M)).
      Qed.
      Lemma explore_sound : forall n stack seen tk r, Forall reached stack ->
        explore g objects_of ahash known sat n t source stype stack seen tk = Ok r -> exists D, r = track_all D tk /\ Forall good_cand D.
      Proof.
        intros n. induction n as [|n IH]; intros [|[[visited reqs] p] stack] seen tk r R K; cbn [explore] in K;
          try (injection K as <-; exists []; split; [reflexivity|constructor]); [discriminate|].
        inversion R as [|? ? R1 R2]; subst. destruct (existsb (Nat.eqb (tail_of p)) seen); [now apply IH in K|].
        apply bind_ok in K. destruct K as [a [K1 K2]].
        destruct (explore_edges_sound _ _ _ _ _ _ R1 (move_edges p) K1) as [n1 [D1 [A1 [B1 [C1 [F1 _]]]]]].
        cbn [fst snd] in *. assert (R3 : Forall reached (fst a)) by (rewrite A1; now apply Forall_app).
        destruct (IH _ _ _ _ R3 K2) as [D2 [B2 F2]].
        exists (D1 ++ D2). rewrite track_all_app, <- B1. split; [exact B2|now apply Forall_app].
      Qed.
    End Indirect.

    (** What [find_indirect_paths] returns: candidates that are the cheapest of those of their subgraph *)
    Lemma indirect_cands : forall p t ex l, path_of g p -> find_indirect_paths g objects_of ahash known sat p t ex = Ok l ->
      exists source D, graph_of g (tail_of p) source /\ (forall q, In q l <-> exists id, cheapest D id q) /\
        Forall (good_cand p t source (ex_graphs ex)) D.
    Proof.
      intros p t ex l P K. unfold find_indirect_paths in K. apply bind_ok in K. destruct K as [n [NA K]].
      unfold node_at in NA. destruct (nth_error (nodes g) (tail_of p)) as [n'|] eqn:NE; [|discriminate]. injection NA as ->.
      destruct (n_graph n) as [source|] eqn:G; [|discriminate]. assert (GO : graph_of g (tail_of p) source) by now exists n.
      destruct (out_of_scope p t) eqn:SC.
      - injection K as <-. exists source, []. split; [exact GO|]. split; [|constructor].
        intros q. split; [intros []|]. intros [id [[] _]].
      - apply bind_ok in K. destruct K as [tk [K L]]. injection L as <-. apply scope_iff in SC.
        eapply (explore_sound p t source (n_name n) (ex_graphs ex) P SC) in K.
        + destruct K as [D [-> F]]. exists source, D. split; [exact GO|]. split; [|exact F].
          intros q. apply best_of_ok. exact (track_all_tracks D [] [] tracks_nil).
        + constructor; [|constructor]. exists [], []. cbn. split; [constructor|]. split; [apply extends_refl|]. repeat split; auto using NoDup_nil, Forall2_nil.
    Qed.
    Lemma indirect_sound : forall p t ex l q, path_of g p -> find_indirect_paths g objects_of ahash known sat p t ex = Ok l -> In q l ->
      exists source, graph_of g (tail_of p) source /\ found_indirectly p t source (ex_graphs ex) q.
    Proof.
      intros p t ex l q P K I. destruct (indirect_cands _ _ _ _ P K) as [source [D [G [L F]]]]. exists source. split; [exact G|].
      apply L in I. destruct I as [id [I _]]. rewrite Forall_forall in F. now apply (F (id, q)).
    Qed.

    Lemma found_direct_field : forall p f ids q i om, found_directly p (TField f ids) q i ->
      follows (stand p) [SField (fl_name f) (fl_alias f) (fl_args f) (fl_include f) (fl_skip f) om (fl_sub f)] [i] (stand q).
    Proof.
      intros p f ids q i om [e [E [R [_ [T _]]]]]. change [i] with ([] ++ i :: []). eapply follows_field; [constructor|exact E|exact R|exact T|constructor].
    Qed.
    Lemma found_indirect_field : forall p f ids src ex q om, found_indirectly p (TField f ids) src ex q -> exists l, l <> [] /\ extends g p q l /\
      follows (stand p) [SField (fl_name f) (fl_alias f) (fl_args f) (fl_include f) (fl_skip f) om (fl_sub f)] l (stand q).
    Proof.
      intros p f ids src ex q om [mv [gs [s [i [e [_ [_ [M [E [R [_ [T [X _]]]]]]]]]]]]]. exists (mv ++ [i]). split; [now destruct mv|]. split; [exact X|].
      eapply follows_field; [exact M|exact E|exact R|exact T|constructor].
    Qed.
    Lemma found_direct_type : forall p t c q i inc skip sub, found_directly p (TType t c) q i -> follows (stand p) [SFrag t inc skip sub] [i] (stand q).
    Proof.
      intros p t c q i inc skip sub [e [E [R [W [T _]]]]]. change [i] with ([] ++ i :: []).
      eapply follows_type; [exact W|exact W|constructor|exact E|exact R|exact T|constructor].
    Qed.
    Lemma found_indirect_type : forall p t c src ex q inc skip sub, found_indirectly p (TType t c) src ex q ->
      exists l, l <> [] /\ extends g p q l /\ follows (stand p) [SFrag t inc skip sub] l (stand q).
    Proof.
      intros p t c src ex q inc skip sub [mv [gs [s [i [e [_ [W [M [E [R [W' [T [X _]]]]]]]]]]]]]. exists (mv ++ [i]). split; [now destruct mv|]. split; [exact X|].
      eapply follows_type; [exact W|exact W'|exact M|exact E|exact R|exact T|constructor].
    Qed.

    (** One step of the requirements *)
    Definition stepped (x : sel) (paths next : list opath) : Prop :=
      forall q', In q' next -> exists q l, In q paths /\ extends g q q' l /\ follows (stand q) [x] l (stand q') /\
        match x with SField _ _ _ _ _ _ _ => l <> [] | _ => True end.
    Lemma field_stepped : forall paths name alias args inc skip om sub ex od next,
      Forall (path_of g) paths -> field_requirement g objects_of resolvable ahash known sat paths (mkfsel name alias args inc skip sub) ex od = Ok next ->
      stepped (SField name alias args inc skip om sub) paths next.
    Proof.
      intros paths name alias args inc skip om sub ex od next P K q' I. unfold field_requirement in K.
      apply bind_ok in K. destruct K as [ids [_ K]]. apply bind_ok in K. destruct K as [found [K L]]. injection L as <-.
      apply each_ok in K. rewrite Forall_forall in P. apply in_app_iff in I. destruct I as [I|I]; apply in_flat_map in I; destruct I as [[d n] [I J]]; cbn [fst snd] in J;
        destruct (f2_right _ _ _ _ K I) as [q [IQ Q]]; apply bind_ok in Q; destruct Q as [d' [DQ Q]]; apply bind_ok in Q; destruct Q as [n' [NQ Q]]; injection Q as -> ->.
      - destruct (direct_sound _ _ _ _ (P q IQ) DQ J) as [i D]. assert (F := found_direct_field _ _ _ _ _ om D).
        destruct D as [e [_ [_ [_ [_ [X _]]]]]]. exists q, [i]. split; [exact IQ|]. split; [exact X|]. split; [exact F|discriminate].
      - destruct (negb od && negb match d with [] => false | _ :: _ => match fl_sub (mkfsel name alias args inc skip sub) with [] => true | _ :: _ => false end end); [|injection NQ as <-; destruct J].
        destruct (indirect_sound _ _ _ _ _ (P q IQ) NQ J) as [src [_ D]]. apply (found_indirect_field _ _ _ _ _ _ om) in D.
        destruct D as [l [NE [X F]]]. exists q, l. auto.
    Qed.
    Lemma fragment_stepped : forall paths tc inc skip sub ex next,
      Forall (path_of g) paths -> fragment_requirement g objects_of ahash known sat paths tc ex = Ok next ->
      stepped (SFrag tc inc skip sub) paths next.
    Proof.
      intros paths tc inc skip sub ex next P K q' I. unfold fragment_requirement in K.
      apply bind_ok in K. destruct K as [dir [KD K]]. apply bind_ok in K. destruct K as [ind [KI L]]. injection L as <-.
      apply each_ok in KD, KI. rewrite Forall_forall in P. apply in_app_iff in I. destruct I as [I|I]; apply in_concat in I; destruct I as [l [IL I]].
      - destruct (f2_right _ _ _ _ KD IL) as [q [IQ Q]]. apply bind_ok in Q. destruct Q as [n [NA Q]].
        destruct (type_matches objects_of (n_name n) tc) eqn:T.
        + injection Q as <-. destruct I as [<-|[]]. exists q, []. split; [exact IQ|]. split; [apply extends_refl|]. split; [|exact Logic.I].
          apply follows_stay; [|constructor]. apply type_matches_iff in T. unfold node_at in NA.
          destruct (nth_error (nodes g) (tail_of q)) as [n'|] eqn:NE; [|discriminate]. injection NA as ->. now exists n.
        + destruct (direct_sound _ _ _ _ (P q IQ) Q I) as [i D]. assert (F := found_direct_type _ _ _ _ _ inc skip sub D).
          destruct D as [e [_ [_ [_ [_ [X _]]]]]]. exists q, [i]. auto.
      - destruct (f2_right _ _ _ _ KI IL) as [q [IQ Q]]. destruct (indirect_sound _ _ _ _ _ (P q IQ) Q I) as [src [_ D]].
        apply (found_indirect_type _ _ _ _ _ _ inc skip sub) in D. destruct D as [l' [_ [X F]]]. exists q, l'. auto.
    Qed.

    Lemma below_cons_inv : forall x c, below [x] c -> exists c', c = x :: c' /\ (c' = [] \/ exists y, In y (sub_of x) /\ below [y] c') /\ forall n, x <> SSpread n.
    Proof.
      intros x c B. inversion B as [l y I NS|l y c' I NS B']; subst; destruct I as [<-|[]].
      - exists []. auto.
      - exists c'. split; [reflexivity|]. split; [|exact NS]. right. inversion B' as [l y I N2|l y c2 I N2 B2]; subst; exists y; (split; [exact I|]).
        + apply below_one; [now left|exact N2].
        + apply below_more; [now left|exact N2|exact B2].
    Qed.
    Definition covered (self : opath) (r : list opath) (it : list opath * sel) : Prop :=
      forall c, below [snd it] c -> exists q q' l, In q (fst it) /\ extends g q q' l /\ follows (stand q) c l (stand q') /\
        (to_leaf c -> In (continuation self q') r).
    Definition backed (self w : opath) (it : list opath * sel) : Prop :=
      exists c q q' l, below [snd it] c /\ to_leaf c /\ In q (fst it) /\ extends g q q' l /\ follows (stand q) c l (stand q') /\ w = continuation self q'.
    Lemma leaf_tail : forall x c, c <> [] -> to_leaf (x :: c) -> to_leaf c.
    Proof.
      intros x c NE [c' [n [a [args [inc [skip [om E]]]]]]]. destruct c' as [|y c']; [injection E as -> ->; now destruct NE|].
      injection E as -> ->. now exists c', n, a, args, inc, skip, om.
    Qed.
    Lemma leaf_cons : forall x c, to_leaf c -> to_leaf (x :: c).
    Proof. intros x c [c' [n [a [args [inc [skip [om ->]]]]]]]. now exists (x :: c'), n, a, args, inc, skip, om. Qed.
    Lemma leaf_one : forall x, to_leaf [x] -> exists n a args inc skip om, x = SField n a args inc skip om [].
    Proof.
      intros x [c' [n [a [args [inc [skip [om E]]]]]]]. destruct c' as [|y [|z c']]; try discriminate. injection E as ->. now exists n, a, args, inc, skip, om.
    Qed.
    Lemma step_covered : forall self r paths x next q0,
      stepped x paths next -> In q0 next -> (forall n, x <> SSpread n) ->
      (forall y, In y (sub_of x) -> covered self r (next, y)) ->
      (forall n a args inc skip om, x = SField n a args inc skip om [] -> exists q', In q' next /\ In (continuation self q') r) ->
      covered self r (paths, x).
    Proof.
      intros self r paths x next q0 ST I NS CV LF c B. cbn [fst snd] in *. apply below_cons_inv in B. destruct B as [c' [-> [[->|[y [IY B]]] _]]].
      - destruct (match x with SField _ _ _ _ _ _ [] => true | _ => false end) eqn:LX.
        + destruct x as [n a args inc skip om [|z sub]|t inc skip sub|n]; try discriminate.
          destruct (LF _ _ _ _ _ _ eq_refl) as [q' [IQ' R']]. destruct (ST q' IQ') as [q [l [IQ [X [F _]]]]]. exists q, q', l. auto.
        + destruct (ST q0 I) as [q [l [IQ [X [F _]]]]]. exists q, q0, l. repeat split; auto.
          intros L. apply leaf_one in L. destruct L as [n [a [args [inc [skip [om ->]]]]]]. discriminate.
      - destruct (CV y IY c' B) as [q1 [q' [l' [I1 [X' [F' L']]]]]]. destruct (ST q1 I1) as [q [l [IQ [X [F _]]]]].
        exists q, q', (l ++ l'). split; [exact IQ|]. split; [eapply extends_trans; eassumption|].
        split; [change (x :: c') with ([x] ++ c'); eapply follows_app; eassumption|].
        intros L. apply L'. eapply leaf_tail; [|exact L]. cbn [snd] in B. intros ->. inversion B.
    Qed.
    Lemma step_backed : forall self w paths x next y, stepped x paths next -> In y (sub_of x) -> (forall n, x <> SSpread n) ->
      backed self w (next, y) -> backed self w (paths, x).
    Proof.
      intros self w paths x next y ST IY NS [c [q1 [q' [l' [B [L [I1 [X' [F' ->]]]]]]]]]. cbn [fst snd] in *.
      destruct (ST q1 I1) as [q [l [IQ [X [F _]]]]]. exists (x :: c), q, q', (l ++ l'). cbn [fst snd].
      split.
      { apply below_more; [now left|exact NS|]. inversion B as [m z I N2|m z c2 I N2 B2]; subst; destruct I as [<-|[]]; [now apply below_one|now apply below_more]. }
      split; [now apply leaf_cons|]. split; [exact IQ|]. split; [eapply extends_trans; eassumption|].
      split; [|reflexivity]. change (x :: c) with ([x] ++ c). eapply follows_app; eassumption.
    Qed.
    Lemma spread_dec : forall x : sel, (exists n, x = SSpread n) \/ forall n, x <> SSpread n.
    Proof. intros [ | |n]; [right; discriminate|right; discriminate|left; now exists n]. Qed.

    Lemma require_sound : forall n self ex od queue acc r, path_of g self ->
      (forall paths x, In (paths, x) queue -> Forall (path_of g) paths) ->
      require g objects_of resolvable ahash known sat n self ex od queue acc = Ok (Some r) ->
      incl acc r /\ (forall it, In it queue -> covered self r it) /\
      (forall w, In w r -> In w acc \/ exists it, In it queue /\ backed self w it).
    Proof.
      intros n. induction n as [|n IH]; intros self ex od [|[paths x] queue] acc r PS Q K; cbn [require] in K;
        try (injection K as <-; split; [apply incl_refl|]; split; [intros it []|intros w I; now left]); [discriminate|].
      assert (Q1 : Forall (path_of g) paths) by (eapply Q; now left).
      assert (PN : forall next, stepped x paths next -> Forall (path_of g) next).
      { intros next ST. apply Forall_forall. intros q' I. destruct (ST q' I) as [q [l [IQ [X _]]]].
        rewrite Forall_forall in Q1. eapply extends_path; [exact (Q1 q IQ)|exact X]. }
      assert (GO : forall next acc', stepped x paths next -> next <> [] -> (forall n, x <> SSpread n) ->
        incl acc acc' ->
        (forall n a args inc skip om, x = SField n a args inc skip om [] -> exists q', In q' next /\ In (continuation self q') acc') ->
        (forall w, In w acc' -> In w acc \/ backed self w (paths, x)) ->
        require g objects_of resolvable ahash known sat n self ex od (queue ++ rev (map (fun y => (next, y)) (sub_of x))) acc' = Ok (Some r) ->
        incl acc r /\ (forall it, In it ((paths, x) :: queue) -> covered self r it) /\
        (forall w, In w r -> In w acc \/ exists it, In it ((paths, x) :: queue) /\ backed self w it)).
      { intros next acc' ST NE NS IA LF BK K'.
        assert (QN : forall ps y, In (ps, y) (queue ++ rev (map (fun y => (next, y)) (sub_of x))) -> Forall (path_of g) ps).
        { intros ps y I. apply in_app_iff in I. destruct I as [I|I]; [eapply Q; right; exact I|].
          apply in_rev in I. apply in_map_iff in I. destruct I as [z [E _]]. injection E as <- <-. now apply PN. }
        destruct (IH _ _ _ _ _ _ PS QN K') as [A [B C]].
        split; [eapply incl_tran; eassumption|]. split.
        - intros it [<-|I]; [|apply B; apply in_app_iff; now left].
          destruct next as [|q0 next'] eqn:EN; [now destruct NE|]. rewrite <- EN in *.
          eapply step_covered; [exact ST|rewrite EN; now left|exact NS| |].
          + intros y IY. apply B. apply in_app_iff. right. apply -> in_rev. apply in_map_iff. now exists y.
          + intros a b args inc skip om ->. destruct (LF _ _ _ _ _ _ eq_refl) as [q' [I1 I2]]. exists q'. auto.
        - intros w I. destruct (C w I) as [J|[it [J D]]].
          + destruct (BK w J) as [H|H]; [now left|right]. exists (paths, x). split; [now left|exact H].
          + right. apply in_app_iff in J. destruct J as [J|J]; [exists it; split; [now right|exact D]|].
            apply in_rev in J. apply in_map_iff in J. destruct J as [y [<- IY]]. exists (paths, x). split; [now left|].
            eapply step_backed; eassumption. }
      destruct x as [name alias args inc skip om sub|tc inc skip sub|name].
      - apply bind_ok in K. destruct K as [next [KF K]]. assert (ST := field_stepped _ _ _ _ _ _ om _ _ _ _ Q1 KF).
        destruct next as [|q0 next'] eqn:EN; [discriminate|]. rewrite <- EN in *. assert (NE : next <> []) by (subst; discriminate).
        assert (CP : Forall (fun q => (0 < o_cost q)%N) next).
        { apply Forall_forall. intros q' I. destruct (ST q' I) as [q [l [IQ [X [_ L]]]]]. rewrite Forall_forall in Q1.
          destruct X as [new [_ [_ [M C]]]]. apply chain_grows in C. destruct C as [_ [C _]].
          assert (new <> []) by (destruct new; [now destruct L|discriminate]). specialize (C H). lia. }
        destruct (best_ok next CP) as [B1 B2].
        apply (GO next (match sub with [] => acc ++ map (continuation self) (find_best_paths next) | _ => acc end)); auto; try discriminate.
        + destruct sub; [apply incl_appl|]; apply incl_refl.
        + intros a b args' inc' skip' om' E. injection E as <- <- <- <- <- <- ->. specialize (B2 NE).
          destruct (find_best_paths next) as [|q' bs] eqn:EB; [now destruct B2|]. exists q'.
          split; [apply B1; now left|]. apply in_app_iff. right. cbn. now left.
        + intros w I. destruct sub as [|y sub]; [|now left]. apply in_app_iff in I. destruct I as [I|I]; [now left|right].
          apply in_map_iff in I. destruct I as [q' [<- I]]. apply B1 in I. destruct I as [I _]. destruct (ST q' I) as [q [l [IQ [X [F _]]]]].
          exists [SField name alias args inc skip om []], q, q', l. cbn [fst snd]. split; [apply below_one; [now left|discriminate]|].
          split; [exists [], name, alias, args, inc, skip, om; reflexivity|]. auto.
      - apply bind_ok in K. destruct K as [next [KF K]]. assert (ST := fragment_stepped _ _ inc skip sub _ _ Q1 KF).
        destruct next as [|q0 next'] eqn:EN; [discriminate|]. rewrite <- EN in *. assert (NE : next <> []) by (subst; discriminate).
        apply (GO next acc); auto; try discriminate. apply incl_refl.
      - assert (QN : forall ps y, In (ps, y) queue -> Forall (path_of g) ps) by (intros ps y I; eapply Q; right; exact I).
        destruct (IH _ _ _ _ _ _ PS QN K) as [A [B C]].
        split; [exact A|]. split.
        + intros it [<-|I]; [|auto]. intros c D. apply below_cons_inv in D. destruct D as [c' [_ [_ N]]]. now destruct (N name).
        + intros w I. destruct (C w I) as [J|[it [J D]]]; [now left|right]. exists it. split; [now right|exact D].
    Qed.

    Lemma check_sound : forall e p ex od paths, path_of g p ->
      check_edge g ctx objects_of resolvable ahash known sat e p ex od = Ok (Some paths) ->
      fulfilled p (g_kind e) /\ witnesses p (g_kind e) paths.
    Proof.
      intros e p ex od paths P K. unfold check_edge in K.
      destruct (match g_kind e with FieldMove _ _ m => negb (satisfies m ctx) | _ => false end) eqn:A; [discriminate|].
      assert (AL : allowed ctx (g_kind e)) by (apply allowed_iff; destruct (g_kind e); auto; now apply negb_false_iff).
      assert (RN : requirements (g_kind e) = needs (g_kind e)) by now destruct (g_kind e). rewrite RN in K.
      destruct (needs (g_kind e)) as [r|] eqn:NR.
      - assert (QN : forall ps y, In (ps, y) (map (fun x => ([p], x)) (ts_sels r)) -> Forall (path_of g) ps).
        { intros ps x I. apply in_map_iff in I. destruct I as [y [E _]]. injection E as <- <-. constructor; [exact P|constructor]. }
        destruct (require_sound _ _ _ _ _ _ _ P QN K) as [_ [C B]].
        assert (CV : forall c, below (ts_sels r) c -> exists q' l, extends g p q' l /\ follows (stand p) c l (stand q') /\ (to_leaf c -> In (continuation p q') paths)).
        { intros c D. assert (exists x, In x (ts_sels r) /\ below [x] c) as [x [IX D']].
          { inversion D as [l y I NS|l y c' I NS B']; subst; exists y; (split; [exact I|]); [now apply below_one; [left|]|apply below_more; [now left|assumption..]]. }
          assert (IM : In ([p], x) (map (fun x => ([p], x)) (ts_sels r))) by (apply in_map_iff; now exists x).
          destruct (C ([p], x) IM c D') as [q [q' [l [[<-|[]] [X [F L]]]]]]. exists q', l. auto. }
        assert (WT : forall c q' l, extends g p q' l -> follows (stand p) c l (stand q') -> witness p c (continuation p q')).
        { intros c q' l X F. destruct (continuation_ok _ _ _ _ P X) as [R1 [R2 [R3 [R4 [R5 _]]]]]. split; [exact R1|]. split; [exact R2|].
          rewrite R3. unfold stand at 2. rewrite R4, R5. exact F. }
        split; [split; [exact AL|]|split].
        + intros r' c E D. injection (eq_trans (eq_sym NR) E) as <-. destruct (CV c D) as [q' [l [_ [F _]]]]. eauto.
        + intros w I. destruct (B w I) as [[]|[it [J [c [q [q' [l [D [L [IQ [X [F ->]]]]]]]]]]]]. apply in_map_iff in J. destruct J as [x [<- IX]].
          cbn [fst snd] in *. destruct IQ as [<-|[]]. exists r, c. split; [exact NR|]. split; [|split; [exact L|eapply WT; eassumption]].
          inversion D as [m y IY NS|m y c' IY NS B']; subst; destruct IY as [<-|[]]; [now apply below_one|now apply below_more].
        + intros r' c E D L. injection (eq_trans (eq_sym NR) E) as <-. destruct (CV c D) as [q' [l [X [F LL]]]].
          exists (continuation p q'). split; [now apply LL|eapply WT; eassumption].
      - injection K as <-. split; [split; [exact AL|congruence]|]. split; [intros w []|congruence].
    Qed.
  End Finders.

  Lemma can_satisfy_sound : forall n active, sat_sound (can_satisfy_edge g ctx objects_of resolvable ahash known n active).
  Proof.
    intros n. induction n as [|n IH]; intros active i e p ex od paths E H P K; [discriminate|]. cbn [can_satisfy_edge] in K.
    destruct (existsb (fun a => Nat.eqb (fst a) (tail_of p) && Nat.eqb (snd a) i) active); [discriminate|].
    eapply check_sound; [apply IH|exact P|exact K].
  Qed.
End Sound.
