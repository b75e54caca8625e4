(** The theorems on the search, for its entry points. *)
From Coq Require Import String List NArith Bool Arith Lia.
From Verif Require Import Ast QplanModel BestModel OverrideModel SafeModel PathModel PathSpec PathCycle PathBase PathBest PathSound PathTotal.
Import ListNotations.
Local Open Scope list_scope.

Section Main.
  Variable g : pgraph.
  Variable ctx : context.
  Variable objects_of : string -> option (list string).
  Variable resolvable : string -> string -> list string.
  Variable ahash : option (list (string * gvalue)) -> N.
  Variable known : list tas -> tas -> bool.
  Notation sat := (satisfied g ctx objects_of resolvable ahash known).
  Notation direct := (direct_paths g ctx objects_of resolvable ahash known).
  Notation indirect := (indirect_paths g ctx objects_of resolvable ahash known).

  Lemma sat_ok : sat_sound g ctx objects_of sat.
  Proof. apply can_satisfy_sound. Qed.
  Lemma satisfied_ok : forall i e p ex od paths, edge_at g i e -> g_head e = tail_of p -> path_of g p ->
    sat i e p ex od = Ok (Some paths) ->
    witnesses g ctx objects_of p (g_kind e) paths /\
    forall s, st_node s = g_tail e -> scope_after g (st_scope (stand p)) (g_tail e) (g_kind e) (st_scope s) -> takes g ctx objects_of (stand p) i s.
  Proof.
    intros i e p ex od paths E H P K. destruct (sat_ok _ _ _ _ _ _ E H P K) as [[A F] W]. split; [exact W|].
    intros s N S. eapply takes_edge; eassumption.
  Qed.
  Lemma free_ok : forall i e p ex od, edge_at g i e -> allowed ctx (g_kind e) -> needs (g_kind e) = None -> sat i e p ex od = Ok (Some []).
  Proof.
    intros i e p ex od E A N. unfold satisfied. cbn [can_satisfy_edge existsb]. unfold check_edge. apply allowed_iff in A.
    replace (match g_kind e with FieldMove _ _ m => negb (satisfies m ctx) | _ => false end) with false by (destruct (g_kind e); auto; now rewrite A).
    replace (requirements (g_kind e)) with (needs (g_kind e)) by now destruct (g_kind e). now rewrite N.
  Qed.
  Lemma forbidden_ok : forall i e p ex od, ~ allowed ctx (g_kind e) -> sat i e p ex od = Ok None.
  Proof.
    intros i e p ex od A. unfold satisfied. cbn [can_satisfy_edge existsb]. unfold check_edge. rewrite allowed_iff in A.
    destruct (g_kind e); try (now destruct A). destruct (satisfies m ctx); [now destruct A|reflexivity].
  Qed.
  Lemma direct_ok : forall p t l, path_of g p -> direct p t = Ok l ->
    (forall q, In q l -> exists i, found_directly g ctx objects_of p t q i) /\
    (forall i e, edge_at g i e -> g_head e = tail_of p -> reaches t (g_kind e) -> wanted_in t (stand p) ->
       allowed ctx (g_kind e) -> needs (g_kind e) = None -> exists q, In q l /\ extends g p q [i]).
  Proof.
    intros p t l P K. split.
    - intros q I. eapply direct_sound; [exact sat_ok|exact P|exact K|exact I].
    - intros i e E H R W A N. destruct (direct_complete _ _ _ _ _ _ _ K E H R W) as [S|[q [paths [tr [I [S [T ->]]]]]]].
      + rewrite (free_ok i e p no_excluded false E A N) in S. discriminate.
      + eexists. split; [exact I|now apply advance_extends].
  Qed.
  Lemma indirect_ok : forall p t ex l, path_of g p -> indirect p t ex = Ok l ->
    forall q, In q l -> exists source, graph_of g (tail_of p) source /\ found_indirectly g ctx objects_of p t source (ex_graphs ex) q.
  Proof. intros p t ex l P K q I. eapply indirect_sound; [exact resolvable|exact sat_ok|exact P|exact K|exact I]. Qed.
  Lemma graph_inj : forall n a b, graph_of g n a -> graph_of g n b -> a = b.
  Proof. intros n a b [x [E G]] [y [E' G']]. congruence. Qed.
  Lemma same_cost_ok : forall p t ex l, path_of g p -> indirect p t ex = Ok l ->
    forall q q' id, In q l -> In q' l -> graph_of g (tail_of q) id -> graph_of g (tail_of q') id -> o_cost q = o_cost q'.
  Proof.
    intros p t ex l P K q q' id I I' G G'. destruct (indirect_cands g ctx objects_of resolvable ahash known sat sat_ok _ _ _ _ P K) as [src [D [_ [L F]]]].
    apply L in I, I'. destruct I as [a [A M]], I' as [b [B M']]. rewrite Forall_forall in F.
    assert (a = id) by (destruct (F _ A) as [GA _]; eapply graph_inj; [exact GA|exact G]).
    assert (b = id) by (destruct (F _ B) as [GB _]; eapply graph_inj; [exact GB|exact G']). subst a b.
    apply N.le_antisymm; auto.
  Qed.

  (** What one move more finds is found, or something as cheap in its subgraph. *)
  Definition one_move (t : target) (source stype : string) (ex : excluded) (p : opath) (i : nat) (e : gedge) (d : opath) : Prop :=
    exists id paths tr ds, graph_of g (g_tail e) id /\
      worth_trying objects_of ahash known t source stype (ex_graphs ex) (ex_reqs ex) e id = Ok true /\
      sat i e p (mkex (id :: ex_graphs ex) (ex_reqs ex)) false = Ok (Some paths) /\ tree_of g paths = Ok tr /\
      direct (advance g p i e tr t) t = Ok ds /\ In d ds.
  Definition tails (D : list (string * opath)) : Prop := forall id q, In (id, q) D -> graph_of g (tail_of q) id.
  Lemma edge_adds : forall t source stype ex p acc i e r, explore_edge g objects_of ahash known sat t source stype (ex_graphs ex) (ex_reqs ex) p acc (i, e) = Ok r ->
    exists D, snd r = track_all D (snd acc) /\ tails D /\
      forall d id', one_move t source stype ex p i e d -> graph_of g (tail_of d) id' -> In (id', d) D.
  Proof.
    intros t source stype ex p acc i e r K. unfold explore_edge in K. cbn [fst snd] in K.
    apply bind_ok in K. destruct K as [n [NA K]].
    assert (NE : nth_error (nodes g) (g_tail e) = Some n) by (unfold node_at in NA; destruct (nth_error (nodes g) (g_tail e)); congruence).
    destruct (n_graph n) as [id|] eqn:G; [|discriminate]. assert (GO : graph_of g (g_tail e) id) by now exists n.
    apply bind_ok in K. destruct K as [b [W K]]. destruct b; cbn [negb] in K.
    2:{ injection K as <-. exists []. split; [reflexivity|]. split; [intros ? ? []|]. intros d id' [id2 [pt [tr [ds [G2 [W2 _]]]]]] _.
        rewrite (graph_inj _ _ _ G2 GO) in W2. congruence. }
    apply bind_ok in K. destruct K as [[paths|] [S K]].
    2:{ injection K as <-. exists []. split; [reflexivity|]. split; [intros ? ? []|]. intros d id' [id2 [pt [tr [ds [G2 [W2 [S2 _]]]]]]] _.
        rewrite (graph_inj _ _ _ G2 GO) in S2. congruence. }
    apply bind_ok in K. destruct K as [tr [TR K]]. apply bind_ok in K. destruct K as [ds [DR K]].
    assert (UN : forall d, one_move t source stype ex p i e d -> In d ds).
    { intros d [id2 [pt [tr2 [ds2 [G2 [W2 [S2 [T2 [D2 I]]]]]]]]]. rewrite (graph_inj _ _ _ G2 GO) in S2. rewrite S in S2. injection S2 as <-.
      rewrite TR in T2. injection T2 as <-. unfold direct_paths in D2. rewrite DR in D2. now injection D2 as <-. }
    destruct ds as [|d0 ds0] eqn:ED.
    - injection K as <-. exists []. split; [reflexivity|]. split; [intros ? ? []|]. intros d id' O _. now apply UN in O.
    - rewrite <- ED in *. apply bind_ok in K. destruct K as [ids [IDS K]]. injection K as <-. exists (combine ids ds). split; [reflexivity|].
      apply each_ok in IDS.
      assert (KK : forall id' q, In q ds -> graph_of g (tail_of q) id' -> In (id', q) (combine ids ds)).
      { clear - IDS. induction IDS as [|a b l l' K _ IH]; [intros id q []|]. intros id q [->|I] GQ; cbn; [left|right; auto].
        apply bind_ok in K. destruct K as [m [A K]]. destruct GQ as [x [EX GX]]. unfold node_at in A. rewrite EX in A. injection A as ->.
        rewrite GX in K. now injection K as ->. }
      split; [|intros d id' O GD; apply KK; auto].
      intros id' q I. clear - I IDS. induction IDS as [|a b l l' K _ IH]; [destruct I|]. cbn in I. destruct I as [E|I]; [|auto].
      injection E as <- <-. apply bind_ok in K. destruct K as [m [A K]]. unfold node_at in A.
      destruct (nth_error (nodes g) (tail_of a)) as [m'|] eqn:NE; [|discriminate]. injection A as ->. exists m. split; [exact NE|].
      destruct (n_graph m); congruence.
  Qed.
  Lemma edges_add : forall t source stype ex p l acc r, explore_edges g objects_of ahash known sat t source stype (ex_graphs ex) (ex_reqs ex) p l acc = Ok r ->
    exists D, snd r = track_all D (snd acc) /\ tails D /\
      forall i e d id', In (i, e) l -> one_move t source stype ex p i e d -> graph_of g (tail_of d) id' -> In (id', d) D.
  Proof.
    intros t source stype ex p l. induction l as [|[i e] l IH]; intros acc r K.
    - injection K as <-. exists []. split; [reflexivity|]. split; [intros ? ? []|]. intros i e d id' [].
    - cbn [explore_edges] in K. apply bind_ok in K. destruct K as [a [K1 K2]].
      destruct (edge_adds _ _ _ _ _ _ _ _ _ K1) as [D1 [A1 [T1 B1]]]. destruct (IH _ _ K2) as [D2 [A2 [T2 B2]]].
      exists (D1 ++ D2). rewrite A2, A1, track_all_app. split; [reflexivity|]. split.
      + intros id q I. apply in_app_iff in I. destruct I; auto.
      + intros j f d id' [E|I] O GD; apply in_app_iff; [left|right; eauto]. injection E as <- <-. eauto.
  Qed.
  Lemma found_one : forall p t ex l i e d source id' x, path_of g p -> indirect p t ex = Ok l -> wanted_in t (stand p) ->
    edge_at g i e -> g_head e = tail_of p -> moving (g_kind e) ->
    nth_error (nodes g) (tail_of p) = Some x -> n_graph x = Some source ->
    one_move t source (n_name x) ex p i e d -> graph_of g (tail_of d) id' ->
    exists q, In q l /\ graph_of g (tail_of q) id' /\ (o_cost q <= o_cost d)%N.
  Proof.
    intros p t ex l i e d source id' x P K W E H M NX GX O GD. unfold indirect_paths, find_indirect_paths in K. apply bind_ok in K. destruct K as [n [NA K]].
    unfold node_at in NA. rewrite NX in NA. injection NA as <-. rewrite GX in K.
    assert (SC := proj2 (scope_iff p t) W). rewrite SC in K. apply bind_ok in K. destruct K as [tk [K L]]. injection L as <-.
    cbn [explore existsb] in K. apply bind_ok in K. destruct K as [a [K1 K2]].
    assert (K1' := K1). apply edges_add in K1. destruct K1 as [D1 [A1 [T1 B1]]].
    assert (R0 : Forall (reached g ctx objects_of p t source (ex_graphs ex)) (fst a)).
    { destruct (explore_edges_sound g ctx objects_of resolvable ahash known sat sat_ok p t source (n_name x) (ex_graphs ex) P W _ _ _ _ _ _
        ltac:(exists [], []; cbn; split; [constructor|]; split; [apply extends_refl|]; repeat split; auto using NoDup_nil, Forall2_nil) (move_edges g p) K1') as [new [D [A [_ [C _]]]]].
      rewrite A. apply Forall_app. split; [exact C|constructor]. }
    destruct (explore_sound g ctx objects_of resolvable ahash known sat sat_ok p t source (n_name x) (ex_graphs ex) P W _ _ _ _ _ R0 K2) as [D2 [B2 F2]].
    cbn [snd] in *. rewrite A1, <- track_all_app in B2. assert (T := track_all_tracks (D1 ++ D2) [] [] tracks_nil). cbn [app] in T. rewrite <- B2 in T.
    assert (ID : In (id', d) (D1 ++ D2)).
    { apply in_app_iff. left. apply (B1 i e); auto. apply filter_In. split; [now apply edges_from_iff|]. cbn. now apply moves_iff. }
    destruct (cheapest_exists _ _ _ ID) as [q [CQ LQ]]. exists q. split; [|split; [|exact LQ]].
    - apply (best_of_ok _ _ _ T). now exists id'.
    - destruct CQ as [IQ _]. apply in_app_iff in IQ. destruct IQ as [IQ|IQ]; [now apply T1|]. rewrite Forall_forall in F2. now apply (F2 (id', q)).
  Qed.
  Lemma worth_true : forall t source stype vis reqs e id,
    (forall f ids, t = TField f (Some ids) -> In id ids) -> ~ In id vis -> (id = source -> exists o r, g_kind e = InterfaceObjectMove o r) ->
    (forall r, needs (g_kind e) = Some r -> known reqs r = false /\ forall f ids, t = TField f ids -> ~ circular objects_of ahash stype r f) ->
    worth_trying objects_of ahash known t source stype vis reqs e id = Ok true.
  Proof.
    intros t source stype vis reqs e id A B C D. unfold worth_trying.
    replace (match t with TField _ (Some ids) => existsb (String.eqb id) ids | _ => true end) with true.
    2:{ destruct t as [f [ids|]|]; auto. symmetry. apply existsb_exists. exists id. split; [now apply (A f)|apply String.eqb_refl]. }
    cbn [negb]. destruct (existsb (String.eqb id) vis) eqn:V.
    { apply existsb_exists in V. destruct V as [y [I Y]]. apply String.eqb_eq in Y. subst y. now destruct B. }
    replace (String.eqb id source && negb match g_kind e with InterfaceObjectMove _ _ => true | _ => false end) with false.
    2:{ destruct (String.eqb_spec id source) as [EQ|NE]; [|reflexivity]. destruct (C EQ) as [o [r ->]]. reflexivity. }
    replace (requirements (g_kind e)) with (needs (g_kind e)) by now destruct (g_kind e).
    destruct (needs (g_kind e)) as [r|]; [|reflexivity]. destruct (D r eq_refl) as [KN CI]. rewrite KN.
    destruct t as [f ids|n c]; [|reflexivity]. destruct (depends_ok objects_of ahash stype r f) as [b [-> IB]]. cbn.
    destruct b; [|reflexivity]. exfalso. apply (CI f ids eq_refl). now apply IB.
  Qed.
End Main.

Lemma self_ok : forall g ctx objects_of resolvable ahash known p name c q, path_of g p ->
  self_path g ctx objects_of resolvable ahash known p name c = Ok (Some q) ->
  exists i e, edge_at g i e /\ g_kind e = Selfie name /\ takes g ctx objects_of (stand p) i (stand q) /\ extends g p q [i] /\
    exists s, o_segs q = o_segs p ++ [s] /\ sg_cond s = Some c /\ sg_attrs s = None.
Proof.
  intros g ctx objects_of resolvable ahash known p name c q P K. unfold self_path in K.
  set (l := filter _ _) in K. assert (L : incl l l) by apply incl_refl. revert K L. generalize l at 1 2. intros l'.
  induction l' as [|[i e] l' IH]; intros K L; [discriminate|]. cbn [first_some] in K. apply bind_ok in K. destruct K as [[y|] [T K]].
  - injection K as ->. assert (I := L _ (or_introl eq_refl)). unfold l in I. apply filter_In in I. destruct I as [I S]. apply edges_from_iff in I. destruct I as [E H].
    cbn [snd] in S. destruct (try_sound g ctx objects_of _ (sat_ok g ctx objects_of resolvable ahash known) _ _ _ _ _ P E H T) as [A [B [_ [paths [tr [_ [_ ->]]]]]]].
    exists i, e. split; [exact E|]. split; [destruct (g_kind e); try discriminate; apply String.eqb_eq in S; now subst|]. split; [exact A|]. split; [exact B|].
    eexists. split; [reflexivity|]. now split.
  - apply IH; [exact K|]. intros z I. apply L. now right.
Qed.

(** * Examples *)
Open Scope string_scope.
Open Scope list_scope.
Definition no_override : OverrideModel.move := {| m_label := None; m_overridden_by := None |}.
Definition plain_ctx : context := {| active_flags := []; percentage_value := 0%N |}.
Definition fld (n : string) (sub : list sel) : sel := SField n None None None None false sub.
Definition by_id : tas := mktas "User" [fld "id" []].
Definition same_type (l : list tas) (r : tas) : bool := existsb (fun x => String.eqb (ts_type x) (ts_type r)) l.
Definition step_to (name : string) (h t : nat) : gedge := mkgedge h t (FieldMove name None no_override).
(** A [User] with a key in two subgraphs, the name in the second *)
Definition two_graphs : pgraph :=
  mkpgraph [mknode "Query" None None; mknode "Query" (Some "A") None; mknode "User" (Some "A") None; mknode "User" (Some "B") None;
            mknode "ID" (Some "A") None; mknode "ID" (Some "B") None; mknode "String" (Some "B") None]
           [mkgedge 0 1 (Entrypoint "A"); step_to "user" 1 2; step_to "id" 2 4; mkgedge 2 3 (EntityMove by_id);
            step_to "id" 3 5; step_to "name" 3 6; mkgedge 3 2 (EntityMove by_id)].
Definition at_user : opath :=
  mkopath 0 [mkpseg 0 1 1000 None None None; mkpseg 1 2 1001 None (Some (None, None)) None] 1001 None.
Definition want (n : string) : target := TField (mkfsel n None None None None []) None.
Definition hash0 (a : option (list (string * gvalue))) : N := match a with None => 0%N | Some l => N.of_nat (S (length l)) end.
(** The same [User] in three subgraphs, with no move from the first to the third *)
Definition three_graphs : pgraph :=
  mkpgraph [mknode "Query" None None; mknode "Query" (Some "A") None; mknode "User" (Some "A") None; mknode "User" (Some "B") None;
            mknode "User" (Some "C") None; mknode "ID" (Some "A") None; mknode "ID" (Some "B") None; mknode "String" (Some "C") None]
           [mkgedge 0 1 (Entrypoint "A"); step_to "user" 1 2; step_to "id" 2 5; mkgedge 2 3 (EntityMove by_id);
            step_to "id" 3 6; mkgedge 3 4 (EntityMove by_id); step_to "name" 4 7].
Lemma two_sound : sound_graph two_graphs.
Proof.
  intros e I. cbn in I. repeat (destruct I as [<-|I]; [split; [eexists; reflexivity|do 2 eexists; split; reflexivity]|]). destruct I.
Qed.
Lemma user_path : path_of two_graphs at_user /\ path_of three_graphs at_user.
Proof.
  split; exists 2; cbn.
  - eapply (chain_cons _ _ _ _ (mkgedge 0 1 (Entrypoint "A")) 1000%N); try reflexivity; [exact (edge_cost_ok (Entrypoint "A"))|].
    eapply (chain_cons _ _ _ _ (step_to "user" 1 2) 1%N); try reflexivity; [exact (edge_cost_ok (FieldMove "user" None no_override))|]. constructor.
  - eapply (chain_cons _ _ _ _ (mkgedge 0 1 (Entrypoint "A")) 1000%N); try reflexivity; [exact (edge_cost_ok (Entrypoint "A"))|].
    eapply (chain_cons _ _ _ _ (step_to "user" 1 2) 1%N); try reflexivity; [exact (edge_cost_ok (FieldMove "user" None no_override))|]. constructor.
Qed.
Definition none_of (_ : string) : option (list string) := None.
Definition nowhere (_ _ : string) : list string := [].
(** Following the way of the third graph by hand *)
Lemma by_id_met : forall g s i e n, edge_at g i e -> g_head e = st_node s -> g_kind e = FieldMove "id" None no_override ->
  nth_error (nodes g) (g_tail e) = Some n -> n_union n = None ->
  forall c, below (ts_sels by_id) c -> exists l s', follows g plain_ctx none_of s c l s'.
Proof.
  intros g s i e n E H K N U c B. inversion B as [l x I NS|l x c' I NS B']; subst; destruct I as [<-|[]]; [|inversion B' as [? ? I|? ? ? I]; destruct I].
  exists [i], (at_node (g_tail e) None). change [i] with ([] ++ i :: []).
  eapply follows_field; [constructor|exact E|left; rewrite K; eauto| |constructor].
  eapply takes_edge; [exact E|exact H|rewrite K; intros ? ? ? F; injection F as <- <- <-; exact Logic.I|reflexivity| |rewrite K; discriminate].
  rewrite K. apply scope_field. intros l [x [d [id [A [C _]]]]]. congruence.
Qed.
Lemma three_ok : exists q, indirect_paths three_graphs plain_ctx none_of nowhere hash0 same_type at_user (want "name") no_excluded = Ok [] /\
  found_indirectly three_graphs plain_ctx none_of at_user (want "name") "A" [] q.
Proof.
  exists (advance three_graphs (advance three_graphs (advance three_graphs at_user 3 (mkgedge 2 3 (EntityMove by_id)) None (want "name"))
                               5 (mkgedge 3 4 (EntityMove by_id)) None (want "name")) 6 (step_to "name" 4 7) None (want "name")).
  split; [vm_compute; reflexivity|].
  set (q1 := advance three_graphs at_user 3 _ _ _). set (q2 := advance three_graphs q1 5 _ _ _).
  assert (T1 : takes three_graphs plain_ctx none_of (stand at_user) 3 (stand q1)).
  { apply takes_ok; [reflexivity|reflexivity|]. split; [discriminate|]. intros r c E. injection E as <-.
    apply (by_id_met three_graphs (stand at_user) 2 (step_to "id" 2 5) (mknode "ID" (Some "A") None)); reflexivity. }
  assert (T2 : takes three_graphs plain_ctx none_of (stand q1) 5 (stand q2)).
  { apply takes_ok; [reflexivity|reflexivity|]. split; [discriminate|]. intros r c E. injection E as <-.
    apply (by_id_met three_graphs (stand q1) 4 (step_to "id" 3 6) (mknode "ID" (Some "B") None)); reflexivity. }
  exists [3; 5], ["B"; "C"], (stand q2), 6, (step_to "name" 4 7).
  split; [discriminate|]. split; [exact Logic.I|]. split.
  { change [3; 5] with (([] ++ [3]) ++ [5]). eapply moves_more; [eapply moves_more; [constructor|reflexivity|left; eexists; reflexivity|exact T1]|reflexivity|left; eexists; reflexivity|exact T2]. }
  split; [reflexivity|]. split; [left; do 2 eexists; reflexivity|]. split; [exact Logic.I|]. split.
  { apply takes_ok; [reflexivity|reflexivity|]. split; [intros ? ? ? F; injection F as <- <- <-; exact Logic.I|discriminate]. }
  split.
  { change ([3; 5] ++ [6]) with (([3] ++ [5]) ++ [6]). eapply extends_trans; [eapply extends_trans; apply advance_extends; reflexivity|apply advance_extends; reflexivity]. }
  split.
  { constructor; [|constructor; [|constructor]]; eexists; (split; [reflexivity|]); (split; [eexists; split; reflexivity|]); (split; [tauto|]); (split; [discriminate|discriminate]). }
  split; [constructor; [intros [F|[]]; discriminate|constructor; [intros []|constructor]]|].
  intros x I. apply advance_carries in I. destruct I as [I|I]; [|now right]. apply advance_carries in I. destruct I as [I|I]; [|now right].
  apply advance_carries in I. exact I.
Qed.
(** A requirement for exactly what is searched for, below a type condition on another type *)
Definition nested : list sel := [SFrag "Bar" None None [fld "x" []]].
Lemma nested_ok : depends none_of hash0 "Item" (mktas "Item" [fld "foo" nested]) (mkfsel "foo" None None None None nested) = Some false.
Proof. vm_compute. reflexivity. Qed.
