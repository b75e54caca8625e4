(** The walk ends, with paths or with an error that names what is missing. *)
From Coq Require Import String List NArith Bool Arith Lia.
From Verif Require Import StrOrd Ast QplanModel BestModel OverrideModel SafeModel PathModel PathSpec PathCycle PathBase PathBest PathSound PathTotal PathMain OpwalkModel OpwalkSpec OpwalkBase OpwalkSteps OpwalkSound.
Import ListNotations.
Local Open Scope list_scope.

Definition expected (e : werr) : Prop :=
  (exists i, e = NoPathsFound i) \/ (exists t, e = TypeNotFound t) \/ exists f t, e = FieldNotFound f t.
Definition fair {A} (r : res A) : Prop := (exists a, r = Ok a) \/ exists e, r = Err e /\ expected e.
Lemma fair_ok : forall {A} (r : res A), ok r -> fair r.
Proof. intros A r [a ->]. left. now exists a. Qed.
Lemma fair_ret : forall {A} (a : A), fair (Ok a).
Proof. intros A a. left. now exists a. Qed.
Lemma fair_none : forall {A} i, @fair A (Err (NoPathsFound i)).
Proof. intros A i. right. eexists. split; [reflexivity|]. left. now exists i. Qed.
Lemma fair_bind : forall {A B} (r : res A) (f : A -> res B), fair r -> (forall a, r = Ok a -> fair (f a)) -> fair (bind r f).
Proof. intros A B r f [[a ->]|[e [-> E]]] K; cbn; [now apply K|]. right. now exists e. Qed.
Lemma each_fair : forall {A B} (f : A -> res B) l, (forall x, In x l -> fair (f x)) -> fair (each f l).
Proof.
  intros A B f l. induction l as [|x l IH]; intros K; cbn; [apply fair_ret|]. apply fair_bind; [apply K; now left|]. intros y _.
  apply fair_bind; [apply IH; intros z I; apply K; now right|]. intros ys _. apply fair_ret.
Qed.

Section Total.
  Variable g : pgraph.
  Variable ctx : context.
  Variable objects_of : string -> option (list string).
  Variable ahash : option (list (string * gvalue)) -> N.
  Variable known : list tas -> tas -> bool.
  Variable defs : list (string * sdef).
  Variable subgraph_of : string -> option string.
  Hypothesis SG : sound_graph g.
  Notation resolvable := (resolvable defs subgraph_of).
  Notation direct := (direct g ctx objects_of ahash known defs subgraph_of).
  Notation indirect := (indirect g ctx objects_of ahash known defs subgraph_of).
  Notation process := (process g ctx objects_of ahash known defs subgraph_of).
  Notation sat := (satisfied g ctx objects_of resolvable ahash known).

  Definition sturdy (p : opath) : Prop := path_of g p /\ (exists id, graph_of g (tail_of p) id) /\ o_segs p <> [].
  Lemma sat_snd : sat_sound g ctx objects_of sat.
  Proof. exact (sat_ok g ctx objects_of resolvable ahash known). Qed.
  Lemma sat_tot : sat_total g sat.
  Proof. exact (satisfied_total g ctx objects_of resolvable ahash known SG). Qed.
  Lemma direct_ends : forall p t, sturdy p -> ok (direct p t).
  Proof. intros p t [P [T _]]. exact (direct_total g ctx objects_of _ sat_snd sat_tot p t P T). Qed.
  Lemma indirect_ends : forall p t, sturdy p -> ok (indirect p t).
  Proof. intros p t [P [T _]]. exact (indirect_total g ctx objects_of resolvable ahash known SG _ sat_snd sat_tot p t no_excluded P T). Qed.
  Lemma sturdy_more : forall p q l, sturdy p -> extends g p q l -> sturdy q.
  Proof.
    intros p q l [P [T N]] X. split; [eapply extends_path; eassumption|]. split; [eapply extends_tail; eassumption|].
    destruct X as [new [_ [S _]]]. rewrite S. now destruct (o_segs p).
  Qed.
  Lemma direct_sturdy : forall p t l q, sturdy p -> direct p t = Ok l -> In q l -> sturdy q.
  Proof.
    intros p t l q S K I. apply (direct_ok g ctx objects_of) in K; [|apply S]. destruct K as [K _]. destruct (K _ I) as [i [e [_ [_ [_ [_ [X _]]]]]]].
    eapply sturdy_more; eassumption.
  Qed.
  Lemma indirect_sturdy : forall p t l q, sturdy p -> indirect p t = Ok l -> In q l -> sturdy q.
  Proof.
    intros p t l q S K I. eapply (indirect_ok g ctx objects_of) in K; [|apply S|exact I]. destruct K as [src [_ [mv [gs [s [i [e [_ [_ [_ [_ [_ [_ [_ [X _]]]]]]]]]]]]]]].
    eapply sturdy_more; eassumption.
  Qed.
  Lemma add_all_total : forall l t, Forall sturdy l -> ok (add_all g t l).
  Proof.
    intros l. induction l as [|p l IH]; intros t F; cbn; [apply ok_ret|]. inversion F as [|? ? [_ [[id G] _]] F']; subst.
    destruct (node_ok g _ _ G) as [x [-> GX]]. cbn. rewrite GX. now apply IH.
  Qed.
  Lemma fold_total : forall {A B} (f : A -> B -> res A) l a, (forall a x, In x l -> fair (f a x)) -> fair (fold_res f l a).
  Proof.
    intros A B f l. induction l as [|x l IH]; intros a K; cbn; [apply fair_ret|]. apply fair_bind; [apply K; now left|]. intros a' _. apply IH. intros b y I. apply K. now right.
  Qed.
  Lemma target_total : forall name paths, Forall sturdy paths -> ok (target_ids g resolvable name paths).
  Proof.
    intros name paths F. unfold target_ids. apply ok_bind.
    - apply each_total. intros p I. rewrite Forall_forall in F. destruct (F _ I) as [_ [[id G] _]]. destruct (node_ok g _ _ G) as [x [-> _]]. apply ok_ret.
    - intros types _. destruct (flat_map _ types); apply ok_ret.
  Qed.
  Lemma narrow_segs : forall l q, In q (narrow l) -> exists p, In p l /\ o_root q = o_root p /\ o_segs q = o_segs p /\ o_cost q = o_cost p.
  Proof.
    intros l q I. destruct (narrow_cases l) as [E|[shared [per [_ [_ [_ [_ E]]]]]]]; rewrite E in I; [now exists q|].
    apply in_flat_map in I. destruct I as [p [IP I]]. exists p. split; [exact IP|]. destruct (o_union p) as [v|]; [|destruct I].
    destruct (has (u_member v) shared); [|destruct I]. destruct I as [<-|[]]. now split.
  Qed.
  Lemma sturdy_same : forall p q, o_root q = o_root p -> o_segs q = o_segs p -> o_cost q = o_cost p -> sturdy p -> sturdy q.
  Proof.
    intros p q R S C [[m P] [T N]]. split; [exists m; now rewrite R, S, C|]. unfold tail_of in *. rewrite R, S. now split.
  Qed.
  Lemma candidates_total : forall f local paths, Forall sturdy paths ->
    fair (candidates g ctx objects_of ahash known defs subgraph_of f local paths) /\
    forall l, candidates g ctx objects_of ahash known defs subgraph_of f local paths = Ok l -> Forall sturdy l.
  Proof.
    intros f local paths F. split.
    - unfold candidates. apply fair_bind.
      + apply fair_ok. destruct paths as [|p paths]; [apply ok_ret|]. destruct local; [apply ok_ret|now apply target_total].
      + intros ids _. apply fair_bind; [|intros t _; apply fair_ret]. apply fold_total. intros t p I. rewrite Forall_forall in F. assert (S := F _ I).
        unfold explore_field. apply fair_ok. apply ok_bind; [now apply direct_ends|]. intros ds D. apply ok_bind; [apply add_all_total; apply Forall_forall; intros q J; eapply direct_sturdy; eassumption|].
        intros t' _. cbn zeta. destruct (_ && _); [|apply ok_ret]. apply ok_bind; [now apply indirect_ends|]. intros is IS. apply add_all_total. apply Forall_forall. intros q J. eapply indirect_sturdy; eassumption.
    - intros l K. apply candidates_ok in K. destruct K as [ids [best [-> [_ [_ B]]]]]. apply Forall_forall. intros q I.
      destruct (narrow_segs _ _ I) as [q0 [J [R [S C]]]]. apply (sturdy_same q0 q R S C). apply B in J. destruct J as [[p [IP [ds [D O]]]] _].
      rewrite Forall_forall in F. destruct O as [O|[_ [_ [is [IS O]]]]]; [eapply direct_sturdy; [exact (F _ IP)|exact D|exact O]|eapply indirect_sturdy; [exact (F _ IP)|exact IS|exact O]].
  Qed.
  Lemma sturdy_last : forall p, sturdy p -> exists s e, last_seg p = Some s /\ edge_at g (sg_edge s) e /\ g_tail e = tail_of p.
  Proof.
    intros p [[m C] [_ N]].
    assert (K : forall n a l b d, chain g n a l b d -> l <> [] -> exists s e l', l = l' ++ [s] /\ edge_at g (sg_edge s) e /\ g_tail e = b).
    { clear. intros n a l b d H. induction H as [|n c s e d0 l m c' A B C D E H IH]; [tauto|]. intros _. destruct l as [|x l].
      - inversion H; subst. exists s, e, []. auto.
      - destruct IH as [s' [e' [l' [-> [EA T]]]]]; [discriminate|]. exists s', e', (s :: l'). auto. }
    destruct (K _ _ _ _ _ C N) as [s [e' [l' [E [EA T]]]]]. exists s, e'. unfold last_seg. rewrite E, rev_app_distr. split; [reflexivity|].
    split; [exact EA|]. apply chain_tail in C. destruct C as [C _]. unfold tail_of. now rewrite C.
  Qed.
  Lemma edge_nodes : forall i e, edge_at g i e -> (exists n, nth_error (nodes g) (g_head e) = Some n) /\ exists n id, nth_error (nodes g) (g_tail e) = Some n /\ n_graph n = Some id.
  Proof. intros i e E. apply SG. now apply edge_in in E. Qed.
  Lemma local_total : forall name sub next, Forall sturdy next -> fair (local_fields g defs name sub next).
  Proof.
    intros name sub next F. unfold local_fields. destruct sub as [|y sub]; [apply fair_ret|]. set (sb := y :: sub).
    apply fair_bind.
    - apply each_fair. intros p I. rewrite Forall_forall in F. destruct (sturdy_last _ (F _ I)) as [s [e [-> [E _]]]]. unfold edge_at in E. rewrite E. apply fair_ret.
    - intros moves M. destruct (keep_some moves) as [|e l] eqn:KS; [apply fair_ret|].
      assert (EA : exists i, edge_at g i e).
      { assert (I : In e (keep_some moves)) by (rewrite KS; now left). apply keep_in in I. apply each_ok in M. destruct (f2_right _ _ _ _ M I) as [p [J S]].
        rewrite Forall_forall in F. destruct (sturdy_last _ (F _ J)) as [s [e' [LS [E _]]]]. rewrite LS in S. unfold edge_at in E. rewrite E in S. exists (sg_edge s).
        destruct (g_kind e'); try discriminate. injection S as <-. exact E. }
      destruct EA as [i EA]. destruct (edge_nodes _ _ EA) as [[h H] [n [id [T _]]]]. unfold node_at. rewrite H, T. cbn [bind].
      destruct (lookup (n_name h) defs) as [pd|]; [|right; eexists; split; [reflexivity|right; left; eauto]].
      destruct (lookup name (sd_fields pd)) as [js|]; [|right; eexists; split; [reflexivity|right; right; eauto]].
      destruct (lookup (n_name n) defs) as [od|]; [|right; eexists; split; [reflexivity|right; left; eauto]]. apply fair_ret.
  Qed.
  Lemma first_total : forall paths, Forall sturdy paths -> paths <> [] -> ok (first_tail g paths).
  Proof.
    intros [|p paths] F N; [now destruct N|]. inversion F as [|? ? S F']; subst. cbn. destruct (sturdy_last _ S) as [s [e [-> [E _]]]].
    destruct (edge_nodes _ _ E) as [_ [n [id [T G]]]]. unfold edge_at in E. rewrite E. unfold node_at. rewrite T. cbn. rewrite G. apply ok_ret.
  Qed.
  Lemma self_total : forall p t c, sturdy p -> ok (self_path g ctx objects_of resolvable ahash known p t c).
  Proof.
    intros p t c [P [T N]]. unfold self_path.
    assert (K : forall l, (forall x, In x l -> edge_at g (fst x) (snd x) /\ g_head (snd x) = tail_of p) ->
      ok (first_some (fun x => try_advance g sat p x (TType t (Some c))) l)).
    { intros l. induction l as [|[i e] l IH]; intros L; cbn; [apply ok_ret|]. destruct (L _ (or_introl eq_refl)) as [E H].
      apply ok_bind; [exact (try_total g ctx objects_of _ sat_snd sat_tot p i e _ E H P T)|]. intros [q|] _; [apply ok_ret|]. apply IH. intros x I. apply L. now right. }
    apply K. intros [i e] I. apply filter_In in I. destruct I as [I _]. now apply edges_from_iff in I.
  Qed.
  Lemma self_step_total : forall t c paths, Forall sturdy paths -> fair (self_step g ctx objects_of ahash known defs subgraph_of t c paths) /\
    forall next, self_step g ctx objects_of ahash known defs subgraph_of t c paths = Ok next -> Forall sturdy next /\ (paths <> [] -> next <> []).
  Proof.
    intros t c paths F. rewrite Forall_forall in F. unfold self_step. destruct c as [c|]; [|split; [apply fair_ret|intros next K; injection K as <-; split; [now apply Forall_forall|auto]]]. split.
    - apply each_fair. intros p I. apply fair_bind; [apply fair_ok; apply self_total; now apply F|]. intros [q|] _; [apply fair_ret|apply fair_none].
    - intros next K. apply each_ok in K. split; [|intros N ->; inversion K; congruence]. apply Forall_forall. intros q I. destruct (f2_right _ _ _ _ K I) as [p [J S]].
      apply bind_ok in S. destruct S as [[q'|] [S E]]; [|discriminate]. injection E as ->.
      destruct (self_ok g ctx objects_of resolvable ahash known _ _ _ _ (proj1 (F _ J)) S) as [i [e [_ [_ [_ [X _]]]]]]. eapply sturdy_more; [exact (F _ J)|exact X].
  Qed.
  Lemma type_step_total : forall t c locals paths, Forall sturdy paths -> ok (type_step g ctx objects_of ahash known defs subgraph_of t c locals paths) /\
    forall next, type_step g ctx objects_of ahash known defs subgraph_of t c locals paths = Ok next -> Forall sturdy next.
  Proof.
    intros t c locals paths F. rewrite Forall_forall in F. unfold type_step. split.
    - apply ok_bind; [|intros l _; apply ok_ret]. apply each_total. intros p I. apply ok_bind; [apply direct_ends; now apply F|]. intros ds _.
      apply ok_bind; [destruct locals; [apply indirect_ends; now apply F|apply ok_ret]|]. intros is _. apply ok_ret.
    - intros next K. apply bind_ok in K. destruct K as [l [K E]]. injection E as <-. apply each_ok in K. apply Forall_forall. intros q I.
      apply in_concat in I. destruct I as [qs [IQ I]]. destruct (f2_right _ _ _ _ K IQ) as [p [J S]].
      apply bind_ok in S. destruct S as [ds [D S]]. apply bind_ok in S. destruct S as [is [IS S]]. injection S as <-. apply in_app_iff in I. destruct I as [I|I].
      + assert (IN : In q ds) by (destruct ds; [destruct I|destruct I as [->|[]]; now left]). eapply direct_sturdy; [exact (F _ J)|exact D|exact IN].
      + assert (IN : In q is) by (destruct is; [destruct I|destruct I as [->|[]]; now left]). destruct locals; [|injection IS as <-; destruct IN].
        eapply indirect_sturdy; [exact (F _ J)|exact IS|exact IN].
  Qed.
  Lemma typename_total : forall paths, Forall sturdy paths -> fair (typename_step g ctx objects_of ahash known defs subgraph_of paths).
  Proof.
    intros paths F. unfold typename_step. apply fair_bind.
    - apply fold_total. intros t p I. rewrite Forall_forall in F. apply fair_bind; [apply fair_ok; apply direct_ends; now apply F|]. intros ds D.
      assert (FD : Forall sturdy ds) by (apply Forall_forall; intros q J; eapply direct_sturdy; [exact (F _ I)|exact D|exact J]).
      destruct ds as [|d ds]; [apply fair_none|]. apply fair_ok. now apply add_all_total.
    - intros t _. destruct (best_of t); [apply fair_none|apply fair_ret].
  Qed.

  (** What is pushed is lighter than what it is pushed for. *)
  Definition stack_weight (l : list (sel * list opath)) : nat := list_sum (map (fun x => weight (fst x)) l).
  Definition items_ok (l : list (sel * list opath)) : Prop := Forall (fun x => Forall sturdy (snd x) /\ snd x <> []) l.
  Lemma stack_app : forall a b, stack_weight (a ++ b) = stack_weight a + stack_weight b.
  Proof. intros a b. unfold stack_weight. now rewrite map_app, list_sum_app. Qed.
  Lemma process_total : forall x paths locals, Forall sturdy paths -> paths <> [] ->
    fair (process x paths locals) /\ forall r, process x paths locals = Ok r -> items_ok (fst r) /\ S (stack_weight (fst r)) <= weight x.
  Proof.
    intros x. induction x as [name alias args inc skip om sub IH|tc inc skip sub IH|n] using sel_ind'; intros paths locals F NE.
    - rewrite process_field. destruct (candidates_total (mkfsel name alias args inc skip sub) (has name locals) paths F) as [CF CS]. split.
      + apply fair_bind; [exact CF|]. intros next CK. specialize (CS _ CK). destruct next as [|q next]; [apply fair_none|]. set (nx := q :: next) in *.
        apply fair_bind; [now apply local_total|]. intros shared _. apply fair_bind.
        * unfold valid_paths. destruct shared as [|s0 sh]; [apply fair_ret|]. set (shared := s0 :: sh). apply fair_bind; [|intros l _; apply fair_ret].
          apply each_fair. intros p I. apply fair_bind; [|intros b _; apply fair_ret].
          assert (SP : Forall sturdy [p]) by (constructor; [rewrite Forall_forall in CS; now apply CS|constructor]).
          clear - IH SP. induction IH as [|y l Y _ IHl]; [apply fair_ret|].
          change (fair match process y [p] shared with Ok ([], []) => Ok false | Ok _ => children g ctx objects_of ahash known defs subgraph_of shared l p | Err _ => Ok false | Panic => Panic | Fuel => Fuel end).
          destruct (Y [p] shared SP ltac:(discriminate)) as [[[r ->]|[e [-> _]]] _]; [|apply fair_ret]. destruct r as [[|a b] [|c d]]; try exact IHl. apply fair_ret.
        * intros valid _. destruct sub as [|y sub]; [apply fair_ret|]. destruct valid; [apply fair_none|apply fair_ret].
      + intros r K. apply bind_ok in K. destruct K as [next [CK K]]. specialize (CS _ CK). destruct next as [|q next]; [discriminate|]. set (nx := q :: next) in *.
        apply bind_ok in K. destruct K as [shared [_ K]]. apply bind_ok in K. destruct K as [valid [V K]]. apply valid_in in V. rewrite weight_field.
        destruct sub as [|y sub]; [injection K as <-; split; [constructor|cbn; lia]|]. set (sb := y :: sub) in *.
        destruct valid as [|v valid]; [discriminate|]. set (vl := v :: valid) in *. injection K as <-. cbn [fst].
        change ((y, vl) :: map (fun y => (y, vl)) sub) with (map (fun y => (y, vl)) sb). split.
        * apply Forall_forall. intros z I. apply in_map_iff in I. destruct I as [y' [<- _]]. split; [|discriminate]. apply Forall_forall. intros p I. rewrite Forall_forall in CS. apply CS. now apply V.
        * unfold stack_weight, weights. rewrite map_map. cbn [fst]. apply le_n.
    - assert (PL : forall next, Forall sturdy next -> next <> [] -> fair (process_all g ctx objects_of ahash known defs subgraph_of locals sub next) /\
        forall r, process_all g ctx objects_of ahash known defs subgraph_of locals sub next = Ok r -> items_ok (fst r) /\ stack_weight (fst r) <= weights sub).
      { intros next SN NN. clear - IH SN NN. induction IH as [|y l Y _ [IH1 IH2]].
        - split; [apply fair_ret|]. intros r K. injection K as <-. split; [constructor|apply le_n].
        - destruct (Y next locals SN NN) as [Y1 Y2]. split.
          + apply fair_bind; [exact Y1|]. intros a _. apply fair_bind; [exact IH1|]. intros b _. apply fair_ret.
          + intros r K. change (bind (process y next locals) (fun a => bind (process_all g ctx objects_of ahash known defs subgraph_of locals l next) (fun b => Ok (fst a ++ fst b, snd a ++ snd b))) = Ok r) in K.
            apply bind_ok in K. destruct K as [a [A K]]. apply bind_ok in K. destruct K as [b [B K]]. injection K as <-. cbn [fst].
            destruct (Y2 _ A) as [A1 A2], (IH2 _ B) as [B1 B2]. split; [apply Forall_app; now split|]. rewrite stack_app, weights_cons. lia. }
      rewrite process_frag. assert (W : forall r : outcome, items_ok (fst r) /\ stack_weight (fst r) <= weights sub -> items_ok (fst r) /\ S (stack_weight (fst r)) <= weight (SFrag tc inc skip sub))
        by (intros r [A B]; split; [exact A|rewrite weight_frag; lia]).
      destruct (self_step_total tc (cond_of inc skip) paths F) as [S1 S2]. destruct (type_step_total tc (cond_of inc skip) locals paths F) as [T1 T2]. split.
      + apply fair_bind; [apply fair_ok; now apply first_total|]. intros n _. destruct (String.eqb (n_name n) tc).
        * apply fair_bind; [exact S1|]. intros next K. destruct (S2 _ K) as [SN NN]. now apply PL; [|apply NN].
        * apply fair_bind; [now apply fair_ok|]. intros next K. specialize (T2 _ K). destruct next as [|q next].
          -- apply fair_bind; [now apply typename_total|]. intros leaf _. apply fair_ret.
          -- apply PL; [exact T2|discriminate].
      + intros r K. apply bind_ok in K. destruct K as [n [_ K]]. destruct (String.eqb (n_name n) tc).
        * apply bind_ok in K. destruct K as [next [SK K]]. destruct (S2 _ SK) as [SN NN]. apply W. now apply (PL next SN (NN NE)).
        * apply bind_ok in K. destruct K as [next [TK K]]. specialize (T2 _ TK). destruct next as [|q next].
          -- apply bind_ok in K. destruct K as [leaf [_ K]]. injection K as <-. apply W. split; [constructor|cbn; lia].
          -- apply W. apply (PL (q :: next)); [exact T2|discriminate|exact K].
    - split; [apply fair_ret|]. intros r K. injection K as <-. split; [constructor|cbn; lia].
  Qed.
  Lemma resolve_total : forall fuel stack leaves, items_ok stack -> stack_weight stack <= fuel ->
    fair (resolve g ctx objects_of ahash known defs subgraph_of fuel stack leaves).
  Proof.
    intros fuel. induction fuel as [|n IH]; intros stack leaves I W; destruct stack as [|[x ps] stack]; cbn [resolve].
    1, 3: apply fair_ret.
    - exfalso. unfold stack_weight in W. cbn [map fst] in W. rewrite sum_cons in W. destruct x; cbn in W; lia.
    - inversion I as [|? ? [S N] I']; subst. cbn [snd] in S, N. destruct (process_total x ps [] S N) as [P1 P2].
      apply fair_bind; [exact P1|]. intros r K. destruct (P2 _ K) as [A B]. apply IH; [apply Forall_app; now split|].
      rewrite stack_app. unfold stack_weight in W |- *. cbn [map fst] in W. rewrite sum_cons in W. unfold stack_weight in B. lia.
  Qed.
  Lemma entry_sturdy : forall root, Forall sturdy (entrypoints g root).
  Proof.
    intros root. apply Forall_forall. intros p I. unfold entrypoints in I. apply in_map_iff in I. destruct I as [[i e] [<- I]]. apply in_rev in I. apply edges_from_iff in I. destruct I as [E H].
    split; [|split; [|discriminate]].
    - exists (g_tail e). cbn. econstructor; [exact E|reflexivity|reflexivity|apply edge_cost_ok|reflexivity|]. constructor.
    - destruct (edge_nodes _ _ E) as [_ [n [id [T G]]]]. exists id, n. now split.
  Qed.
  Lemma walk_total : forall root sels, entrypoints g root <> [] -> fair (walk g ctx objects_of ahash known defs subgraph_of (Some root) sels).
  Proof.
    intros root sels NE. cbn [walk]. apply each_fair. intros x _. apply resolve_total.
    - constructor; [|constructor]. split; [apply entry_sturdy|exact NE].
    - unfold stack_weight. cbn. lia.
  Qed.
End Total.
