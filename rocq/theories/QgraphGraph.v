(** The graph of a supergraph: its edges, its nodes, and that paths can be looked for in it. *)
From Coq Require Import Ascii String List NArith Bool Arith Lia Sorted.
From Verif Require Import StrOrd StrUtil Ast QplanModel BestModel OverrideModel NormModel SafeModel PathModel PathSpec PathBase OpwalkModel OpwalkSpec OpwalkMain OpwalkTotal FragDoc QgraphModel QgraphSpec QgraphBase QgraphRun QgraphPhases QgraphViews QgraphMain.
Import ListNotations.
Local Open Scope string_scope.
Local Open Scope list_scope.

(** ** An edge that is already there is not put in again *)
Section Once.
  Variable tas_eqb : tas -> tas -> bool.
  Definition once (b : builder) : Prop :=
    forall p q i j k k', p < q -> nth_error (b_edges b) p = Some (i, j, k) -> nth_error (b_edges b) q = Some (i, j, k') -> kind_eqb tas_eqb k k' = false.
  Lemma edge_once : forall b h t k, once b -> once (upsert_edge tas_eqb b h t k).
  Proof.
    intros b h t k O. unfold upsert_edge. destruct (existsb _ (b_edges b)) eqn:X; [exact O|]. intros p q i j k1 k2 L P Q. cbn in P, Q.
    destruct (Nat.lt_ge_cases q (length (b_edges b))) as [LT|GE].
    - rewrite nth_error_app1 in P by lia. rewrite nth_error_app1 in Q by lia. exact (O p q i j k1 k2 L P Q).
    - assert (LQ : q < length (b_edges b ++ [(h, t, k)])) by (apply nth_error_Some; congruence). rewrite app_length in LQ. cbn in LQ. assert (q = length (b_edges b)) by lia. subst q.
      rewrite nth_error_app2 in Q by lia. rewrite Nat.sub_diag in Q. injection Q as <- <- <-. rewrite nth_error_app1 in P by lia. apply nth_error_In in P.
      destruct (kind_eqb tas_eqb k1 k) eqn:E; [|reflexivity]. exfalso. apply not_true_iff_false in X. apply X. apply existsb_exists. exists (h, t, k1). split; [exact P|]. now rewrite !Nat.eqb_refl, E.
  Qed.
  Lemma run_once : forall l b, once b -> once (run_all tas_eqb b l).
  Proof.
    induction l as [|c l IH]; intros b O; [exact O|]. cbn. apply IH. destruct c as [n|h k t]; cbn.
    - unfold upsert_node. now destruct (index_of _ _).
    - destruct (upsert_node b h) as [b1 i] eqn:E1. destruct (upsert_node b1 t) as [b2 j] eqn:E2. apply edge_once.
      assert (X : forall b n b' i, upsert_node b n = (b', i) -> b_edges b' = b_edges b) by (intros x n y z E; unfold upsert_node in E; destruct (index_of _ _); injection E as <- _; reflexivity).
      apply X in E1. apply X in E2. unfold once. now rewrite E2, E1.
  Qed.
End Once.
Lemma kind_refl : forall tas_eqb k, (forall x, tas_eqb x x = true) -> kind_eqb tas_eqb k k = true \/ exists c, k = GSelfie c.
Proof.
  intros tas_eqb k R. assert (OR : forall {A} (eqb : A -> A -> bool) o, (forall x, eqb x x = true) -> opt_eqb eqb o o = true) by (intros A eqb [x|] H; cbn; auto).
  assert (LR : forall x, label_eqb x x = true) by (intros [x|x]; cbn; [apply String.eqb_refl|apply N.eqb_refl]).
  assert (JR : forall x, jf_eqb x x = true) by (intros x; unfold jf_eqb; rewrite !(OR _ String.eqb _ String.eqb_refl), !(OR _ label_eqb _ LR), !Bool.eqb_reflx; reflexivity).
  assert (VR : forall x, over_eqb x x = true) by (intros x; unfold over_eqb; now rewrite String.eqb_refl, (OR _ label_eqb _ LR)).
  destruct k; cbn; try (left; rewrite ?String.eqb_refl, ?Bool.eqb_reflx, ?(OR _ jf_eqb _ JR), ?(OR _ tas_eqb _ R), ?(OR _ over_eqb _ VR); reflexivity). right. now eexists.
Qed.

(** ** Types *)
Definition ptype (p : place) : string := match p with PRoot n => n | PType t _ | PView t _ _ | PMember t _ _ _ _ => t end.
Definition pgraph_name (p : place) : option string := match p with PRoot _ => None | PType _ g | PView _ g _ | PMember _ g _ _ _ => Some g end.
Lemma node_type : forall n, n_name (node_of n) = ptype (place_of n) /\ n_graph (node_of n) = pgraph_name (place_of n).
Proof. intros [k n|t g io [[|v|ty f o ms]|]]; now split. Qed.

Section Graph.
  Variable parse : string -> string -> string -> option (list sel).
  Variable s : sstate.
  Hypothesis F : fine s.
  Variable tas_eqb : tas -> tas -> bool.
  Variable b : builder.
  Hypothesis B : build parse tas_eqb s = BOk b.
  Notation edge := (edge parse s).
  Notation defined := (defined s).

  Lemma edges_iff : forall h k t, drawn b h k t <-> edge h k t.
  Proof.
    destruct (all_cmds parse s F tas_eqb b B) as (cs & -> & T & PE & _). destruct (run_places tas_eqb cs T) as (SO & CO & _). intros h k t.
    assert (S1 : forall h k t, drawn (run_all tas_eqb (mkb [] []) cs) h k t -> edge h k t).
    { intros h' k' t' (i & j & hn & tn & I & X & Y & <- & <-). apply PE. exact (SO _ _ _ _ _ I X Y). }
    split; [apply S1|]. intros E. apply PE in E as P. destruct (CO _ _ _ P) as (k' & D & [-> |Q]); [exact D|]. pose proof (S1 _ _ _ D) as E'. now rewrite (same_edge parse s F tas_eqb _ _ _ _ E' E Q) in D.
  Qed.
  Lemma nodes_iff : NoDup (map place_of (b_nodes b)) /\
    forall p, In p (map place_of (b_nodes b)) <-> (exists n, root_name s n /\ p = PRoot n) \/ exists h k t, edge h k t /\ (p = h \/ p = t).
  Proof.
    destruct (all_cmds parse s F tas_eqb b B) as (cs & EB & T & PE & CN & RC & _). destruct (run_places tas_eqb cs T) as (_ & _ & ND & NI & NC & _). rewrite <- EB in *. split; [exact ND|]. intros p. split.
    - intros I. apply in_map_iff in I. destruct I as [n [<- I]]. destruct (NI n I) as (c & CI & M). destruct c as [m|h k t].
      + cbn in M. subst m. destruct (CN n CI) as [(m & P & RN)|(name & g & P & E)]; [left; now exists m|right]. rewrite P. exists (PType name g), (GSelfie name), (PType name g). auto.
      + right. exists (place_of h), k, (place_of t). split; [apply PE; exists h, t; auto|]. destruct M as [-> | ->]; auto.
    - intros [(n & RN & ->)|(h & k & t & E & O)].
      + destruct (RC n RN) as (m & I & P). destruct (NC _ m I eq_refl) as (x & X & XP). apply in_map_iff. exists x. now rewrite XP.
      + apply PE in E. destruct E as (hn & tn & I & <- & <-). destruct O as [-> | ->].
        * destruct (NC _ hn I (or_introl eq_refl)) as (x & X & XP). apply in_map_iff. now exists x.
        * destruct (NC _ tn I (or_intror eq_refl)) as (x & X & XP). apply in_map_iff. now exists x.
  Qed.
  Lemma members_iff : forall t g iobj o f m ms, In (TypeNode t g iobj (Some (SpUnion o f m ms))) (b_nodes b) ->
    exists d id sf mj req over u, resolves parse s o d id g f sf mj req over /\ union_type s (sf_type sf) u /\ t = sf_type sf /\ ms = union_members sf id u.
  Proof.
    destruct (all_cmds parse s F tas_eqb b B) as (cs & EB & T & _ & _ & _ & L). destruct (run_places tas_eqb cs T) as (_ & _ & _ & NI & _). rewrite <- EB in *. intros t g iobj o f m ms I. destruct (NI _ I) as (c & CI & M). exact (L c _ CI M _ _ _ _ _ _ _ eq_refl).
  Qed.
  Lemma edges_once : (forall x, tas_eqb x x = true) -> forall p q e, p <> q -> nth_error (b_edges b) p = Some e -> nth_error (b_edges b) q = Some e -> exists c, snd e = GSelfie c.
  Proof.
    destruct (all_cmds parse s F tas_eqb b B) as (cs & -> & _). intros R p q [[i j] k] NE P Q. assert (O : once tas_eqb (run_all tas_eqb (mkb [] []) cs)) by (apply run_once; intros ? [|?] ? ? ? ? ? ? X; discriminate).
    destruct (kind_refl tas_eqb k R) as [K|X]; [|exact X]. exfalso. destruct (Nat.lt_gt_cases p q) as [X _]. destruct (X NE) as [LT|LT].
    - rewrite (O p q i j k k LT P Q) in K. discriminate.
    - rewrite (O q p i j k k LT Q P) in K. discriminate.
  Qed.
  Lemma indexes : forall i j k, In (i, j, k) (b_edges b) -> exists hn tn, nth_error (b_nodes b) i = Some hn /\ nth_error (b_nodes b) j = Some tn.
  Proof.
    destruct (all_cmds parse s F tas_eqb b B) as (cs & EB & T & _). destruct (run_places tas_eqb cs T) as (_ & _ & _ & _ & _ & V). rewrite <- EB in *. intros i j k I. apply V in I. destruct I as [X Y]. apply nth_error_Some in X. apply nth_error_Some in Y.
    destruct (nth_error (b_nodes b) i) as [hn|]; [|congruence]. destruct (nth_error (b_nodes b) j) as [tn|]; [|congruence]. now exists hn, tn.
  Qed.

  (** ** Looking for paths in it *)
  Notation g := (pgraph_of b).
  Lemma edge_drawn : forall e, In e (edges g) -> exists hn k tn, nth_error (b_nodes b) (g_head e) = Some hn /\ nth_error (b_nodes b) (g_tail e) = Some tn /\ g_kind e = kind_of k /\ edge (place_of hn) k (place_of tn).
  Proof.
    intros e I. cbn in I. apply in_map_iff in I. destruct I as [[[i j] k] [<- I]]. destruct (indexes _ _ _ I) as (hn & tn & X & Y). exists hn, k, tn. repeat (split; [assumption || reflexivity|]). apply edges_iff. now exists i, j, hn, tn.
  Qed.
  Lemma node_drawn : forall i n, nth_error (nodes g) i = Some n -> exists m, nth_error (b_nodes b) i = Some m /\ n = node_of m.
  Proof. intros i n E. cbn in E. rewrite nth_error_map in E. destruct (nth_error (b_nodes b) i) as [m|]; [|discriminate]. injection E as <-. now exists m. Qed.
  Lemma view_tail : forall id v gr type at_ l h k t, viewed parse s id gr v type at_ l h k t -> exists x, pgraph_name t = Some x.
  Proof. intros id v gr type at_ l h k t V. induction V; cbn; eauto. Qed.
  Lemma tail_graph : forall h k t, edge h k t -> exists x, pgraph_name t = Some x.
  Proof. intros h k t E. destruct E; cbn; try (eexists; reflexivity). eapply view_tail; eassumption. Qed.
  Lemma graph_sound : sound_graph g.
  Proof.
    intros e I. destruct (edge_drawn e I) as (hn & k & tn & X & Y & _ & E). cbn [nodes pgraph_of]. rewrite !nth_error_map, X, Y. split; [now eexists|]. exists (node_of tn). destruct (tail_graph _ _ _ E) as [x P]. exists x. split; [reflexivity|]. now destruct (node_type tn) as [_ ->].
  Qed.
  Lemma graph_unions : consistent_unions g.
  Proof.
    intros x y d d' I J U U' G T FE. cbn in I, J. apply in_map_iff in I. destruct I as [n [<- I]]. apply in_map_iff in J. destruct J as [m [<- J]].
    destruct n as [? ?|t gr io [[|v|o f mm ms]|]]; try discriminate. destruct m as [? ?|t' gr' io' [[|v'|o' f' mm' ms']|]]; try discriminate. cbn in U, U', G. injection U as <-. injection U' as <-. injection G as <-. cbn in T, FE. subst o' f'. cbn.
    apply members_iff in I. apply members_iff in J. destruct I as (d & id & sf & mj & rq & ov & u & R & [UD _] & _ & ->). destruct J as (d' & id' & sf' & mj' & rq' & ov' & u' & R' & [UD' _] & _ & ->).
    destruct (resolves_same parse s F _ _ _ _ _ _ _ _ _ _ _ _ _ _ _ R R') as (_ & <- & <- & _). now rewrite (defs_fun s F _ _ _ UD UD').
  Qed.
  Lemma step_type : forall h k t f, edge h k t -> field_edge f (kind_of k) -> (f = "__typename" /\ ptype t = "String") \/ exists d sf, defined (ptype h) d /\ has_field d f sf /\ ptype t = sf_type sf.
  Proof.
    intros h k t f E FE. destruct k as [gr k|f' ty leaf li jf req over|f' ty li|key req bb|c|c|o req]; try (destruct FE as [(r & m & FE)|FE]; discriminate).
    - assert (f' = f) by (destruct FE as [(r & m & FE)|FE]; cbn in FE; [now injection FE|discriminate]). subst f'. apply (field_shape parse s F) in E.
      destruct E as [(gr & d & id & sf & mj & R & -> & X)|[(_ & _ & _ & [(-> & [gr ->] & _)|(gr & v & d & sf & -> & D & HF & ->)])|(j & gr & d & id & sf & v & text & _ & _ & _ & -> & -> & D & VO)]].
      + right. apply resolves_parts in R. destruct R as (D & _ & HF). exists d, sf. split; [exact D|]. split; [exact HF|]. destruct X as [[_ ->]|[_ [m ->]]]; reflexivity.
      + now left.
      + right. now exists d, sf.
      + right. exists d, sf. split; [exact D|]. split; [|reflexivity]. now destruct (view_field s _ _ _ _ _ _ _ _ D VO).
    - assert (f' = f) by (destruct FE as [(r & m & FE)|FE]; cbn in FE; [discriminate|now injection FE]). subst f'. right.
      inversion E as [| | | |name d id gr f0 sf mj rq ov g' k R NU EN NE| | | | | | | | | |name d id gr f0 sf j text v df l h0 k0 t0 D L N VO DD P V]; subst.
      + apply resolves_parts in R. destruct R as (D & _ & HF). now exists d, sf.
      + apply (viewed_shape parse s F) in V; [destruct V|reflexivity|now exists df].
  Qed.
  Hypothesis NI : forall name d j, defined name d -> In j (d_types d) -> jt_iobj j = false.
  Hypothesis NT : forall name d f sf, defined name d -> has_field d f sf -> f <> "__typename".
  Lemma move_type : forall h k t, edge h k t -> moving (kind_of k) -> ptype t = ptype h.
  Proof.
    intros h k t E M. destruct k as [gr k|f' ty leaf li jf req over|f' ty li|key req bb|c|c|o req]; try (destruct M as [[r M]|[x [r M]]]; discriminate).
    - inversion E as [| | | | | | | | |name d j1 j2 key0 x g1 g2 b0 D J1 J2 N1 N2 K P BB| |name d j key0 gr o od x id j2 g2 b0 D J IO K N OD KO IM J2 NE N2 P BB| | |name d id g0 f sf j text v df l h0 k0 t0 D L N VO DD P V]; subst.
      + reflexivity.
      + rewrite (NI _ _ _ D J) in IO. discriminate.
      + apply (viewed_shape parse s F) in V; [|reflexivity|now exists df]. destruct V as (ty & d' & j' & x & g' & -> & -> & _). reflexivity.
    - apply (object_shape parse s F) in E. destruct E as (n & gr & id & d & x & j & -> & -> & _). reflexivity.
  Qed.
  Lemma comes_type : forall t t', comes g t t' -> t' = t.
  Proof.
    intros t t' C. induction C as [t|t i e h n C IH E M H N]; [reflexivity|]. rewrite <- IH. apply edge_in in E. destruct (edge_drawn e E) as (hn & k & tn & X & Y & KE & ED). rewrite KE in M.
    apply node_drawn in H. apply node_drawn in N. destruct H as (hm & H & ->). destruct N as (tm & N & ->). rewrite X in H. rewrite Y in N. injection H as <-. injection N as <-. destruct (node_type hn) as [-> _]. destruct (node_type tn) as [-> _]. exact (move_type _ _ _ ED M).
  Qed.
  Lemma graph_typed : forall root r, nth_error (b_nodes b) root = Some r -> (exists n, place_of r = PRoot n) -> well_typed g root.
  Proof.
    intros root r RI [rn RP].
    assert (AT : forall i e n, edge_at g i e -> nth_error (nodes g) (g_tail e) = Some n -> exists hn k tn, nth_error (b_nodes b) (g_head e) = Some hn /\ g_kind e = kind_of k /\ edge (place_of hn) k (place_of tn) /\ n_name n = ptype (place_of tn)).
    { intros i e n E N. apply edge_in in E. destruct (edge_drawn e E) as (hn & k & tn & X & Y & KE & ED). apply node_drawn in N. destruct N as (tm & N & ->). rewrite Y in N. injection N as <-. exists hn, k, tn. destruct (node_type tn) as [-> _]. auto. }
    split; [|split].
    - assert (P : forall i e n, edge_at g i e -> g_head e = root -> nth_error (nodes g) (g_tail e) = Some n -> n_name n = rn).
      { intros i e n E H N. destruct (AT _ _ _ E N) as (hn & k & tn & X & _ & ED & ->). rewrite H, RI in X. injection X as <-. rewrite RP in ED. clear - ED F.
        inversion ED as [| | | | | | | | | | | | | |name d id g0 f sf j text v df l h0 k0 t0 D L N VO DD P V]; subst; [reflexivity|]. apply (viewed_shape parse s F) in V; [|reflexivity|now exists df].
        destruct k; try contradiction; [destruct V as (_ & _ & _ & V & _)|destruct V as (? & ? & ? & ? & ? & V & _)|destruct V as (_ & _ & ? & ? & V & _)|destruct V as (V & _)]; discriminate. }
      intros i j e e' n n' E E' H H' N N'. rewrite (P _ _ _ E H N). symmetry. exact (P _ _ _ E' H' N').
    - intros f t i j e e' h h' n n' E E' FE FE' H H' C C' N N'. destruct (AT _ _ _ E N) as (hn & k & tn & X & KE & ED & ->). destruct (AT _ _ _ E' N') as (hn' & k' & tn' & X' & KE' & ED' & ->). rewrite KE in FE. rewrite KE' in FE'.
      apply node_drawn in H. apply node_drawn in H'. destruct H as (hm & H & ->). destruct H' as (hm' & H' & ->). rewrite X in H. rewrite X' in H'. injection H as <-. injection H' as <-. apply comes_type in C. apply comes_type in C'. rewrite (proj1 (node_type hn)) in C. rewrite (proj1 (node_type hn')) in C'.
      destruct (step_type _ _ _ _ ED FE) as [[-> ->]|(d & sf & D & HF & ->)]; destruct (step_type _ _ _ _ ED' FE') as [[EF ->]|(d' & sf' & D' & HF' & ->)].
      + reflexivity.
      + now apply (NT _ _ _ _ D') in HF'.
      + subst f. now apply (NT _ _ _ _ D) in HF.
      + rewrite C in D. rewrite C' in D'. pose proof (defs_fun s F _ _ _ D D') as <-. now rewrite (field_fun s F _ _ _ _ _ D HF HF').
    - intros t i e n E TE N. destruct (AT _ _ _ E N) as (hn & k & tn & X & KE & ED & ->). rewrite KE in TE. clear - TE ED NI F. set (h := place_of hn) in *. set (p := place_of tn) in *. clearbody h p.
      destruct k as [gr k|f' ty leaf li jf req over|f' ty li|key req bb|c|c|o req]; try (destruct TE as [[TE|[r TE]]|TE]; discriminate).
      + assert (c = t) by (destruct TE as [[TE|[r TE]]|TE]; cbn in TE; [now injection TE|discriminate|discriminate]). subst c.
        inversion ED as [| | | | | | |name d id gr f0 sf mj rq ov u m R U M|name d id gr iface D K I N| | | | | |name d id g0 f sf j text v df l h0 k0 t0 D L N VO DD P V]; subst; [reflexivity|reflexivity|]. apply (viewed_shape parse s F) in V; [|reflexivity|now exists df]. destruct V as (-> & _). reflexivity.
      + assert (c = t) by (destruct TE as [[TE|[r TE]]|TE]; cbn in TE; [discriminate|discriminate|now injection TE]). subst c.
        inversion ED as [| |name d id gr D L N| | | | | | | | | | |name d id gr f sf j text v D L N VO|name d id g0 f sf j text v df l h0 k0 t0 D L N VO DD P V]; subst; [reflexivity|reflexivity|]. apply (viewed_shape parse s F) in V; [|reflexivity|now exists df]. destruct V as (_ & -> & _). reflexivity.
      + apply (object_shape parse s F) in ED. destruct ED as (n & gr & id & d & x & j & _ & _ & _ & D & _ & _ & J & IO). rewrite (NI _ _ _ D J) in IO. discriminate.
  Qed.
End Graph.

(** ** Walking it *)
Lemma root_entry : forall parse s tas_eqb b root r name, fine s -> build parse tas_eqb s = BOk b -> nth_error (b_nodes b) root = Some r -> place_of r = PRoot name -> (exists g k, enters s name g k) ->
  exists e, In e (edges (pgraph_of b)) /\ g_head e = root.
Proof.
  intros parse s tas_eqb b root r name F B RI RP (g & k & EN). destruct (proj2 (edges_iff parse s F tas_eqb b B _ _ _) (e_entry parse s name g k EN)) as (i & j & hn & tn & I & X & Y & HX & HY).
  destruct (nodes_iff parse s F tas_eqb b B) as [ND _]. assert (i = root).
  { apply (proj1 (NoDup_nth_error (map place_of (b_nodes b))) ND); [apply nth_error_Some; rewrite (map_nth_error _ _ _ X); discriminate|]. now rewrite (map_nth_error _ _ _ X), (map_nth_error _ _ _ RI), HX, RP. }
  subst i. exists (mkgedge root j (kind_of (GEntry g k))). split; [|reflexivity]. cbn. apply in_map_iff. now exists (root, j, GEntry g k).
Qed.
