(** The graph has the edges that the supergraph allows, and no others. *)
From Coq Require Import Ascii String List NArith Bool Arith Lia.
From Verif Require Import StrOrd StrUtil Ast QplanModel OverrideModel NormModel PathModel OpwalkModel FragDoc QgraphModel QgraphSpec QgraphBase QgraphRun QgraphPhases QgraphViews.
Import ListNotations.
Local Open Scope string_scope.
Local Open Scope list_scope.

Lemma opt_eqb_ok : forall {A} (eqb : A -> A -> bool), (forall x y, eqb x y = true -> x = y) -> forall a b, opt_eqb eqb a b = true -> a = b.
Proof. intros A eqb H [x|] [y|] E; try discriminate; [f_equal; now apply H|reflexivity]. Qed.
Lemma label_eqb_ok : forall a b, label_eqb a b = true -> a = b.
Proof. intros [x|x] [y|y] E; try discriminate; cbn in E; [apply String.eqb_eq in E|apply N.eqb_eq in E]; now subst. Qed.
Lemma str_eqb_ok : forall a b, String.eqb a b = true -> a = b.
Proof. intros a b. apply String.eqb_eq. Qed.
Lemma jf_eqb_ok : forall a b, jf_eqb a b = true -> a = b.
Proof.
  intros [g r p t e o l v] [g' r' p' t' e' o' l' v'] E. unfold jf_eqb in E. cbn in E. rewrite !andb_true_iff in E. destruct E as [[[[[[[A B] C] D] E1] G] H] I].
  apply (opt_eqb_ok _ str_eqb_ok) in A. apply (opt_eqb_ok _ str_eqb_ok) in B. apply (opt_eqb_ok _ str_eqb_ok) in C. apply (opt_eqb_ok _ str_eqb_ok) in D. apply (opt_eqb_ok _ str_eqb_ok) in G.
  apply (opt_eqb_ok _ label_eqb_ok) in H. apply Bool.eqb_prop in E1. apply Bool.eqb_prop in I. now subst.
Qed.
Lemma over_eqb_ok : forall a b, over_eqb a b = true -> a = b.
Proof. intros [a l] [b m] E. unfold over_eqb in E. cbn in E. apply andb_true_iff in E. destruct E as [A B]. apply String.eqb_eq in A. apply (opt_eqb_ok _ label_eqb_ok) in B. now subst. Qed.

Section Main.
  Variable parse : string -> string -> string -> option (list sel).
  Variable s : sstate.
  Hypothesis F : fine s.
  Notation edge := (edge parse s).
  Notation defined := (defined s).
  Notation known_as := (known_as s).
  Notation viewed := (viewed parse s).

  (** ** Shapes of edges *)
  Lemma def_clean : forall name d, defined name d -> clean_type name.
  Proof. destruct F as (_ & _ & _ & _ & _ & _ & _ & _ & C & _). exact C. Qed.
  Lemma graph_clean : forall id g, known_as id g -> clean_graph g.
  Proof. destruct F as (_ & _ & _ & _ & _ & _ & _ & C & _). exact C. Qed.
  Lemma field_clean : forall name d f sf, defined name d -> has_field d f sf -> without ":"%char f /\ clean_type (sf_type sf) /\ forall j t, In j (sf_joins sf) -> jf_type j = Some t -> clean_type t.
  Proof. destruct F as (_ & _ & _ & _ & _ & _ & _ & _ & _ & C & _). intros name d f sf D [_ I]. exact (C _ _ _ _ D I). Qed.
  Lemma viewed_shape : forall id g v type at_ l h k t, viewed id g v type at_ l h k t -> at_ = PView type g v -> (exists d, defined type d) ->
    match k with
    | GField f ty leaf li jf req over => jf = None /\ req = None /\ over = None /\ h = PView ty g v /\ exists d sf, defined ty d /\ has_field d f sf /\ t = PView (sf_type sf) g v
    | GEntity key req b => exists ty d j sel g', h = PView ty g v /\ t = PType ty g' /\ defined ty d /\ known_as (jt_graph j) g' /\ parse (jt_graph j) ty key = Some sel /\ req = mktas ty sel /\ (b = true <-> d_kind d = DInterface)
    | GAbstract c => t = PView c g v /\ (exists d, defined c d) /\ exists ty d, h = PView ty g v /\ defined ty d
    | GSelfie c => h = PView c g v /\ t = PView c g v /\ clean_type c
    | _ => False
    end.
  Proof.
    intros id g v type at_ l h k t V. induction V as [type d at_ l j key x g' D J K NE N' P b B|type d at_ l f a ar i k om sub sf leaf D I HF SC|type d at_ l f a ar i k om sub sf D I HF|type d at_ l f a ar i k om sub sf df h m t D I HF NS DD V IH|type at_ l c dc i k sub DC I|type at_ l c dc i k sub DC I|type at_ l c dc i k sub h m t DC I V IH]; intros EQ DF.
    - subst. exists type, d, j, x, g'. repeat (split; [assumption || reflexivity|]). exact B.
    - subst. do 4 (split; [reflexivity|]). exists d, sf. split; [exact D|]. now split.
    - split; [reflexivity|]. split; [reflexivity|]. now apply (field_clean _ _ _ _ D HF).
    - apply IH; [reflexivity|now exists df].
    - subst. split; [reflexivity|]. split; [now exists dc|]. destruct DF as [d DF]. now exists type, d.
    - split; [reflexivity|]. split; [reflexivity|]. exact (def_clean _ _ DC).
    - apply IH; [reflexivity|now exists dc].
  Qed.
  Lemma view_field : forall name d id f sf j text v, defined name d -> view_of d id f sf j text v -> has_field d f sf /\ In j (sf_joins sf).
  Proof. intros name d id f sf j text v D (K & _ & _ & a & b & ja & jb & EO & EJ & _). split; [split; [exact K|rewrite EO]|rewrite EJ]; apply in_or_app; right; now left. Qed.
  Lemma resolves_parts : forall name d id g f sf mj req over, resolves parse s name d id g f sf mj req over -> defined name d /\ known_as id g /\ has_field d f sf.
  Proof. intros name d id g f sf mj req over (A & _ & B & C & _). split; [exact A|]. split; [exact B|exact C]. Qed.
  Lemma member_clean : forall name d id f sf u m, defined name d -> has_field d f sf -> union_type s (sf_type sf) u -> member_in id sf u m -> clean_type m.
  Proof.
    intros name d id f sf u m D HF [U _] [(j & t & FF & T & _ & ->)|[_ I]].
    - apply first_in in FF. destruct (field_clean _ _ _ _ D HF) as (_ & _ & C). exact (C j t FF T).
    - destruct F as (_ & _ & _ & _ & _ & _ & _ & _ & _ & _ & C). apply (C _ _ id m U). now right.
  Qed.
  Lemma edge_clean : forall h k t, edge h k t -> clean_place h /\ clean_place t.
  Proof.
    intros h k t E. destruct E as [name g k (d & id & D & _ & _ & _ & N & _)|name d id g D L N K IO|name d id g D L N|name d id g f sf mj req over leaf R SC NU|name d id g f sf mj req over g' k R NU EN NE|name d id g f sf mj req over leaf u m R SC U M|name d id g f sf mj req over u m R U M|name d id g f sf mj req over u m R U M|name d id g iface D K I N|name d j1 j2 key x g1 g2 b D J1 J2 N1 N2 K P B|name d j key g o od x id D J IO K N OD KO IM P|name d j key g o od x id j2 g2 b D J IO K N OD KO IM J2 NE N2 P B|name d id g f sf j text v req leaf D L N VO W SC|name d id g f sf j text v D L N VO|name d id g f sf j text v df l h k t D L N VO DD P V].
    all: try (apply resolves_parts in R; destruct R as (D & N & HF); pose proof (field_clean _ _ _ _ D HF) as (CF & CT & _); pose proof (def_clean _ _ D) as CD; pose proof (graph_clean _ _ N) as CG).
    - cbn. pose proof (def_clean _ _ D). pose proof (graph_clean _ _ N). auto.
    - cbn. pose proof (def_clean _ _ D). pose proof (graph_clean _ _ N). split; [auto|]. split; [|auto]. split; intros X; cbn in X; repeat (destruct X as [X|X]; [discriminate|]); exact X.
    - cbn. pose proof (def_clean _ _ D). pose proof (graph_clean _ _ N). auto.
    - cbn. auto.
    - cbn. destruct EN as (d' & id' & D' & _ & _ & _ & N' & _). pose proof (graph_clean _ _ N'). auto.
    - cbn. auto.
    - cbn. split; [auto|]. split; [|auto]. split; intros X; cbn in X; repeat (destruct X as [X|X]; [discriminate|]); exact X.
    - cbn. split; [auto|]. split; [|auto]. exact (member_clean _ _ _ _ _ _ _ D HF U M).
    - cbn. pose proof (def_clean _ _ D). pose proof (graph_clean _ _ N). split; [|auto]. split; [|auto]. destruct F as (_ & _ & _ & _ & _ & _ & _ & _ & _ & _ & C). apply (C _ _ id iface D). now left.
    - cbn. pose proof (def_clean _ _ D). pose proof (graph_clean _ _ N1). pose proof (graph_clean _ _ N2). auto.
    - cbn. pose proof (def_clean _ _ D). pose proof (graph_clean _ _ N). auto.
    - cbn. pose proof (def_clean _ _ D). pose proof (def_clean _ _ OD). pose proof (graph_clean _ _ N). pose proof (graph_clean _ _ N2). auto.
    - cbn. destruct (view_field _ _ _ _ _ _ _ _ D VO) as [HF _]. pose proof (field_clean _ _ _ _ D HF) as (_ & CT & _). pose proof (def_clean _ _ D). pose proof (graph_clean _ _ N). auto.
    - cbn. destruct (view_field _ _ _ _ _ _ _ _ D VO) as [HF _]. pose proof (field_clean _ _ _ _ D HF) as (_ & CT & _). pose proof (graph_clean _ _ N). auto.
    - pose proof (graph_clean _ _ N) as CG. apply viewed_shape in V; [|reflexivity|now exists df]. destruct k as [| ? ? ? ? ? ? ? | | ? ? ?| | |]; try contradiction.
      + destruct V as (_ & _ & _ & -> & d' & sf' & D' & HF' & ->). pose proof (field_clean _ _ _ _ D' HF') as (_ & CT & _). pose proof (def_clean _ _ D'). cbn. auto.
      + destruct V as (ty & d' & j' & x & g' & -> & -> & D' & N' & _). pose proof (def_clean _ _ D'). pose proof (graph_clean _ _ N'). cbn. auto.
      + destruct V as (-> & (d1 & D1) & ty & d2 & -> & D2). pose proof (def_clean _ _ D1). pose proof (def_clean _ _ D2). cbn. auto.
      + destruct V as (-> & -> & C). cbn. auto.
  Qed.

  (** ** Edges that count as the same are the same *)
  Lemma entry_shape : forall h g k t, edge h (GEntry g k) t -> exists name, h = PRoot name /\ t = PType name g /\ enters s name g k.
  Proof.
    intros h g k t E. inversion E as [name g0 k0 EN| | | | | | | | | | | | | |name d id g0 f sf j text v df l h0 k0 t0 D L N VO DD P V]; subst; [now exists name|].
    apply viewed_shape in V; [destruct V|reflexivity|now exists df].
  Qed.
  Lemma entity_shape : forall h key req b t, edge h (GEntity key req b) t ->
    exists name g id d x, t = PType name g /\ known_as id g /\ defined name d /\ parse id name key = Some x /\ req = mktas name x /\ (b = true <-> d_kind d = DInterface).
  Proof.
    intros h key req b t E. inversion E as [| | | | | | | | |name d j1 j2 key0 x g1 g2 b0 D J1 J2 N1 N2 K P B| |name d j key0 g o od x id j2 g2 b0 D J IO K N OD KO IM J2 NE N2 P B| | |name d id g0 f sf j text v df l h0 k0 t0 D L N VO DD P V]; subst.
    - exists name, g2, (jt_graph j2), d, x. now repeat (split; [assumption || reflexivity|]).
    - exists name, g, (jt_graph j), d, x. now repeat (split; [assumption || reflexivity|]).
    - apply viewed_shape in V; [|reflexivity|now exists df]. destruct V as (ty & d' & j' & x & g' & -> & -> & D' & N' & P' & -> & B). exists ty, g', (jt_graph j'), d', x. now repeat (split; [assumption || reflexivity|]).
  Qed.
  Lemma object_shape : forall h o req t, edge h (GIobj o req) t -> exists name g id d x j, h = PType name g /\ t = PType name g /\ known_as id g /\ defined name d /\ parse id name "__typename" = Some x /\ req = mktas name x /\ In j (d_types d) /\ jt_iobj j = true.
  Proof.
    intros h o req t E. inversion E as [| | | | | | | | | |name d j key g o0 od x id D J IO K N OD KO IM P| | | |name d id g0 f sf j text v df l h0 k0 t0 D L N VO DD P V]; subst.
    - exists name, g, (jt_graph j), d, x, j. now repeat (split; [assumption || reflexivity|]).
    - apply viewed_shape in V; [destruct V|reflexivity|now exists df].
  Qed.
  Lemma field_shape : forall h f ty leaf li jf req over t, edge h (GField f ty leaf li jf req over) t ->
    (exists g d id sf mj, resolves parse s ty d id g f sf mj req over /\ h = PType ty g /\
       ((jf = option_map without_provides mj /\ t = PType (sf_type sf) g) \/ (jf = None /\ exists m, t = PMember (sf_type sf) g ty f m))) \/
    (req = None /\ jf = None /\ over = None /\ ((f = "__typename" /\ (exists g, t = PType "String" g) /\ ((exists g, h = PType ty g) \/ exists g o f m, h = PMember ty g o f m)) \/
                  exists g v d sf, h = PView ty g v /\ defined ty d /\ has_field d f sf /\ t = PView (sf_type sf) g v)) \/
    (exists j g d id sf v text, jf = Some j /\ wants parse ty (Some j) req /\ over = None /\ h = PType ty g /\ t = PView (sf_type sf) g v /\ defined ty d /\ view_of d id f sf j text v).
  Proof.
    intros h f ty leaf li jf req over t E. inversion E as [|name d id g D L N K IO| |name d id g f0 sf mj req0 over0 leaf0 R SC NU| |name d id g f0 sf mj req0 over0 leaf0 u m R SC U M|name d id g f0 sf mj req0 over0 u m R U M| | | | | |name d id g f0 sf j text v req0 leaf0 D L N VO W SC| |name d id g0 f0 sf j text v df l h0 k0 t0 D L N VO DD P V]; subst.
    - right. left. do 3 (split; [reflexivity|]). left. split; [reflexivity|]. split; [now exists g|left; now exists g].
    - left. exists g, d, id, sf, mj. split; [exact R|]. split; [reflexivity|]. now left.
    - left. exists g, d, id, sf, mj. split; [exact R|]. split; [reflexivity|]. right. split; [reflexivity|now exists m].
    - right. left. do 3 (split; [reflexivity|]). left. split; [reflexivity|]. split; [now exists g|right; now exists g, name, f0, m].
    - right. right. exists j, g, d, id, sf, v, text. now repeat (split; [assumption || reflexivity|]).
    - apply viewed_shape in V; [|reflexivity|now exists df]. destruct V as (-> & -> & -> & -> & d' & sf' & D' & HF & ->). right. left. do 3 (split; [reflexivity|]). right. exists g0, v, d', sf'. now repeat (split; [assumption || reflexivity|]).
  Qed.
  Lemma resolves_same : forall name d d' id id' g f sf sf' mj mj' req req' over over', resolves parse s name d id g f sf mj req over -> resolves parse s name d' id' g f sf' mj' req' over' ->
    d = d' /\ id = id' /\ sf = sf' /\ mj = mj' /\ req = req' /\ over = over'.
  Proof.
    intros name d d' id id' g f sf sf' mj mj' req req' over over' (D & L & N & HF & O & _ & W & R) (D' & L' & N' & HF' & O' & _ & W' & R').
    pose proof (defs_fun s F _ _ _ D D') as <-. pose proof (ids_fun s F _ _ _ N N') as <-. pose proof (field_fun s F _ _ _ _ _ D HF HF') as <-.
    apply (avail_ok _ _ _ _ L) in O. apply (avail_ok _ _ _ _ L) in O'. assert (mj = mj') by congruence. subst mj'. apply wants_ok in W. apply wants_ok in W'. assert (req = req') by congruence. subst req'.
    pose proof (replaced_fun s F _ _ _ _ R R') as <-. now repeat split.
  Qed.
  Lemma same_edge : forall tas_eqb h k k' t, edge h k t -> edge h k' t -> kind_eqb tas_eqb k k' = true -> k = k'.
  Proof.
    intros tas_eqb h k k' t E E' Q. destruct k as [g k|f ty leaf li jf req over|f ty li|key req b|c|c|o req], k' as [g' k'|f' ty' leaf' li' jf' req' over'|f' ty' li'|key' req' b'|c'|c'|o' req']; cbn in Q; try discriminate.
    - apply String.eqb_eq in Q. subst g'. apply entry_shape in E. apply entry_shape in E'. destruct E as (n & -> & -> & EN). destruct E' as (n' & X & _ & EN'). injection X as <-.
      destruct EN as (? & ? & _ & _ & R & _). destruct EN' as (? & ? & _ & _ & R' & _). now rewrite (root_fun s _ _ _ R R').
    - rewrite !andb_true_iff in Q. destruct Q as [[[[[[Q1 Q2] Q3] Q4] Q5] _] Q7]. apply String.eqb_eq in Q1. apply String.eqb_eq in Q2. apply Bool.eqb_prop in Q3. apply Bool.eqb_prop in Q4.
      apply (opt_eqb_ok _ jf_eqb_ok) in Q5. apply (opt_eqb_ok _ over_eqb_ok) in Q7. subst f' ty' leaf' li' jf' over'. f_equal. apply field_shape in E. apply field_shape in E'.
      destruct E as [(g & d & id & sf & mj & R & H & X)|[(-> & J & _ & X)|(j & g & d & id & sf & v & text & J & W & _ & H & T & _)]],
        E' as [(g' & d' & id' & sf' & mj' & R' & H' & X')|[(-> & J' & _ & X')|(j' & g' & d' & id' & sf' & v' & text' & J' & W' & _ & H' & T' & _)]]; try reflexivity; try congruence.
      + rewrite H in H'. injection H' as <-. now destruct (resolves_same _ _ _ _ _ _ _ _ _ _ _ _ _ _ _ R R') as (_ & _ & _ & _ & Y & _).
      + destruct X as [[EJ T]|[EJ [m T]]].
        * rewrite J' in EJ. destruct mj; [discriminate|]. now destruct R as (_ & _ & _ & _ & _ & _ & -> & _).
        * exfalso. destruct X' as [(_ & [gg T'] & _)|(gg & vv & dd & ss & _ & _ & _ & T')]; congruence.
      + exfalso. destruct X as [[_ T]|[_ [m T]]]; congruence.
      + destruct X' as [[EJ T]|[EJ [m T]]].
        * rewrite J in EJ. destruct mj'; [discriminate|]. now destruct R' as (_ & _ & _ & _ & _ & _ & -> & _).
        * exfalso. destruct X as [(_ & [gg T'] & _)|(gg & vv & dd & ss & _ & _ & _ & T')]; congruence.
      + exfalso. destruct X' as [[_ T']|[_ [m T']]]; congruence.
      + rewrite J in J'. injection J' as <-. apply wants_ok in W. apply wants_ok in W'. congruence.
    - rewrite !andb_true_iff in Q. destruct Q as [[Q1 Q2] Q3]. apply String.eqb_eq in Q1. apply String.eqb_eq in Q2. apply Bool.eqb_prop in Q3. now subst.
    - apply String.eqb_eq in Q. subst key'. apply entity_shape in E. apply entity_shape in E'. destruct E as (n & g & id & d & x & -> & N & D & P & -> & B). destruct E' as (n' & g' & id' & d' & x' & T & N' & D' & P' & -> & B').
      injection T as <- <-. pose proof (ids_fun s F _ _ _ N N') as <-. pose proof (defs_fun s F _ _ _ D D') as <-. rewrite (same_bool _ _ _ B B'). congruence.
    - apply String.eqb_eq in Q. now subst.
    - apply String.eqb_eq in Q. subst o'. apply object_shape in E. apply object_shape in E'. destruct E as (n & g & id & d & x & j & -> & -> & N & D & P & -> & _). destruct E' as (n' & g' & id' & d' & x' & j' & T & _ & N' & D' & P' & -> & _).
      injection T as <- <-. pose proof (ids_fun s F _ _ _ N N') as <-. congruence.
  Qed.

  (** ** Putting the phases together *)
  Variable tas_eqb : tas -> tas -> bool.
  Lemma build_parts : forall b, build parse tas_eqb s = BOk b -> exists lc fc ic ec vc,
    link_cmds s = BOk lc /\ field_cmds parse s (entries_of s (run_all tas_eqb (mkb [] []) (roots s ++ lc))) = BOk fc /\ impl_cmds s = BOk ic /\ entity_cmds parse s = BOk ec /\ view_cmds parse s = BOk vc /\
    b = run_all tas_eqb (mkb [] []) ((roots s ++ lc) ++ fc ++ ic ++ ec ++ vc).
  Proof.
    intros b E. unfold build in E. apply bbind_ok in E. destruct E as [lc [L E]]. rewrite <- run_all_app in E. apply bbind_ok in E. destruct E as [fc [FC E]]. apply bbind_ok in E. destruct E as [ic [IC E]].
    apply bbind_ok in E. destruct E as [ec [EC E]]. apply bbind_ok in E. destruct E as [vc [VC E]]. injection E as <-. exists lc, fc, ic, ec, vc. rewrite (run_all_app _ _ (roots s ++ lc)). repeat (split; [assumption|]). reflexivity.
  Qed.
  Lemma roots_in : forall c, In c (roots s) <-> exists k n, root_node s k = Some n /\ c = CNode n.
  Proof.
    intros c. unfold roots. rewrite in_flat_map. split.
    - intros [k [_ I]]. destruct (root_node s k) as [n|] eqn:R; [|destruct I]. destruct I as [<-|[]]. now exists k, n.
    - intros (k & n & R & ->). exists k. split; [destruct k; cbn; auto|]. rewrite R. now left.
  Qed.
  Lemma root_place : forall k n, root_node s k = Some n -> exists m, n = RootNode k m /\ root_name s m /\ clean_type m.
  Proof.
    destruct F as (_ & _ & _ & _ & CQ & CM & CS & _). intros [| |] n R; cbn in R.
    - injection R as <-. exists (s_query s). split; [reflexivity|]. split; [now left|exact CQ].
    - destruct (s_mutation s) as [m|] eqn:M; [|discriminate]. injection R as <-. exists m. split; [reflexivity|]. split; [right; now left|now apply CM].
    - destruct (s_subscription s) as [m|] eqn:M; [|discriminate]. injection R as <-. exists m. split; [reflexivity|]. split; [right; now right|now apply CS].
  Qed.
  (** The nodes of commands that are all clean *)
  Definition tidy (cs : list cmd) : Prop := forall c n, In c cs -> mentions c n -> clean_place (place_of n).
  Lemma run_places : forall cs, tidy cs -> let b := run_all tas_eqb (mkb [] []) cs in
    (forall i j k hn tn, In (i, j, k) (b_edges b) -> nth_error (b_nodes b) i = Some hn -> nth_error (b_nodes b) j = Some tn -> put cs (place_of hn) k (place_of tn)) /\
    (forall h k t, put cs h k t -> exists k', drawn b h k' t /\ (k' = k \/ kind_eqb tas_eqb k' k = true)) /\
    NoDup (map place_of (b_nodes b)) /\ (forall n, In n (b_nodes b) -> exists c, In c cs /\ mentions c n) /\ (forall c n, In c cs -> mentions c n -> exists m, In m (b_nodes b) /\ place_of m = place_of n) /\
    (forall i j k, In (i, j, k) (b_edges b) -> i < length (b_nodes b) /\ j < length (b_nodes b)).
  Proof.
    intros cs T b. destruct (run_all_ok tas_eqb cs (mkb [] []) inv_empty) as ([ND V] & _ & M & D & _ & N & E). fold b in ND, V, M, D, N, E.
    assert (M' : forall n, In n (b_nodes b) -> exists c, In c cs /\ mentions c n) by (intros n I; destruct (M n I) as [[]|X]; exact X).
    assert (SAME : forall n c m, In n (b_nodes b) -> In c cs -> mentions c m -> display n = display m -> place_of n = place_of m).
    { intros n c m I J MM EQ. destruct (M' n I) as [c' [I' MM']]. rewrite !display_label in EQ. apply label_inj in EQ; [exact EQ|exact (T _ _ I' MM')|exact (T _ _ J MM)]. }
    split; [|split; [|split; [|split; [exact M'|split; [|exact V]]]]].
    - intros i j k hn tn I X Y. destruct (N i j k I) as [[]|(h & t & hn' & tn' & J & X' & Y' & DX & DY)]. rewrite X in X'. rewrite Y in Y'. injection X' as <-. injection Y' as <-. exists h, t. split; [exact J|].
      split; symmetry; eapply SAME; [eapply nth_error_In; exact X|exact J|now left|exact DX|eapply nth_error_In; exact Y|exact J|now right|exact DY].
    - intros h k t (hn & tn & I & <- & <-). destruct (E hn k tn I) as [k' [(i & j & x & y & J & X & Y & DX & DY) Q]]. exists k'. split; [|exact Q]. exists i, j, x, y. repeat (split; [assumption|]).
      split; eapply SAME; [eapply nth_error_In; exact X|exact I|now left|exact DX|eapply nth_error_In; exact Y|exact I|now right|exact DY].
    - assert (CL : forall n, In n (b_nodes b) -> clean_place (place_of n)) by (intros n I; destruct (M' n I) as [c [J MM]]; exact (T _ _ J MM)).
      clear - ND CL. induction (b_nodes b) as [|n l IH]; [constructor|]. inversion ND as [|? ? N1 N2]; subst. cbn. constructor; [|apply IH; [exact N2|intros m I; apply CL; now right]].
      intros I. apply N1. apply in_map_iff in I. destruct I as [m [E I]]. apply in_map_iff. exists m. split; [|exact I]. rewrite !display_label. now rewrite E.
    - intros c n I MM. specialize (D c n I MM). apply in_map_iff in D. destruct D as [m [EQ J]]. exists m. split; [exact J|]. exact (SAME m c n J I MM EQ).
  Qed.
  Lemma first_tidy : forall lc, link_cmds s = BOk lc -> tidy (roots s ++ lc).
  Proof.
    intros lc L c n I MM. apply in_app_or in I. destruct I as [I|I].
    - apply roots_in in I. destruct I as (k & m & R & ->). cbn in MM. subst m. destruct (root_place _ _ R) as (m & -> & _ & C). exact C.
    - destruct c as [m|hn k tn].
      + apply (beach_in _ _ _ L) in I. destruct I as [[name d] [a [D [A I]]]]. destruct (root_type s name d) as [o|]; [|injection A as <-; destruct I]. apply (beach_in _ _ _ A) in I. destruct I as [id [a' [_ [A' I]]]].
        destruct (existsb _ _); [|injection A' as <-; destruct I]. destruct (root_node s o); [|discriminate]. binds A'. injection A' as <-. destruct I as [I|[]]. discriminate.
      + destruct (link_sound s F lc L _ _ _ I) as (name & g & o & EN & -> & -> & ->). destruct (edge_clean _ _ _ (e_entry parse s name g o EN)) as [A B]. destruct MM as [-> | ->]; assumption.
  Qed.
  Lemma entries_ok : forall lc, link_cmds s = BOk lc -> forall name k, root_op s name k -> forall p,
    (exists n, In n (entries_of s (run_all tas_eqb (mkb [] []) (roots s ++ lc)) k) /\ place_of n = p) <-> exists g k', p = PType name g /\ enters s name g k'.
  Proof.
    intros lc L name k R p. destruct (run_places _ (first_tidy lc L)) as (SO & CO & ND & NI & NC & VA). set (b := run_all tas_eqb (mkb [] []) (roots s ++ lc)) in *.
    assert (ED : forall h m t, drawn b h m t <-> exists name g o, enters s name g o /\ h = PRoot name /\ m = GEntry g o /\ t = PType name g).
    { intros h m t. split.
      - intros (i & j & hn & tn & I & X & Y & <- & <-). destruct (SO _ _ _ _ _ I X Y) as (h' & t' & I' & <- & <-). apply in_app_or in I'. destruct I' as [I'|I'].
        + apply roots_in in I'. destruct I' as (? & ? & _ & [=]).
        + destruct (link_sound s F lc L _ _ _ I') as (nm & g & o & EN & -> & -> & ->). now exists nm, g, o.
      - intros (nm & g & o & EN & -> & -> & ->). destruct (CO (PRoot nm) (GEntry g o) (PType nm g)) as [m' [DR Q]].
        { exists (RootNode o nm), (TypeNode nm g false (Some SpRoot)). split; [|now split]. apply in_or_app. right. now apply (link_complete s F). }
        assert (EX : exists g' o', enters s nm g' o' /\ m' = GEntry g' o' /\ PType nm g = PType nm g').
        { destruct DR as (i & j & hn & tn & I & X & Y & HX & HY). destruct (SO _ _ _ _ _ I X Y) as (h' & t' & I' & HX' & HY'). apply in_app_or in I'. destruct I' as [I'|I'].
          - apply roots_in in I'. destruct I' as (? & ? & _ & [=]).
          - destruct (link_sound s F lc L _ _ _ I') as (nm' & g' & o' & EN' & -> & -> & ->). rewrite HX in HX'. rewrite HY in HY'. injection HX' as ->. injection HY' as ->. now exists g, o'. }
        destruct EX as (g' & o' & EN' & -> & EG). injection EG as <-. assert (o' = o) by (destruct EN as (? & ? & _ & _ & R1 & _); destruct EN' as (? & ? & _ & _ & R2 & _); exact (root_fun s _ _ _ R2 R1)). subst o'. exact DR. }
    unfold entries_of. rewrite (root_node_ok s _ _ R). destruct (index_of (display (RootNode k name)) (b_nodes b)) as [i|] eqn:IX.
    - apply index_some in IX. destruct IX as [r [RI RD]].
      assert (RP : place_of r = PRoot name).
      { rewrite !display_label in RD. apply label_inj in RD; [exact RD| |].
        - destruct (NI r (nth_error_In _ _ RI)) as [c [CI MM]]. exact (first_tidy lc L c r CI MM).
        - destruct (root_place _ _ (root_node_ok s _ _ R)) as (m & E & _ & C). injection E as <-. exact C. }
      split.
      + intros [n [I <-]]. apply in_flat_map in I. destruct I as [[[h t] m] [I J]]. destruct (Nat.eqb_spec h i) as [->|]; [|destruct J]. destruct (nth_error (b_nodes b) t) as [tn|] eqn:TN; [|destruct J]. destruct J as [<-|[]].
        destruct (proj1 (ED (place_of r) m (place_of tn))) as (nm & g & o & EN & H & -> & ->); [now exists i, t, r, tn|]. rewrite RP in H. injection H as <-. now exists g, o.
      + intros (g & k' & -> & EN). destruct (proj2 (ED (PRoot name) (GEntry g k') (PType name g))) as (i' & j & hn & tn & I & X & Y & HX & HY); [now exists name, g, k'|].
        assert (i' = i).
        { assert (X1 : nth_error (map place_of (b_nodes b)) i' = Some (PRoot name)) by (rewrite (map_nth_error _ _ _ X), HX; reflexivity).
          assert (X2 : nth_error (map place_of (b_nodes b)) i = Some (PRoot name)) by (rewrite (map_nth_error _ _ _ RI), RP; reflexivity).
          apply (proj1 (NoDup_nth_error (map place_of (b_nodes b))) ND); [apply nth_error_Some; congruence|congruence]. }
        subst i'. exists tn. split; [|exact HY]. apply in_flat_map. exists (i, j, GEntry g k'). split; [exact I|]. rewrite Nat.eqb_refl, Y. now left.
    - exfalso. apply index_none in IX. apply IX. destruct (NC (CNode (RootNode k name)) (RootNode k name)) as [m [I P]]; [apply in_or_app; left; apply roots_in; exists k, (RootNode k name); split; [now apply root_node_ok|reflexivity]|reflexivity|].
      apply in_map_iff. exists m. split; [|exact I]. rewrite !display_label. now rewrite P.
  Qed.
  (** ** The members that a node of a union lists *)
  Definition no_union (n : gnode) : Prop := match n with TypeNode _ _ _ (Some (SpUnion _ _ _ _)) => False | _ => True end.
  Definition listed (n : gnode) : Prop :=
    forall t g iobj o f m ms, n = TypeNode t g iobj (Some (SpUnion o f m ms)) -> exists d id sf mj req over u, resolves parse s o d id g f sf mj req over /\ union_type s (sf_type sf) u /\ t = sf_type sf /\ ms = union_members sf id u.
  Lemma no_union_listed : forall n, no_union n -> listed n.
  Proof. intros n U t g iobj o f m ms ->. destruct U. Qed.
  Section Every.
    Variable P : gnode -> Prop.
    Definition every (cs : list cmd) : Prop := forall c n, In c cs -> mentions c n -> P n.
    Lemma every_nil : every [].
    Proof. intros c n []. Qed.
    Lemma every_edge : forall h k t cs, P h -> P t -> every cs -> every (CEdge h k t :: cs).
    Proof. intros h k t cs H T E c n [<-|I] M; [destruct M as [-> | ->]; assumption|exact (E c n I M)]. Qed.
    Lemma every_node : forall h cs, P h -> every cs -> every (CNode h :: cs).
    Proof. intros h cs H E c n [<-|I] M; [cbn in M; now subst|exact (E c n I M)]. Qed.
    Lemma every_app : forall a b, every a -> every b -> every (a ++ b).
    Proof. intros a b A B c n I M. apply in_app_or in I. destruct I as [I|I]; [exact (A c n I M)|exact (B c n I M)]. Qed.
    Lemma every_beach : forall {A} (f : A -> bres (list cmd)) l r, beach f l = BOk r -> (forall x a, In x l -> f x = BOk a -> every a) -> every r.
    Proof. intros A f l r E H c n I M. apply (beach_in _ _ _ E) in I. destruct I as (x & a & X & FA & I). exact (H x a X FA c n I M). Qed.
    Lemma every_flat : forall {A} (f : A -> list cmd) l, (forall x, In x l -> every (f x)) -> every (flat_map f l).
    Proof. intros A f l H c n I M. apply in_flat_map in I. destruct I as [x [X I]]. exact (H x X c n I M). Qed.
  End Every.
  Lemma link_every : forall lc, link_cmds s = BOk lc -> every no_union lc.
  Proof.
    intros lc L. eapply every_beach; [exact L|]. intros [name d] a _ A. cbn beta in A. destruct (root_type s name d) as [o|]; [|injection A as <-; apply every_nil]. eapply every_beach; [exact A|]. intros id a' _ A'. cbn beta in A'.
    destruct (existsb _ _); [|injection A' as <-; apply every_nil]. destruct (root_node s o) as [r|] eqn:R; [|discriminate]. binds A'. injection A' as <-. destruct (root_place _ _ R) as (m & -> & _). apply every_edge; [exact I|exact I|apply every_nil].
  Qed.
  Lemma impl_every : forall ic, impl_cmds s = BOk ic -> every no_union ic.
  Proof.
    intros ic L. eapply every_beach; [exact L|]. intros [name d] a _ A. cbn beta in A. destruct (d_kind d); try (injection A as <-; apply every_nil). eapply every_beach; [exact A|]. intros y a' _ A'. cbn beta in A'. binds A'. injection A' as <-. apply every_edge; [exact I|exact I|apply every_nil].
  Qed.
  Lemma moves_every : forall head id type d a, no_union head -> moves_from parse s head id type d = BOk a -> every no_union a.
  Proof.
    intros head id type d a H A. eapply every_beach; [exact A|]. intros j a' _ A'. cbn beta in A'. destruct (key_of j); [|injection A' as <-; apply every_nil]. destruct (String.eqb _ _); [injection A' as <-; apply every_nil|]. binds A'. injection A' as <-. apply every_edge; [exact H|exact I|apply every_nil].
  Qed.
  Lemma item_every : forall id v x type d head a, no_union head -> view_item parse s id v type d head x = BOk a -> every no_union a.
  Proof.
    intros id v. induction x as [n al args inc skip om sub IH|c inc skip sub IH|n] using sel_ind'; intros type d head a H A.
    - cbn in A. destruct (lookup n (d_fields d)) as [f|]; [|discriminate]. apply bbind_ok in A. destruct A as [g [N A]].
      assert (HERE : forall rest, every no_union rest -> every no_union ([CEdge (TypeNode (sf_type f) g (is_iobj s (sf_type f) id) (Some (SpProvides v))) (GSelfie (sf_type f)) (TypeNode (sf_type f) g (is_iobj s (sf_type f) id) (Some (SpProvides v))); CEdge head (GField n type (is_scalar s type) (sf_list f) None None None) (TypeNode (sf_type f) g (is_iobj s (sf_type f) id) (Some (SpProvides v)))] ++ rest)).
      { intros rest R. cbn. apply every_edge; [exact I|exact I|]. apply every_edge; [exact H|exact I|exact R]. }
      destruct sub as [|x0 sub]; [injection A as <-; apply (HERE []); apply every_nil|]. destruct (lookup (sf_type f) (s_defs s)) as [d'|]; [|discriminate]. apply bbind_ok in A. destruct A as [rest [R A]]. injection A as <-. apply HERE.
      apply bbind_ok in R. destruct R as [m [M R]]. apply bbind_ok in R. destruct R as [r [R R']]. injection R' as <-. apply every_app; [eapply moves_every; [|exact M]; exact I|]. eapply every_beach; [exact R|]. intros y a' Y A'. cbn beta in A'. rewrite Forall_forall in IH. eapply (IH y Y); [|exact A']. exact I.
    - cbn in A. destruct (lookup c (s_defs s)) as [d'|]; [|discriminate]. apply bbind_ok in A. destruct A as [g [N A]]. apply bbind_ok in A. destruct A as [rest [R A]]. injection A as <-. apply every_edge; [exact I|exact I|]. apply every_edge; [exact H|exact I|].
      apply bbind_ok in R. destruct R as [m [M R]]. apply bbind_ok in R. destruct R as [r [R R']]. injection R' as <-. apply every_app; [eapply moves_every; [|exact M]; exact I|]. eapply every_beach; [exact R|]. intros y a' Y A'. cbn beta in A'. rewrite Forall_forall in IH. eapply (IH y Y); [|exact A']. exact I.
    - discriminate.
  Qed.
  Lemma views_every : forall name d id l v a, views parse s name d id v l = BOk a -> every no_union a.
  Proof.
    intros name d id. induction l as [|[[[fname f] j] p] l IH]; intros v a A; [injection A as <-; apply every_nil|]. cbn in A.
    apply bbind_ok in A. destruct A as [sels [_ A]]. apply bbind_ok in A. destruct A as [g [_ A]]. apply bbind_ok in A. destruct A as [req [_ A]]. destruct (lookup (sf_type f) (s_defs s)) as [d'|]; [|discriminate].
    apply bbind_ok in A. destruct A as [inner [IN A]]. apply bbind_ok in A. destruct A as [rest [R A]]. injection A as <-. apply every_edge; [exact I|exact I|]. apply every_edge; [exact I|exact I|]. apply every_app; [|exact (IH _ _ R)].
    unfold view_set in IN. apply bbind_ok in IN. destruct IN as [m [M IN]]. apply bbind_ok in IN. destruct IN as [r [IN R']]. injection R' as <-. apply every_app; [eapply moves_every; [|exact M]; exact I|]. eapply every_beach; [exact IN|]. intros y a' Y A'. cbn beta in A'. eapply item_every; [|exact A']. exact I.
  Qed.
  Lemma view_every : forall vc, view_cmds parse s = BOk vc -> every no_union vc.
  Proof.
    intros vc L. eapply every_beach; [exact L|]. intros [name d] a _ A. cbn beta in A. eapply every_beach; [exact A|]. intros jt a' _ A'. cbn beta in A'. apply bbind_ok in A'. destruct A' as [vs [V A']]. apply bbind_ok in A'. destruct A' as [ms [M A']]. injection A' as <-.
    apply every_app; [exact (views_every _ _ _ _ _ _ V)|]. destruct (providing (jt_graph jt) d); [injection M as <-; apply every_nil|]. apply bbind_ok in M. destruct M as [g [_ M]]. eapply moves_every; [|exact M]. exact I.
  Qed.
  Lemma entity_every : forall ec, entity_cmds parse s = BOk ec -> every no_union ec.
  Proof.
    intros ec L. eapply every_beach; [exact L|]. intros [name d] a _ A. cbn beta in A. eapply every_beach; [exact A|]. intros j1 a' _ A'. cbn beta in A'. apply bbind_ok in A'. destruct A' as [moves [M A']]. apply bbind_ok in A'. destruct A' as [objects [O A']]. injection A' as <-. apply every_app.
    - eapply every_beach; [exact M|]. intros j2 a' _ A'. cbn beta in A'. apply bbind_ok in A'. destruct A' as [g1 [_ A']]. destruct (String.eqb _ _); [destruct (key_of j1)|destruct (key_of j2)]; try (injection A' as <-; apply every_node; [exact I|apply every_nil]); binds A'; injection A' as <-; (apply every_edge; [exact I|exact I|apply every_nil]).
    - destruct (jt_iobj j1); [|injection O as <-; apply every_nil]. destruct (key_of j1); [|injection O as <-; apply every_nil]. apply bbind_ok in O. destruct O as [g1 [_ O]]. apply bbind_ok in O. destruct O as [tn [_ O]].
      eapply every_beach; [exact O|]. intros [on o] b _ B. cbn beta in B. destruct (d_kind o); try (injection B as <-; apply every_nil). destruct (existsb _ _); [|injection B as <-; apply every_nil]. apply bbind_ok in B. destruct B as [sl [_ B]]. apply bbind_ok in B. destruct B as [rest [R B]]. injection B as <-.
      apply every_edge; [exact I|exact I|]. eapply every_beach; [exact R|]. intros j2 c _ C. cbn beta in C. destruct (String.eqb _ _); [injection C as <-; apply every_nil|]. binds C. injection C as <-. apply every_edge; [exact I|exact I|apply every_nil].
  Qed.
  Lemma field_every : forall entries fc, (forall k n, In n (entries k) -> no_union n) -> field_cmds parse s entries = BOk fc -> every listed fc.
  Proof.
    intros entries fc EN L. eapply every_beach; [exact L|]. intros [name d] a D A. cbn beta in A. eapply every_beach; [exact A|]. intros id a' LV A'. cbn beta in A'. apply subgraphs_in in LV. apply bbind_ok in A'. destruct A' as [g [N A']]. apply names_ok in N; [|exact F].
    apply bbind_ok in A'. destruct A' as [rest [R A']]. injection A' as <-. apply every_app.
    - destruct (d_kind d); try (destruct (existsb _ (d_types d))); try apply every_nil; (apply every_edge; [now apply no_union_listed|now apply no_union_listed|apply every_nil]).
    - apply every_edge; [now apply no_union_listed|now apply no_union_listed|]. eapply every_beach; [exact R|]. intros [f sf] a'' X A''. cbn beta in A''. destruct (field_edges_ok parse s F entries _ _ _ _ _ _ D LV N X A'') as [[-> _]|(mj & req & over & RS & ->)]; [apply every_nil|]. cbn [fst snd] in *. cbn zeta.
      assert (PL : every listed (CEdge (TypeNode name g (is_iobj s name id) None) (GField f name (is_scalar s (sf_type sf)) (sf_list sf) (option_map no_provides mj) req over) (TypeNode (sf_type sf) g (is_iobj s (sf_type sf) id) None)
                   :: match root_kind s (sf_type sf) with
                      | None => []
                      | Some k => flat_map (fun n => match n with
                                                     | TypeNode _ g' _ _ => if String.eqb g' g then [] else [CEdge (TypeNode name g (is_iobj s name id) None) (GReentry f name (sf_list sf)) n]
                                                     | RootNode _ _ => []
                                                     end) (entries k)
                      end)).
      { apply every_edge; [now apply no_union_listed|now apply no_union_listed|]. destruct (root_kind s (sf_type sf)) as [k|]; [|apply every_nil]. apply every_flat. intros n IN. pose proof (EN k n IN) as U. destruct n as [? ?|t g' io sp]; [apply every_nil|]. destruct (String.eqb g' g); [apply every_nil|].
        apply every_edge; [now apply no_union_listed|now apply no_union_listed|apply every_nil]. }
      destruct (lookup (sf_type sf) (s_defs s)) as [u|] eqn:LU; [|exact PL]. destruct u as [[| | |] ty ow im me] eqn:EU; try exact PL. rewrite <- EU in *. apply every_flat. intros m MI.
      assert (TL : listed (TypeNode (sf_type sf) g (is_iobj s (sf_type sf) id) (Some (SpUnion name f m (union_members sf id u))))).
      { intros t g0 iobj o f0 m0 ms EQ. injection EQ as <- <- <- <- <- <- <-. exists d, id, sf, mj, req, over, u. split; [exact RS|]. split; [split; [now apply lookup_in|now rewrite EU]|]. now split. }
      apply every_edge; [exact TL|now apply no_union_listed|]. apply every_edge; [now apply no_union_listed|exact TL|]. apply every_edge; [exact TL|now apply no_union_listed|apply every_nil].
  Qed.
  Lemma all_cmds : forall b, build parse tas_eqb s = BOk b -> exists cs, b = run_all tas_eqb (mkb [] []) cs /\ tidy cs /\
    (forall h k t, put cs h k t <-> edge h k t) /\
    (forall n, In (CNode n) cs -> (exists m, place_of n = PRoot m /\ root_name s m) \/ exists name g, place_of n = PType name g /\ edge (PType name g) (GSelfie name) (PType name g)) /\
    (forall m, root_name s m -> exists n, In (CNode n) cs /\ place_of n = PRoot m) /\
    every listed cs.
  Proof.
    intros b E. destruct (build_parts b E) as (lc & fc & ic & ec & vc & L & FC & IC & EC & VC & ->). pose proof (entries_ok lc L) as ENT. set (entries := entries_of s (run_all tas_eqb (mkb [] []) (roots s ++ lc))) in *.
    exists ((roots s ++ lc) ++ fc ++ ic ++ ec ++ vc). split; [reflexivity|].
    assert (NM : forall name d id, defined name d -> lives d id -> exists g, known_as id g).
    { intros name d id D LV. destruct (beach_all _ _ _ FC _ D) as [a A]. cbn in A. apply subgraphs_in in LV. destruct (beach_all _ _ _ A _ LV) as [a' A']. cbn in A'. apply bbind_ok in A'. destruct A' as [g [N _]]. exists g. now apply names_ok. }
    assert (LS : forall hn k tn, In (CEdge hn k tn) lc -> edge (place_of hn) k (place_of tn)).
    { intros hn k tn I. destruct (link_sound s F lc L _ _ _ I) as (name & g & o & EN & -> & -> & ->). cbn. now constructor. }
    destruct (entity_sound parse s F ec EC) as [ES EN]. pose proof (view_sound parse s F vc NM VC) as VS.
    assert (SOUND : forall hn k tn, In (CEdge hn k tn) ((roots s ++ lc) ++ fc ++ ic ++ ec ++ vc) -> edge (place_of hn) k (place_of tn)).
    { intros hn k tn I. rewrite !in_app_iff in I. destruct I as [[I|I]|[I|[I|[I|I]]]].
      - apply roots_in in I. destruct I as (? & ? & _ & [=]).
      - now apply LS.
      - exact (field_sound parse s F entries ENT fc FC _ _ _ I).
      - exact (impl_sound parse s F ic IC _ _ _ I).
      - now apply ES.
      - exact (VS _ I). }
    assert (FN : forall n, ~ In (CNode n) fc).
    { intros n I. apply (beach_in _ _ _ FC) in I. destruct I as [[name d] [a [D [A I]]]]. apply (beach_in _ _ _ A) in I. destruct I as [id [a' [LV [A' I]]]]. apply subgraphs_in in LV.
      apply bbind_ok in A'. destruct A' as [g [N A']]. apply names_ok in N; [|exact F]. apply bbind_ok in A'. destruct A' as [rest [RE A']]. injection A' as <-. apply in_app_or in I. destruct I as [I|[I|I]]; [|discriminate|].
      - destruct (d_kind d); try (destruct (existsb _ (d_types d))); try destruct I as [I|[]]; try discriminate; try destruct I.
      - apply (beach_in _ _ _ RE) in I. destruct I as [[f sf] [a'' [X [A'' I]]]]. destruct (field_edges_ok parse s F entries _ _ _ _ _ _ D LV N X A'') as [[-> _]|(mj & req & over & R & C)]; [destruct I|]. cbn [fst snd] in C. cbn zeta in C.
        assert (Y : forall l : list gnode, ~ In (CNode n) (flat_map (fun m => match m with TypeNode _ g' _ _ => if String.eqb g' g then [] else [CEdge (TypeNode name g (is_iobj s name id) None) (GReentry f name (sf_list sf)) m] | RootNode _ _ => [] end) l)).
        { intros l J. apply in_flat_map in J. destruct J as [[? ?|? g' ? ?] [_ J]]; [destruct J|]. destruct (String.eqb g' g); [destruct J|destruct J as [J|[]]; discriminate]. }
        destruct (lookup (sf_type sf) (s_defs s)) as [[[| | |] ty ow im me]|]; subst a''; try (destruct I as [I|I]; [discriminate|]; destruct (root_kind s (sf_type sf)); [now apply Y in I|destruct I]).
        apply in_flat_map in I. destruct I as [m [_ [I|[I|[I|[]]]]]]; discriminate. }
    assert (IN0 : forall n, ~ In (CNode n) ic).
    { intros n I. apply (beach_in _ _ _ IC) in I. destruct I as [[name d] [a [D [A I]]]]. destruct (d_kind d); try (injection A as <-; destruct I; fail). apply (beach_in _ _ _ A) in I. destruct I as [[id iface] [a' [_ [A' I]]]]. binds A'. injection A' as <-. destruct I as [I|[]]. discriminate. }
    assert (LN : forall n, ~ In (CNode n) lc).
    { intros n I. apply (beach_in _ _ _ L) in I. destruct I as [[name d] [a [D [A I]]]]. destruct (root_type s name d) as [o|]; [|injection A as <-; destruct I]. apply (beach_in _ _ _ A) in I. destruct I as [id [a' [_ [A' I]]]].
      destruct (existsb _ _); [|injection A' as <-; destruct I]. destruct (root_node s o); [|discriminate]. binds A'. injection A' as <-. destruct I as [I|[]]. discriminate. }
    assert (NODE : forall n, In (CNode n) ((roots s ++ lc) ++ fc ++ ic ++ ec ++ vc) -> (exists m, place_of n = PRoot m /\ root_name s m /\ clean_type m) \/ exists name g, place_of n = PType name g /\ edge (PType name g) (GSelfie name) (PType name g)).
    { intros n I. rewrite !in_app_iff in I. destruct I as [[I|I]|[I|[I|[I|I]]]].
      - apply roots_in in I. destruct I as (k & m & R & X). injection X as <-. destruct (root_place _ _ R) as (m & -> & RN & C). left. now exists m.
      - now apply LN in I.
      - now apply FN in I.
      - now apply IN0 in I.
      - destruct (EN n I) as (name & d & id & g & D & LV & N & P). right. exists name, g. split; [exact P|]. now apply (e_self parse s name d id g).
      - destruct (VS _ I). }
    split; [|split; [|split; [|split]]].
    - intros c n I MM. destruct c as [m|hn k tn].
      + cbn in MM. subst m. destruct (NODE n I) as [(m & -> & _ & C)|(name & g & -> & ED)]; [exact C|]. now apply edge_clean in ED.
      + apply SOUND in I. apply edge_clean in I. destruct MM as [-> | ->]; tauto.
    - intros h k t. split; [intros (hn & tn & I & <- & <-); now apply SOUND|]. intros ED.
      assert (P1 : forall h k t, put lc h k t -> put ((roots s ++ lc) ++ fc ++ ic ++ ec ++ vc) h k t) by (intros ? ? ? P; eapply put_incl; [exact P|]; intros y Y; rewrite !in_app_iff; tauto).
      assert (P2 : forall h k t, put fc h k t -> put ((roots s ++ lc) ++ fc ++ ic ++ ec ++ vc) h k t) by (intros ? ? ? P; eapply put_incl; [exact P|]; intros y Y; rewrite !in_app_iff; tauto).
      assert (P3 : forall h k t, put ic h k t -> put ((roots s ++ lc) ++ fc ++ ic ++ ec ++ vc) h k t) by (intros ? ? ? P; eapply put_incl; [exact P|]; intros y Y; rewrite !in_app_iff; tauto).
      assert (P4 : forall h k t, put ec h k t -> put ((roots s ++ lc) ++ fc ++ ic ++ ec ++ vc) h k t) by (intros ? ? ? P; eapply put_incl; [exact P|]; intros y Y; rewrite !in_app_iff; tauto).
      assert (P5 : forall h k t, put vc h k t -> put ((roots s ++ lc) ++ fc ++ ic ++ ec ++ vc) h k t) by (intros ? ? ? P; eapply put_incl; [exact P|]; intros y Y; rewrite !in_app_iff; tauto).
      destruct ED as [name g k EN'|name d id g D LV N K IO|name d id g D LV N|name d id g f sf mj req over leaf R SC NU|name d id g f sf mj req over g' k R NU EN' NE|name d id g f sf mj req over leaf u m R SC U M|name d id g f sf mj req over u m R U M|name d id g f sf mj req over u m R U M|name d id g iface D K I N|name d j1 j2 key x g1 g2 b' D J1 J2 N1 N2 K P B|name d j key g o od x id D J IO K N OD KO IM P|name d j key g o od x id j2 g2 b' D J IO K N OD KO IM J2 NE N2 P B|name d id g f sf j text v req leaf D LV N VO W SC|name d id g f sf j text v D LV N VO|name d id g f sf j text v df l h k t D LV N VO DD P V].
      + apply P1. exists (RootNode k name), (TypeNode name g false (Some SpRoot)). split; [now apply (link_complete s F)|now split].
      + apply P2. destruct (field_at parse s F entries fc _ _ _ _ FC D LV N) as (_ & X & _). do 2 eexists. split; [now apply X|now split].
      + apply P2. destruct (field_at parse s F entries fc _ _ _ _ FC D LV N) as (X & _). do 2 eexists. split; [exact X|now split].
      + apply P2. destruct (resolves_at parse s F entries ENT fc _ _ _ _ _ _ _ _ _ FC R) as [_ X]. rewrite (same_bool _ _ _ SC (scalar_ok s _)). do 2 eexists. split; [exact (proj1 (X NU))|now split].
      + apply P2. destruct (resolves_at parse s F entries ENT fc _ _ _ _ _ _ _ _ _ FC R) as [_ X]. exact (proj2 (X NU) g' k EN' NE).
      + apply P2. destruct (resolves_at parse s F entries ENT fc _ _ _ _ _ _ _ _ _ FC R) as [X _]. rewrite (same_bool _ _ _ SC (scalar_ok s _)). destruct (X u m U M) as (_ & Y & _). do 2 eexists. split; [exact Y|now split].
      + apply P2. destruct (resolves_at parse s F entries ENT fc _ _ _ _ _ _ _ _ _ FC R) as [X _]. destruct (X u m U M) as (Y & _ & _). do 2 eexists. split; [exact Y|now split].
      + apply P2. destruct (resolves_at parse s F entries ENT fc _ _ _ _ _ _ _ _ _ FC R) as [X _]. destruct (X u m U M) as (_ & _ & Y). do 2 eexists. split; [exact Y|now split].
      + apply P3. do 2 eexists. split; [exact (impl_complete s F ic IC name d id g iface D K I N)|now split].
      + apply P4. exact (entity_complete parse s F ec EC name d j1 j2 key x g1 g2 b' D J1 J2 N1 N2 K P B).
      + apply P4. destruct (object_complete parse s F ec EC name d j key g o od id D J IO K N OD KO IM) as [X _]. exact (X x P).
      + apply P4. destruct (object_complete parse s F ec EC name d j key g o od id D J IO K N OD KO IM) as [_ X]. exact (X x j2 g2 b' J2 NE N2 P B).
      + apply P5. destruct (view_complete parse s F vc VC _ _ _ _ _ _ _ _ _ D LV N VO) as (_ & X & _). now apply X.
      + apply P5. now destruct (view_complete parse s F vc VC _ _ _ _ _ _ _ _ _ D LV N VO) as (X & _ & _).
      + apply P5. destruct (view_complete parse s F vc VC _ _ _ _ _ _ _ _ _ D LV N VO) as (_ & _ & X). exact (X l h k t P V).
    - intros n I. destruct (NODE n I) as [(m & P & RN & _)|X]; [left; now exists m|now right].
    - intros m RN. assert (exists k, root_node s k = Some (RootNode k m)).
      { destruct RN as [Q|[Q|Q]]; [exists OpQuery; cbn; now rewrite Q|exists OpMutation; cbn; now rewrite Q|exists OpSubscription; cbn; now rewrite Q]. }
      destruct H as [k R]. exists (RootNode k m). split; [|reflexivity]. rewrite !in_app_iff. left. left. apply roots_in. now exists k, (RootNode k m).
    - intros c n I MM. rewrite !in_app_iff in I. destruct I as [[I|I]|[I|[I|[I|I]]]].
      + apply roots_in in I. destruct I as (k & m & R & ->). cbn in MM. subst m. destruct (root_place _ _ R) as (m & -> & _). now apply no_union_listed.
      + apply no_union_listed. exact (link_every lc L c n I MM).
      + refine (field_every entries fc _ FC c n I MM). intros k m EI. unfold entries, entries_of in EI. destruct (root_node s k); [|destruct EI]. destruct (index_of _ _); [|destruct EI]. apply in_flat_map in EI. destruct EI as [[[h t] e] [_ EI]]. destruct (Nat.eqb h n0); [|destruct EI].
        destruct (nth_error _ t) as [y|] eqn:Y; [|destruct EI]. destruct EI as [<-|[]]. apply nth_error_In in Y. destruct (run_places _ (first_tidy lc L)) as (_ & _ & _ & NI & _). destruct (NI y Y) as (c' & CI & CM). apply in_app_or in CI. destruct CI as [CI|CI].
        * apply roots_in in CI. destruct CI as (k' & m' & R & ->). cbn in CM. subst m'. destruct (root_place _ _ R) as (m' & -> & _). exact Logic.I.
        * exact (link_every lc L c' y CI CM).
      + apply no_union_listed. exact (impl_every ic IC c n I MM).
      + apply no_union_listed. exact (entity_every ec EC c n I MM).
      + apply no_union_listed. exact (view_every vc VC c n I MM).
  Qed.
End Main.
