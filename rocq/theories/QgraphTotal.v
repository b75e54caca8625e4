(** A graph can be built of any supergraph that names only what it defines. *)
From Coq Require Import Ascii String List NArith Bool Arith Lia.
From Verif Require Import StrOrd StrUtil Ast QplanModel OverrideModel NormModel PathModel OpwalkModel FragDoc QgraphModel QgraphSpec QgraphBase QgraphRun QgraphPhases QgraphViews.
Import ListNotations.
Local Open Scope string_scope.
Local Open Scope list_scope.

Lemma beach_total : forall {A B} (f : A -> bres (list B)) l, (forall x, In x l -> exists a, f x = BOk a) -> exists r, beach f l = BOk r.
Proof.
  intros A B f l. induction l as [|x l IH]; intros H; [now exists []|]. destruct (H x (or_introl eq_refl)) as [a E]. destruct IH as [r R]; [intros y Y; apply H; now right|]. exists (a ++ r). cbn. rewrite E. cbn. now rewrite R.
Qed.
Section Total.
  Variable parse : string -> string -> string -> option (list sel).
  Variable s : sstate.
  Hypothesis F : fine s.
  Hypothesis C : closed parse s.
  Notation defined := (defined s).
  Lemma name_total : forall name d id, defined name d -> lives d id -> exists g, graph_name s id = BOk g.
  Proof. intros name d id D (j & J & <-). destruct C as (C1 & _). destruct (C1 _ _ _ D J) as ((g & K) & _). exists g. now apply names_ok. Qed.
  Lemma sel_total : forall id t text l, parse id t text = Some l -> selection parse id t text = BOk (mktas t l).
  Proof. intros id t text l E. apply selection_ok. now exists l. Qed.
  Lemma moves_total : forall head id type d, defined type d -> exists a, moves_from parse s head id type d = BOk a.
  Proof.
    intros head id type d D. apply beach_total. intros j J. destruct (key_of j) as [key|] eqn:K; [|now eexists]. destruct (String.eqb _ _); [now eexists|]. apply key_ok in K.
    destruct C as (C1 & _). destruct (C1 _ _ _ D J) as ((g & G) & KK & _). destruct (KK _ K) as [l L]. apply (names_ok s F) in G. rewrite G. cbn. rewrite (sel_total _ _ _ _ L). cbn. now eexists.
  Qed.
  Lemma item_total : forall id v x type d head l g, graph_name s id = BOk g -> defined type d -> shown s type l -> In x l -> exists a, view_item parse s id v type d head x = BOk a.
  Proof.
    intros id v. induction x as [n al args inc skip om sub IH|c inc skip sub IH|n] using sel_ind'; intros type d head l g G D SH X; inversion SH as [? d0 ? D0 SF SG SS]; subst; pose proof (defs_fun s F _ _ _ D D0) as <-.
    - destruct (SF _ _ _ _ _ _ _ X) as (sf & HF & O). cbn. rewrite (proj2 (fields_ok s F _ _ _ _ D) HF), G. cbn. destruct sub as [|y sub]; [now eexists|]. destruct O as [O|SH']; [discriminate|].
      inversion SH' as [? d' ? D' _ _ _]; subst. rewrite (proj2 (defs_ok s F _ _) D'). destruct (moves_total (TypeNode (sf_type sf) g (is_iobj s (sf_type sf) id) (Some (SpProvides v))) id (sf_type sf) d' D') as [m M]. rewrite M. cbn [bbind].
      destruct (beach_total (view_item parse s id v (sf_type sf) d' (TypeNode (sf_type sf) g (is_iobj s (sf_type sf) id) (Some (SpProvides v)))) (y :: sub)) as [r R].
      { intros z Z. rewrite Forall_forall in IH. exact (IH z Z (sf_type sf) d' _ (y :: sub) g G D' SH' Z). }
      rewrite R. cbn. now eexists.
    - specialize (SG _ _ _ _ X). inversion SG as [? d' ? D' _ _ _]; subst. cbn. rewrite (proj2 (defs_ok s F _ _) D'), G. cbn. destruct (moves_total (TypeNode c g (is_iobj s c id) (Some (SpProvides v))) id c d' D') as [m M]. rewrite M. cbn [bbind].
      destruct (beach_total (view_item parse s id v c d' (TypeNode c g (is_iobj s c id) (Some (SpProvides v)))) sub) as [r R].
      { intros z Z. rewrite Forall_forall in IH. exact (IH z Z c d' _ sub g G D' SG Z). }
      rewrite R. cbn. now eexists.
    - now apply SS in X.
  Qed.
  Lemma req_total : forall name d id f sf j, defined name d -> has_field d f sf -> In j (sf_joins sf) -> jf_graph j = Some id -> lives d id -> exists r, required parse name (Some j) = BOk r.
  Proof.
    intros name d id f sf j D HF J G L. destruct C as (_ & _ & C3). destruct (C3 _ _ _ _ _ D HF J) as [_ X]. destruct (X _ G L) as [R _]. cbn. destruct (jf_requires j) as [r|]; [|now eexists]. destruct (R r eq_refl) as [l P]. rewrite G. cbn. rewrite (sel_total _ _ _ _ P). cbn. now eexists.
  Qed.
  Lemma views_total : forall name d id g l v, defined name d -> lives d id -> graph_name s id = BOk g ->
    (forall f sf j p, In (f, sf, j, p) l -> has_field d f sf /\ In j (sf_joins sf) /\ jf_graph j = Some id /\ jf_provides j = Some p) -> exists a, views parse s name d id v l = BOk a.
  Proof.
    intros name d id g l. induction l as [|[[[f sf] j] p] l IH]; intros v D L G H; [now eexists|]. destruct (H f sf j p (or_introl eq_refl)) as (HF & J & JG & JP). destruct C as (_ & _ & C3). destruct (C3 _ _ _ _ _ D HF J) as [_ X]. destruct (X _ JG L) as [_ PR]. destruct (PR _ JP) as (x & P & SH).
    destruct (req_total _ _ _ _ _ _ D HF J JG L) as [r R]. inversion SH as [? d' ? D' _ _ _]; subst. cbn [views]. rewrite P, G. cbn [bbind or_panic]. rewrite R. cbn [bbind]. rewrite (proj2 (defs_ok s F _ _) D'). unfold view_set.
    destruct (moves_total (TypeNode (sf_type sf) g (is_iobj s (sf_type sf) id) (Some (SpProvides v))) id (sf_type sf) d' D') as [m M]. rewrite M. cbn [bbind].
    destruct (beach_total (view_item parse s id v (sf_type sf) d' (TypeNode (sf_type sf) g (is_iobj s (sf_type sf) id) (Some (SpProvides v)))) x) as [y Y].
    { intros z Z. exact (item_total id v z (sf_type sf) d' _ x g G D' SH Z). }
    rewrite Y. cbn [bbind]. destruct (IH (v + 1)%N D L G) as [rest RE]; [intros; apply H; now right|]. rewrite RE. cbn. now eexists.
  Qed.
  Lemma over_total : forall name d f sf g, defined name d -> has_field d f sf -> exists o, overridden_by s g (sf_joins sf) = BOk o.
  Proof.
    intros name d f sf g D HF. destruct C as (_ & _ & C3). assert (H : forall j, In j (sf_joins sf) -> forall from, jf_override j = Some from -> exists id g, jf_graph j = Some id /\ known_as s id g) by (intros j J; exact (proj1 (C3 _ _ _ _ _ D HF J))).
    clear - H F. induction (sf_joins sf) as [|j l IH]; [now eexists|]. cbn. destruct (jf_override j) as [from|] eqn:O.
    - destruct (String.eqb from g); [|apply IH; intros x X; apply H; now right]. destruct (H j (or_introl eq_refl) _ O) as (id & gr & JG & K). rewrite JG. apply (names_ok s F) in K. unfold graph_name in K. destruct (lookup id (s_names s)); [now eexists|discriminate].
    - apply IH. intros x X. apply H. now right.
  Qed.
  Lemma build_total : forall tas_eqb, exists b, build parse tas_eqb s = BOk b.
  Proof.
    intros tas_eqb. unfold build.
    assert (L : exists lc, link_cmds s = BOk lc).
    { apply beach_total. intros [name d] D. unfold root_type. destruct (root_kind s name) as [k|] eqn:K; [|destruct (d_kind d); now eexists]. destruct (d_kind d); try now eexists. apply beach_total. intros id LV. apply subgraphs_in in LV. destruct (existsb _ _); [|now eexists].
      apply root_ok in K. rewrite (root_node_ok s _ _ K). destruct (name_total _ _ _ D LV) as [g G]. rewrite G. cbn. now eexists. }
    destruct L as [lc L]. rewrite L. cbn [bbind]. set (entries := entries_of s _). clearbody entries.
    assert (FC : exists fc, field_cmds parse s entries = BOk fc).
    { apply beach_total. intros [name d] D. apply beach_total. intros id LV. apply subgraphs_in in LV. destruct (name_total _ _ _ D LV) as [g G]. rewrite G. cbn [bbind].
      destruct (beach_total (field_edges parse s entries name d id) (d_fields d)) as [r R]; [|rewrite R; cbn; now eexists]. intros [f sf] X. apply fields_iff in X. unfold field_edges. destruct (availability sf id d) as [av mj] eqn:AV. destruct av; [|now eexists]. apply (avail_ok _ _ _ _ LV) in AV.
      rewrite G. cbn [bbind]. destruct (over_total _ _ _ _ g D X) as [o O]. rewrite O. cbn [bbind]. match goal with |- context [if ?c then _ else _] => destruct c end; [now eexists|].
      assert (RQ : exists r, required parse name mj = BOk r).
      { destruct mj as [j|]; [|now eexists]. cbn in AV. pose proof (first_in _ _ _ AV) as J. destruct AV as (pa & pb & E & JG & _). exact (req_total _ _ _ _ _ _ D X J JG LV). }
      destruct RQ as [r R]. rewrite R. cbn [bbind]. destruct (lookup (sf_type sf) (s_defs s)) as [[[| | |] ? ? ? ?]|]; now eexists. }
    destruct FC as [fc FC]. rewrite FC. cbn [bbind].
    assert (IC : exists ic, impl_cmds s = BOk ic).
    { apply beach_total. intros [name d] D. destruct (d_kind d); try now eexists. apply beach_total. intros [id t] I. destruct C as (_ & C2 & _). destruct (C2 _ _ _ _ D I) as [g G]. apply (names_ok s F) in G. cbn. rewrite G. cbn. now eexists. }
    destruct IC as [ic IC]. rewrite IC. cbn [bbind].
    assert (EC : exists ec, entity_cmds parse s = BOk ec).
    { apply beach_total. intros [name d] D. apply beach_total. intros j1 J1. destruct C as (C1 & _). destruct (C1 _ _ _ D J1) as ((g1 & G1) & K1 & T1). apply (names_ok s F) in G1.
      assert (M : exists moves, beach (fun j2 =>
          g1 <<- graph_name s (jt_graph j1);
          let head := TypeNode name g1 (jt_iobj j1) None in
          if String.eqb (jt_graph j1) (jt_graph j2)
          then match key_of j1 with
               | Some key => sel <<- selection parse (jt_graph j1) name key; BOk [CEdge head (GEntity key sel (is_interface d)) head]
               | None => BOk [CNode head]
               end
          else match key_of j2 with
               | Some key => g2 <<- graph_name s (jt_graph j2); sel <<- selection parse (jt_graph j2) name key;
                             BOk [CEdge head (GEntity key sel (is_interface d)) (TypeNode name g2 (jt_iobj j2) None)]
               | None => BOk [CNode head]
               end) (d_types d) = BOk moves).
      { apply beach_total. intros j2 J2. rewrite G1. cbn [bbind]. destruct (C1 _ _ _ D J2) as ((g2 & G2) & K2 & _). apply (names_ok s F) in G2. destruct (String.eqb _ _).
        - destruct (key_of j1) as [key|] eqn:K; [|now eexists]. apply key_ok in K. destruct (K1 _ K) as [l P]. rewrite (sel_total _ _ _ _ P). cbn. now eexists.
        - destruct (key_of j2) as [key|] eqn:K; [|now eexists]. apply key_ok in K. destruct (K2 _ K) as [l P]. rewrite G2. cbn. rewrite (sel_total _ _ _ _ P). cbn. now eexists. }
      destruct M as [moves M]. cbv zeta in M |- *. rewrite M. cbn [bbind]. destruct (jt_iobj j1) eqn:IO; [|now eexists]. destruct (key_of j1) as [key|] eqn:K; [|now eexists]. apply key_ok in K. destruct (K1 _ K) as [l P]. destruct (T1 eq_refl) as [l' P']. rewrite G1. cbn [bbind]. rewrite (sel_total _ _ _ _ P'). cbn [bbind].
      match goal with |- context [bbind (beach ?f ?l) _] => destruct (beach_total f l) as [o O] end; [|rewrite O; cbn; now eexists].
      intros [on od] OD. destruct (d_kind od); try now eexists. destruct (existsb _ _); [|now eexists]. rewrite (sel_total _ _ _ _ P). cbn [bbind]. match goal with |- context [bbind (beach ?f ?l) _] => destruct (beach_total f l) as [o O] end; [|rewrite O; cbn; now eexists].
      intros j2 J2. destruct (String.eqb _ _); [now eexists|]. destruct (C1 _ _ _ OD J2) as ((g2 & G2) & _). apply (names_ok s F) in G2. rewrite G2. cbn. now eexists. }
    destruct EC as [ec EC]. rewrite EC. cbn [bbind].
    assert (VC : exists vc, view_cmds parse s = BOk vc).
    { apply beach_total. intros [name d] D. apply beach_total. intros jt JT. assert (LV : lives d (jt_graph jt)) by now exists jt. destruct (name_total _ _ _ D LV) as [g G].
      destruct (views_total name d (jt_graph jt) g (providing (jt_graph jt) d) 1%N D LV G) as [vs V].
      { intros f sf j p I. apply in_split in I. destruct I as (pre & post & E). assert (VO : view_of d (jt_graph jt) f sf j p (1 + N.of_nat (length pre))%N) by (apply providing_ok; now exists pre, post).
        destruct VO as (K & JG & JP & a & b & ja & jb & EO & EJ & _). split; [split; [exact K|rewrite EO]|split; [rewrite EJ|now split]]; apply in_or_app; right; now left. }
      cbv zeta. rewrite V. cbn [bbind]. destruct (providing (jt_graph jt) d); [now eexists|]. rewrite G. cbn [bbind]. destruct (moves_total (TypeNode name g (is_iobj s name (jt_graph jt)) None) (jt_graph jt) name d D) as [m M]. rewrite M. cbn. now eexists. }
    destruct VC as [vc VC]. rewrite VC. cbn. now eexists.
  Qed.
End Total.
