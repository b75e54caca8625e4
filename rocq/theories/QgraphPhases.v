(** The edges that each phase of the builder puts in are those that the supergraph allows. *)
From Coq Require Import Ascii String List NArith Bool Arith Lia.
From Verif Require Import StrOrd StrUtil Ast QplanModel OverrideModel NormModel PathModel OpwalkModel QgraphModel QgraphSpec QgraphBase.
Import ListNotations.
Local Open Scope string_scope.
Local Open Scope list_scope.

Ltac binds H := repeat (apply bbind_ok in H; let x := fresh "a" in let E := fresh "E" in destruct H as [x [E H]]).

(** ** Directives *)
Lemma find_first : forall id l j, find (in_graph id) l = Some j <-> first_for id l j.
Proof.
  intros id l j. assert (IG : forall x, in_graph id x = true <-> jf_graph x = Some id).
  { intros x. unfold in_graph. destruct (jf_graph x) as [g|]; [|split; discriminate]. rewrite String.eqb_eq. split; congruence. }
  induction l as [|x l IH]; cbn.
  - split; [discriminate|]. intros (a & b & E & _). destruct a; discriminate.
  - destruct (in_graph id x) eqn:X.
    + split.
      * intros [= ->]. exists [], l. split; [reflexivity|]. split; [now apply IG|intros y []].
      * intros (a & b & E & G & N). destruct a as [|y a]; [injection E as -> ->; reflexivity|]. injection E as -> ->. exfalso. apply (N y); [now left|]. now apply IG.
    + rewrite IH. split.
      * intros (a & b & -> & G & N). exists (x :: a), b. split; [reflexivity|]. split; [exact G|]. intros y [<-|I]; [|now apply N]. intros F. apply IG in F. congruence.
      * intros (a & b & E & G & N). destruct a as [|y a]; [injection E as -> ->; apply IG in G; congruence|]. injection E as -> ->. exists a, b. split; [reflexivity|]. split; [exact G|]. intros z I. apply N. now right.
Qed.
Lemma first_in : forall id l j, first_for id l j -> In j l.
Proof. intros id l j (a & b & -> & _). apply in_or_app. right. now left. Qed.
Lemma avail_ok : forall f id d mj, lives d id -> (availability f id d = (true, mj) <-> offered id f mj).
Proof.
  intros f id d mj L. unfold availability, offered. destruct (sf_joins f) as [|j l] eqn:J.
  - assert (H : has id (subgraphs d) = true) by (apply has_iff; now apply subgraphs_in). rewrite H. destruct mj as [j|]; [|split; reflexivity].
    split; [discriminate|]. intros (a & b & E & _). destruct a; discriminate.
  - rewrite <- J. destruct (find (in_graph id) (sf_joins f)) as [x|] eqn:F.
    + destruct mj as [y|]; [|split; [discriminate|congruence]]. split; [intros [= <-]; now apply find_first|]. intros G. apply find_first in G. congruence.
    + split; [discriminate|]. destruct mj as [y|]; [|congruence]. intros G. apply find_first in G. congruence.
Qed.
Lemma hidden_ok : forall mj, (match mj with Some j => jf_external j && match jf_requires j with None => true | Some _ => false end | None => false end) = true <-> hidden mj.
Proof.
  intros [j|]; [|split; [discriminate|now intros [j [[=] _]]]]. rewrite andb_true_iff. split.
  - intros [A B]. exists j. split; [reflexivity|]. split; [exact A|]. now destruct (jf_requires j).
  - intros [j' [[= <-] [A B]]]. now rewrite B.
Qed.
Lemma key_ok : forall j key, key_of j = Some key <-> key_in j key.
Proof. intros j key. unfold key_of, key_in. destruct (jt_resolvable j); [tauto|]. split; [discriminate|]. now intros [[=] _]. Qed.
Lemma is_interface_ok : forall d, is_interface d = true <-> d_kind d = DInterface.
Proof. intros d. unfold is_interface. destruct (d_kind d); split; congruence. Qed.
Lemma same_bool : forall (P : Prop) a b, (a = true <-> P) -> (b = true <-> P) -> a = b.
Proof. intros P [|] [|] A B; try reflexivity; [symmetry; apply B; now apply A|apply A; now apply B]. Qed.
Lemma no_provides_ok : forall mj, option_map no_provides mj = option_map without_provides mj.
Proof. now intros [j|]. Qed.

Section Phases.
  Variable parse : string -> string -> string -> option (list sel).
  Variable s : sstate.
  Hypothesis F : fine s.
  Notation edge := (edge parse s).
  Notation defined := (defined s).
  Notation known_as := (known_as s).

  Lemma names_ok : forall id g, graph_name s id = BOk g <-> known_as id g.
  Proof.
    destruct F as (_ & N & _). intros id g. unfold graph_name, QgraphSpec.known_as. destruct (lookup id (s_names s)) as [n|] eqn:L.
    - split; [intros [= <-]; now apply lookup_in|]. intros I. apply (in_lookup _ _ _ N) in I. congruence.
    - split; [discriminate|]. intros I. apply (in_lookup _ _ _ N) in I. congruence.
  Qed.
  Lemma names_fun : forall id g g', known_as id g -> known_as id g' -> g = g'.
  Proof. intros id g g' A B. apply names_ok in A. apply names_ok in B. congruence. Qed.
  Lemma ids_fun : forall id id' g, known_as id g -> known_as id' g -> id = id'.
  Proof. destruct F as (_ & _ & N & _). intros id id' g A B. exact (one_key g g _ N _ _ A B eq_refl). Qed.
  Lemma defs_ok : forall t d, lookup t (s_defs s) = Some d <-> defined t d.
  Proof. destruct F as (N & _). intros t d. split; [apply lookup_in|now apply in_lookup]. Qed.
  Lemma defs_fun : forall t d d', defined t d -> defined t d' -> d = d'.
  Proof. intros t d d' A B. apply defs_ok in A. apply defs_ok in B. congruence. Qed.
  Lemma fields_iff : forall d f sf, In (f, sf) (d_fields d) <-> has_field d f sf.
  Proof.
    intros d f sf. unfold d_fields, has_field. destruct (d_kind d); split; try (intros []; fail); try (intros I; split; [|exact I]; auto; fail); try (intros [_ I]; exact I); intros [[K|K] _]; discriminate.
  Qed.
  Lemma fields_ok : forall name d f sf, defined name d -> (lookup f (d_fields d) = Some sf <-> has_field d f sf).
  Proof.
    intros name d f sf D. destruct F as (_ & _ & _ & N & _). specialize (N _ _ D).
    assert (N' : NoDup (map fst (d_fields d))) by (unfold d_fields; destruct (d_kind d); try exact N; constructor).
    rewrite <- fields_iff. split; [apply lookup_in|now apply in_lookup].
  Qed.
  Lemma field_fun : forall name d f sf sf', defined name d -> has_field d f sf -> has_field d f sf' -> sf = sf'.
  Proof. intros name d f sf sf' D A B. apply (fields_ok name _ _ _ D) in A. apply (fields_ok name _ _ _ D) in B. congruence. Qed.
  Lemma scalar_ok : forall t, is_scalar s t = true <-> scalar s t.
  Proof. intros t. unfold is_scalar, scalar. now rewrite orb_true_iff, !has_iff. Qed.
  Lemma root_ok : forall n k, root_kind s n = Some k <-> root_op s n k.
  Proof.
    intros n k. unfold root_kind, root_op. destruct (String.eqb_spec (s_query s) n) as [Q|Q].
    - destruct k; split; try discriminate; try reflexivity; try (now intros _); intros [_ H]; exfalso; try destruct H as [_ H]; now apply H.
    - destruct (s_mutation s) as [m|].
      + destruct (String.eqb_spec m n) as [->|M].
        * destruct k; split; try discriminate; try congruence; try (intros _; now split); intros (_ & H & _); congruence.
        * destruct (s_subscription s) as [b|].
          -- destruct (String.eqb_spec b n) as [->|B].
             ++ destruct k; split; try discriminate; try congruence; try (intros [H _]; congruence). intros _. split; [reflexivity|]. split; congruence.
             ++ destruct k; split; try discriminate; try congruence; intros [H _]; congruence.
          -- destruct k; split; try discriminate; try congruence; intros [H _]; congruence.
      + destruct (s_subscription s) as [b|].
        * destruct (String.eqb_spec b n) as [->|B].
          -- destruct k; split; try discriminate; try congruence; try (intros [H _]; congruence). intros _. split; [reflexivity|]. split; [discriminate|exact Q].
          -- destruct k; split; try discriminate; try congruence; intros [H _]; congruence.
        * destruct k; split; try discriminate; try congruence; intros [H _]; congruence.
  Qed.
  Lemma root_fun : forall n k k', root_op s n k -> root_op s n k' -> k = k'.
  Proof. intros n k k' A B. apply root_ok in A. apply root_ok in B. congruence. Qed.
  Lemma root_node_ok : forall n k, root_op s n k -> root_node s k = Some (RootNode k n).
  Proof. intros n [| |] R; cbn in *; [now rewrite R|destruct R as [-> _]; reflexivity|destruct R as [-> _]; reflexivity]. Qed.
  Lemma selection_ok : forall id t text x, selection parse id t text = BOk x <-> exists l, parse id t text = Some l /\ x = mktas t l.
  Proof.
    intros id t text x. unfold selection. rewrite bbind_ok. split.
    - intros [l [A B]]. apply panic_ok in A. exists l. split; [exact A|congruence].
    - intros [l [A ->]]. exists l. split; [now apply panic_ok|reflexivity].
  Qed.
  Lemma wants_ok : forall n mj r, required parse n mj = BOk r <-> wants parse n mj r.
  Proof.
    intros n [j|] r; cbn; [|split; congruence]. destruct (jf_requires j) as [text|]; [|split; congruence]. rewrite bbind_ok. split.
    - intros [id [A B]]. apply panic_ok in A. apply bbind_ok in B. destruct B as [t [B C]]. apply selection_ok in B. destruct B as [l [B ->]]. exists id, l. repeat split; congruence.
    - intros (id & l & A & B & ->). exists id. split; [now apply panic_ok|]. apply bbind_ok. exists (mktas n l). split; [|reflexivity]. apply selection_ok. now exists l.
  Qed.
  Lemma over_ok : forall g l o, overridden_by s g l = BOk o -> replaced s g l o.
  Proof.
    intros g l. induction l as [|j l IH]; intros o E; cbn in E; [injection E as <-; intros x []|].
    assert (OV : (match jf_override j with Some from => String.eqb from g | None => false end) = true <-> jf_override j = Some g).
    { destruct (jf_override j) as [x|]; [|split; discriminate]. rewrite String.eqb_eq. split; congruence. }
    destruct (match jf_override j with Some from => String.eqb from g | None => false end).
    - destruct (jf_graph j) as [id|] eqn:G; [|discriminate]. destruct (lookup id (s_names s)) as [n|] eqn:L; [|discriminate]. injection E as <-.
      exists [], j, l, id. split; [reflexivity|]. split; [now apply OV|]. split; [exact G|]. split; [now apply lookup_in|]. split; [reflexivity|intros x []].
    - apply IH in E. assert (NJ : jf_override j <> Some g) by (intros X; apply OV in X; discriminate). destruct o as [[n lab]|]; cbn in *.
      + destruct E as (a & x & b & id & -> & O & G & K & LL & N). exists (j :: a), x, b, id. split; [reflexivity|]. repeat (split; [assumption|]). intros y [<-|I]; [exact NJ|now apply N].
      + intros x [<-|I]; [exact NJ|now apply E].
  Qed.
  Lemma replaced_fun : forall g l o o', replaced s g l o -> replaced s g l o' -> o = o'.
  Proof.
    intros g l o o' A B.
    assert (SPLIT : forall a (j : jfield) b a' j' b', a ++ j :: b = a' ++ j' :: b' -> jf_override j = Some g -> jf_override j' = Some g ->
      (forall x, In x a -> jf_override x <> Some g) -> (forall x, In x a' -> jf_override x <> Some g) -> j = j').
    { clear. intros a. induction a as [|x a IH]; intros j b [|x' a'] j' b' E J J' N N'; cbn in E; injection E as E1 E2.
      - exact E1.
      - subst. exfalso. apply (N' x'); [now left|exact J].
      - subst. exfalso. apply (N j'); [now left|exact J'].
      - apply (IH j b a' j' b' E2 J J'); intros y I; [apply N|apply N']; now right. }
    destruct o as [[n lab]|], o' as [[n' lab']|]; cbn in *; try reflexivity.
    - destruct A as (a & j & b & id & E & O & G & K & LL & N). destruct B as (a' & j' & b' & id' & E' & O' & G' & K' & LL' & N'). rewrite E in E'.
      pose proof (SPLIT _ _ _ _ _ _ E' O O' N N') as <-. rewrite G in G'. injection G' as <-. now rewrite (names_fun _ _ _ K K'), <- LL, <- LL'.
    - destruct A as (a & j & b & id & -> & O & _). exfalso. apply (B j); [apply in_or_app; right; now left|exact O].
    - destruct B as (a & j & b & id & -> & O & _). exfalso. apply (A j); [apply in_or_app; right; now left|exact O].
  Qed.
  Lemma members_ok : forall f id u m, In m (union_members f id u) <-> member_in id f u m.
  Proof.
    intros f id u m. unfold union_members. rewrite sort_in.
    assert (ALL : In m (nodup string_dec (map snd (filter (fun x => String.eqb (fst x) id) (d_members u)))) <-> In (id, m) (d_members u)).
    { rewrite nodup_In, in_map_iff. split.
      - intros [[i x] [E I]]. apply filter_In in I. destruct I as [I E']. apply String.eqb_eq in E'. cbn in *. now subst.
      - intros I. exists (id, m). split; [reflexivity|]. apply filter_In. split; [exact I|apply String.eqb_refl]. }
    set (all := nodup string_dec _) in *. clearbody all. unfold member_in. destruct (find (in_graph id) (sf_joins f)) as [j|] eqn:J.
    - assert (U : forall x, first_for id (sf_joins f) x <-> x = j) by (intros x; rewrite <- find_first, J; split; congruence).
      destruct (jf_type j) as [t|] eqn:T.
      + destruct (String.eqb_spec t (sf_type f)) as [E|E].
        * rewrite ALL. split; [intros I; right; split; [|exact I]; intros x t' X T'; apply U in X; subst x; congruence|].
          intros [(x & t' & X & T' & NE & _)|[_ I]]; [|exact I]. apply U in X. subst x. congruence.
        * split; [intros [<-|[]]; left; exists j, t; now rewrite U|]. intros [(x & t' & X & T' & NE & ->)|[N _]]; [left; apply U in X; subst x; congruence|]. exfalso. apply E. apply (N j t); [now apply U|exact T].
      + rewrite ALL. split; [intros I; right; split; [|exact I]; intros x t' X T'; apply U in X; subst x; congruence|].
        intros [(x & t' & X & T' & _)|[_ I]]; [|exact I]. apply U in X. subst x. congruence.
    - assert (U : forall x, ~ first_for id (sf_joins f) x) by (intros x X; apply find_first in X; congruence).
      rewrite ALL. split; [intros I; right; split; [|exact I]; intros x t' X; destruct (U _ X)|]. intros [(x & t' & X & _)|[_ I]]; [destruct (U _ X)|exact I].
  Qed.

  Definition put (cs : list cmd) (h : place) (k : gkind) (t : place) : Prop := exists hn tn, In (CEdge hn k tn) cs /\ place_of hn = h /\ place_of tn = t.

  (** ** Entering *)
  Lemma link_sound : forall cs, link_cmds s = BOk cs -> forall hn k tn, In (CEdge hn k tn) cs -> exists name g o, enters s name g o /\ hn = RootNode o name /\ k = GEntry g o /\ tn = TypeNode name g false (Some SpRoot).
  Proof.
    intros cs E hn k tn I. apply (beach_in _ _ _ E) in I. destruct I as [[name d] [a [D [A I]]]]. destruct (root_type s name d) as [o|] eqn:R; [|injection A as <-; destruct I].
    unfold root_type in R. destruct (d_kind d) eqn:K; try discriminate. apply root_ok in R. apply (beach_in _ _ _ A) in I. destruct I as [id [a' [L [A' I]]]]. apply subgraphs_in in L.
    destruct (existsb _ (d_fields d)) eqn:X; [|injection A' as <-; destruct I]. rewrite (root_node_ok _ _ R) in A'. binds A'. injection A' as <-. apply names_ok in E0.
    destruct I as [I|[]]. injection I as <- <- <-. exists name, a0, o. split; [|auto]. exists d, id. repeat (split; [assumption|]). apply existsb_exists in X. destruct X as [[f sf] [FI AV]]. cbn in AV.
    destruct (availability sf id d) as [av mj] eqn:Y. cbn in AV. subst av. exists f, sf, mj. split; [now apply fields_iff|]. now apply (avail_ok _ _ _ _ L).
  Qed.
  Lemma link_complete : forall cs, link_cmds s = BOk cs -> forall name g o, enters s name g o -> In (CEdge (RootNode o name) (GEntry g o) (TypeNode name g false (Some SpRoot))) cs.
  Proof.
    intros cs E name g o (d & id & D & K & R & L & N & f & sf & mj & FI & OF).
    destruct (beach_all _ _ _ E _ D) as [a A]. eapply (beach_put _ _ _ _ _ _ E D A). cbn in A. unfold root_type in A. rewrite K in A. rewrite (proj2 (root_ok _ _) R) in A.
    assert (L' := L). apply subgraphs_in in L'. destruct (beach_all _ _ _ A _ L') as [a' A']. eapply (beach_put _ _ _ _ _ _ A L' A'). cbn in A'.
    assert (X : existsb (fun x => fst (availability (snd x) id d)) (d_fields d) = true).
    { apply existsb_exists. exists (f, sf). split; [now apply fields_iff|]. cbn. now rewrite (proj2 (avail_ok _ _ _ _ L) OF). }
    rewrite X, (root_node_ok _ _ R), (proj2 (names_ok _ _) N) in A'. cbn in A'. injection A' as <-. now left.
  Qed.

  (** ** Fields *)
  Section Fields.
    Variable entries : opkind -> list gnode.
    Hypothesis ENT : forall name k, root_op s name k -> forall p, (exists n, In n (entries k) /\ place_of n = p) <-> exists g k', p = PType name g /\ enters s name g k'.

    Lemma union_case : forall t (A : Type) (x : sdefn -> A) (y : A),
      (exists u, union_type s t u /\ match lookup t (s_defs s) with Some (mkdef DUnion _ _ _ _ as u) => x u | _ => y end = x u) \/
      ((forall u, ~ union_type s t u) /\ match lookup t (s_defs s) with Some (mkdef DUnion _ _ _ _ as u) => x u | _ => y end = y).
    Proof.
      intros t A x y. destruct (lookup t (s_defs s)) as [[k ty ow im me]|] eqn:L.
      - apply defs_ok in L. destruct k; try (right; split; [intros u [U V]; rewrite (defs_fun _ _ _ U L) in V; discriminate|reflexivity]).
        left. eexists. split; [split; [exact L|reflexivity]|reflexivity].
      - right. split; [|reflexivity]. intros u [U _]. apply defs_ok in U. congruence.
    Qed.
    (** What the edges of a field are, when the field is resolved *)
    Lemma field_edges_ok : forall name d id g x cs, defined name d -> lives d id -> known_as id g -> In x (d_fields d) -> field_edges parse s entries name d id x = BOk cs ->
      (cs = [] /\ forall mj, offered id (snd x) mj -> hidden mj) \/
      exists mj req over, resolves parse s name d id g (fst x) (snd x) mj req over /\
        cs = let f := snd x in let head := TypeNode name g (is_iobj s name id) None in
             match lookup (sf_type f) (s_defs s) with
             | Some (mkdef DUnion _ _ _ _ as u) =>
                 flat_map (fun m =>
                   let tail := TypeNode (sf_type f) g (is_iobj s (sf_type f) id) (Some (SpUnion name (fst x) m (union_members f id u))) in
                   [CEdge tail (typename_move (sf_type f)) (TypeNode "String" g false None);
                    CEdge head (GField (fst x) name (is_scalar s (sf_type f)) (sf_list f) None req over) tail;
                    CEdge tail (GAbstract m) (TypeNode m g (is_iobj s m id) None)]) (union_members f id u)
             | _ =>
                 CEdge head (GField (fst x) name (is_scalar s (sf_type f)) (sf_list f) (option_map no_provides mj) req over) (TypeNode (sf_type f) g (is_iobj s (sf_type f) id) None)
                 :: match root_kind s (sf_type f) with
                    | None => []
                    | Some k => flat_map (fun n => match n with
                                                   | TypeNode _ g' _ _ => if String.eqb g' g then [] else [CEdge head (GReentry (fst x) name (sf_list f)) n]
                                                   | RootNode _ _ => []
                                                   end) (entries k)
                    end
             end.
    Proof.
      intros name d id g [f sf] cs D L N I E. unfold field_edges in E. destruct (availability sf id d) as [av mj] eqn:AV. destruct av.
      - apply (avail_ok _ _ _ _ L) in AV. rewrite (proj2 (names_ok _ _) N) in E. cbn [bbind] in E. apply bbind_ok in E. destruct E as [over [O E]].
        pose proof (hidden_ok mj) as H.
        destruct (match mj with Some j => jf_external j && match jf_requires j with None => true | Some _ => false end | None => false end).
        + injection E as <-. left. split; [reflexivity|]. intros mj' O'. cbn in O'. rewrite <- (avail_ok _ _ _ _ L) in O'. rewrite <- (avail_ok _ _ _ _ L) in AV. assert (mj' = mj) by congruence. subst. now apply H.
        + apply bbind_ok in E. destruct E as [req [R E]]. right. exists mj, req, over. split.
          * split; [exact D|]. split; [exact L|]. split; [exact N|]. split; [now apply fields_iff|]. split; [exact AV|]. split; [intros X; apply H in X; discriminate|]. split; [now apply wants_ok|now apply over_ok].
          * cbn [fst snd]. destruct (lookup (sf_type sf) (s_defs s)) as [[[| | |] ty ow im me]|]; injection E as <-; reflexivity.
      - injection E as <-. left. split; [reflexivity|]. intros mj' O'. cbn in O'. rewrite <- (avail_ok _ _ _ _ L) in O'. congruence.
    Qed.
    Lemma field_one_sound : forall name d id g x cs, defined name d -> lives d id -> known_as id g -> In x (d_fields d) -> field_edges parse s entries name d id x = BOk cs ->
      forall hn k tn, In (CEdge hn k tn) cs -> edge (place_of hn) k (place_of tn).
    Proof.
      intros name d id g [f sf] cs D L N I E hn k tn J. destruct (field_edges_ok _ _ _ _ _ _ D L N I E) as [[-> _]|(mj & req & over & R & C)]; [destruct J|]. cbn [fst snd] in *.
      destruct (lookup (sf_type sf) (s_defs s)) as [[kd ty ow im me]|] eqn:U.
      2:{ cbn zeta in C. rewrite no_provides_ok in C. assert (NU : forall u, ~ union_type s (sf_type sf) u) by (intros u [V _]; apply defs_ok in V; congruence). subst cs. destruct J as [J|J].
          - injection J as <- <- <-. eapply e_field; [exact R|apply scalar_ok|exact NU].
          - destruct (root_kind s (sf_type sf)) as [o|] eqn:RK; [|destruct J]. apply root_ok in RK. apply in_flat_map in J. destruct J as [[k' n'|n' g' i' sp'] [J1 J2]]; [destruct J2|].
            destruct (String.eqb_spec g' g) as [|NE]; [destruct J2|]. destruct J2 as [J2|[]]. injection J2 as <- <- <-.
            destruct (proj1 (ENT _ _ RK (place_of (TypeNode n' g' i' sp')))) as [g0 [k0 [P EN]]]; [now exists (TypeNode n' g' i' sp')|]. rewrite P.
            assert (g0 = g') by (destruct sp' as [[| |]|]; cbn in P; congruence). subst g0. eapply e_reentry; [exact R|exact NU|exact EN|exact NE]. }
      apply defs_ok in U. destruct kd.
      3:{ cbn zeta in C. subst cs. apply in_flat_map in J. destruct J as [m [M J]]. apply members_ok in M.
          destruct J as [J|[J|[J|[]]]]; injection J as <- <- <-.
          - eapply e_union_typename; [exact R|split; [exact U|reflexivity]|exact M].
          - eapply e_union; [exact R|apply scalar_ok|split; [exact U|reflexivity]|exact M].
          - eapply e_union_member; [exact R|split; [exact U|reflexivity]|exact M]. }
      all: cbn zeta in C; rewrite no_provides_ok in C; assert (NU : forall u, ~ union_type s (sf_type sf) u) by (intros u [V V']; rewrite (defs_fun _ _ _ V U) in V'; discriminate); subst cs; destruct J as [J|J];
        [injection J as <- <- <-; eapply e_field; [exact R|apply scalar_ok|exact NU]|];
        destruct (root_kind s (sf_type sf)) as [o|] eqn:RK; [|destruct J]; apply root_ok in RK; apply in_flat_map in J; destruct J as [[k' n'|n' g' i' sp'] [J1 J2]]; [destruct J2|];
        destruct (String.eqb_spec g' g) as [|NE]; [destruct J2|]; destruct J2 as [J2|[]]; injection J2 as <- <- <-;
        destruct (proj1 (ENT _ _ RK (place_of (TypeNode n' g' i' sp')))) as [g0 [k0 [P EN]]]; [now exists (TypeNode n' g' i' sp')|]; rewrite P;
        assert (g0 = g') by (destruct sp' as [[| |]|]; cbn in P; congruence); subst g0; eapply e_reentry; [exact R|exact NU|exact EN|exact NE].
    Qed.
    Lemma field_sound : forall cs, field_cmds parse s entries = BOk cs -> forall hn k tn, In (CEdge hn k tn) cs -> edge (place_of hn) k (place_of tn).
    Proof.
      intros cs E hn k tn I. apply (beach_in _ _ _ E) in I. destruct I as [[name d] [a [D [A I]]]]. apply (beach_in _ _ _ A) in I. destruct I as [id [a' [L [A' I]]]]. apply subgraphs_in in L.
      apply bbind_ok in A'. destruct A' as [g [N A']]. apply names_ok in N. apply bbind_ok in A'. destruct A' as [rest [RE A']]. injection A' as <-. apply in_app_or in I. destruct I as [I|[I|I]].
      - assert (X : d_kind d <> DOther /\ existsb (fun j => String.eqb (jt_graph j) id && jt_iobj j) (d_types d) = false /\
            CEdge hn k tn = CEdge (TypeNode name g false None) (typename_move name) (TypeNode "String" g false None)).
        { destruct (d_kind d); try (destruct I; fail); destruct (existsb _ (d_types d)); try (destruct I; fail); destruct I as [I|[]]; (split; [discriminate|]); (split; [reflexivity|now symmetry]). }
        destruct X as (K & X & Y). injection Y as -> -> ->. eapply e_typename; [exact D|exact L|exact N|exact K|]. intros j J G. destruct (jt_iobj j) eqn:O; [|reflexivity].
        assert (Y : existsb (fun j => String.eqb (jt_graph j) id && jt_iobj j) (d_types d) = true) by (apply existsb_exists; exists j; split; [exact J|]; now rewrite G, O, String.eqb_refl). congruence.
      - injection I as <- <- <-. cbn. eapply e_self; [exact D|exact L|exact N].
      - apply (beach_in _ _ _ RE) in I. destruct I as [x [a'' [X [A'' I]]]]. exact (field_one_sound _ _ _ _ _ _ D L N X A'' _ _ _ I).
    Qed.
    (** The commands of one definition in one subgraph are among all. *)
    Lemma field_at : forall cs name d id g, field_cmds parse s entries = BOk cs -> defined name d -> lives d id -> known_as id g ->
      In (CEdge (TypeNode name g (is_iobj s name id) None) (GSelfie name) (TypeNode name g (is_iobj s name id) None)) cs /\
      (d_kind d <> DOther -> (forall j, In j (d_types d) -> jt_graph j = id -> jt_iobj j = false) -> In (CEdge (TypeNode name g false None) (typename_move name) (TypeNode "String" g false None)) cs) /\
      forall x, In x (d_fields d) -> exists a, field_edges parse s entries name d id x = BOk a /\ incl a cs.
    Proof.
      intros cs name d id g E D L N. destruct (beach_all _ _ _ E _ D) as [a A]. assert (P := fun y => beach_put _ _ _ _ _ y E D A). cbn in A.
      assert (L' := L). apply subgraphs_in in L'. destruct (beach_all _ _ _ A _ L') as [a' A']. assert (P' := fun y => beach_put _ _ _ _ _ y A L' A'). cbn in A'.
      rewrite (proj2 (names_ok _ _) N) in A'. cbn [bbind] in A'. apply bbind_ok in A'. destruct A' as [rest [RE A']]. injection A' as <-. split; [|split].
      - apply P, P'. apply in_or_app. right. now left.
      - intros K O. apply P, P'. apply in_or_app. left. assert (X : existsb (fun j => String.eqb (jt_graph j) id && jt_iobj j) (d_types d) = false).
        { destruct (existsb _ (d_types d)) eqn:X; [|reflexivity]. apply existsb_exists in X. destruct X as [j [J X]]. apply andb_true_iff in X. destruct X as [G X]. apply String.eqb_eq in G. rewrite (O j J G) in X. discriminate. }
        rewrite X. destruct (d_kind d); try congruence; now left.
      - intros x X. destruct (beach_all _ _ _ RE _ X) as [a'' A'']. exists a''. split; [exact A''|]. intros y Y. apply P, P'. apply in_or_app. right. right. exact (beach_put _ _ _ _ _ _ RE X A'' Y).
    Qed.
    Lemma resolves_at : forall cs name d id g f sf mj req over, field_cmds parse s entries = BOk cs -> resolves parse s name d id g f sf mj req over ->
      let head := TypeNode name g (is_iobj s name id) None in
      (forall u m, union_type s (sf_type sf) u -> member_in id sf u m -> let tail := TypeNode (sf_type sf) g (is_iobj s (sf_type sf) id) (Some (SpUnion name f m (union_members sf id u))) in
         In (CEdge tail (typename_move (sf_type sf)) (TypeNode "String" g false None)) cs /\
         In (CEdge head (GField f name (is_scalar s (sf_type sf)) (sf_list sf) None req over) tail) cs /\ In (CEdge tail (GAbstract m) (TypeNode m g (is_iobj s m id) None)) cs) /\
      ((forall u, ~ union_type s (sf_type sf) u) ->
         In (CEdge head (GField f name (is_scalar s (sf_type sf)) (sf_list sf) (option_map without_provides mj) req over) (TypeNode (sf_type sf) g (is_iobj s (sf_type sf) id) None)) cs /\
         forall g' k, enters s (sf_type sf) g' k -> g' <> g -> put cs (PType name g) (GReentry f name (sf_list sf)) (PType (sf_type sf) g')).
    Proof.
      intros cs name d id g f sf mj req over E (D & L & N & FI & OF & NH & W & RP). destruct (field_at _ _ _ _ _ E D L N) as (_ & _ & X). apply fields_iff in FI. destruct (X _ FI) as [a [A INC]].
      destruct (field_edges_ok _ _ _ _ _ _ D L N FI A) as [[-> H]|(mj' & req' & over' & (_ & _ & _ & _ & OF' & _ & W' & RP') & C)]; [exfalso; apply NH; now apply H|]. cbn [fst snd] in *.
      rewrite <- (avail_ok _ _ _ _ L) in OF. rewrite <- (avail_ok _ _ _ _ L) in OF'. assert (mj' = mj) by congruence. subst mj'. apply wants_ok in W. apply wants_ok in W'. assert (req' = req) by congruence. subst req'.
      rewrite (replaced_fun _ _ _ _ RP' RP) in C. clear over' RP'. cbn zeta in C. rewrite no_provides_ok in C. split.
      - intros u m [U K] M. apply defs_ok in U. rewrite U in C. destruct u as [kd ty ow im me]. cbn in K. subst kd. apply members_ok in M. cbn zeta. subst a.
        split; [|split]; apply INC; apply in_flat_map; exists m; (split; [exact M|]); [now left|right; now left|right; right; now left].
      - intros NU. assert (C' : a = CEdge (TypeNode name g (is_iobj s name id) None) (GField f name (is_scalar s (sf_type sf)) (sf_list sf) (option_map without_provides mj) req over) (TypeNode (sf_type sf) g (is_iobj s (sf_type sf) id) None)
          :: match root_kind s (sf_type sf) with
             | None => []
             | Some k => flat_map (fun n => match n with TypeNode _ g' _ _ => if String.eqb g' g then [] else [CEdge (TypeNode name g (is_iobj s name id) None) (GReentry f name (sf_list sf)) n] | RootNode _ _ => [] end) (entries k)
             end).
        { subst a. destruct (lookup (sf_type sf) (s_defs s)) as [[[| | |] ty ow im me]|] eqn:U; try reflexivity. apply defs_ok in U. exfalso. apply (NU _ (conj U eq_refl)). }
        clear C. subst a. split; [apply INC; now left|]. intros g' k EN NE. assert (R : root_op s (sf_type sf) k) by (destruct EN as (? & ? & _ & _ & R & _); exact R).
        destruct (proj2 (ENT _ _ R (PType (sf_type sf) g'))) as [n [NI P]]; [now exists g', k|]. exists (TypeNode name g (is_iobj s name id) None), n. split; [|now split].
        apply INC. right. rewrite (proj2 (root_ok _ _) R). apply in_flat_map. exists n. split; [exact NI|]. destruct n as [? ?|nn gg ii sp]; [discriminate|].
        assert (gg = g') by (destruct sp as [[| |]|]; cbn in P; congruence). subst gg. destruct (String.eqb_spec g' g) as [|_]; [contradiction|]. now left.
    Qed.
  End Fields.

  (** ** Interfaces *)
  Lemma impl_sound : forall cs, impl_cmds s = BOk cs -> forall hn k tn, In (CEdge hn k tn) cs -> edge (place_of hn) k (place_of tn).
  Proof.
    intros cs E hn k tn I. apply (beach_in _ _ _ E) in I. destruct I as [[name d] [a [D [A I]]]]. destruct (d_kind d) eqn:K; try (injection A as <-; destruct I; fail).
    apply (beach_in _ _ _ A) in I. destruct I as [[id iface] [a' [J [A' I]]]]. binds A'. injection A' as <-. apply names_ok in E0. destruct I as [I|[]]. injection I as <- <- <-. cbn. eapply e_implements; eassumption.
  Qed.
  Lemma impl_complete : forall cs, impl_cmds s = BOk cs -> forall name d id g iface, defined name d -> d_kind d = DObject -> In (id, iface) (d_impl d) -> known_as id g ->
    In (CEdge (TypeNode iface g false None) (GAbstract name) (TypeNode name g false None)) cs.
  Proof.
    intros cs E name d id g iface D K I N. destruct (beach_all _ _ _ E _ D) as [a A]. eapply (beach_put _ _ _ _ _ _ E D A). cbn in A. rewrite K in A.
    destruct (beach_all _ _ _ A _ I) as [a' A']. eapply (beach_put _ _ _ _ _ _ A I A'). cbn in A'. rewrite (proj2 (names_ok _ _) N) in A'. injection A' as <-. now left.
  Qed.
End Phases.
