(** Moves between subgraphs, and the views of [@provides]. *)
From Coq Require Import Ascii String List NArith Bool Arith Lia.
From Verif Require Import StrOrd StrUtil Ast QplanModel OverrideModel NormModel PathModel OpwalkModel QgraphModel QgraphSpec QgraphBase QgraphPhases.
Import ListNotations.
Local Open Scope string_scope.
Local Open Scope list_scope.

Lemma flat_map_split : forall {A B} (f : A -> list B) l pre y post, flat_map f l = pre ++ y :: post ->
  exists a x b pa pb, l = a ++ x :: b /\ f x = pa ++ y :: pb /\ pre = flat_map f a ++ pa.
Proof.
  intros A B f l. induction l as [|z l IH]; intros pre y post E; cbn in E; [destruct pre; discriminate|].
  assert (X : (exists pb, f z = pre ++ y :: pb) \/ exists pre', pre = f z ++ pre' /\ flat_map f l = pre' ++ y :: post).
  { destruct (app_eq_app _ _ _ _ E) as [m [[A1 A2]|[A1 A2]]]; [|right; exists m; now split]. destruct m as [|w m].
    - right. exists []. rewrite app_nil_r in A1. rewrite app_nil_r. cbn in A2. now split.
    - injection A2 as -> A2. left. now exists m. }
  destruct X as [[pb X]|[pre' [-> E']]].
  - exists [], z, l, pre, pb. now repeat split.
  - destruct (IH _ _ _ E') as (a & x & b & pa & pb & -> & Fx & ->). exists (z :: a), x, b, pa, pb. split; [reflexivity|]. split; [exact Fx|]. cbn. now rewrite app_assoc.
Qed.
Definition giving (id : string) (x : string * sfield) (j : jfield) : list (string * sfield * jfield * string) :=
  if in_graph id j then match jf_provides j with Some p => [(fst x, snd x, j, p)] | None => [] end else [].
Lemma giving_len : forall id x j, length (giving id x j) = length (if provides_in id j then [j] else []).
Proof. intros id x j. unfold giving, in_graph, provides_in. destruct (jf_graph j) as [g|]; [|reflexivity]. destruct (String.eqb g id); destruct (jf_provides j); reflexivity. Qed.
Lemma giving_count : forall id x l, N.of_nat (length (flat_map (giving id x) l)) = views_in id l.
Proof.
  intros id x l. unfold views_in. f_equal. induction l as [|j l IH]; [reflexivity|]. cbn. rewrite app_length, IH, giving_len. destruct (provides_in id j); reflexivity.
Qed.
Lemma views_app : forall id a b, views_in id (a ++ b) = (views_in id a + views_in id b)%N.
Proof. intros id a b. unfold views_in. rewrite filter_app, app_length. lia. Qed.
Lemma owning_count : forall id a, N.of_nat (length (flat_map (fun x => flat_map (giving id x) (sf_joins (snd x))) a)) = views_in id (flat_map (fun x => sf_joins (snd x)) a).
Proof.
  intros id a. induction a as [|x a IH]; [reflexivity|]. cbn. rewrite app_length, Nat2N.inj_add, IH, giving_count, views_app. reflexivity.
Qed.
Lemma providing_ok : forall id d f sf j text v,
  (exists pre post, providing id d = pre ++ (f, sf, j, text) :: post /\ v = (1 + N.of_nat (length pre))%N) <-> view_of d id f sf j text v.
Proof.
  intros id d f sf j text v. unfold providing, view_of. change (fun x => flat_map _ (sf_joins (snd x))) with (fun x : string * sfield => flat_map (giving id x) (sf_joins (snd x))). split.
  - intros (pre & post & E & ->). destruct (flat_map_split _ _ _ _ _ E) as (a & x & b & pa & pb & DF & Fx & ->). destruct (flat_map_split _ _ _ _ _ Fx) as (ja & j' & jb & qa & qb & JF & Gx & ->).
    unfold giving in Gx. destruct (in_graph id j') eqn:IG; [|destruct qa; discriminate]. destruct (jf_provides j') as [p|] eqn:P; [|destruct qa; discriminate].
    destruct qa as [|? [|? ?]]; try discriminate. cbn in Gx. injection Gx as <- <- -> -> _.
    assert (K : (d_kind d = DObject \/ d_kind d = DInterface) /\ d_own d = a ++ x :: b).
    { unfold d_fields in DF. destruct (d_kind d); try (destruct a; discriminate); auto. }
    split; [tauto|]. split; [unfold in_graph in IG; destruct (jf_graph j) as [g|]; [|discriminate]; apply String.eqb_eq in IG; now subst|]. split; [exact P|].
    exists a, b, ja, jb. split; [destruct x; tauto|]. split; [exact JF|]. rewrite app_nil_r, app_length, Nat2N.inj_add, owning_count, giving_count. lia.
  - intros (K & G & P & a & b & ja & jb & DF & JF & ->).
    assert (DF' : d_fields d = a ++ (f, sf) :: b) by (unfold d_fields; destruct K as [-> | ->]; exact DF).
    exists (flat_map (fun x => flat_map (giving id x) (sf_joins (snd x))) a ++ flat_map (giving id (f, sf)) ja), (flat_map (giving id (f, sf)) jb ++ flat_map (fun x => flat_map (giving id x) (sf_joins (snd x))) b).
    split.
    + rewrite DF', flat_map_app. cbn. rewrite JF, flat_map_app. cbn. assert (GJ : giving id (f, sf) j = [(f, sf, j, text)]) by (unfold giving, in_graph; now rewrite G, String.eqb_refl, P). rewrite GJ. rewrite <- !app_assoc. reflexivity.
    + rewrite app_length, Nat2N.inj_add, owning_count, giving_count. lia.
Qed.

Section Views.
  Variable parse : string -> string -> string -> option (list sel).
  Variable s : sstate.
  Hypothesis F : fine s.
  Notation edge := (edge parse s).
  Notation defined := (defined s).
  Notation known_as := (known_as s).
  Notation viewed := (viewed parse s).
  Notation view_set := (view_set parse s).
  Notation moves_from := (moves_from parse s).

  (** ** Moves by keys *)
  Lemma entity_sound : forall cs, entity_cmds parse s = BOk cs ->
    (forall hn k tn, In (CEdge hn k tn) cs -> edge (place_of hn) k (place_of tn)) /\
    (forall n, In (CNode n) cs -> exists name d id g, defined name d /\ lives d id /\ known_as id g /\ place_of n = PType name g).
  Proof.
    intros cs E. assert (X : forall c, In c cs -> match c with
      | CEdge hn k tn => edge (place_of hn) k (place_of tn)
      | CNode n => exists name d id g, defined name d /\ lives d id /\ known_as id g /\ place_of n = PType name g end).
    { intros c I. apply (beach_in _ _ _ E) in I. destruct I as [[name d] [a [D [A I]]]]. apply (beach_in _ _ _ A) in I. destruct I as [j1 [a1 [J1 [A1 I]]]].
      apply bbind_ok in A1. destruct A1 as [moves [M A1]]. apply bbind_ok in A1. destruct A1 as [objects [O A1]]. injection A1 as <-. apply in_app_or in I. destruct I as [I|I].
      - apply (beach_in _ _ _ M) in I. destruct I as [j2 [a2 [J2 [A2 I]]]]. apply bbind_ok in A2. destruct A2 as [g1 [N1 A2]]. apply (names_ok s F) in N1.
        assert (ND : forall n, n = TypeNode name g1 (jt_iobj j1) None -> exists name d id g, defined name d /\ lives d id /\ known_as id g /\ place_of n = PType name g).
        { intros n ->. exists name, d, (jt_graph j1), g1. split; [exact D|]. split; [now exists j1|]. now split. }
        destruct (String.eqb_spec (jt_graph j1) (jt_graph j2)) as [G|G].
        + destruct (key_of j1) as [key|] eqn:K; [|injection A2 as <-; destruct I as [<-|[]]; now apply ND]. apply key_ok in K. apply bbind_ok in A2. destruct A2 as [sel [S A2]]. injection A2 as <-. apply selection_ok in S. destruct S as [l [P ->]].
          destruct I as [<-|[]]. cbn. eapply (e_entity parse s name d j1 j1); try eassumption. apply is_interface_ok.
        + destruct (key_of j2) as [key|] eqn:K; [|injection A2 as <-; destruct I as [<-|[]]; now apply ND]. apply key_ok in K. apply bbind_ok in A2. destruct A2 as [g2 [N2 A2]]. apply (names_ok s F) in N2. apply bbind_ok in A2. destruct A2 as [sel [S A2]]. injection A2 as <-. apply selection_ok in S. destruct S as [l [P ->]].
          destruct I as [<-|[]]. cbn. eapply (e_entity parse s name d j1 j2); try eassumption. apply is_interface_ok.
      - destruct (jt_iobj j1) eqn:IO; [|injection O as <-; destruct I]. destruct (key_of j1) as [key|] eqn:K; [|injection O as <-; destruct I]. apply key_ok in K.
        apply bbind_ok in O. destruct O as [g1 [N1 O]]. apply (names_ok s F) in N1. apply bbind_ok in O. destruct O as [tn [T O]]. apply selection_ok in T. destruct T as [tl [PT ->]].
        apply (beach_in _ _ _ O) in I. destruct I as [[o od] [a3 [OD [A3 I]]]]. destruct (d_kind od) eqn:KO; try (injection A3 as <-; destruct I; fail).
        destruct (existsb _ (d_impl od)) eqn:IM; [|injection A3 as <-; destruct I]. apply existsb_exists in IM. destruct IM as [[id nm] [IM EQ]]. apply String.eqb_eq in EQ. cbn in EQ. subst nm.
        apply bbind_ok in A3. destruct A3 as [sel [S A3]]. apply selection_ok in S. destruct S as [l [P ->]]. apply bbind_ok in A3. destruct A3 as [rest [R A3]]. injection A3 as <-. destruct I as [<-|I].
        + cbn. eapply (e_object parse s name d j1); eassumption.
        + apply (beach_in _ _ _ R) in I. destruct I as [j2 [a4 [J2 [A4 I]]]]. destruct (String.eqb_spec (jt_graph j1) (jt_graph j2)) as [G|G]; [injection A4 as <-; destruct I|].
          apply bbind_ok in A4. destruct A4 as [g2 [N2 A4]]. apply (names_ok s F) in N2. injection A4 as <-. destruct I as [<-|[]]. cbn. eapply (e_object_entity parse s name d j1); try eassumption; [congruence|apply is_interface_ok]. }
    split; [intros hn k tn I; exact (X _ I)|intros n I; exact (X _ I)].
  Qed.
  Lemma entity_complete : forall cs, entity_cmds parse s = BOk cs -> forall name d j1 j2 key sel g1 g2 b, defined name d -> In j1 (d_types d) -> In j2 (d_types d) -> known_as (jt_graph j1) g1 -> known_as (jt_graph j2) g2 -> key_in j2 key ->
    parse (jt_graph j2) name key = Some sel -> (b = true <-> d_kind d = DInterface) -> put cs (PType name g1) (GEntity key (mktas name sel) b) (PType name g2).
  Proof.
    intros cs E name d j1 j2 key sel g1 g2 b D J1 J2 N1 N2 K P B. rewrite (same_bool _ _ _ B (is_interface_ok d)). clear b B.
    assert (Q : forall ja jb a, In ja (d_types d) -> In jb (d_types d) ->
       (g1 <<- graph_name s (jt_graph ja);
          let head := TypeNode name g1 (jt_iobj ja) None in
          if String.eqb (jt_graph ja) (jt_graph jb)
          then match key_of ja with
               | Some key => sel <<- selection parse (jt_graph ja) name key; BOk [CEdge head (GEntity key sel (is_interface d)) head]
               | None => BOk [CNode head]
               end
          else match key_of jb with
               | Some key => g2 <<- graph_name s (jt_graph jb); sel <<- selection parse (jt_graph jb) name key;
                             BOk [CEdge head (GEntity key sel (is_interface d)) (TypeNode name g2 (jt_iobj jb) None)]
               | None => BOk [CNode head]
               end) = BOk a -> incl a cs).
    { intros ja jb a JA JB A y Y. destruct (beach_all _ _ _ E _ D) as [a0 A0]. apply (beach_put _ _ _ _ _ y E D A0). cbn in A0.
      destruct (beach_all _ _ _ A0 _ JA) as [a1 A1]. apply (beach_put _ _ _ _ _ y A0 JA A1). cbn in A1. apply bbind_ok in A1. destruct A1 as [moves [M A1]]. apply bbind_ok in A1. destruct A1 as [objects [O A1]]. injection A1 as <-. apply in_or_app. left.
      exact (beach_put _ _ _ _ _ y M JB A Y). }
    destruct (string_dec (jt_graph j1) (jt_graph j2)) as [G|G].
    - assert (g1 = g2) by (rewrite G in N1; exact (names_fun s F _ _ _ N1 N2)). subst g2.
      exists (TypeNode name g1 (jt_iobj j2) None), (TypeNode name g1 (jt_iobj j2) None). split; [|now split]. apply (Q j2 j2 [CEdge (TypeNode name g1 (jt_iobj j2) None) (GEntity key (mktas name sel) (is_interface d)) (TypeNode name g1 (jt_iobj j2) None)] J2 J2); [|now left].
      rewrite (proj2 (names_ok s F _ _) N2). cbn [bbind]. rewrite String.eqb_refl, (proj2 (key_ok _ _) K). rewrite (proj2 (selection_ok parse _ _ _ (mktas name sel))); [reflexivity|now exists sel].
    - exists (TypeNode name g1 (jt_iobj j1) None), (TypeNode name g2 (jt_iobj j2) None). split; [|now split].
      apply (Q j1 j2 [CEdge (TypeNode name g1 (jt_iobj j1) None) (GEntity key (mktas name sel) (is_interface d)) (TypeNode name g2 (jt_iobj j2) None)] J1 J2); [|now left].
      rewrite (proj2 (names_ok s F _ _) N1). cbn [bbind]. destruct (String.eqb_spec (jt_graph j1) (jt_graph j2)) as [X|_]; [contradiction|]. rewrite (proj2 (key_ok _ _) K), (proj2 (names_ok s F _ _) N2). cbn [bbind].
      rewrite (proj2 (selection_ok parse _ _ _ (mktas name sel))); [reflexivity|now exists sel].
  Qed.
  Lemma object_complete : forall cs, entity_cmds parse s = BOk cs -> forall name d j key g o od id, defined name d -> In j (d_types d) -> jt_iobj j = true -> key_in j key -> known_as (jt_graph j) g ->
      defined o od -> d_kind od = DObject -> In (id, name) (d_impl od) ->
      (forall sel, parse (jt_graph j) name "__typename" = Some sel -> put cs (PType name g) (GIobj o (mktas name sel)) (PType name g)) /\
      (forall sel j2 g2 b, In j2 (d_types od) -> jt_graph j2 <> jt_graph j -> known_as (jt_graph j2) g2 -> parse (jt_graph j) name key = Some sel -> (b = true <-> d_kind d = DInterface) ->
         put cs (PType o g2) (GEntity key (mktas name sel) b) (PType name g)).
  Proof.
    intros cs E name d j key g o od id D J IO K N OD KO IM. destruct (beach_all _ _ _ E _ D) as [a0 A0]. pose proof (fun y => beach_put _ _ _ _ _ y E D A0) as P0. cbn in A0.
    destruct (beach_all _ _ _ A0 _ J) as [a1 A1]. pose proof (fun y => beach_put _ _ _ _ _ y A0 J A1) as P1. cbn in A1. apply bbind_ok in A1. destruct A1 as [moves [M A1]]. apply bbind_ok in A1. destruct A1 as [objects [O A1]]. injection A1 as <-.
    rewrite IO, (proj2 (key_ok _ _) K), (proj2 (names_ok s F _ _) N) in O. cbn [bbind] in O. apply bbind_ok in O. destruct O as [tn [T O]].
    destruct (beach_all _ _ _ O _ OD) as [a2 A2]. pose proof (fun y => beach_put _ _ _ _ _ y O OD A2) as P2. cbn in A2. rewrite KO in A2.
    assert (X : existsb (fun i => String.eqb (snd i) name) (d_impl od) = true) by (apply existsb_exists; exists (id, name); split; [exact IM|apply String.eqb_refl]). rewrite X in A2.
    apply bbind_ok in A2. destruct A2 as [sl [S A2]]. apply bbind_ok in A2. destruct A2 as [rest [R A2]]. injection A2 as <-.
    assert (UP : forall y, In y (CEdge (TypeNode name g true None) (GIobj o tn) (TypeNode name g true None) :: rest) -> In y cs) by (intros y Y; apply P0, P1; apply in_or_app; right; now apply P2). split.
    - intros sel PS. exists (TypeNode name g true None), (TypeNode name g true None). split; [|now split]. apply UP. left. apply selection_ok in T. destruct T as [l [PT ->]]. congruence.
    - intros sel j2 g2 b J2 NE N2 PS B. rewrite (same_bool _ _ _ B (is_interface_ok d)). apply selection_ok in S. destruct S as [l [PS' ->]]. assert (l = sel) by congruence. subst l.
      destruct (beach_all _ _ _ R _ J2) as [a3 A3]. exists (TypeNode o g2 (jt_iobj j2) None), (TypeNode name g true None). split; [|now split]. apply UP. right. apply (beach_put _ _ _ _ _ _ R J2 A3). cbn in A3.
      destruct (String.eqb_spec (jt_graph j) (jt_graph j2)) as [Y|_]; [congruence|]. rewrite (proj2 (names_ok s F _ _) N2) in A3. injection A3 as <-. now left.
  Qed.

  (** ** Views *)
  Lemma moves_in : forall head id type d cs, moves_from head id type d = BOk cs -> defined type d -> forall c, In c cs -> exists j key sel g',
    In j (d_types d) /\ key_in j key /\ jt_graph j <> id /\ known_as (jt_graph j) g' /\ parse (jt_graph j) type key = Some sel /\ c = CEdge head (GEntity key (mktas type sel) (is_interface d)) (TypeNode type g' (jt_iobj j) None).
  Proof.
    intros head id type d cs E D c I. apply (beach_in _ _ _ E) in I. destruct I as [j [a [J [A I]]]]. destruct (key_of j) as [key|] eqn:K; [|injection A as <-; destruct I]. apply key_ok in K.
    destruct (String.eqb_spec (jt_graph j) id) as [G|G]; [injection A as <-; destruct I|]. apply bbind_ok in A. destruct A as [g' [N A]]. apply (names_ok s F) in N. apply bbind_ok in A. destruct A as [x [S A]]. apply selection_ok in S. destruct S as [l [P ->]].
    injection A as <-. destruct I as [<-|[]]. exists j, key, l, g'. repeat (split; [assumption|]). reflexivity.
  Qed.
  Lemma moves_at : forall head id type d cs, moves_from head id type d = BOk cs -> forall j key sel g',
    In j (d_types d) -> key_in j key -> jt_graph j <> id -> known_as (jt_graph j) g' -> parse (jt_graph j) type key = Some sel ->
    In (CEdge head (GEntity key (mktas type sel) (is_interface d)) (TypeNode type g' (jt_iobj j) None)) cs.
  Proof.
    intros head id type d cs E j key sel g' J K NE N P. destruct (beach_all _ _ _ E _ J) as [a A]. apply (beach_put _ _ _ _ _ _ E J A). cbn in A. rewrite (proj2 (key_ok _ _) K) in A.
    destruct (String.eqb_spec (jt_graph j) id) as [G|_]; [contradiction|]. rewrite (proj2 (names_ok s F _ _) N) in A. cbn [bbind] in A. rewrite (proj2 (selection_ok parse _ _ _ (mktas type sel))) in A; [|now exists sel]. injection A as <-. now left.
  Qed.
  Lemma viewed_more : forall id g v type at_ l h k t, viewed id g v type at_ l h k t -> forall l', incl l l' -> viewed id g v type at_ l' h k t.
  Proof.
    intros id g v type at_ l h k t V l' I. destruct V.
    - now apply (v_move parse s) with (d := d) (j := j).
    - eapply v_field; [eassumption|apply I; eassumption|assumption|assumption].
    - eapply v_field_self; [eassumption|apply I; eassumption|assumption].
    - eapply v_field_below; [eassumption|apply I; eassumption|eassumption|eassumption|eassumption|assumption].
    - eapply v_frag; [eassumption|apply I; eassumption].
    - eapply v_frag_self; [eassumption|apply I; eassumption].
    - eapply v_frag_below; [eassumption|apply I; eassumption|assumption].
  Qed.
  (** One selection of a view, over [view_set] *)
  Lemma view_item_eq : forall id v type d head x, view_item parse s id v type d head x =
    match x with
    | SSpread _ => BPanic
    | SField name _ _ _ _ _ sub =>
        match lookup name (d_fields d) with
        | None => BErr (FieldDefinitionNotFound name type)
        | Some f =>
            let t := sf_type f in
            g <<- graph_name s id;
            let tail := TypeNode t g (is_iobj s t id) (Some (SpProvides v)) in
            let here := [CEdge tail (GSelfie t) tail; CEdge head (GField name type (is_scalar s type) (sf_list f) None None None) tail] in
            match sub with
            | [] => BOk here
            | _ => match lookup t (s_defs s) with
                   | None => BErr (DefinitionNotFound t)
                   | Some d' => rest <<- view_set id v t d' tail sub; BOk (here ++ rest)
                   end
            end
        end
    | SFrag t _ _ sub =>
        match lookup t (s_defs s) with
        | None => BErr (DefinitionNotFound t)
        | Some d' =>
            g <<- graph_name s id;
            let tail := TypeNode t g (is_iobj s t id) (Some (SpProvides v)) in
            rest <<- view_set id v t d' tail sub;
            BOk (CEdge tail (GSelfie t) tail :: CEdge head (GAbstract t) tail :: rest)
        end
    end.
  Proof. intros id v type d head [n a ar i k om sub|t i k sub|n]; reflexivity. Qed.
  Definition view_cmd (id g : string) (v : N) (type : string) (at_ : place) (l : list sel) (c : cmd) : Prop :=
    match c with CEdge hn k tn => viewed id g v type at_ l (place_of hn) k (place_of tn) | CNode _ => False end.
  Lemma view_set_from : forall id g v type d head l cs, known_as id g -> defined type d ->
    Forall (fun x => forall cs, view_item parse s id v type d head x = BOk cs -> Forall (view_cmd id g v type (place_of head) [x]) cs) l ->
    view_set id v type d head l = BOk cs -> Forall (view_cmd id g v type (place_of head) l) cs.
  Proof.
    intros id g v type d head l cs N D FA E. apply bbind_ok in E. destruct E as [m [M E]]. apply bbind_ok in E. destruct E as [r [R E]]. injection E as <-. apply Forall_app. split.
    - apply Forall_forall. intros c I. destruct (moves_in _ _ _ _ _ M D c I) as (j & key & x & g' & J & K & NE & N' & P & ->). cbn. eapply v_move; try eassumption. apply is_interface_ok.
    - apply Forall_forall. intros c I. apply (beach_in _ _ _ R) in I. destruct I as [x [a [X [A I]]]]. rewrite Forall_forall in FA. specialize (FA x X _ A). rewrite Forall_forall in FA. specialize (FA _ I).
      destruct c; [exact FA|]. cbn in *. eapply viewed_more; [exact FA|]. intros y [<-|[]]. exact X.
  Qed.
  Lemma view_item_sound : forall x id g v, known_as id g -> forall type d head cs, defined type d -> view_item parse s id v type d head x = BOk cs -> Forall (view_cmd id g v type (place_of head) [x]) cs.
  Proof.
    intros x id g v N. induction x as [n a ar i k om sub IH|t i k sub IH|n] using sel_ind'; intros type d head cs D E; rewrite view_item_eq in E; [| |discriminate].
    - destruct (lookup n (d_fields d)) as [f|] eqn:L; [|discriminate]. apply (fields_ok s F type _ _ _ D) in L. cbn zeta in E. rewrite (proj2 (names_ok s F _ _) N) in E. cbn [bbind] in E.
      assert (H1 : view_cmd id g v type (place_of head) [SField n a ar i k om sub] (CEdge (TypeNode (sf_type f) g (is_iobj s (sf_type f) id) (Some (SpProvides v))) (GSelfie (sf_type f)) (TypeNode (sf_type f) g (is_iobj s (sf_type f) id) (Some (SpProvides v))))).
      { cbn. eapply v_field_self; [exact D|now left|exact L]. }
      assert (H2 : view_cmd id g v type (place_of head) [SField n a ar i k om sub] (CEdge head (GField n type (is_scalar s type) (sf_list f) None None None) (TypeNode (sf_type f) g (is_iobj s (sf_type f) id) (Some (SpProvides v))))).
      { cbn. eapply v_field; [exact D|now left|exact L|apply scalar_ok]. }
      assert (X : sub = [] /\ cs = [CEdge (TypeNode (sf_type f) g (is_iobj s (sf_type f) id) (Some (SpProvides v))) (GSelfie (sf_type f)) (TypeNode (sf_type f) g (is_iobj s (sf_type f) id) (Some (SpProvides v)));
                 CEdge head (GField n type (is_scalar s type) (sf_list f) None None None) (TypeNode (sf_type f) g (is_iobj s (sf_type f) id) (Some (SpProvides v)))] \/
              sub <> [] /\ exists d' rest, defined (sf_type f) d' /\ view_set id v (sf_type f) d' (TypeNode (sf_type f) g (is_iobj s (sf_type f) id) (Some (SpProvides v))) sub = BOk rest /\
                cs = [CEdge (TypeNode (sf_type f) g (is_iobj s (sf_type f) id) (Some (SpProvides v))) (GSelfie (sf_type f)) (TypeNode (sf_type f) g (is_iobj s (sf_type f) id) (Some (SpProvides v)));
                 CEdge head (GField n type (is_scalar s type) (sf_list f) None None None) (TypeNode (sf_type f) g (is_iobj s (sf_type f) id) (Some (SpProvides v)))] ++ rest).
      { destruct sub as [|y sub]; [left; split; [reflexivity|congruence]|right; split; [discriminate|]]. destruct (lookup (sf_type f) (s_defs s)) as [d'|] eqn:L'; [|discriminate]. apply (defs_ok s F) in L'.
        apply bbind_ok in E. destruct E as [rest [R E]]. injection E as <-. exists d', rest. now repeat split. }
      destruct X as [[_ ->]|(NE & d' & rest & D' & R & ->)]; [repeat constructor; assumption|].
      constructor; [exact H1|]. constructor; [exact H2|]. apply (view_set_from id g) in R; [|exact N|exact D'|].
      + apply Forall_forall. intros c I. rewrite Forall_forall in R. specialize (R _ I). destruct c; [exact R|]. cbn in *. eapply v_field_below; [exact D|now left|exact L|exact NE|exact D'|exact R].
      + apply Forall_forall. intros y Y cs' E'. rewrite Forall_forall in IH. exact (IH y Y _ _ _ _ D' E').
    - destruct (lookup t (s_defs s)) as [d'|] eqn:L'; [|discriminate]. apply (defs_ok s F) in L'. rewrite (proj2 (names_ok s F _ _) N) in E. cbn [bbind] in E. cbn zeta in E.
      apply bbind_ok in E. destruct E as [rest [R E]]. injection E as <-. constructor; [cbn; eapply v_frag_self; [exact L'|now left]|]. constructor; [cbn; eapply v_frag; [exact L'|now left]|].
      apply (view_set_from id g) in R; [|exact N|exact L'|].
      + apply Forall_forall. intros c I. rewrite Forall_forall in R. specialize (R _ I). destruct c; [exact R|]. cbn in *. eapply v_frag_below; [exact L'|now left|exact R].
      + apply Forall_forall. intros y Y cs' E'. rewrite Forall_forall in IH. exact (IH y Y _ _ _ _ L' E').
  Qed.
  Lemma view_set_sound : forall id g v type d head l cs, known_as id g -> defined type d -> view_set id v type d head l = BOk cs -> Forall (view_cmd id g v type (place_of head) l) cs.
  Proof.
    intros id g v type d head l cs N D E. apply (view_set_from id g v type d head l cs N D); [|exact E]. apply Forall_forall. intros x _ cs' E'. exact (view_item_sound x id g v N _ _ _ _ D E').
  Qed.
  Lemma put_incl : forall cs cs' h k t, put cs h k t -> incl cs cs' -> put cs' h k t.
  Proof. intros cs cs' h k t (hn & tn & I & R) J. exists hn, tn. split; [now apply J|exact R]. Qed.
  Lemma view_item_at : forall id v type d head l cs x, view_set id v type d head l = BOk cs -> In x l -> exists a, view_item parse s id v type d head x = BOk a /\ incl a cs.
  Proof.
    intros id v type d head l cs x E I. apply bbind_ok in E. destruct E as [m [M E]]. apply bbind_ok in E. destruct E as [r [R E]]. injection E as <-. destruct (beach_all _ _ _ R _ I) as [a A]. exists a. split; [exact A|].
    intros y Y. apply in_or_app. right. exact (beach_put _ _ _ _ _ _ R I A Y).
  Qed.
  Lemma view_set_complete : forall id g v type at_ l h k t, known_as id g -> viewed id g v type at_ l h k t -> forall d head cs, defined type d -> place_of head = at_ -> view_set id v type d head l = BOk cs -> put cs h k t.
  Proof.
    intros id g v type at_ l h k t N V. induction V as [type d at_ l j key x g' D J K NE N' P b B|type d at_ l f a ar i k om sub sf leaf D I HF SC|type d at_ l f a ar i k om sub sf D I HF|type d at_ l f a ar i k om sub sf df h m t D I HF NS DD V IH|type at_ l c dc i k sub DC I|type at_ l c dc i k sub DC I|type at_ l c dc i k sub h m t DC I V IH];
      intros d0 head cs D0 PH E.
    - rewrite (defs_fun s F _ _ _ D0 D) in *. apply bbind_ok in E. destruct E as [ms [M E]]. apply bbind_ok in E. destruct E as [r [R E]]. injection E as <-. rewrite (same_bool _ _ _ B (is_interface_ok d)).
      exists head, (TypeNode type g' (jt_iobj j) None). split; [|now split]. apply in_or_app. left. eapply moves_at; eassumption.
    - rewrite (defs_fun s F _ _ _ D0 D) in *. destruct (view_item_at _ _ _ _ _ _ _ _ E I) as [c [C INC]]. rewrite view_item_eq in C. rewrite (proj2 (fields_ok s F type _ _ _ D) HF) in C. cbn zeta in C. rewrite (proj2 (names_ok s F _ _) N) in C. cbn [bbind] in C.
      rewrite (same_bool _ _ _ SC (scalar_ok s type)).
      exists head, (TypeNode (sf_type sf) g (is_iobj s (sf_type sf) id) (Some (SpProvides v))). split; [|now split]. apply INC. destruct sub as [|y sub]; [injection C as <-; right; now left|].
      destruct (lookup (sf_type sf) (s_defs s)); [|discriminate]. apply bbind_ok in C. destruct C as [rest [R C]]. injection C as <-. right. now left.
    - rewrite (defs_fun s F _ _ _ D0 D) in *. destruct (view_item_at _ _ _ _ _ _ _ _ E I) as [c [C INC]]. rewrite view_item_eq in C. rewrite (proj2 (fields_ok s F type _ _ _ D) HF) in C. cbn zeta in C. rewrite (proj2 (names_ok s F _ _) N) in C. cbn [bbind] in C.
      exists (TypeNode (sf_type sf) g (is_iobj s (sf_type sf) id) (Some (SpProvides v))), (TypeNode (sf_type sf) g (is_iobj s (sf_type sf) id) (Some (SpProvides v))). split; [|now split]. apply INC. destruct sub as [|y sub]; [injection C as <-; now left|].
      destruct (lookup (sf_type sf) (s_defs s)); [|discriminate]. apply bbind_ok in C. destruct C as [rest [R C]]. injection C as <-. now left.
    - rewrite (defs_fun s F _ _ _ D0 D) in *. destruct (view_item_at _ _ _ _ _ _ _ _ E I) as [c [C INC]]. rewrite view_item_eq in C. rewrite (proj2 (fields_ok s F type _ _ _ D) HF) in C. cbn zeta in C. rewrite (proj2 (names_ok s F _ _) N) in C. cbn [bbind] in C.
      destruct sub as [|y sub]; [congruence|]. destruct (lookup (sf_type sf) (s_defs s)) as [d'|] eqn:L; [|discriminate]. apply (defs_ok s F) in L. apply bbind_ok in C. destruct C as [rest [R C]]. injection C as <-.
      eapply put_incl; [eapply IH; [exact L| |exact R]; reflexivity|]. intros z Z. apply INC. right. now right.
    - destruct (view_item_at _ _ _ _ _ _ _ _ E I) as [x [C INC]]. rewrite view_item_eq in C. rewrite (proj2 (defs_ok s F _ _) DC), (proj2 (names_ok s F _ _) N) in C. cbn [bbind] in C. cbn zeta in C. apply bbind_ok in C. destruct C as [rest [R C]]. injection C as <-.
      exists head, (TypeNode c g (is_iobj s c id) (Some (SpProvides v))). split; [apply INC; right; now left|now split].
    - destruct (view_item_at _ _ _ _ _ _ _ _ E I) as [x [C INC]]. rewrite view_item_eq in C. rewrite (proj2 (defs_ok s F _ _) DC), (proj2 (names_ok s F _ _) N) in C. cbn [bbind] in C. cbn zeta in C. apply bbind_ok in C. destruct C as [rest [R C]]. injection C as <-.
      exists (TypeNode c g (is_iobj s c id) (Some (SpProvides v))), (TypeNode c g (is_iobj s c id) (Some (SpProvides v))). split; [apply INC; now left|now split].
    - destruct (view_item_at _ _ _ _ _ _ _ _ E I) as [x [C INC]]. rewrite view_item_eq in C. destruct (lookup c (s_defs s)) as [d'|] eqn:L; [|discriminate]. apply (defs_ok s F) in L. rewrite (proj2 (names_ok s F _ _) N) in C. cbn [bbind] in C. cbn zeta in C. apply bbind_ok in C. destruct C as [rest [R C]]. injection C as <-.
      eapply put_incl; [eapply IH; [exact L| |exact R]; reflexivity|]. intros z Z. apply INC. right. now right.
  Qed.

  (** ** All the views *)
  Lemma views_split : forall name d id g l v cs, known_as id g -> views parse s name d id v l = BOk cs -> forall pre f sf j p post, l = pre ++ (f, sf, j, p) :: post ->
    let w := (v + N.of_nat (length pre))%N in let tail := TypeNode (sf_type sf) g (is_iobj s (sf_type sf) id) (Some (SpProvides w)) in
    exists sels req d' inner, parse id (sf_type sf) p = Some sels /\ required parse name (Some j) = BOk req /\ defined (sf_type sf) d' /\ view_set id w (sf_type sf) d' tail sels = BOk inner /\
      incl (CEdge tail (GSelfie (sf_type sf)) tail :: CEdge (TypeNode name g (is_iobj s name id) None) (GField f name (is_scalar s (sf_type sf)) (sf_list sf) (Some j) req None) tail :: inner) cs.
  Proof.
    intros name d id g l. induction l as [|[[[f0 sf0] j0] p0] l IH]; intros v cs N E pre f sf j p post X; [destruct pre; discriminate|]. cbn [views] in E.
    apply bbind_ok in E. destruct E as [sels [P E]]. apply panic_ok in P. rewrite (proj2 (names_ok s F _ _) N) in E. cbn [bbind] in E. apply bbind_ok in E. destruct E as [req [R E]].
    destruct (lookup (sf_type sf0) (s_defs s)) as [d'|] eqn:L; [|discriminate]. apply (defs_ok s F) in L. apply bbind_ok in E. destruct E as [inner [V E]]. apply bbind_ok in E. destruct E as [rest [RS E]]. injection E as <-.
    destruct pre as [|y pre].
    - injection X as -> -> -> -> ->. cbn zeta. cbn [length N.of_nat]. rewrite N.add_0_r. exists sels, req, d', inner. repeat (split; [assumption|]). intros c [<-|[<-|I]]; [now left|right; now left|right; right; apply in_or_app; now left].
    - injection X as <- ->. destruct (IH _ _ N RS _ _ _ _ _ _ eq_refl) as (sels' & req' & d'' & inner' & P' & R' & D' & V' & INC). cbn zeta in *. cbn [length]. rewrite Nat2N.inj_succ.
      replace (v + N.succ (N.of_nat (length pre)))%N with (v + 1 + N.of_nat (length pre))%N by lia. exists sels', req', d'', inner'. repeat (split; [assumption|]). intros c I. right. right. apply in_or_app. right. now apply INC.
  Qed.
  Lemma views_sound : forall name d id g l v cs, known_as id g -> views parse s name d id v l = BOk cs -> forall c, In c cs -> exists pre f sf j p post, l = pre ++ (f, sf, j, p) :: post /\
    let w := (v + N.of_nat (length pre))%N in let tail := TypeNode (sf_type sf) g (is_iobj s (sf_type sf) id) (Some (SpProvides w)) in
    exists sels req d' inner, parse id (sf_type sf) p = Some sels /\ required parse name (Some j) = BOk req /\ defined (sf_type sf) d' /\ view_set id w (sf_type sf) d' tail sels = BOk inner /\
      In c (CEdge tail (GSelfie (sf_type sf)) tail :: CEdge (TypeNode name g (is_iobj s name id) None) (GField f name (is_scalar s (sf_type sf)) (sf_list sf) (Some j) req None) tail :: inner).
  Proof.
    intros name d id g l. induction l as [|[[[f0 sf0] j0] p0] l IH]; intros v cs N E c I; cbn [views] in E; [injection E as <-; destruct I|].
    apply bbind_ok in E. destruct E as [sels [P E]]. apply panic_ok in P. rewrite (proj2 (names_ok s F _ _) N) in E. cbn [bbind] in E. apply bbind_ok in E. destruct E as [req [R E]].
    destruct (lookup (sf_type sf0) (s_defs s)) as [d'|] eqn:L; [|discriminate]. apply (defs_ok s F) in L. apply bbind_ok in E. destruct E as [inner [V E]]. apply bbind_ok in E. destruct E as [rest [RS E]]. injection E as <-.
    assert (X : In c (CEdge (TypeNode (sf_type sf0) g (is_iobj s (sf_type sf0) id) (Some (SpProvides v))) (GSelfie (sf_type sf0)) (TypeNode (sf_type sf0) g (is_iobj s (sf_type sf0) id) (Some (SpProvides v))) ::
        CEdge (TypeNode name g (is_iobj s name id) None) (GField f0 name (is_scalar s (sf_type sf0)) (sf_list sf0) (Some j0) req None) (TypeNode (sf_type sf0) g (is_iobj s (sf_type sf0) id) (Some (SpProvides v))) :: inner) \/ In c rest).
    { destruct I as [I|[I|I]]; [left; now left|left; right; now left|]. apply in_app_or in I. destruct I as [I|I]; [left; right; now right|now right]. }
    clear I. destruct X as [I|I].
    - exists [], f0, sf0, j0, p0, l. split; [reflexivity|]. cbn zeta. cbn [length N.of_nat]. rewrite N.add_0_r. exists sels, req, d', inner. now repeat (split; [assumption|]).
    - destruct (IH _ _ N RS c I) as (pre & f & sf & j & p & post & -> & H). exists ((f0, sf0, j0, p0) :: pre), f, sf, j, p, post. split; [reflexivity|]. cbn zeta in *. cbn [length]. rewrite Nat2N.inj_succ.
      replace (v + N.succ (N.of_nat (length pre)))%N with (v + 1 + N.of_nat (length pre))%N by lia. exact H.
  Qed.
  Lemma view_sound : forall cs, (forall name d id, defined name d -> lives d id -> exists g, known_as id g) -> view_cmds parse s = BOk cs -> forall c, In c cs -> match c with CEdge hn k tn => edge (place_of hn) k (place_of tn) | CNode _ => False end.
  Proof.
    intros cs NM E c I. apply (beach_in _ _ _ E) in I. destruct I as [[name d] [a [D [A I]]]]. apply (beach_in _ _ _ A) in I. destruct I as [j [a1 [J [A1 I]]]]. assert (L : lives d (jt_graph j)) by (now exists j).
    apply bbind_ok in A1. destruct A1 as [vs [V A1]]. apply bbind_ok in A1. destruct A1 as [ms [M A1]]. injection A1 as <-. apply in_app_or in I.
    destruct (NM _ _ _ D L) as [g N]. destruct I as [I|I].
    - destruct (views_sound _ _ _ _ _ _ _ N V c I) as (pre & f & sf & jf & p & post & SP & sels & req & d' & inner & P & R & D' & VS & IN).
      assert (VO : view_of d (jt_graph j) f sf jf p (1 + N.of_nat (length pre))) by (apply providing_ok; exists pre, post; now split).
      destruct IN as [<-|[<-|IN]].
      + cbn. eapply e_view_self; [exact D|exact L|exact N|exact VO].
      + cbn. eapply e_view; [eassumption|eassumption|eassumption|eassumption|now apply wants_ok|apply scalar_ok].
      + pose proof (view_set_sound _ _ _ _ _ _ _ _ N D' VS) as FA. rewrite Forall_forall in FA. specialize (FA _ IN). destruct c; [destruct FA|]. cbn in FA. eapply e_view_below; [exact D|exact L|exact N|exact VO|exact D'|exact P|exact FA].
    - destruct (providing (jt_graph j) d) as [|y l]; [injection M as <-; destruct I|]. rewrite (proj2 (names_ok s F _ _) N) in M. cbn [bbind] in M.
      destruct (moves_in _ _ _ _ _ M D c I) as (j2 & key & x & g' & J2 & K & NE & N' & P & ->). cbn. eapply (e_entity parse s name d j j2); try eassumption. apply is_interface_ok.
  Qed.
  Lemma view_complete : forall cs, view_cmds parse s = BOk cs -> forall name d id g f sf j text v, defined name d -> lives d id -> known_as id g -> view_of d id f sf j text v ->
    put cs (PView (sf_type sf) g v) (GSelfie (sf_type sf)) (PView (sf_type sf) g v) /\
    (forall req leaf, wants parse name (Some j) req -> (leaf = true <-> scalar s (sf_type sf)) -> put cs (PType name g) (GField f name leaf (sf_list sf) (Some j) req None) (PView (sf_type sf) g v)) /\
    (forall l h k t, parse id (sf_type sf) text = Some l -> viewed id g v (sf_type sf) (PView (sf_type sf) g v) l h k t -> put cs h k t).
  Proof.
    intros cs E name d id g f sf j text v D [jt [JT <-]] N VO. destruct (beach_all _ _ _ E _ D) as [a A]. pose proof (fun y => beach_put _ _ _ _ _ y E D A) as P0. cbn in A. destruct (beach_all _ _ _ A _ JT) as [a1 A1]. pose proof (fun y => beach_put _ _ _ _ _ y A JT A1) as P1. cbn in A1.
    apply bbind_ok in A1. destruct A1 as [vs [V A1]]. apply bbind_ok in A1. destruct A1 as [ms [M A1]]. injection A1 as <-.
    apply providing_ok in VO. destruct VO as (pre & post & SP & EV).
    destruct (views_split _ _ _ _ _ _ _ N V _ _ _ _ _ _ SP) as (sels & req & d' & inner & P & R & D' & VS & INC). cbn zeta in *. rewrite <- EV in *. clear EV.
    assert (INC' : incl vs cs) by (intros y Y; apply P0, P1; apply in_or_app; now left). split; [|split].
    - do 2 eexists. split; [apply INC', INC; left; reflexivity|now split].
    - intros req' leaf W SC. apply wants_ok in W. assert (req' = req) by congruence. subst req'. rewrite (same_bool _ _ _ SC (scalar_ok s _)). do 2 eexists. split; [apply INC', INC; right; left; reflexivity|now split].
    - intros l h k t P' VW. assert (l = sels) by congruence. subst l. eapply put_incl; [eapply view_set_complete; [exact N|exact VW|exact D'| |exact VS]|]; [reflexivity|]. intros y Y. apply INC', INC. right. now right.
  Qed.
End Views.
