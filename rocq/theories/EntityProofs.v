From Coq Require Import String Ascii List NArith ZArith Bool Arith Lia Sorted.
From Verif Require Import StrOrd StrUtil JsonModel JsonWriterModel MergeModel MergeSpec Ast TraverseModel TraverseSpec TraverseProofs
  RewriteModel ProjModel ProjSpec ProjProofs RequiresModel RequiresSpec RequiresProofs EntityModel EntitySpec.
Import ListNotations.
Local Open Scope string_scope.

(** ** Sorted position lists *)
Lemma before_asym a b : before a b -> before b a -> False.
Proof.
  induction 1 as [i j q q' H|s q q' H IH]; intros B; inversion B; subst; solve [lia|auto].
Qed.
Lemma before_irrefl a : ~ before a a.
Proof. intros H. exact (before_asym a a H H). Qed.

Lemma sorted_unique l1 : forall l2, StronglySorted before l1 -> StronglySorted before l2 ->
  (forall q, In q l1 <-> In q l2) -> l1 = l2.
Proof.
  induction l1 as [|x l1 IH]; intros [|y l2] S1 S2 E.
  - reflexivity.
  - exfalso. apply (E y). left. reflexivity.
  - exfalso. apply (E x). left. reflexivity.
  - apply StronglySorted_inv in S1, S2. destruct S1 as [S1 F1], S2 as [S2 F2]. rewrite Forall_forall in F1, F2.
    assert (Exy : x = y).
    { destruct (proj1 (E x) (or_introl eq_refl)) as [<-|Hx]; [reflexivity|].
      destruct (proj2 (E y) (or_introl eq_refl)) as [->|Hy]; [reflexivity|].
      exfalso. exact (before_asym x y (F1 y Hy) (F2 x Hx)). }
    subst y. f_equal. apply IH; [exact S1|exact S2|]. intros q. split; intros H.
    + destruct (proj1 (E q) (or_intror H)) as [<-|H']; [|exact H']. exfalso. exact (before_irrefl x (F1 x H)).
    + destruct (proj2 (E q) (or_intror H)) as [<-|H']; [|exact H']. exfalso. exact (before_irrefl x (F2 x H)).
Qed.

Lemma same_positions_fst pt p d1 d2 : same_positions pt p d1 d2 -> map fst (targets pt p d1) = map fst (targets pt p d2).
Proof.
  intros S. apply sorted_unique; [apply targets_sorted|apply targets_sorted|]. intros q. split; intros H;
    apply in_map_iff in H; destruct H as ([q' x] & <- & H); apply targets_selects in H; cbn [fst].
  - destruct (proj1 (S q') (ex_intro _ x H)) as [y Hy]. apply targets_selects in Hy. apply (in_map fst) in Hy. exact Hy.
  - destruct (proj2 (S q') (ex_intro _ x H)) as [y Hy]. apply targets_selects in Hy. apply (in_map fst) in Hy. exact Hy.
Qed.
Lemma same_positions_refl pt p d : same_positions pt p d d.
Proof. intros q. reflexivity. Qed.

(** ** Building representations *)
Section B.
  Variable ryu : N -> string.
  Variable pt : ptypes.
  Variable xxh : list N -> N.
  Variable sels : list sel.
  Variable rws : list rewrite.
  Notation pv := (print_value ryu).
  Notation its := (its_rep pt sels rws).

  Notation hash := (hash_of pt xxh sels).
  Definition own_in (index : list (N * nat)) (h : option N) : option nat :=
    match h with Some h => nget h index | None => None end.

  (** after the entities [D] *)
  Record inv (D : list value) (s : pstate) (reps : list value) : Prop := {
    i_buf : ps_buf s = "[" ++ join "," (map pv reps);
    i_count : ps_count s = length reps;
    i_index : map snd (ps_index s) = seq 0 (length reps);
    i_rep : forall e, In e D -> its e = pick (own_in (ps_index s) (hash e)) reps;
    i_used : forall h j, nget h (ps_index s) = Some j -> exists e, In e D /\ hash e = Some h;
    i_owned : forall j, j < length reps -> exists e, In e D /\ own_in (ps_index s) (hash e) = Some j }.

  Notation faithful := (faithful pt xxh sels rws).
  Notation all_tidy := (all_tidy pt sels rws).

  Lemma nget_app h l h' j : nget h (l ++ [(h', j)]) = match nget h l with Some i => Some i | None => if N.eqb h h' then Some j else None end.
  Proof. induction l as [|[h0 i] l IH]; cbn; [reflexivity|]. destruct (N.eqb h h0); [reflexivity|exact IH]. Qed.
  Lemma nget_lt h l j n : map snd l = seq 0 n -> nget h l = Some j -> j < n.
  Proof.
    intros E H. assert (Hin : In j (map snd l)).
    { clear E. induction l as [|[h0 i] l IH]; cbn in *; [discriminate|]. destruct (N.eqb h h0); [injection H as ->; left; reflexivity|right; auto]. }
    rewrite E in Hin. apply in_seq in Hin. lia.
  Qed.

  Lemma add_entity_ok D s reps e s' : inv D s reps -> forallb plain_sel sels = true ->
    faithful (D ++ [e]) -> all_tidy (D ++ [e]) -> add_entity ryu pt xxh sels rws e s = Some s' ->
    exists reps', inv (D ++ [e]) s' reps' /\ ps_hashes s' = (ps_hashes s ++ [hash e])%list.
  Proof.
    intros [Ib Ic Ii Ir Iu Io] Pl Fa Ti E. unfold add_entity in E. unfold EntitySpec.hash_of.
    destruct (is_null e) eqn:En.
    { injection E as <-. exists reps. cbn. split; [|reflexivity]. constructor; cbn; auto.
      - intros e0 H0. apply in_app_iff in H0. destruct H0 as [H0|[<-|[]]]; [auto|].
        unfold its_rep, EntitySpec.hash_of. rewrite En. reflexivity.
      - intros h j H. destruct (Iu h j H) as (x & Hx & Ex). exists x. split; [apply in_or_app; auto|exact Ex].
      - intros j Hj. destruct (Io j Hj) as (x & Hx & Ex). exists x. split; [apply in_or_app; auto|exact Ex]. }
    destruct (hash_with pt sels e) as [b|] eqn:Eh; [|discriminate E].
    assert (He : hash e = Some (xxh b)) by (unfold EntitySpec.hash_of; rewrite En, Eh; reflexivity).
    destruct (nget (xxh b) (ps_index s)) as [j|] eqn:Ej.
    { injection E as <-. exists reps. cbn. split; [|reflexivity]. constructor; cbn; auto.
      - intros e0 H0. apply in_app_iff in H0. destruct H0 as [H0|[<-|[]]]; [auto|].
        destruct (Iu _ _ Ej) as (x & Hx & Ex).
        rewrite He. cbn [own_in]. rewrite Ej. rewrite (Fa e x); [| | |exact En| |congruence].
        + rewrite (Ir x Hx), Ex. cbn [own_in]. rewrite Ej. reflexivity.
        + apply in_or_app. right. left. reflexivity.
        + apply in_or_app. left. exact Hx.
        + unfold EntitySpec.hash_of in Ex. destruct (is_null x); [discriminate Ex|reflexivity].
      - intros h j' H. destruct (Iu h j' H) as (x & Hx & Ex). exists x. split; [apply in_or_app; auto|exact Ex].
      - intros j0 Hj. destruct (Io j0 Hj) as (x & Hx & Ex). exists x. split; [apply in_or_app; auto|exact Ex]. }
    destruct (apply_rewrites pt rws e) as [e'|] eqn:Er; [|discriminate E].
    assert (Tid : tidy pt sels e' = true) by (eapply Ti; [apply in_or_app; right; left; reflexivity|exact Er]).
    rewrite (project_requires_ok ryu pt sels e' Pl Tid) in E.
    assert (Hit : its e = rep pt sels e') by (unfold its_rep; rewrite En, Er; reflexivity).
    assert (Old : forall e0, In e0 D -> hash e0 = Some (xxh b) -> its e = None).
    { intros e0 H0 Ex. rewrite (Fa e e0); [| | |exact En| |congruence].
      - rewrite (Ir e0 H0), Ex. cbn [own_in]. rewrite Ej. reflexivity.
      - apply in_or_app. right. left. reflexivity.
      - apply in_or_app. left. exact H0.
      - unfold EntitySpec.hash_of in Ex. destruct (is_null e0); [discriminate Ex|reflexivity]. }
    destruct (rep pt sels e') as [w|] eqn:Ew; cbn [out_of] in E;
      match type of E with Some ?a = Some _ => assert (Es : s' = a) by congruence end; subst s'; clear E; cbn [ps_hashes ps_index ps_count ps_buf].
    - exists (reps ++ [w])%list. split; [|reflexivity]. constructor; cbn [ps_hashes ps_index ps_count ps_buf].
      + rewrite Ib, write_key_none. rewrite map_app. cbn [map].
        assert (Nil : is_nil (ps_index s) = is_nil reps).
        { destruct (ps_index s), reps; try reflexivity; discriminate Ii. }
        rewrite Nil. destruct reps as [|r0 reps0] eqn:Ere; cbn [is_nil].
        * cbn. reflexivity.
        * rewrite <- Ere. rewrite join_snoc by (rewrite Ere; discriminate). rewrite !app_assoc_s. reflexivity.
      + rewrite app_length. cbn. lia.
      + rewrite map_app, Ii. cbn. rewrite app_length. cbn [length]. rewrite Nat.add_1_r, seq_S. cbn. rewrite Ic. reflexivity.
      + intros e0 H0. apply in_app_iff in H0. destruct H0 as [H0|[<-|[]]].
        * rewrite (Ir e0 H0). destruct (hash e0) as [h0|] eqn:E0; [|reflexivity]. cbn [own_in]. rewrite nget_app.
          destruct (nget h0 (ps_index s)) as [i0|] eqn:E1.
          -- cbn [pick]. rewrite nth_error_app1; [reflexivity|]. eapply nget_lt; [exact Ii|exact E1].
          -- destruct (N.eqb h0 (xxh b)) eqn:E2; [|reflexivity]. exfalso. apply N.eqb_eq in E2. subst h0.
             rewrite (Old e0 H0 E0) in Hit. discriminate Hit.
        * rewrite He, Hit. cbn [own_in]. rewrite nget_app, Ej, N.eqb_refl. cbn [pick]. rewrite Ic.
          rewrite nth_error_app2 by lia. rewrite Nat.sub_diag. reflexivity.
      + intros h j H. rewrite nget_app in H. destruct (nget h (ps_index s)) as [i0|] eqn:E1.
        * destruct (Iu _ _ E1) as (x & Hx & Ex). exists x. split; [apply in_or_app; auto|exact Ex].
        * destruct (N.eqb h (xxh b)) eqn:E2; [|discriminate H]. apply N.eqb_eq in E2. subst h.
          exists e. split; [apply in_or_app; right; left; reflexivity|exact He].
      + intros j Hj. rewrite app_length in Hj. cbn [length] in Hj. destruct (Nat.eq_dec j (length reps)) as [->|Hne].
        * exists e. split; [apply in_or_app; right; left; reflexivity|]. rewrite He. cbn [own_in].
          rewrite nget_app, Ej, N.eqb_refl, Ic. reflexivity.
        * destruct (Io j ltac:(lia)) as (x & Hx & Ex). exists x. split; [apply in_or_app; auto|].
          destruct (hash x) as [hx|]; [|discriminate Ex]. cbn [own_in] in *. rewrite nget_app, Ex. reflexivity.
    - exists reps. split; [|reflexivity]. constructor; cbn [ps_hashes ps_index ps_count ps_buf]; auto.
      + intros e0 H0. apply in_app_iff in H0. destruct H0 as [H0|[<-|[]]]; [auto|].
        rewrite He, Hit. cbn [own_in]. rewrite Ej. reflexivity.
      + intros h j H. destruct (Iu h j H) as (x & Hx & Ex). exists x. split; [apply in_or_app; auto|exact Ex].
      + intros j Hj. destruct (Io j Hj) as (x & Hx & Ex). exists x. split; [apply in_or_app; auto|exact Ex].
  Qed.

  Lemma faithful_incl D D' : incl D D' -> faithful D' -> faithful D.
  Proof. intros I F e1 e2 H1 H2. apply F; apply I; assumption. Qed.
  Lemma tidy_incl D D' : incl D D' -> all_tidy D' -> all_tidy D.
  Proof. intros I F e e' H. apply F, I, H. Qed.

  Lemma add_entities_ok es : forall D s reps s', inv D s reps -> forallb plain_sel sels = true ->
    faithful (D ++ es) -> all_tidy (D ++ es) -> add_entities ryu pt xxh sels rws es s = Some s' ->
    exists reps', inv (D ++ es) s' reps' /\ ps_hashes s' = (ps_hashes s ++ map hash es)%list.
  Proof.
    induction es as [|e es IH]; intros D s reps s' I Pl Fa Ti E; cbn [add_entities] in E.
    - injection E as <-. exists reps. rewrite !app_nil_r. auto.
    - destruct (add_entity ryu pt xxh sels rws e s) as [s1|] eqn:E1; [|discriminate E].
      assert (Ap : (D ++ e :: es = (D ++ [e]) ++ es)%list) by (rewrite <- app_assoc; reflexivity).
      rewrite Ap in *. destruct (add_entity_ok D s reps e s1 I Pl) as (r1 & I1 & H1).
      + eapply faithful_incl; [|exact Fa]. apply incl_appl, incl_refl.
      + eapply tidy_incl; [|exact Ti]. apply incl_appl, incl_refl.
      + exact E1.
      + destruct (IH _ _ _ _ I1 Pl Fa Ti E) as (r2 & I2 & H2). exists r2. split; [exact I2|].
        rewrite H2, H1. cbn [map]. rewrite <- app_assoc. reflexivity.
  Qed.

  Lemma inv_start D0 : D0 = [] -> inv D0 (mkps [] [] 0 "[") [].
  Proof. intros ->. constructor; cbn; try reflexivity; try contradiction; try discriminate. intros j Hj. lia. Qed.

  Lemma inv_reset D s reps : inv D s reps -> inv D (mkps [] (ps_index s) (ps_count s) (ps_buf s)) reps.
  Proof. intros [A B C E F G]. constructor; assumption. Qed.

End B.

(** ** Placing the results *)
Section P.
  Variable index : list (N * nat).
  Variable ents : list value.

  Definition placed (t : (list seg * value) * option nat) : list seg * value :=
    (fst (fst t), merge_opt (snd (fst t)) (pick (snd t) ents)).
  Definition is_own (j : nat) (t : (list seg * value) * option nat) : bool :=
    match snd t with Some i => Nat.eqb i j | None => false end.
  (** what the map records for [j] after the entities [ts] *)
  Definition recorded (j : nat) (path : list seg -> list eseg) (ts : list ((list seg * value) * option nat))
    (old : option (list (list eseg))) : option (list (list eseg)) :=
    match filter (is_own j) ts with
    | [] => old
    | os => Some ((match old with Some l => l | None => [] end) ++ map (fun t => path (fst (fst t))) os)%list
    end.

  Lemma eget_epush i p m j : eget j (epush i p m) =
    if Nat.eqb i j then Some ((match eget j m with Some l => l | None => [] end) ++ [p])%list else eget j m.
  Proof.
    induction m as [|[k l] m IH]; cbn [epush eget].
    - rewrite (Nat.eqb_sym j i). destruct (Nat.eqb i j); reflexivity.
    - destruct (Nat.eqb i k) eqn:Eik; cbn [eget].
      + apply Nat.eqb_eq in Eik. subst k. rewrite (Nat.eqb_sym j i). destruct (Nat.eqb i j); reflexivity.
      + destruct (Nat.eqb j k) eqn:Ejk.
        * apply Nat.eqb_eq in Ejk. subst k. rewrite Eik. reflexivity.
        * exact IH.
  Qed.

  Lemma place_step hashes target ep i m h : nth_error hashes i = Some h ->
    place hashes index ents target ep (i, m) =
    (merge_opt target (pick (own_in index h) ents),
     (S i, match own_in index h, ep with Some j, Some p => epush j p m | _, _ => m end)).
  Proof.
    intros E. unfold place. rewrite E. destruct h as [h|]; [|reflexivity]. cbn [own_in].
    destruct (nget h index) as [j|]; [|reflexivity]. cbn [pick]. destruct (nth_error ents j); destruct ep; reflexivity.
  Qed.

  Lemma place_all hashes path ts : forall done hs m, hashes = (done ++ hs)%list -> length hs = length ts ->
    exists m', call_each (place hashes index ents) path ts (length done, m)
      = (map placed (combine ts (map (own_in index) hs)), (length done + length ts, m')) /\
      ((forall q, path q = None) -> m' = m) /\
      (forall f, (forall q, path q = Some (f q)) ->
        forall j, eget j m' = recorded j f (combine ts (map (own_in index) hs)) (eget j m)).
  Proof.
    induction ts as [|[q x] ts IH]; intros done hs m E L.
    - destruct hs; [|discriminate L]. exists m. cbn. rewrite Nat.add_0_r. auto.
    - destruct hs as [|h hs]; [discriminate L|]. cbn [call_each]. cbn [length] in L. injection L as L.
      rewrite (place_step _ _ _ _ _ h) by (rewrite E, nth_error_app2, Nat.sub_diag by lia; reflexivity).
      set (m1 := match own_in index h with Some j => match path q with Some p => epush j p m | None => m end | None => m end).
      destruct (IH (done ++ [h])%list hs m1) as (m' & C & Hn & Hs); [rewrite <- app_assoc; exact E|exact L|].
      rewrite app_length in C. cbn [length] in C. rewrite Nat.add_1_r in C. rewrite C. exists m'. split; [|split].
      + cbn. repeat f_equal. lia.
      + intros P. rewrite (Hn P). unfold m1. rewrite (P q). destruct (own_in index h); reflexivity.
      + intros f F j. rewrite (Hs f F j). unfold m1. rewrite (F q). unfold recorded. cbn [map combine filter].
        unfold is_own at 2. cbn [snd]. destruct (own_in index h) as [i|]; [|reflexivity].
        rewrite eget_epush. destruct (Nat.eqb i j); [|reflexivity].
        destruct (filter (is_own j) (combine ts (map (own_in index) hs))) as [|t os]; [reflexivity|].
        cbn [map fst]. rewrite <- app_assoc. reflexivity.
  Qed.
End P.

Lemma tagged_ok name aff e :
  (match aff with Some p => add_affected_path p (add_subgraph_name name e) | None => add_subgraph_name name e end) = tagged name aff e.
Proof. unfold tagged, add_affected_path, add_subgraph_name. destruct aff, (e_code e), (e_service e); reflexivity. Qed.

Lemma entity_index_relocated e m pos : (forall j, eget j m = match pos j with [] => None | l => Some (map epath l) end) ->
  normalize_entity_error m e = relocated pos e.
Proof.
  intros H. unfold normalize_entity_error, entity_index_and_path, relocated.
  destruct (e_path e) as [[|[s|i] [|[t|j] rest]]|]; try reflexivity.
  destruct (String.eqb s "_entities"); [|reflexivity]. rewrite H. destruct (pos j) as [|q l]; [reflexivity|].
  rewrite map_map. reflexivity.
Qed.

Lemma handle_errors_none name aff es : handle_errors name aff (Some es) None = map (tagged name aff) es.
Proof. cbn [handle_errors]. induction es as [|e es IH]; [reflexivity|]. cbn [flat_map map]. rewrite IH, <- tagged_ok. reflexivity. Qed.
Lemma handle_errors_some name aff es m pos : (forall j, eget j m = match pos j with [] => None | l => Some (map epath l) end) ->
  handle_errors name aff (Some es) (Some m) = flat_map (fun e => relocated pos (tagged name aff e)) es.
Proof.
  intros H. cbn [handle_errors]. apply flat_map_ext. intros e. rewrite <- tagged_ok. destruct aff; apply entity_index_relocated, H.
Qed.

(** ** A flatten fetch *)
Section F.
  Variable ryu : N -> string.
  Variable pt : ptypes.
  Variable xxh : list N -> N.
  Variable sels : list sel.
  Variable rws : list rewrite.
  Notation pv := (print_value ryu).
  Notation its := (its_rep pt sels rws).
  Notation hash := (hash_of pt xxh sels).

  (** the index of the entity at position [q] *)
  Definition owner (data : value) (index : list (N * nat)) (q : list seg) : option nat :=
    match at_path q data with Some e => own_in index (hash e) | None => None end.
  Definition positions_of (p : list fseg) (data : value) (index : list (N * nat)) (j : nat) : list (list seg) :=
    filter (fun q => match owner data index q with Some i => Nat.eqb i j | None => false end) (map fst (targets pt p data)).

  Lemma positions_in p data index j q : In q (positions_of p data index j) <->
    (exists e, selects pt p data q e) /\ owner data index q = Some j.
  Proof.
    unfold positions_of. rewrite filter_In, in_map_iff. split.
    - intros (([q' e] & <- & H) & O). cbn [fst] in *. apply targets_selects in H. split; [eauto|].
      destruct (owner data index q') as [i|]; [|discriminate O]. apply Nat.eqb_eq in O. subst i. reflexivity.
    - intros ((e & H) & O). split.
      + exists (q, e). split; [reflexivity|]. apply targets_selects, H.
      + rewrite O. apply Nat.eqb_refl.
  Qed.
  Lemma sorted_filter {A} (R : A -> A -> Prop) f l : StronglySorted R l -> StronglySorted R (filter f l).
  Proof.
    induction 1 as [|x l S IH F]; cbn [filter]; [constructor|]. destruct (f x); [|exact IH].
    constructor; [exact IH|]. rewrite Forall_forall in *. intros y Hy. apply filter_In in Hy. apply F, Hy.
  Qed.
  Lemma positions_sorted p data index j : StronglySorted before (positions_of p data index j).
  Proof. apply sorted_filter, targets_sorted. Qed.

  Lemma owners_eq p data index : map (own_in index) (map hash (map snd (targets pt p data))) =
    map (owner data index) (map fst (targets pt p data)).
  Proof.
    rewrite !map_map. apply map_ext_in. intros [q e] H. apply targets_selects, selects_at_path in H.
    unfold owner. cbn [fst snd]. rewrite H. reflexivity.
  Qed.

  Lemma combine_fst (f : list seg -> option nat) (ts : list (list seg * value)) : combine ts (map f (map fst ts)) = map (fun t => (t, f (fst t))) ts.
  Proof. induction ts as [|t ts IH]; [reflexivity|]. cbn. f_equal. exact IH. Qed.

  (** placing answers over [data2], whose targets are those of [data] *)
  Lemma place_ok p data data2 index ents e0 m : same_positions pt p data data2 ->
    exists data' n m',
      visit_mut (nat * emap) (place (map hash (visit pt p data)) index ents) pt p data2 e0 (0, m) = (data', (n, m')) /\
      (forall q e2, selects pt p data2 q e2 -> at_path q data' = Some (merge_opt e2 (pick (owner data index q) ents))) /\
      (forall q, off_path pt p data2 q -> at_path q data' = at_path q data2) /\
      match e0 with
      | None => m' = m
      | Some l => forall j, eget j m' = match positions_of p data index j with
                                        | [] => eget j m
                                        | ps => Some ((match eget j m with Some o => o | None => [] end)
                                                      ++ map (fun q => l ++ epath q) ps)%list
                                        end
      end.
  Proof.
    intros S. pose proof (same_positions_fst _ _ _ _ S) as F.
    rewrite visit_mut_ok. unfold result. rewrite targets_visit.
    destruct (place_all index ents (map hash (map snd (targets pt p data))) (at_ e0) (targets pt p data2) []
                (map hash (map snd (targets pt p data))) m eq_refl) as (m' & C & Hn & Hs).
    { rewrite !map_length. apply (f_equal (@length _)) in F. rewrite !map_length in F. exact F. }
    cbn [length Nat.add] in C. rewrite C. rewrite owners_eq, F, combine_fst in *.
    set (ts := targets pt p data2) in *.
    set (us := map (placed ents) (map (fun t => (t, owner data index (fst t))) ts)).
    assert (Fu : map fst us = map fst ts) by (unfold us; rewrite !map_map; apply map_ext; reflexivity).
    exists (replace_all us data2), (length ts), m'. split; [reflexivity|]. split; [|split].
    - intros q e2 H.
      assert (R : Forall (fun u => at_path (fst u) (replace_all us data2) = Some (snd u)) us).
      { apply replace_all_at.
        - rewrite Fu. apply targets_sorted.
        - apply Forall_forall. intros u Hu. apply (in_map fst) in Hu. rewrite Fu in Hu. apply in_map_iff in Hu.
          destruct Hu as ([q' x'] & E & Hx). apply targets_selects, selects_at_path in Hx. rewrite <- E. cbn [fst].
          rewrite Hx. discriminate. }
      rewrite Forall_forall in R.
      specialize (R (q, merge_opt e2 (pick (owner data index q) ents))). apply R. unfold us. rewrite map_map.
      apply in_map_iff. exists (q, e2). split; [reflexivity|]. apply targets_selects, H.
    - intros q H. apply replace_all_other. apply Forall_forall. intros u Hu. apply (in_map fst) in Hu. rewrite Fu in Hu.
      apply in_map_iff in Hu. destruct Hu as ([t x] & E & Hx). apply targets_selects in Hx. destruct (H t x Hx) as [A B].
      rewrite <- E. cbn [fst]. split; [exact A|exact B].
    - destruct e0 as [l|].
      + intros j. rewrite (Hs (fun q => l ++ epath q)%list) by reflexivity. unfold recorded, positions_of. rewrite F.
        assert (G : map (fun t => fst (fst t)) (filter (is_own j) (map (fun t => (t, owner data index (fst t))) ts))
          = filter (fun q => match owner data index q with Some i => Nat.eqb i j | None => false end) (map fst ts)).
        { clear. induction ts as [|t ts IH]; [reflexivity|]. cbn [map filter]. unfold is_own at 1. cbn [snd].
          destruct (match owner data index (fst t) with Some i => Nat.eqb i j | None => false end); [|exact IH].
          cbn [map fst]. f_equal. exact IH. }
        rewrite <- G. destruct (filter (is_own j) (map (fun t => (t, owner data index (fst t))) ts)) as [|t os]; [reflexivity|].
        cbn [map]. rewrite map_map. reflexivity.
      + apply Hn. reflexivity.
  Qed.

  Lemma prepare_ok p data j : forallb plain_sel sels = true ->
    faithful pt xxh sels rws (visit pt p data) -> all_tidy pt sels rws (visit pt p data) ->
    prepare_flatten ryu pt xxh sels rws p data = Some j ->
    exists s reps, inv ryu pt xxh sels rws (visit pt p data) s reps /\
      j = match reps with [] => None | _ => Some (mkjob (pv (VArr reps)) (map hash (visit pt p data)) (ps_index s)) end.
  Proof.
    intros Pl Fa Ti E. unfold prepare_flatten in E.
    destruct (add_entities ryu pt xxh sels rws (visit pt p data) (mkps [] [] 0 "[")) as [s|] eqn:Es; [|discriminate E].
    destruct (add_entities_ok ryu pt xxh sels rws (visit pt p data) [] (mkps [] [] 0 "[") [] s (inv_start _ _ _ _ _ _ eq_refl) Pl Fa Ti Es)
      as (reps & I & H).
    exists s, reps. split; [exact I|]. cbn [List.app] in *. destruct I as [Ib Ic Ii Ir Iu Io].
    assert (Nil : is_nil (ps_index s) = is_nil reps).
    { destruct (ps_index s), reps; try reflexivity; discriminate Ii. }
    rewrite Nil in E. destruct reps as [|r reps]; cbn [is_nil] in E; [congruence|].
    match type of E with Some ?a = Some _ => assert (Ej : j = a) by congruence end. rewrite Ej. f_equal. f_equal.
    - rewrite Ib. cbn [print_value]. rewrite !app_assoc_s. reflexivity.
    - rewrite H. reflexivity.
  Qed.

  Lemma owner_selects p data index q e : selects pt p data q e -> owner data index q = own_in index (hash e).
  Proof. intros H. unfold owner. rewrite (selects_at_path _ _ _ _ _ H). reflexivity. Qed.
  Lemma selects_visit p data q e : selects pt p data q e -> In e (visit pt p data).
  Proof. intros H. rewrite targets_visit. apply targets_selects in H. apply (in_map snd) in H. exact H. Qed.
  Lemma visit_selects p data e : In e (visit pt p data) -> exists q, selects pt p data q e.
  Proof. rewrite targets_visit. intros H. apply in_map_iff in H. destruct H as ([q x] & <- & H). exists q. apply targets_selects, H. Qed.

  (** who owns what, for the entities reached by several paths *)
  Lemma inv_own D s reps e : inv ryu pt xxh sels rws D s reps -> forall i, own_in (ps_index s) (hash e) = Some i -> i < length reps.
  Proof. intros [Ib Ic Ii Ir Iu Io] i H. destruct (hash e) as [h|]; [|discriminate H]. eapply nget_lt; eassumption. Qed.

  Theorem flatten_ok p data j : forallb plain_sel sels = true ->
    faithful pt xxh sels rws (visit pt p data) -> all_tidy pt sels rws (visit pt p data) ->
    prepare_flatten ryu pt xxh sels rws p data = Some (Some j) ->
    exists reps own,
      j_text j = pv (VArr reps) /\ reps <> [] /\
      (forall q e, selects pt p data q e -> its e = pick (own q) reps) /\
      (forall q i, own q = Some i -> i < length reps) /\
      (forall i, i < length reps -> exists q e, selects pt p data q e /\ own q = Some i) /\
      exists pos,
        (forall i, StronglySorted before (pos i)) /\
        (forall i q, In q (pos i) <-> (exists e, selects pt p data q e) /\ own q = Some i) /\
        forall data2 name aff out r ents0 ents, same_positions pt p data data2 ->
          take_entities_by_key "_entities" (r_data r) = Some ents0 -> map_opt (apply_rewrites pt out) ents0 = Some ents ->
          exists data' errs, process_flatten pt name aff p j out r data2 = Some (data', errs) /\
            (forall q e2, selects pt p data2 q e2 -> at_path q data' = Some (merge_opt e2 (pick (own q) ents))) /\
            (forall q, off_path pt p data2 q -> at_path q data' = at_path q data2) /\
            errs = flat_map (fun e => relocated pos (tagged name (Some aff) e)) (match r_errors r with Some es => es | None => [] end).
  Proof.
    intros Pl Fa Ti E. destruct (prepare_ok p data (Some j) Pl Fa Ti E) as (s & reps & I & Ej).
    destruct reps as [|r0 reps0] eqn:Er; [discriminate Ej|]. rewrite <- Er in *.
    assert (Ej' : j = mkjob (pv (VArr reps)) (map hash (visit pt p data)) (ps_index s)) by congruence. clear Ej. subst j.
    exists reps, (owner data (ps_index s)). cbn [j_text j_hashes j_index].
    pose proof (fun e => inv_own _ _ _ e I) as IO. destruct I as [Ib Ic Ii Ir Iu Io].
    split; [reflexivity|]. split; [rewrite Er; discriminate|]. split; [|split; [|split]].
    - intros q e H. rewrite (owner_selects _ _ _ _ _ H). apply Ir. eapply selects_visit, H.
    - intros q i H. unfold owner in H. destruct (at_path q data) as [e|]; [|discriminate H]. eapply IO, H.
    - intros i Hi. destruct (Io i Hi) as (e & He & Oe). destruct (visit_selects _ _ _ He) as (q & Hq).
      exists q, e. split; [exact Hq|]. rewrite (owner_selects _ _ _ _ _ Hq). exact Oe.
    - exists (positions_of p data (ps_index s)). split; [intros; apply positions_sorted|]. split; [intros; apply positions_in|].
      intros data2 name aff out r ents0 ents S T M. unfold process_flatten. rewrite T, M. cbn [j_hashes j_index].
      destruct (place_ok p data data2 (ps_index s) ents (match r_errors r with Some _ => Some [] | None => None end) [] S)
        as (data' & n & m' & V & A & B & Em).
      cbv zeta.
      match goal with |- context [visit_mut ?a ?b ?c ?d ?e ?f ?g] =>
        replace (visit_mut a b c d e f g) with (data', (n, m')) by (symmetry; exact V) end.
      destruct (r_errors r) as [es|]; cbv beta iota in Em |- *.
      + exists data', (flat_map (fun e => relocated (positions_of p data (ps_index s)) (tagged name (Some aff) e)) es).
        split; [|auto]. f_equal. f_equal. apply handle_errors_some. intros i. rewrite Em. cbn [eget List.app].
        destruct (positions_of p data (ps_index s) i); reflexivity.
      + exists data', []. auto.
  Qed.

  Lemma nothing_to_fetch p data : forallb plain_sel sels = true ->
    faithful pt xxh sels rws (visit pt p data) -> all_tidy pt sels rws (visit pt p data) ->
    forall j, prepare_flatten ryu pt xxh sels rws p data = Some j ->
    (j = None <-> forall q e, selects pt p data q e -> its e = None).
  Proof.
    intros Pl Fa Ti j E. destruct (prepare_ok p data j Pl Fa Ti E) as (s & reps & I & Ej). destruct I as [Ib Ic Ii Ir Iu Io].
    split.
    - intros -> q e H. destruct reps; [|discriminate Ej]. rewrite (Ir e) by (eapply selects_visit, H).
      destruct (own_in (ps_index s) (hash e)) as [n|]; [destruct n|]; reflexivity.
    - intros H. destruct reps as [|r0 reps0]; [exact Ej|exfalso].
      destruct (Io 0 ltac:(cbn; lia)) as (e & He & Oe). pose proof (Ir e He) as R. rewrite Oe in R. cbn in R.
      destruct (visit_selects _ _ _ He) as (q & Hq). rewrite (H q e Hq) in R. discriminate R.
  Qed.
End F.
