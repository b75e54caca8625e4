From Coq Require Import String Ascii List NArith ZArith Bool Arith Lia Sorted.
From Verif Require Import StrOrd StrUtil JsonModel JsonWriterModel JsonText JsonWriterProofs MergeModel MergeSpec Ast
  TraverseModel TraverseSpec TraverseProofs RewriteModel
  ProjModel ProjSpec ProjProofs RequiresModel RequiresSpec RequiresProofs EntityModel EntitySpec EntityProofs.
Import ListNotations.
Local Open Scope string_scope.

Lemma forall2_weaken {A B} (P Q : A -> B -> Prop) l1 l2 : (forall a b, P a b -> Q a b) -> Forall2 P l1 l2 -> Forall2 Q l1 l2.
Proof. intros H. induction 1; constructor; auto. Qed.
Lemma flat_map_of_map {A B C} (f : A -> B) (g : B -> list C) l : flat_map g (map f l) = flat_map (fun x => g (f x)) l.
Proof. induction l as [|x l IH]; [reflexivity|]. cbn. rewrite IH. reflexivity. Qed.

Lemma fseg_eqb_ok a b : fseg_eqb a b = true <-> a = b.
Proof.
  destruct a as [|x|x], b as [|y|y]; cbn [fseg_eqb]; try (split; [discriminate|congruence]); [split; reflexivity| |].
  - rewrite String.eqb_eq. split; congruence.
  - enough (H : (fix eqb (x y : list string) : bool :=
           match x, y with
           | [], [] => true
           | s :: x', t :: y' => String.eqb s t && eqb x' y'
           | _, _ => false
           end) x y = true <-> x = y) by (rewrite H; split; congruence).
    revert y. induction x as [|s x IH]; intros [|t y]; try (split; [discriminate|congruence]); [split; reflexivity|].
    rewrite andb_true_iff, IH, String.eqb_eq. split; [intros [-> ->]; reflexivity|intros H; injection H as -> ->; auto].
Qed.
Lemma path_eqb_ok p : forall q, path_eqb p q = true <-> p = q.
Proof.
  induction p as [|a p IH]; intros [|b q]; cbn [path_eqb]; try (split; [discriminate|congruence]); [split; reflexivity|].
  rewrite andb_true_iff, IH, fseg_eqb_ok. split; [intros [-> ->]; reflexivity|intros H; injection H as -> ->; auto].
Qed.

Lemma groups_in ps : forall seen p, In p (groups ps seen) -> In p ps.
Proof.
  induction ps as [|x ps IH]; intros seen p H; [exact H|]. cbn [groups] in H.
  destruct (existsb (path_eqb x) seen); [right; eapply IH, H|]. destruct H as [->|H]; [left; reflexivity|right; eapply IH, H].
Qed.
Lemma groups_all ps : forall seen p, In p ps -> In p (groups ps seen) \/ In p seen.
Proof.
  induction ps as [|x ps IH]; intros seen p H; [destruct H|]. cbn [groups].
  destruct (existsb (path_eqb x) seen) eqn:E.
  - destruct H as [->|H]; [right|auto]. apply existsb_exists in E. destruct E as (y & Hy & E).
    apply path_eqb_ok in E. subst y. exact Hy.
  - destruct H as [->|H]; [left; left; reflexivity|]. destruct (IH (x :: seen) p H) as [H'|[->|H']]; cbn; auto.
Qed.

Lemma replace_same q : forall v x, at_path q v = Some x -> replace q x v = v.
Proof.
  induction q as [|[k|i] q IH]; intros v x H; cbn [at_path replace] in *.
  - congruence.
  - destruct v; try reflexivity. destruct (get k o) as [c|] eqn:G; [|reflexivity]. rewrite (IH c x H).
    rewrite set_key_same by exact G. reflexivity.
  - destruct v; try reflexivity. destruct (nth_error l i) as [c|] eqn:G; [|reflexivity]. rewrite (IH c x H).
    rewrite set_nth_same by exact G. reflexivity.
Qed.
Lemma replace_all_same us v : Forall (fun u => at_path (fst u) v = Some (snd u)) us -> replace_all us v = v.
Proof.
  unfold replace_all. induction 1 as [|u us H F IH]; [reflexivity|]. cbn [fold_left]. rewrite replace_same by exact H. exact IH.
Qed.

Lemma answered_fun pt own ents p d d1 d2 : answered pt own ents p d d1 -> answered pt own ents p d d2 -> d1 = d2.
Proof.
  intros (t1 & M1 & S1 & ->) (t2 & M2 & S2 & ->). do 2 f_equal.
  assert (E : map fst t1 = map fst t2).
  { apply sorted_unique; [exact S1|exact S2|]. intros q. split; intros H; apply in_map_iff in H;
      destruct H as ([q' x] & <- & H); cbn [fst].
    - apply M1, M2, (in_map fst) in H. exact H.
    - apply M2, M1, (in_map fst) in H. exact H. }
  assert (V1 : Forall (fun t => at_path (fst t) d = Some (snd t)) t1).
  { apply Forall_forall. intros [q x] H. apply M1, selects_at_path in H. exact H. }
  assert (V2 : Forall (fun t => at_path (fst t) d = Some (snd t)) t2).
  { apply Forall_forall. intros [q x] H. apply M2, selects_at_path in H. exact H. }
  clear M1 M2 S1 S2. revert t2 E V2. induction V1 as [|[q x] t1 H1 V1 IH]; intros [|[q2 x2] t2] E V2; try discriminate E.
  - reflexivity.
  - cbn [map fst] in E. injection E as Eq E. subst q2. inversion V2 as [|? ? H2 V2']; subst. cbn [fst snd] in *.
    assert (x = x2) by congruence. subst x2. f_equal. apply IH; assumption.
Qed.

Lemma answered_idle pt own ents p d : (forall q, own q = None) -> answered pt own ents p d d.
Proof.
  intros N. exists (targets pt p d). split; [intros; apply targets_selects|]. split; [apply targets_sorted|].
  symmetry. apply replace_all_same. apply Forall_forall. intros u H. apply in_map_iff in H. destruct H as ([q x] & <- & H).
  cbn [fst snd]. rewrite N. cbn. apply targets_selects, selects_at_path in H. exact H.
Qed.

Section A.
  Variable ryu : N -> string.
  Variable pt : ptypes.
  Variable xxh : list N -> N.
  Notation pv := (print_value ryu).
  Variable data : value.

  Section One.
    Variable sels : list sel.
    Variable rws : list rewrite.
    Notation hash := (hash_of pt xxh sels).
    Lemma walk_ok2 gs : forall D s reps hs s2, inv ryu pt xxh sels rws D s reps -> forallb plain_sel sels = true ->
      faithful pt xxh sels rws (D ++ flat_map (fun p => visit pt p data) gs) ->
      all_tidy pt sels rws (D ++ flat_map (fun p => visit pt p data) gs) ->
      walk_groups ryu pt xxh sels rws gs data s = Some (hs, s2) ->
      hs = map (fun p => (p, map hash (visit pt p data))) gs /\
      exists reps', inv ryu pt xxh sels rws (D ++ flat_map (fun p => visit pt p data) gs) s2 reps'.
    Proof.
      induction gs as [|p gs IH]; intros D s reps hs s2 I Pl Fa Ti E; cbn [walk_groups] in E.
      - injection E as <- <-. cbn [map flat_map]. rewrite app_nil_r. eauto.
      - destruct (add_entities ryu pt xxh sels rws (visit pt p data) (mkps [] (ps_index s) (ps_count s) (ps_buf s))) as [s1|] eqn:E1;
          [|discriminate E].
        destruct (walk_groups ryu pt xxh sels rws gs data s1) as [[r s3]|] eqn:E2; [|discriminate E].
        injection E as <- <-. cbn [flat_map] in *. rewrite app_assoc in *.
        destruct (add_entities_ok _ _ _ _ _ (visit pt p data) D _ reps s1 (inv_reset _ _ _ _ _ _ _ _ I) Pl) as (r1 & I1 & H1).
        + eapply faithful_incl; [|exact Fa]. apply incl_appl, incl_refl.
        + eapply tidy_incl; [|exact Ti]. apply incl_appl, incl_refl.
        + exact E1.
        + destruct (IH _ _ _ _ _ I1 Pl Fa Ti E2) as (-> & r2 & I2). split; [|eauto]. cbn [map]. f_equal. f_equal.
          exact H1.
    Qed.
  End One.

  (** what a prepared alias knows *)
  Definition prepared (a : alias) (st : astate) (reps : list value) : Prop :=
    as_alias st = a /\
    as_paths st = map (fun p => (p, map (hash_of pt xxh (a_requires a)) (visit pt p data))) (a_paths a) /\
    (reps = [] <-> as_index st = []) /\
    represents pt data a reps (owner pt xxh (a_requires a) data (as_index st))
      (fun p j => positions_of pt xxh (a_requires a) p data (as_index st) j).

  Notation entities := (entities pt data).
  Notation good := (good pt xxh data).

  Lemma pget_map (f : list fseg -> list (option N)) gs p : In p gs -> pget p (map (fun q => (q, f q)) gs) = f p.
  Proof.
    induction gs as [|q gs IH]; intros H; [destruct H|]. cbn [map pget]. destruct (path_eqb p q) eqn:E.
    - apply path_eqb_ok in E. congruence.
    - apply IH. destruct H as [->|H]; [|exact H]. exfalso. assert (path_eqb p p = true) by (apply path_eqb_ok; reflexivity). congruence.
  Qed.

  Lemma prepare_alias_ok a st text : good a -> prepare_alias ryu pt xxh a data = Some (st, text) ->
    exists reps, text = pv (VArr reps) /\ prepared a st reps.
  Proof.
    intros (Pl & Fa & Ti) E. unfold prepare_alias in E.
    destruct (walk_groups ryu pt xxh (a_requires a) (a_in a) (groups (a_paths a) []) data (mkps [] [] 0 "[")) as [[hs s]|] eqn:W;
      [|discriminate E].
    assert (Inc : incl (flat_map (fun p => visit pt p data) (groups (a_paths a) [])) (entities a)).
    { intros e H. apply in_flat_map in H. destruct H as (p & Hp & H). apply in_flat_map. exists p. split; [eapply groups_in, Hp|exact H]. }
    destruct (walk_ok2 (a_requires a) (a_in a) (groups (a_paths a) []) [] _ [] hs s (inv_start _ _ _ _ _ _ eq_refl) Pl
                (faithful_incl _ _ _ _ _ _ Inc Fa) (tidy_incl _ _ _ _ _ Inc Ti) W) as (-> & reps & I).
    cbn [List.app] in I. pose proof (fun e => inv_own _ _ _ _ _ _ _ _ e I) as IO. destruct I as [Ib Ic Ii Ir Iu Io].
    match type of E with Some (?x, ?y) = Some _ => assert (Est : st = x) by congruence; assert (Et : text = y) by congruence end.
    clear E. exists reps. split.
    { rewrite Et, Ib. cbn [print_value]. rewrite !app_assoc_s. reflexivity. }
    subst st. unfold prepared. cbn [as_alias as_paths as_index]. split; [reflexivity|]. split; [|split].
    - apply map_ext_in. intros p Hp. f_equal. apply pget_map. destruct (groups_all (a_paths a) [] p Hp) as [H|[]]. exact H.
    - destruct (ps_index s), reps; try discriminate Ii; split; congruence.
    - split; [|split; [|split]].
      + intros p q e Hp H. rewrite (owner_selects _ _ _ _ _ _ _ _ H). apply Ir. apply in_flat_map. exists p.
        split; [|eapply selects_visit, H]. destruct (groups_all (a_paths a) [] p Hp) as [H'|[]]. exact H'.
      + intros q i H. unfold owner in H. destruct (at_path q data) as [e|]; [|discriminate H]. eapply IO, H.
      + intros i Hi. destruct (Io i Hi) as (e & He & Oe). apply in_flat_map in He. destruct He as (p & Hp & He).
        destruct (visit_selects _ _ _ _ He) as (q & Hq). exists p, q, e. split; [eapply groups_in, Hp|]. split; [exact Hq|].
        rewrite (owner_selects _ _ _ _ _ _ _ _ Hq). exact Oe.
      + intros p j. split; [apply positions_sorted|intros q; apply positions_in].
  Qed.

  Lemma place_answered sels p d index ents e0 m : same_positions pt p data d ->
    exists d1 n m',
      visit_mut (nat * emap) (place (map (hash_of pt xxh sels) (visit pt p data)) index ents) pt p d e0 (0, m) = (d1, (n, m')) /\
      answered pt (owner pt xxh sels data index) ents p d d1 /\
      match e0 with
      | None => m' = m
      | Some l => forall j, eget j m' = match positions_of pt xxh sels p data index j with
                                        | [] => eget j m
                                        | ps => Some ((match eget j m with Some o => o | None => [] end)
                                                      ++ map (fun q => l ++ epath q) ps)%list
                                        end
      end.
  Proof.
    intros S. destruct (place_ok pt xxh sels p data d index ents e0 m S) as (d1 & n & m' & V & A & B & C).
    exists d1, n, m'. split; [exact V|]. split; [|exact C].
    exists (targets pt p d). split; [intros; apply targets_selects|]. split; [apply targets_sorted|].
    pose proof (same_positions_fst _ _ _ _ S) as F.
    rewrite visit_mut_ok in V. unfold result in V. rewrite targets_visit in V.
    destruct (place_all index ents (map (hash_of pt xxh sels) (map snd (targets pt p data))) (at_ e0) (targets pt p d) []
                (map (hash_of pt xxh sels) (map snd (targets pt p data))) m eq_refl) as (m2 & C2 & _ & _).
    { rewrite !map_length. apply (f_equal (@length _)) in F. rewrite !map_length in F. exact F. }
    cbn [length Nat.add] in C2. rewrite owners_eq, F, combine_fst in C2. rewrite C2 in V.
    injection V as V _ _. rewrite <- V. f_equal. rewrite map_map. reflexivity.
  Qed.

  Definition grow (l : list (list seg)) (old : option (list (list eseg))) : option (list (list eseg)) :=
    match l with [] => old | _ => Some ((match old with Some o => o | None => [] end) ++ map epath l)%list end.
  Lemma grow_app l1 l2 old : grow (l1 ++ l2)%list old = grow l2 (grow l1 old).
  Proof.
    destruct l1 as [|x l1]; [reflexivity|]. destruct l2 as [|y l2]; [rewrite app_nil_r; reflexivity|].
    cbn [grow List.app]. f_equal. rewrite <- app_assoc. f_equal. change (map epath ((x :: l1) ++ (y :: l2)) = map epath (x :: l1) ++ map epath (y :: l2))%list. apply map_app.
  Qed.

  Lemma place_paths_ok sels index ents (has : bool) ps : forall (G : value -> Prop) d m, G d ->
    (forall d p, G d -> In p ps -> same_positions pt p data d) ->
    (forall d p d1, G d -> In p ps -> answered pt (owner pt xxh sels data index) ents p d d1 -> G d1) ->
    exists d' m', place_paths pt index ents (map (fun p => (p, map (hash_of pt xxh sels) (visit pt p data))) ps)
                    (if has then Some [] else None) d m = (d', m') /\
      answered_in_turn pt (owner pt xxh sels data index) ents ps d d' /\ G d' /\
      (has = true -> forall j, eget j m' = grow (flat_map (fun p => positions_of pt xxh sels p data index j) ps) (eget j m)).
  Proof.
    induction ps as [|p ps IH]; intros G d m Gd Sp St; cbn [map place_paths].
    - exists d, m. split; [reflexivity|]. split; [constructor|]. split; [exact Gd|]. reflexivity.
    - destruct (place_answered sels p d index ents (if has then Some [] else None) m (Sp d p Gd (or_introl eq_refl)))
        as (d1 & n & m1 & V & A & Em). rewrite V.
      destruct (IH G d1 m1) as (d' & m' & E & T & Gd' & Em').
      + eapply St; [exact Gd|left; reflexivity|exact A].
      + intros d0 p0 G0 H0. apply Sp; [exact G0|right; exact H0].
      + intros d0 p0 d2 G0 H0. apply St; [exact G0|right; exact H0].
      + exists d', m'. split; [exact E|]. split; [econstructor; eassumption|]. split; [exact Gd'|]. intros Hh j.
        rewrite (Em' Hh j). cbn [flat_map]. rewrite grow_app. f_equal. subst has. cbv beta iota in Em. rewrite Em. cbn [List.app].
        unfold grow. destruct (positions_of pt xxh sels p data index j); reflexivity.
  Qed.
  Lemma idle_in_turn own ents ps d : (forall q, own q = None) -> answered_in_turn pt own ents ps d d.
  Proof. intros N. induction ps as [|p ps IH]; econstructor; [apply answered_idle, N|exact IH]. Qed.

  Lemma owner_nil sels q : owner pt xxh sels data [] q = None.
  Proof. unfold owner. destruct (at_path q data) as [e|]; [|reflexivity]. destruct (hash_of pt xxh sels e); reflexivity. Qed.
  Lemma positions_nil sels p j : positions_of pt xxh sels p data [] j = [].
  Proof.
    unfold positions_of. induction (map fst (targets pt p data)) as [|q l IH]; [reflexivity|]. cbn [filter].
    rewrite owner_nil. exact IH.
  Qed.
  Lemma flat_map_none {A B} (f : A -> list B) l : (forall x, f x = []) -> flat_map f l = [].
  Proof. intros H. induction l as [|x l IH]; [reflexivity|]. cbn. rewrite H, IH. reflexivity. Qed.

  Lemma merge_alias_ok a st reps ents0 has d (G : value -> Prop) : prepared a st reps -> G d ->
    (forall d p, G d -> In p (a_paths a) -> same_positions pt p data d) ->
    (forall d p ents d1, G d -> In p (a_paths a) -> map_opt (apply_rewrites pt (a_out a)) ents0 = Some ents ->
       answered pt (owner pt xxh (a_requires a) data (as_index st)) ents p d d1 -> G d1) ->
    forall ents, map_opt (apply_rewrites pt (a_out a)) ents0 = Some ents ->
    exists d' m, merge_alias pt st (Some ents0) has d = Some (d', m) /\
      answered_in_turn pt (owner pt xxh (a_requires a) data (as_index st)) ents (a_paths a) d d' /\ G d' /\
      (has = true -> exists m0, m = Some m0 /\ forall j, eget j m0 =
         match flat_map (fun p => positions_of pt xxh (a_requires a) p data (as_index st) j) (a_paths a) with
         | [] => None | l => Some (map epath l) end).
  Proof.
    intros (Ea & Ep & En & R) Gd Sp St ents M. unfold merge_alias. rewrite Ea, M.
    destruct (as_index st) as [|ix0 ix] eqn:Eix; cbn [is_nil].
    - exists d, (if has then Some [] else None). split; [reflexivity|]. split; [apply idle_in_turn, owner_nil|]. split; [exact Gd|].
      intros ->. exists []. split; [reflexivity|]. intros j. rewrite flat_map_none by (intros; apply positions_nil). reflexivity.
    - rewrite <- Eix in *. rewrite Ep.
      destruct (place_paths_ok (a_requires a) (as_index st) ents has (a_paths a) G d [] Gd Sp
                  (fun d0 p d1 G0 H0 => St d0 p ents d1 G0 H0 M)) as (d' & m' & E & T & Gd' & Em).
      rewrite E. exists d', (if has then Some m' else None). split; [reflexivity|]. split; [exact T|]. split; [exact Gd'|].
      intros ->. exists m'. split; [reflexivity|]. intros j. rewrite (Em eq_refl j). cbn [eget]. unfold grow.
      destruct (flat_map _ (a_paths a)); reflexivity.
  Qed.

  (** *** Variables *)
  Lemma get_snoc {A} k (l : list (string * A)) k' v : get k (l ++ [(k', v)])%list =
    match get k l with Some x => Some x | None => if String.eqb k k' then Some v else None end.
  Proof. induction l as [|[k0 x] l IH]; cbn [List.app get]; [reflexivity|]. destruct (String.eqb k k0); [reflexivity|exact IH]. Qed.

  Lemma prepare_batch_ok al : forall vars vs sts, Forall good al ->
    prepare_batch ryu pt xxh al data vars = Some (vs, sts) ->
    (forall k t, get k vars = Some t -> get k vs = Some t) /\
    exists repss, Forall2 (fun a x => prepared a (fst x) (snd x) /\
        prepare_alias ryu pt xxh a data = Some (fst x, pv (VArr (snd x))) /\
        exists t, get (a_var a) vs = Some t /\
          (get (a_var a) vars = Some t \/ exists b stb, In b al /\ a_var b = a_var a /\ prepare_alias ryu pt xxh b data = Some (stb, t)))
      al (combine sts repss) /\ length repss = length sts.
  Proof.
    induction al as [|a al IH]; intros vars vs sts Gd E; cbn [prepare_batch] in E.
    - injection E as <- <-. split; [auto|]. exists []. split; [constructor|reflexivity].
    - destruct (prepare_alias ryu pt xxh a data) as [[st text]|] eqn:Ea; [|discriminate E].
      set (vars1 := match get (a_var a) vars with Some _ => vars | None => (vars ++ [(a_var a, text)])%list end) in E.
      cbv zeta in E. destruct (prepare_batch ryu pt xxh al data vars1) as [[vs1 sts1]|] eqn:Eb; [|discriminate E].
      injection E as <- <-. inversion Gd as [|? ? Ga Gl]; subst.
      destruct (IH vars1 vs1 sts1 Gl Eb) as (Keep & repss & F & L).
      destruct (prepare_alias_ok a st text Ga Ea) as (reps & -> & P).
      assert (K1 : forall k t, get k vars = Some t -> get k vars1 = Some t).
      { intros k t H. unfold vars1. destruct (get (a_var a) vars); [exact H|]. rewrite get_snoc, H. reflexivity. }
      split; [intros k t H; apply Keep, K1, H|].
      exists (reps :: repss). cbn [combine length]. split; [|congruence]. constructor.
      + cbn [fst snd]. split; [exact P|]. split; [exact Ea|]. unfold vars1 in Keep.
        destruct (get (a_var a) vars) as [t|] eqn:Gv.
        * exists t. split; [apply Keep, Gv|left; reflexivity].
        * exists (pv (VArr reps)). split.
          -- apply Keep. rewrite get_snoc, Gv, String.eqb_refl. reflexivity.
          -- right. exists a, st. split; [left; reflexivity|]. split; [reflexivity|exact Ea].
      + eapply forall2_weaken; [|exact F]. intros b [stb rb] (Pb & Eb' & t & Gt & Src). cbn [fst snd] in *.
        split; [exact Pb|]. split; [exact Eb'|]. exists t. split; [exact Gt|].
        destruct Src as [Src|(c & stc & Hc & Vc & Ec)].
        * unfold vars1 in Src. destruct (get (a_var a) vars) as [t0|] eqn:Gv; [left; exact Src|].
          rewrite get_snoc in Src. destruct (get (a_var b) vars) as [t0|]; [left; exact Src|].
          destruct (String.eqb (a_var b) (a_var a)) eqn:Eq; [|discriminate Src]. apply String.eqb_eq in Eq.
          right. exists a, st. split; [left; reflexivity|]. split; [symmetry; exact Eq|]. congruence.
        * right. exists c, stc. split; [right; exact Hc|]. auto.
  Qed.
End A.

(** ** Splitting the response *)
Lemma alias_index_in n al : forall i found k, alias_index n al i found = Some k ->
  found = Some k \/ exists a, nth_error al (k - i) = Some a /\ i <= k /\ a_alias (as_alias a) = n.
Proof.
  induction al as [|a al IH]; intros i found k H; cbn [alias_index] in H; [left; exact H|].
  destruct (IH _ _ _ H) as [E|(b & Hb & L & E)].
  - destruct (String.eqb n (a_alias (as_alias a))) eqn:En.
    + injection E as ->. apply String.eqb_eq in En. right. exists a. rewrite Nat.sub_diag. auto.
    + left. exact E.
  - right. exists b. split; [|split; [lia|exact E]]. replace (k - i) with (S (k - S i)) by lia. exact Hb.
Qed.
Lemma alias_index_some n al : forall i k0, exists k, alias_index n al i (Some k0) = Some k.
Proof.
  induction al as [|a al IH]; intros i k0; cbn [alias_index]; [eauto|]. destruct (String.eqb n (a_alias (as_alias a))); apply IH.
Qed.
Lemma alias_index_hit n al : forall i found a, In a al -> a_alias (as_alias a) = n -> exists k, alias_index n al i found = Some k.
Proof.
  induction al as [|b al IH]; intros i found a H E; [destruct H|]. cbn [alias_index]. destruct H as [->|H].
  - rewrite <- E, String.eqb_refl. apply alias_index_some.
  - eapply IH; eassumption.
Qed.

Lemma error_alias_ok al : NoDup (map (fun a => a_alias (as_alias a)) al) -> forall i a, nth_error al i = Some a ->
  forall e, (match error_alias al e with Some j => Nat.eqb i j | None => false end) = names_alias (a_alias (as_alias a)) e.
Proof.
  intros N i a Hi e. unfold error_alias, names_alias. destruct (e_path e) as [[|[n|x] rest]|]; try reflexivity.
  destruct (alias_index n al 0 None) as [j|] eqn:E.
  - destruct (alias_index_in _ _ _ _ _ E) as [C|(b & Hb & _ & Eb)]; [discriminate C|]. rewrite Nat.sub_0_r in Hb.
    destruct (Nat.eqb i j) eqn:Eij.
    + apply Nat.eqb_eq in Eij. subst j. assert (a = b) by congruence. subst b. symmetry. apply String.eqb_eq. congruence.
    + symmetry. apply String.eqb_neq. intros Ea. apply Nat.eqb_neq in Eij. apply Eij.
      rewrite NoDup_nth_error in N. apply N.
      * rewrite map_length. apply nth_error_Some. congruence.
      * rewrite !nth_error_map, Hi, Hb. cbn. congruence.
  - destruct (String.eqb n (a_alias (as_alias a))) eqn:En; [|reflexivity]. apply String.eqb_eq in En.
    destruct (alias_index_hit n al 0 None a) as [k Hk]; [eapply nth_error_In, Hi|congruence|]. congruence.
Qed.
Lemma error_alias_none al e : (match error_alias al e with Some _ => false | None => true end) =
  negb (existsb (fun a => names_alias (a_alias (as_alias a)) e) al).
Proof.
  unfold error_alias, names_alias. destruct (e_path e) as [[|[n|x] rest]|].
  - induction al; [reflexivity|exact IHal].
  - destruct (alias_index n al 0 None) as [j|] eqn:E.
    + destruct (alias_index_in _ _ _ _ _ E) as [C|(b & Hb & _ & Eb)]; [discriminate C|]. symmetry. apply negb_false_iff, existsb_exists.
      exists b. split; [eapply nth_error_In, Hb|]. apply String.eqb_eq. congruence.
    + symmetry. apply negb_true_iff. destruct (existsb _ al) eqn:X; [|reflexivity]. apply existsb_exists in X.
      destruct X as (b & Hb & Eb). apply String.eqb_eq in Eb. destruct (alias_index_hit n al 0 None b Hb (eq_sym Eb)). congruence.
  - induction al; [reflexivity|exact IHal].
  - induction al; [reflexivity|exact IHal].
Qed.

Lemma get_remove k k' o : k <> k' -> get k (remove_key k' o) = get k (o : list (string * value)).
Proof.
  intros N. induction o as [|[j v] o IH]; [reflexivity|]. cbn [remove_key]. destruct (String.eqb k' j) eqn:E.
  - apply String.eqb_eq in E. subst j. cbn [get]. destruct (String.eqb k k') eqn:E'; [apply String.eqb_eq in E'; contradiction|reflexivity].
  - cbn [get]. rewrite IH. reflexivity.
Qed.
Lemma collect_ok al : forall d, NoDup (map (fun a => a_alias (as_alias a)) al) ->
  collect_entities al d = map (fun a => take_entities_by_key (a_alias (as_alias a)) d) al.
Proof.
  induction al as [|a al IH]; intros d N; [reflexivity|]. cbn [collect_entities map] in *. f_equal. inversion N as [|? ? H N']; subst.
  rewrite IH by exact N'. apply map_ext_in. intros b Hb. destruct d; try reflexivity. cbn [take_entities_by_key].
  rewrite get_remove; [reflexivity|]. intros E. apply H. rewrite <- E. apply (in_map (fun a => a_alias (as_alias a))), Hb.
Qed.

Section R.
  Variable pt : ptypes.
  Variable xxh : list N -> N.
  Variable data : value.
  Variable resp : value.

  (** a fetch of the batch and its state *)
  Definition knows (st : astate) (w : work) : Prop :=
    prepared pt xxh data (w_alias w) st (w_reps w) /\
    w_own w = owner pt xxh (a_requires (w_alias w)) data (as_index st) /\
    w_pos w = (fun p j => positions_of pt xxh (a_requires (w_alias w)) p data (as_index st) j) /\
    answers pt (w_alias w) resp = Some (w_ents w).

  Lemma answers_take a : answers pt a resp =
    match take_entities_by_key (a_alias a) resp with
    | None => Some None
    | Some l => match map_opt (apply_rewrites pt (a_out a)) l with Some l' => Some (Some l') | None => None end
    end.
  Proof.
    unfold answers, take_entities_by_key. destruct resp; try reflexivity. destruct (get (a_alias a) o) as [v|]; [|reflexivity].
    destruct v; reflexivity.
  Qed.
  Lemma to_entities_as e : to_entities_path e = as_entities e.
  Proof. reflexivity. Qed.

  Lemma merge_aliases_ok name affected all es : NoDup (map (fun a => a_alias (as_alias a)) all) ->
    forall sts ws, Forall2 knows sts ws -> forall i d (G : value -> Prop),
    (forall k st, nth_error sts k = Some st -> nth_error all (i + k) = Some st) -> G d ->
    (forall d w p, G d -> In w ws -> In p (a_paths (w_alias w)) -> same_positions pt p data d) ->
    (forall d w p ents d1, G d -> In w ws -> In p (a_paths (w_alias w)) -> w_ents w = Some ents ->
       answered pt (w_own w) ents p d d1 -> G d1) ->
    exists d', merge_aliases pt name affected all es
                 (combine sts (map (fun a => take_entities_by_key (a_alias (as_alias a)) resp) sts)) i d
               = Some (d', flat_map (errors_for name affected es) ws) /\
      batch_answered pt ws d d'.
  Proof.
    intros N. induction 1 as [|st w sts ws K F IH]; intros i d G Pos Gd Sp St; cbn [map combine merge_aliases].
    - exists d. split; reflexivity.
    - destruct K as (P & Eo & Eps & An). pose proof P as (Ea & Ep & _ & _).
      assert (Hi : nth_error all i = Some st) by (rewrite <- (Nat.add_0_r i); apply Pos; reflexivity).
      set (mine := errors_of_alias all i es).
      assert (Em : mine = map as_entities (filter (names_alias (a_alias (w_alias w))) es)).
      { unfold mine, errors_of_alias. rewrite (map_ext _ _ to_entities_as). f_equal. apply filter_ext. intros e.
        rewrite (error_alias_ok all N i st Hi e), Ea. reflexivity. }
      assert (Aff : match as_paths st with [(p, _)] => Some (affected p) | _ => None end = only_path affected (a_paths (w_alias w))).
      { rewrite Ep. destruct (a_paths (w_alias w)) as [|p [|p2 ps]]; reflexivity. }
      rewrite Aff. rewrite answers_take in An.
      (* one alias *)
      assert (One : exists d1 m, merge_alias pt st (take_entities_by_key (a_alias (as_alias st)) resp) (negb (is_nil mine)) d = Some (d1, m) /\
                G d1 /\ (match w_ents w with None => d1 = d | Some ents => answered_in_turn pt (w_own w) ents (a_paths (w_alias w)) d d1 end) /\
                handle_errors name (only_path affected (a_paths (w_alias w))) (if is_nil mine then None else Some mine) m
                = errors_for name affected es w).
      { rewrite Ea. destruct (take_entities_by_key (a_alias (w_alias w)) resp) as [ents0|] eqn:T.
        - destruct (map_opt (apply_rewrites pt (a_out (w_alias w))) ents0) as [ents|] eqn:M; [|discriminate An].
          assert (Ew : w_ents w = Some ents) by congruence.
          destruct (merge_alias_ok pt xxh data (w_alias w) st (w_reps w) ents0 (negb (is_nil mine)) d G P Gd) with (ents := ents)
            as (d1 & m & E & T1 & G1 & Hm).
          + intros d0 p G0 H0. eapply Sp; [exact G0|left; reflexivity|exact H0].
          + intros d0 p ents1 d1 G0 H0 M1 A. eapply St; [exact G0|left; reflexivity|exact H0|exact Ew|].
            rewrite Eo. assert (ents1 = ents) by congruence. subst ents1. exact A.
          + exact M.
          + exists d1, m. split; [exact E|]. split; [exact G1|]. rewrite Ew, Eo. split; [exact T1|].
            unfold errors_for. rewrite Ew, Eps. destruct mine as [|e0 mine0] eqn:Emine; cbn [is_nil negb] in *.
            * destruct (filter _ es); [reflexivity|discriminate Em].
            * rewrite <- Emine in *. destruct (Hm eq_refl) as (m0 & -> & Hm0).
              rewrite (handle_errors_some _ _ _ _ (fun j => flat_map (fun p => positions_of pt xxh (a_requires (w_alias w)) p data (as_index st) j) (a_paths (w_alias w)))) by exact Hm0.
              rewrite Em, flat_map_of_map. reflexivity.
        - assert (Ew : w_ents w = None) by congruence. rewrite Ew.
          exists d, (if negb (is_nil mine) then Some [] else None). split; [reflexivity|]. split; [exact Gd|]. split; [reflexivity|].
          unfold errors_for. rewrite Ew. destruct mine as [|e0 mine0] eqn:Emine; cbn [is_nil negb].
          + destruct (filter _ es); [reflexivity|discriminate Em].
          + rewrite (handle_errors_some _ _ _ _ (fun _ => [])) by reflexivity. rewrite Em, flat_map_of_map. reflexivity. }
      destruct One as (d1 & m & E1 & G1 & A1 & H1). rewrite E1.
      destruct (IH (S i) d1 G) as (d2 & E2 & B2).
      + intros k st0 H. rewrite Nat.add_succ_l, <- Nat.add_succ_r. apply Pos. exact H.
      + exact G1.
      + intros d0 w0 p G0 H0. apply Sp; [exact G0|right; exact H0].
      + intros d0 w0 p ents d3 G0 H0. apply St; [exact G0|right; exact H0].
      + rewrite E2, H1. exists d2. split; [reflexivity|]. cbn [batch_answered]. destruct (w_ents w) as [ents|].
        * exists d1. auto.
        * subst d1. exact B2.
  Qed.
End R.

Section T.
  Variable ryu : N -> string.
  Variable pt : ptypes.
  Variable xxh : list N -> N.
  Notation pv := (print_value ryu).

  Theorem batch_ok al data vars sts : Forall (good pt xxh data) al ->
    (forall a b, In a al -> In b al -> a_var a = a_var b ->
       a_requires a = a_requires b /\ a_in a = a_in b /\ a_paths a = a_paths b) ->
    prepare_batch ryu pt xxh al data [] = Some (vars, sts) ->
    exists fs, (* representations, numbers and positions per alias *)
      Forall2 (fun a f => represents pt data a (fst (fst f)) (snd (fst f)) (snd f) /\
                          get (a_var a) vars = Some (pv (VArr (fst (fst f))))) al fs /\
      forall r data2 name affected ents, NoDup (map a_alias al) ->
        Forall2 (fun a x => answers pt a (r_data r) = Some x) al ents ->
        let ws := map (fun t => let '(a, ((reps, own), pos), x) := t in mkwork a reps own pos x) (combine (combine al fs) ents) in
        let es := match r_errors r with Some es => es | None => [] end in
        steady pt data ws data2 ->
        exists data', process_batch pt name affected sts r data2
                      = Some (data', flat_map (errors_for name affected es) ws ++ errors_for_none name al es)%list /\
                      batch_answered pt ws data2 data'.
  Proof.
    intros Gd Agree E. destruct (prepare_batch_ok ryu pt xxh data al [] vars sts Gd E) as (_ & repss & F & L).
    set (fs := map (fun x : (alias * (astate * list value)) => let '(a, (st, reps)) := x in
                 ((reps, owner pt xxh (a_requires a) data (as_index st)),
                  fun p j => positions_of pt xxh (a_requires a) p data (as_index st) j)) (combine al (combine sts repss))).
    assert (Text : forall a st reps, In a al -> prepare_alias ryu pt xxh a data = Some (st, pv (VArr reps)) ->
              forall b stb t, In b al -> a_var b = a_var a -> prepare_alias ryu pt xxh b data = Some (stb, t) -> t = pv (VArr reps)).
    { intros a st reps Ha Ea b stb t Hb V Eb. destruct (Agree b a Hb Ha V) as (A1 & A2 & A3).
      unfold prepare_alias in Ea, Eb. rewrite A1, A2, A3 in Eb.
      destruct (walk_groups ryu pt xxh (a_requires a) (a_in a) (groups (a_paths a) []) data (mkps [] [] 0 "[")) as [[hs s]|]; congruence. }
    exists fs. split.
    - assert (F' : Forall2 (fun a x => In a al /\ prepared pt xxh data a (fst x) (snd x) /\
        prepare_alias ryu pt xxh a data = Some (fst x, pv (VArr (snd x))) /\
        exists t, get (a_var a) vars = Some t /\
          (exists b stb, In b al /\ a_var b = a_var a /\ prepare_alias ryu pt xxh b data = Some (stb, t))) al (combine sts repss)).
      { assert (Inn : forall l, incl l al -> forall l2, Forall2 (fun a x => prepared pt xxh data a (fst x) (snd x) /\
          prepare_alias ryu pt xxh a data = Some (fst x, pv (VArr (snd x))) /\
          exists t, get (a_var a) vars = Some t /\
            (get (a_var a) [] = Some t \/ exists b stb, In b al /\ a_var b = a_var a /\ prepare_alias ryu pt xxh b data = Some (stb, t))) l l2 ->
          Forall2 (fun a x => In a al /\ prepared pt xxh data a (fst x) (snd x) /\
          prepare_alias ryu pt xxh a data = Some (fst x, pv (VArr (snd x))) /\
          exists t, get (a_var a) vars = Some t /\
            (exists b stb, In b al /\ a_var b = a_var a /\ prepare_alias ryu pt xxh b data = Some (stb, t))) l l2).
        { intros l I l2 X. induction X as [|a x l l2 H X IH]; constructor.
          - destruct H as (H1 & H2 & t & H3 & [H4|H4]); [discriminate H4|]. split; [apply I; left; reflexivity|]. eauto.
          - apply IH. intros y Hy. apply I. right. exact Hy. }
        apply Inn; [apply incl_refl|exact F]. }
      apply forall2_weaken with (Q := fun a x => represents pt data a (snd x)
          (owner pt xxh (a_requires a) data (as_index (fst x)))
          (fun p j => positions_of pt xxh (a_requires a) p data (as_index (fst x)) j) /\
          get (a_var a) vars = Some (pv (VArr (snd x)))) in F'.
      2: { intros a [st reps] (Ha & P & Ea & t & Gt & b & stb & Hb & V & Eb). cbn [fst snd] in *. destruct P as (_ & _ & _ & R).
           split; [exact R|]. rewrite Gt. f_equal. exact (Text a st reps Ha Ea b stb t Hb V Eb). }
      unfold fs. clear - F'. induction F' as [|a [st reps] al' l2 H X IH]; [constructor|]. cbn [combine map]. constructor; [exact H|exact IH].
    - intros r data2 name affected ents N An ws es (G & G0 & Sp & St).
      apply forall2_weaken with (Q := fun a x => prepared pt xxh data a (fst x) (snd x)) in F; [|intros a x H; apply H].
      assert (K : Forall2 (knows pt xxh data (r_data r)) sts ws).
      { unfold ws, fs. clear -F An L. revert ents An. revert al repss L F. induction sts as [|st sts IH]; intros al repss L F ents An.
        - inversion F; subst. constructor.
        - destruct repss as [|reps repss]; [discriminate L|]. cbn [combine] in F. inversion F as [|a x al' l' H F']; subst.
          inversion An as [|? y ? ents' Hy An']; subst. cbn [combine map]. constructor.
          + cbn [fst snd] in H. unfold knows. cbn [w_alias w_reps w_own w_pos w_ents]. auto.
          + apply IH; [injection L; auto|exact F'|exact An']. }
      assert (Names : map (fun a => a_alias (as_alias a)) sts = map a_alias al).
      { clear -F L. revert al repss L F. induction sts as [|st sts IH]; intros al repss L F.
        - inversion F; subst. reflexivity.
        - destruct repss as [|reps repss]; [discriminate L|]. cbn [combine] in F. inversion F as [|a x al' l' H F']; subst.
          cbn [map]. f_equal; [destruct H as (Ea & _); cbn in Ea; congruence|]. eapply IH; [|exact F']. injection L. auto. }
      rewrite <- Names in N.
      destruct (merge_aliases_ok pt xxh data (r_data r) name affected sts es N sts ws K 0 data2 G) as (d' & E2 & B2); auto.
      unfold process_batch. fold es. rewrite collect_ok by exact N. rewrite E2. exists d'. split; [|exact B2].
      f_equal. f_equal. f_equal. rewrite handle_errors_none. unfold errors_for_none. f_equal. unfold unmatched_errors.
      apply filter_ext. intros e. rewrite error_alias_none. f_equal.
      clear -Names. revert al Names. induction sts as [|st sts IH]; intros [|a al] Names; try discriminate Names; [reflexivity|].
      cbn [map] in Names. injection Names as E Names. cbn [existsb]. rewrite E. f_equal. apply IH, Names.
  Qed.
End T.
