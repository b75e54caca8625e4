(** Proofs about running plans. *)
From Coq Require Import String List NArith Bool Arith Lia Sorted Permutation.
From Verif Require Import StrOrd JsonModel MergeModel MergeSpec MergeProofs Ast TraverseModel TraverseSpec TraverseProofs
  RewriteModel RewriteProofs RequiresModel EntityModel EntitySpec EntityProofs EntityBatch ExecModel ExecSpec.
Import ListNotations.
Local Open Scope list_scope.

(** ** Merging at a position *)
Lemma merge_objects_one k s o : keys_sorted o -> forall c, get k o = Some c ->
  merge_objects o [(k, s)] = set_key k (deep_merge c s) o.
Proof.
  induction o as [|[k' v] o IH]; intros S c G; [discriminate G|].
  rewrite merge_objects_cons. cbn [get] in G. cbn [set_key]. apply keys_sorted_inv in S. destruct S as [S F].
  destruct (String.eqb k k') eqn:E.
  - apply String.eqb_eq in E. subst k'. injection G as ->. rewrite str_compare_refl, merge_objects_nil_r. reflexivity.
  - assert (L : str_lt k' k).
    { rewrite Forall_forall in F. apply F. apply get_in in G. apply (in_map fst) in G. exact G. }
    unfold str_lt in L. rewrite L. rewrite (IH S c G). reflexivity.
Qed.

Lemma merge_arrays_one i s l : forall c, nth_error l i = Some c ->
  merge_arrays l (set_nth i s (map (fun _ => VNull) l)) = set_nth i (deep_merge c s) l.
Proof.
  assert (Hn : forall l, merge_arrays l (map (fun _ => VNull) l) = l).
  { clear. induction l as [|x l IH]; [reflexivity|]. cbn [map merge_arrays]. rewrite IH, deep_merge_null_r. reflexivity. }
  revert i. induction l as [|x l IH]; intros [|i] c N; try discriminate N.
  - cbn in N. injection N as ->. cbn [map set_nth merge_arrays]. rewrite Hn. reflexivity.
  - cbn in N. cbn [map set_nth merge_arrays]. rewrite (IH _ _ N), deep_merge_null_r. reflexivity.
Qed.

Lemma deep_merge_lift a q : forall d x, wf d -> at_path q d = Some x ->
  deep_merge d (lift q d a) = replace q (deep_merge x a) d.
Proof.
  induction q as [|[k|i] q IH]; intros d x W A.
  - cbn in *. injection A as ->. reflexivity.
  - cbn [at_path] in A. destruct d as [| | | | | | | |o]; try discriminate A. destruct (get k o) as [c|] eqn:G; [|discriminate A].
    cbn [lift replace]. rewrite G, deep_merge_obj. f_equal.
    inversion W as [| | | | | | | |? S F]; subst. rewrite (merge_objects_one _ _ _ S _ G).
    rewrite (IH c x (wf_obj_get _ _ _ W G) A). reflexivity.
  - cbn [at_path] in A. destruct d as [| | | | | | |l|]; try discriminate A. destruct (nth_error l i) as [c|] eqn:G; [|discriminate A].
    cbn [lift replace]. rewrite G, deep_merge_arr. f_equal. rewrite (merge_arrays_one _ _ _ _ G).
    inversion W as [| | | | | | |? F|]; subst. rewrite Forall_forall in F.
    assert (E : nth i l VNull = c) by (apply nth_error_nth; exact G). rewrite E.
    rewrite (IH c x (F _ (nth_error_In _ _ G)) A). reflexivity.
Qed.

Lemma merge_keeps_shape a q : forall d r x, wf d -> wf r -> agree d r -> at_path q d = Some x ->
  (exists y, at_path q (deep_merge d r) = Some y) /\ lift q (deep_merge d r) a = lift q d a.
Proof.
  induction q as [|[k|i] q IH]; intros d r x Wd Wr Ag A.
  - cbn. split; [eexists; reflexivity|reflexivity].
  - cbn [at_path] in A. destruct d as [| | | | | | | |o]; try discriminate A. destruct (get k o) as [c|] eqn:G; [|discriminate A].
    inversion Ag as [| |? Sc| |? o2 F]; subst; [rewrite deep_merge_null_r; cbn [at_path]; rewrite G; split; [eexists; exact A|reflexivity] | destruct Sc|].
    rewrite deep_merge_obj. cbn [at_path lift].
    inversion Wd as [| | | | | | | |? So Fo]; subst. inversion Wr as [| | | | | | | |? S2 F2]; subst.
    rewrite merge_objects_get by assumption. rewrite G. destruct (get k o2) as [c2|] eqn:G2; cbn [merge_opt].
    + destruct (IH c c2 x (wf_obj_get _ _ _ Wd G) (wf_obj_get _ _ _ Wr G2) (F _ _ _ G G2) A) as [E1 E2].
      unfold MergeProofs.merge_opt. split; [exact E1|]. rewrite E2. reflexivity.
    + split; [eexists; exact A|reflexivity].
  - cbn [at_path] in A. destruct d as [| | | | | | |l|]; try discriminate A. destruct (nth_error l i) as [c|] eqn:G; [|discriminate A].
    inversion Ag as [| |? Sc|? l2 F|]; subst; [rewrite deep_merge_null_r; cbn [at_path]; rewrite G; split; [eexists; exact A|reflexivity] | destruct Sc|].
    rewrite deep_merge_arr. cbn [at_path lift]. rewrite merge_arrays_nth, G.
    assert (M : map (fun _ : value => VNull) (merge_arrays l l2) = map (fun _ => VNull) l).
    { pose proof (merge_arrays_length l l2) as L. revert L. generalize (merge_arrays l l2) as m. clear.
      induction l as [|x l IH]; intros [|y m] L; try discriminate L; [reflexivity|]. cbn. f_equal. apply IH. cbn in L. lia. }
    rewrite M.
    inversion Wd as [| | | | | | |? Fd|]; subst. inversion Wr as [| | | | | | |? Fr|]; subst. rewrite Forall_forall in Fd, Fr.
    assert (Ec : nth i l VNull = c) by (apply nth_error_nth; exact G).
    destruct (nth_error l2 i) as [c2|] eqn:G2.
    + assert (Ac : agree c c2).
      { clear - F G G2. revert i G G2. induction F as [|a b l l' H F IHF]; intros [|i] Nu Nw; simpl in *; try discriminate.
        - injection Nu as <-. injection Nw as <-. exact H.
        - eapply IHF; eassumption. }
      destruct (IH c c2 x (Fd _ (nth_error_In _ _ G)) (Fr _ (nth_error_In _ _ G2)) Ac A) as [E1 E2].
      split; [exact E1|]. do 2 f_equal. rewrite Ec, <- E2. f_equal. apply nth_error_nth.
      rewrite merge_arrays_nth, G, G2. reflexivity.
    + split; [eexists; exact A|]. do 3 f_equal. rewrite Ec. apply nth_error_nth. rewrite merge_arrays_nth, G, G2. reflexivity.
Qed.

(** ** Updating *)
Definition upd (d : value) (u : list seg * value) : value :=
  match at_path (fst u) d with Some x => replace (fst u) (deep_merge x (snd u)) d | None => d end.

(** a merged value at every target *)
Fixpoint merged (f : nat -> option value) (n : nat) (ts : list (list seg * value)) : list (list seg * value) :=
  match ts with
  | [] => []
  | (q, x) :: ts' => (q, EntitySpec.merge_opt x (f n)) :: merged f (S n) ts'
  end.
Lemma merged_updates f ts : forall n d, StronglySorted before (map fst ts) ->
  (forall q x, In (q, x) ts -> at_path q d = Some x) ->
  replace_all (merged f n ts) d = fold_left upd (placed f n (map fst ts)) d.
Proof.
  induction ts as [|[q x] ts IH]; intros n d So A; [reflexivity|].
  cbn [map fst] in So. apply StronglySorted_inv in So. destruct So as [So F]. rewrite Forall_forall in F.
  cbn [merged map fst placed]. unfold replace_all. cbn [fold_left fst snd].
  fold (replace_all (merged f (S n) ts) (replace q (EntitySpec.merge_opt x (f n)) d)).
  assert (Ax : at_path q d = Some x) by (apply A; left; reflexivity).
  assert (Rest : forall w q' x', In (q', x') ts -> at_path q' (replace q w d) = Some x').
  { intros w q' x' H. assert (B : before q q') by (apply F; apply (in_map fst) in H; exact H).
    apply before_indep in B. rewrite at_path_replace_other; [apply A; right; exact H| |]; apply B. }
  rewrite IH by (try exact So; apply Rest).
  destruct (f n) as [a|]; cbn [app fold_left EntitySpec.merge_opt].
  - unfold upd at 3. cbn [fst snd]. rewrite Ax. reflexivity.
  - rewrite replace_same by exact Ax. reflexivity.
Qed.

(** ** The error map only depends on the positions *)
Section Place.
  Variables (hashes : list (option N)) (index : list (N * nat)) (ents : list value).
  Variable e0 : option (list eseg).

  Fixpoint marks (n : nat) (qs : list (list seg)) (m : emap) : emap :=
    match qs with
    | [] => m
    | q :: qs' =>
        marks (S n) qs'
          match nth_error hashes n with
          | Some (Some h) =>
              match nget h index with
              | Some j => match at_ e0 q with Some p => epush j p m | None => m end
              | None => m
              end
          | _ => m
          end
    end.

  Lemma call_place ts : forall n m,
    call_each (place hashes index ents) (at_ e0) ts (n, m)
    = (merged (answer_for hashes index ents) n ts, (n + length ts, marks n (map fst ts) m)).
  Proof.
    induction ts as [|[q x] ts IH]; intros n m; [cbn; rewrite Nat.add_0_r; reflexivity|].
    cbn [call_each map fst marks length merged].
    assert (E : place hashes index ents x (at_ e0 q) (n, m)
      = (EntitySpec.merge_opt x (answer_for hashes index ents n),
         (S n, match nth_error hashes n with
               | Some (Some h) => match nget h index with
                                  | Some j => match at_ e0 q with Some p => epush j p m | None => m end
                                  | None => m end
               | _ => m end))).
    { unfold place, answer_for. destruct (nth_error hashes n) as [[h|]|]; try reflexivity.
      destruct (nget h index) as [j|]; [|reflexivity]. cbn [pick]. destruct (nth_error ents j); destruct (at_ e0 q); reflexivity. }
    rewrite E, IH. do 2 f_equal. lia.
  Qed.

  Lemma visit_place pt p d m :
    visit_mut (nat * emap) (place hashes index ents) pt p d e0 (0, m)
    = (fold_left upd (placed (answer_for hashes index ents) 0 (map fst (targets pt p d))) d,
       (length (targets pt p d), marks 0 (map fst (targets pt p d)) m)).
  Proof.
    rewrite visit_mut_ok. unfold result. rewrite call_place. rewrite merged_updates; [reflexivity|apply targets_sorted|].
    intros q x H. apply targets_selects in H. eapply selects_at_path. exact H.
  Qed.
End Place.

Lemma visit_reentry pt p a d :
  visit_mut unit (fun t _ s => (deep_merge t a, s)) pt p d None tt
  = (fold_left upd (map (fun q => (q, a)) (map fst (targets pt p d))) d, tt).
Proof.
  rewrite visit_mut_ok. unfold result.
  assert (C : forall ts, call_each (fun t (_ : option (list eseg)) s => (deep_merge t a, s)) (at_ None) ts tt
                = (merged (fun _ => Some a) 0 ts, tt)).
  { intros ts. generalize 0 as n. induction ts as [|[q x] ts IH]; intros n; [reflexivity|]. cbn [call_each merged]. rewrite (IH (S n)). reflexivity. }
  rewrite C. rewrite merged_updates; [|apply targets_sorted|].
  - f_equal. f_equal. generalize (map fst (targets pt p d)) as qs. generalize 0 as n. clear.
    intros n qs. revert n. induction qs as [|q qs IH]; intros n; [reflexivity|]. cbn. f_equal. apply IH.
  - intros q x H. apply targets_selects in H. eapply selects_at_path. exact H.
Qed.

Lemma fold_keeps {A B} (G : B -> Prop) (f : B -> A -> B) us : (forall d u, G d -> In u us -> G (f d u)) ->
  forall d, G d -> G (fold_left f us d).
Proof.
  induction us as [|u us IH]; intros H d Gd; [exact Gd|]. cbn. apply IH.
  - intros d' u' G' I. apply H; [exact G'|right; exact I].
  - apply H; [exact Gd|left; reflexivity].
Qed.

(** ** Processing one answer *)
Section Job.
  Variable pt : ptypes.
  Variable show : list fseg -> string.
  Variable pos : list fseg -> list (list seg).
  Variable G : value -> Prop.

  Lemma paths_changes index ents ps e0 :
    (forall d p, G d -> In p (map fst ps) -> map fst (targets pt p d) = pos p) ->
    (forall d u, G d -> In u (flat_map (fun ph => placed (answer_for (snd ph) index ents) 0 (pos (fst ph))) ps) -> G (upd d u)) ->
    exists mk, forall d m, G d -> place_paths pt index ents ps e0 d m
      = (fold_left upd (flat_map (fun ph => placed (answer_for (snd ph) index ents) 0 (pos (fst ph))) ps) d, mk m).
  Proof.
    induction ps as [|[p hs] ps IH]; intros HP HU.
    - exists (fun m => m). intros d m _. reflexivity.
    - destruct IH as [mk IH].
      + intros d q Gd I. apply HP; [exact Gd|right; exact I].
      + intros d u Gd I. apply HU; [exact Gd|]. cbn [flat_map]. apply in_or_app. right. exact I.
      + exists (fun m => mk (marks hs index e0 0 (pos p) m)). intros d m Gd. cbn [place_paths flat_map fst snd].
        match goal with |- context [visit_mut ?a ?b ?c ?dd ?e ?f ?g] =>
          replace (visit_mut a b c dd e f g) with
            (fold_left upd (placed (answer_for hs index ents) 0 (map fst (targets pt p d))) d,
             (length (targets pt p d), marks hs index e0 0 (map fst (targets pt p d)) m))
            by (symmetry; apply visit_place) end.
        rewrite (HP d p Gd (or_introl eq_refl)). rewrite IH; [rewrite fold_left_app; reflexivity|].
        apply fold_keeps; [|exact Gd]. intros d' u G' I. apply HU; [exact G'|]. cbn [flat_map]. apply in_or_app. left. exact I.
  Qed.

  Lemma nil_index_no_answer hs ents n : answer_for hs [] ents n = None.
  Proof. unfold answer_for. destruct (nth_error hs n) as [[h|]|]; reflexivity. Qed.
  Lemma placed_none (f : nat -> option value) qs : (forall n, f n = None) -> forall n, placed f n qs = [].
  Proof. intros H. induction qs as [|q qs IH]; intros n; [reflexivity|]. cbn. rewrite H. apply IH. Qed.

  Lemma aliases_changes name all es al : forall i us,
    batch_changes pt pos al = Some us ->
    (forall d p, G d -> In p (flat_map (fun a => map fst (as_paths (fst a))) al) -> map fst (targets pt p d) = pos p) ->
    (forall d u, G d -> In u us -> G (upd d u)) ->
    exists errs, forall d, G d -> merge_aliases pt name show all es al i d = Some (fold_left upd us d, errs).
  Proof.
    induction al as [|[a [ents|]] al IH]; intros i us Hus HP HU.
    - injection Hus as <-. exists []. intros d _. reflexivity.
    - cbn [batch_changes] in Hus.
      destruct (map_opt (apply_rewrites pt (a_out (as_alias a))) ents) as [ents'|] eqn:Er; [|discriminate Hus].
      destruct (batch_changes pt pos al) as [us'|] eqn:Eb; [|discriminate Hus]. injection Hus as <-.
      destruct (IH (S i) us' eq_refl) as [errs2 R2].
      { intros d p Gd I. apply HP; [exact Gd|]. cbn [flat_map]. apply in_or_app. right. exact I. }
      { intros d u Gd I. apply HU; [exact Gd|]. apply in_or_app. right. exact I. }
      set (has := negb (is_nil (errors_of_alias all i es))).
      destruct (paths_changes (as_index a) ents' (as_paths a) (if has then Some [] else None)) as [mk R1].
      { intros d p Gd I. apply HP; [exact Gd|]. cbn [flat_map fst]. apply in_or_app. left. exact I. }
      { intros d u Gd I. apply HU; [exact Gd|]. apply in_or_app. left. exact I. }
      assert (RA : exists m, forall d, G d -> merge_alias pt a (Some ents) has d
        = Some (fold_left upd (flat_map (fun ph => placed (answer_for (snd ph) (as_index a) ents') 0 (pos (fst ph))) (as_paths a)) d, m)).
      { unfold merge_alias. rewrite Er. destruct (is_nil (as_index a)) eqn:En.
        - eexists. intros d Gd. assert (Ei : as_index a = []) by (destruct (as_index a); [reflexivity|discriminate En]).
          rewrite Ei. replace (flat_map _ (as_paths a)) with (@nil (list seg * value)); [reflexivity|].
          clear. induction (as_paths a) as [|ph l IHl]; [reflexivity|]. cbn [flat_map]. rewrite <- IHl, app_nil_r.
          symmetry. apply placed_none. intros n. apply nil_index_no_answer.
        - eexists. intros d Gd. rewrite (R1 d [] Gd). reflexivity. }
      destruct RA as [m RA]. eexists. intros d Gd. cbn [merge_aliases]. fold has.
      match goal with |- context [merge_alias pt a (Some ents) ?b d] => change b with has end.
      rewrite (RA d Gd). rewrite R2.
      + rewrite fold_left_app. reflexivity.
      + apply fold_keeps; [|exact Gd]. intros d' u G' I. apply HU; [exact G'|]. apply in_or_app. left. exact I.
    - cbn [batch_changes] in Hus. destruct (IH (S i) us Hus) as [errs2 R2].
      { intros d p Gd I. apply HP; [exact Gd|]. cbn [flat_map]. apply in_or_app. right. exact I. }
      { exact HU. }
      eexists. intros d Gd. cbn [merge_aliases merge_alias]. rewrite (R2 d Gd). reflexivity.
  Qed.

  Lemma combine_paths (sts : list astate) : forall (l : list (option (list value))) p,
    In p (flat_map (fun a => map fst (as_paths (fst a))) (combine sts l)) -> In p (flat_map (fun a => map fst (as_paths a)) sts).
  Proof.
    induction sts as [|s sts IH]; intros [|x l] p H; try destruct H. cbn [combine flat_map fst] in *.
    apply in_app_iff in H. apply in_app_iff. destruct H as [H|H]; [left; exact H|right; eapply IH; exact H].
  Qed.

  Lemma job_changes k o us : changes pt pos k o = Some us ->
    (forall d p, G d -> In p (job_paths k) -> map fst (targets pt p d) = pos p) ->
    (forall d u, G d -> In u us -> G (upd d u)) ->
    exists errs, forall c, G (c_data c) ->
      process_job pt show k o c = Some (mkctx (fold_left upd us (c_data c)) (c_errors c ++ errs)).
  Proof.
    intros C HP HU. destruct o as [pre e|pre r].
    - injection C as <-. eexists. intros c _. reflexivity.
    - cbn [changes] in C. unfold process_job. destruct k as [f [p|]|f p j|b vs sts]; cbn [job_paths] in HP.
      + destruct (apply_rewrites pt (f_out f) (r_data r)) as [d0|]; [|discriminate C]. injection C as <-.
        eexists. intros c Gd. rewrite visit_reentry. rewrite (HP _ p Gd (or_introl eq_refl)). cbn [fst snd]. reflexivity.
      + destruct (apply_rewrites pt (f_out f) (r_data r)) as [d0|]; [|discriminate C]. injection C as <-.
        eexists. intros c Gd. cbn [fold_left upd fst snd at_path replace]. reflexivity.
      + unfold process_flatten. destruct (take_entities_by_key "_entities" (r_data r)) as [ents|].
        2:{ injection C as <-. eexists. intros c _. cbn [fst snd]. reflexivity. }
        destruct (map_opt (apply_rewrites pt (f_out f)) ents) as [ents'|]; [|discriminate C]. injection C as <-.
        eexists. intros c Gd.
        match goal with |- context [visit_mut ?a ?b ?c0 ?dd ?e ?f0 ?g] =>
          replace (visit_mut a b c0 dd e f0 g) with
            (fold_left upd (placed (answer_for (j_hashes j) (j_index j) ents') 0 (map fst (targets pt p e))) e,
             (length (targets pt p e), marks (j_hashes j) (j_index j) f0 0 (map fst (targets pt p e)) []))
            by (symmetry; apply visit_place) end.
        rewrite (HP _ p Gd (or_introl eq_refl)). cbn [fst snd]. reflexivity.
      + unfold process_batch.
        destruct (aliases_changes (b_service b) sts (match r_errors r with Some es => es | None => [] end)
                    (combine sts (collect_entities sts (r_data r))) 0 us C) as [errs R].
        { intros d p Gd I. apply HP; [exact Gd|]. eapply combine_paths. exact I. }
        { exact HU. }
        eexists. intros c Gd. rewrite (R _ Gd). cbn [fst snd]. reflexivity.
  Qed.
End Job.

(** ** Any order of arrival *)
Lemma listed_targets pt d pos p : listed pt d pos -> map fst (targets pt p d) = pos p.
Proof.
  intros L. destruct (L p) as [S E]. apply sorted_unique; [apply targets_sorted|exact S|]. intros q. rewrite E. split.
  - intros H. apply in_map_iff in H. destruct H as ([q' x] & <- & H). apply targets_selects in H. exists x. exact H.
  - intros [x H]. apply targets_selects in H. apply (in_map fst) in H. exact H.
Qed.

Lemma placed_in f qs : forall n u, In u (placed f n qs) -> In (fst u) qs.
Proof.
  induction qs as [|q qs IH]; intros n u H; [destruct H|]. cbn in H. apply in_app_iff in H. destruct H as [H|H].
  - destruct (f n); [|destruct H]. destruct H as [<-|[]]. left. reflexivity.
  - right. eapply IH. exact H.
Qed.
Lemma batch_changes_in pt pos al : forall us u, batch_changes pt pos al = Some us -> In u us ->
  exists p, In p (flat_map (fun a => map fst (as_paths (fst a))) al) /\ In (fst u) (pos p).
Proof.
  induction al as [|[a [ents|]] al IH]; intros us u E I; cbn [batch_changes] in E.
  - injection E as <-. destruct I.
  - destruct (map_opt _ ents); [|discriminate E]. destruct (batch_changes pt pos al) as [us'|]; [|discriminate E].
    injection E as <-. apply in_app_iff in I. destruct I as [I|I].
    + apply in_flat_map in I. destruct I as (ph & I1 & I2). apply placed_in in I2. exists (fst ph). split; [|exact I2].
      cbn [flat_map fst]. apply in_or_app. left. apply in_map. exact I1.
    + destruct (IH us' u eq_refl I) as (p & I1 & I2). exists p. split; [|exact I2]. cbn [flat_map]. apply in_or_app. right. exact I1.
  - destruct (IH us u E I) as (p & I1 & I2). exists p. split; [|exact I2]. cbn [flat_map]. apply in_or_app. right. exact I1.
Qed.
Lemma changes_in pt pos k o us u : changes pt pos k o = Some us -> In u us ->
  fst u = [] \/ exists p, In p (job_paths k) /\ In (fst u) (pos p).
Proof.
  intros C I. destruct o as [pre e|pre r]; [injection C as <-; destruct I|]. cbn [changes] in C.
  destruct k as [f [p|]|f p j|b vs sts]; cbn [job_paths].
  - destruct (apply_rewrites pt (f_out f) (r_data r)); [|discriminate C]. injection C as <-. right. exists p. split; [left; reflexivity|].
    apply in_map_iff in I. destruct I as (q & <- & I). exact I.
  - destruct (apply_rewrites pt (f_out f) (r_data r)); [|discriminate C]. injection C as <-. left. destruct I as [<-|[]]. reflexivity.
  - destruct (take_entities_by_key "_entities" (r_data r)); [|injection C as <-; destruct I].
    destruct (map_opt _ l); [|discriminate C]. injection C as <-. right. exists p. split; [left; reflexivity|].
    eapply placed_in. exact I.
  - right. destruct (batch_changes_in _ _ _ _ _ C I) as (p & I1 & I2). exists p. split; [|exact I2]. eapply combine_paths. exact I1.
Qed.

Section Order.
  Variable pt : ptypes.
  Variable show : list fseg -> string.
  Variable answer : job_kind -> outcome.
  Variable pos : list fseg -> list (list seg).
  Variable d0 : value.
  Hypothesis Wd : wf d0.
  Hypothesis L : listed pt d0 pos.
  Variable ks : list job_kind.
  Hypothesis Ok : forall k, In k ks -> exists us, changes pt pos k (answer k) = Some us.
  Hypothesis Cmp : compatible pt pos d0 answer ks.

  Let R := patches pt pos d0 answer ks.
  Let Gd (d : value) : Prop := exists rs, incl rs R /\ d = merge_all d0 rs.

  Lemma kept a q : forall rs d x, wf d -> Forall wf rs -> (forall r, In r rs -> agree d r) ->
    (forall r s, In r rs -> In s rs -> agree r s) -> at_path q d = Some x ->
    (exists y, at_path q (merge_all d rs) = Some y) /\ lift q (merge_all d rs) a = lift q d a.
  Proof.
    induction rs as [|r rs IH]; intros d x W F Hd Hp A; [split; [eexists; exact A|reflexivity]|].
    inversion F as [|? ? Wr F']; subst. unfold merge_all. cbn [fold_left]. fold (merge_all (deep_merge d r) rs).
    destruct (merge_keeps_shape a q d r x W Wr (Hd r (or_introl eq_refl)) A) as [[y Ey] El].
    destruct (IH (deep_merge d r) y) as [E1 E2].
    - apply deep_merge_wf; assumption.
    - exact F'.
    - intros s Hs. apply agree_merge; try assumption.
      + apply Hd. left. reflexivity.
      + apply Hd. right. exact Hs.
      + apply Hp; [left; reflexivity|right; exact Hs].
    - intros s t Hs Ht. apply Hp; right; assumption.
    - exact Ey.
    - split; [exact E1|]. rewrite E2. exact El.
  Qed.

  Lemma R_in k us u : In k ks -> changes pt pos k (answer k) = Some us -> In u us -> In (lift (fst u) d0 (snd u)) R.
  Proof.
    intros Ik C I. unfold R, patches. apply in_flat_map. exists k. split; [exact Ik|]. rewrite C.
    apply (in_map (fun u => lift (fst u) d0 (snd u))). exact I.
  Qed.

  Lemma u_at k us u : In k ks -> changes pt pos k (answer k) = Some us -> In u us -> exists x, at_path (fst u) d0 = Some x.
  Proof.
    intros Ik C I. destruct (changes_in _ _ _ _ _ _ C I) as [->|(p & _ & Iq)]; [eexists; reflexivity|].
    apply (proj2 (L p)) in Iq. destruct Iq as [x Hx]. exists x. eapply selects_at_path. exact Hx.
  Qed.

  Lemma upd_merge k us u rs : In k ks -> changes pt pos k (answer k) = Some us -> In u us -> incl rs R ->
    upd (merge_all d0 rs) u = merge_all d0 (rs ++ [lift (fst u) d0 (snd u)]).
  Proof.
    intros Ik C I Hrs. destruct Cmp as (W & A1 & A2 & _). fold R in W, A1, A2.
    destruct (u_at k us u Ik C I) as [x Ax].
    assert (Fr : Forall wf rs) by (rewrite Forall_forall in *; intros r Hr; apply W, Hrs, Hr).
    destruct (kept (snd u) (fst u) rs d0 x Wd Fr) as [[y Ey] El]; auto.
    unfold upd. rewrite Ey. rewrite <- deep_merge_lift; [|apply merge_all_wf; assumption|exact Ey].
    rewrite El. unfold merge_all. rewrite fold_left_app. reflexivity.
  Qed.

  Lemma upds_merge k us : In k ks -> changes pt pos k (answer k) = Some us ->
    forall vs rs, incl vs us -> incl rs R ->
    fold_left upd vs (merge_all d0 rs) = merge_all d0 (rs ++ map (fun u => lift (fst u) d0 (snd u)) vs) /\
    incl (rs ++ map (fun u => lift (fst u) d0 (snd u)) vs) R.
  Proof.
    intros Ik C. induction vs as [|u vs IH]; intros rs Hv Hr; [cbn; rewrite app_nil_r; split; [reflexivity|exact Hr]|].
    assert (Iu : In u us) by (apply Hv; left; reflexivity).
    assert (Iv : incl vs us) by (intros v Hv'; apply Hv; right; exact Hv').
    cbn [fold_left map]. rewrite (upd_merge k us u rs Ik C Iu Hr).
    destruct (IH (rs ++ [lift (fst u) d0 (snd u)]) Iv) as [E1 E2].
    - intros r Hin. apply in_app_iff in Hin. destruct Hin as [Hin|[<-|[]]]; [apply Hr, Hin|]. eapply R_in; eassumption.
    - rewrite <- app_assoc in E1, E2. split; assumption.
  Qed.

  Lemma one_job k : In k ks -> exists us errs, changes pt pos k (answer k) = Some us /\
    forall rs es, incl rs R ->
      process_job pt show k (answer k) (mkctx (merge_all d0 rs) es)
      = Some (mkctx (merge_all d0 (rs ++ map (fun u => lift (fst u) d0 (snd u)) us)) (es ++ errs)).
  Proof.
    intros Ik. destruct (Ok k Ik) as [us C].
    destruct (job_changes pt show pos Gd k (answer k) us C) as [errs E].
    - intros d p (rs & Hr & ->) Ip. rewrite <- (listed_targets pt d0 pos p L). symmetry. apply same_positions_fst.
      destruct Cmp as (_ & _ & _ & St). eapply St; eassumption.
    - intros d u (rs & Hr & ->) Iu. exists (rs ++ [lift (fst u) d0 (snd u)]). split.
      + intros r Hin. apply in_app_iff in Hin. destruct Hin as [Hin|[<-|[]]]; [apply Hr, Hin|]. eapply R_in; eassumption.
      + eapply upd_merge; eassumption.
    - exists us, errs. split; [exact C|]. intros rs es Hr. rewrite E by (exists rs; auto). cbn [c_data c_errors].
      f_equal. f_equal. eapply (upds_merge k us Ik C us rs); [apply incl_refl|exact Hr].
  Qed.

  (** the errors of a job, in terms of which the outcome is stated *)
  Lemma job_errors : exists errs : job_kind -> list gerror, forall k, In k ks ->
    exists us, changes pt pos k (answer k) = Some us /\
    forall rs es, incl rs R ->
      process_job pt show k (answer k) (mkctx (merge_all d0 rs) es)
      = Some (mkctx (merge_all d0 (rs ++ map (fun u => lift (fst u) d0 (snd u)) us)) (es ++ errs k)).
  Proof.
    exists (fun k => match process_job pt show k (answer k) (mkctx d0 []) with Some c => c_errors c | None => [] end).
    intros k Ik. destruct (one_job k Ik) as (us & errs & C & E). exists us. split; [exact C|]. intros rs es Hr.
    rewrite (E rs es Hr). specialize (E [] []). change (merge_all d0 []) with d0 in E.
    rewrite E by (intros x []). reflexivity.
  Qed.

  Lemma processed : exists errs : job_kind -> list gerror, forall ks' , incl ks' ks ->
    forall rs es, incl rs R ->
    process_all pt show answer ks' (mkctx (merge_all d0 rs) es)
    = Some (mkctx (merge_all d0 (rs ++ patches pt pos d0 answer ks')) (es ++ flat_map errs ks')).
  Proof.
    destruct job_errors as [errs J]. exists errs. induction ks' as [|k ks' IH]; intros Hk rs es Hr.
    - cbn. rewrite !app_nil_r. reflexivity.
    - assert (Ik : In k ks) by (apply Hk; left; reflexivity). destruct (J k Ik) as (us & C & E).
      cbn [process_all]. rewrite (E rs es Hr).
      rewrite IH.
      + cbn [patches flat_map]. unfold patches. cbn [flat_map]. rewrite C, <- !app_assoc. reflexivity.
      + intros x Hx. apply Hk. right. exact Hx.
      + intros r Hin. apply in_app_iff in Hin. destruct Hin as [Hin|Hin]; [apply Hr, Hin|].
        apply in_map_iff in Hin. destruct Hin as (u & <- & Iu). eapply R_in; eassumption.
  Qed.

  Theorem any_order es ks' : Permutation ks ks' ->
    exists c c', process_all pt show answer ks (mkctx d0 es) = Some c /\
      process_all pt show answer ks' (mkctx d0 es) = Some c' /\
      c_data c = merge_all d0 R /\ c_data c' = c_data c /\ Permutation (c_errors c) (c_errors c').
  Proof.
    intros P. destruct processed as [errs E].
    pose proof (E ks (incl_refl ks) [] es (fun x (H : In x []) => match H with end)) as E1.
    assert (I' : incl ks' ks) by (intros x Hx; eapply Permutation_in; [apply Permutation_sym; exact P|exact Hx]).
    pose proof (E ks' I' [] es (fun x (H : In x []) => match H with end)) as E2.
    change (merge_all d0 []) with d0 in E1, E2. cbn [app] in E1, E2.
    eexists. eexists. split; [exact E1|]. split; [exact E2|]. cbn [c_data c_errors]. split; [reflexivity|].
    assert (PR : Permutation R (patches pt pos d0 answer ks')) by (apply Permutation_flat_map; exact P).
    split.
    - destruct Cmp as (W & A1 & A2 & _). symmetry. apply merge_all_perm; assumption.
    - apply Permutation_app_head. apply Permutation_flat_map. exact P.
  Qed.
End Order.
