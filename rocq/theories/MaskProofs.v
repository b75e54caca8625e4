(** Proofs about masking. *)
From Coq Require Import String List NArith Bool.
From Verif Require Import StrOrd JsonModel TraverseModel EntityModel MaskModel MaskSpec.
Import ListNotations.
Local Open Scope string_scope.

Lemma aget_in {A} k (l : list (string * A)) v : aget k l = Some v -> In (k, v) l.
Proof.
  unfold aget. destruct (find _ l) as [[k' v']|] eqn:E; [|discriminate]. intros H. injection H as <-. apply find_some in E. destruct E as [H E].
  apply String.eqb_eq in E. cbn [fst snd] in *. subst k'. exact H.
Qed.
Lemma aget_none {A} k (l : list (string * A)) : aget k l = None -> forall v, ~ In (k, v) l.
Proof.
  unfold aget. destruct (find _ l) as [x|] eqn:E; [discriminate|]. intros _ v H. apply (find_none _ _ E) in H. cbn in H. rewrite String.eqb_refl in H. discriminate H.
Qed.
Lemma aget_app {A} k (l l' : list (string * A)) : aget k (l ++ l')%list = match aget k l with Some v => Some v | None => aget k l' end.
Proof.
  unfold aget. induction l as [|[k' v] l IH]; [reflexivity|]. cbn [app find fst]. destruct (String.eqb k k'); [reflexivity|exact IH].
Qed.
Lemma aget_map {A B} (f : A -> B) k (l : list (string * A)) : aget k (map (fun nc => (fst nc, f (snd nc))) l) = option_map f (aget k l).
Proof. unfold aget. induction l as [|[k' v] l IH]; [reflexivity|]. cbn [map find fst snd]. destruct (String.eqb k k'); [reflexivity|exact IH]. Qed.
Lemma aget_filter {A} k (f : string -> bool) (l : list (string * A)) : aget k (filter (fun kv => f (fst kv)) l) = if f k then aget k l else None.
Proof.
  unfold aget. induction l as [|[k' v] l IH]; [cbn; destruct (f k); reflexivity|]. cbn [filter fst]. destruct (f k') eqn:F; cbn [find fst].
  - destruct (String.eqb k k') eqn:E; [|exact IH]. apply String.eqb_eq in E. subst k'. rewrite F. reflexivity.
  - destruct (String.eqb k k') eqn:E; [|exact IH]. apply String.eqb_eq in E. subst k'. rewrite F in IH |- *. exact IH.
Qed.
Lemma aget_opt k f o : aget k (opt_pair f o) = if String.eqb k f then option_map VStr o else None.
Proof. unfold aget, opt_pair. destruct o; cbn [find fst option_map]; destruct (String.eqb k f); reflexivity. Qed.

Lemma vinsert_in k v m x : In x (vinsert k v m) -> x = (k, v) \/ In x m.
Proof. induction m as [|[k' v'] m IH]; cbn [vinsert]; [intros [H|[]]; auto|]. destruct (String.compare k k'); cbn [In]; intuition. Qed.
Lemma read_ext_wf o : forall x x', (forall k v, In (k, v) (x_rest x) -> reserved k = false) -> read_ext o x = Some x' ->
  forall k v, In (k, v) (x_rest x') -> reserved k = false.
Proof.
  induction o as [|[k0 v0] o IH]; intros x x' W E; cbn [read_ext] in E; [injection E as <-; exact W|].
  destruct (String.eqb k0 "code") eqn:E1.
  { destruct (x_code x); [discriminate E|]. destruct v0; try discriminate E. (eapply IH; [|exact E]; exact W). }
  destruct (String.eqb k0 "service") eqn:E2.
  { destruct (x_service x); [discriminate E|]. destruct v0; try discriminate E. (eapply IH; [|exact E]; exact W). }
  destruct (String.eqb k0 "affectedPath") eqn:E3.
  { destruct (x_affected x); [discriminate E|]. destruct v0; try discriminate E; (eapply IH; [|exact E]; exact W). }
  eapply IH; [|exact E]. cbn [x_rest]. intros k v H. apply vinsert_in in H. destruct H as [H|H]; [|apply (W k v H)].
  injection H as -> ->. unfold reserved. rewrite E1, E2, E3. reflexivity.
Qed.
Lemma read_error_wf w e : read_error w = Some e -> wf_error e.
Proof.
  unfold read_error. destruct (read_ext _ _) as [x|] eqn:E; [|discriminate]. intros H. injection H as <-. unfold wf_error. cbn [e_ext].
  eapply read_ext_wf; [|exact E]. intros k v [].
Qed.
Lemma read_errors_wf l : forall es, read_errors l = Some es -> Forall wf_error es.
Proof.
  induction l as [|w l IH]; cbn [read_errors]; intros es E; [injection E as <-; constructor|].
  destruct (read_error w) as [e|] eqn:E1; [|discriminate E]. destruct (read_errors l) as [es'|]; [|discriminate E]. injection E as <-.
  constructor; [apply (read_error_wf w), E1|apply IH; reflexivity].
Qed.

Definition same_frame (e e' : gerror) : Prop := e_message e' = e_message e /\ e_locations e' = e_locations e /\ e_path e' = e_path e.
Lemma wf_rest e k : wf_error e -> reserved k = true -> aget k (e_ext e) = None.
Proof.
  intros W R. destruct (aget k (e_ext e)) as [v|] eqn:E; [|reflexivity]. apply aget_in, W in E. rewrite R in E. discriminate E.
Qed.
Lemma reserved_cases k : {k = "code"} + {k = "service"} + {k = "affectedPath"} + {reserved k = false}.
Proof.
  unfold reserved. destruct (String.eqb k "code") eqn:E1; [apply String.eqb_eq in E1; auto|]. destruct (String.eqb k "service") eqn:E2; [apply String.eqb_eq in E2; auto|].
  destruct (String.eqb k "affectedPath") eqn:E3; [apply String.eqb_eq in E3; auto|]. right. reflexivity.
Qed.
Lemma pairs_code e : wf_error e -> aget "code" (ext_pairs e) = option_map VStr (e_code e).
Proof.
  intros W. unfold ext_pairs. rewrite !aget_app, !aget_opt. cbn. destruct (e_code e); cbn; [reflexivity|].
  apply wf_rest; [exact W|reflexivity].
Qed.
Lemma pairs_service e : wf_error e -> aget "service" (ext_pairs e) = option_map VStr (e_service e).
Proof.
  intros W. unfold ext_pairs. rewrite !aget_app, !aget_opt. cbn. destruct (e_service e); cbn; [reflexivity|].
  apply wf_rest; [exact W|reflexivity].
Qed.
Lemma pairs_affected e : wf_error e -> aget "affectedPath" (ext_pairs e) = option_map VStr (e_affected e).
Proof.
  intros W. unfold ext_pairs. rewrite !aget_app, !aget_opt. cbn. destruct (e_affected e); cbn; [reflexivity|].
  apply wf_rest; [exact W|reflexivity].
Qed.
Lemma pairs_other e k : reserved k = false -> aget k (ext_pairs e) = aget k (e_ext e).
Proof.
  intros R. unfold reserved in R. apply orb_false_iff in R. destruct R as [R R3]. apply orb_false_iff in R. destruct R as [R1 R2].
  unfold ext_pairs. rewrite !aget_app, !aget_opt, R1, R2, R3. reflexivity.
Qed.
Lemma filter_wf f e : wf_error e -> wf_error (with_ext (filter f (e_ext e)) e).
Proof. intros W k v H. cbn [e_ext with_ext] in H. apply filter_In in H. apply (W k v), H. Qed.
Lemma remove_field_spec e k : wf_error e -> same_frame e (remove_field e k) /\ wf_error (remove_field e k) /\
  forall j, aget j (ext_pairs (remove_field e k)) = if String.eqb j k then None else aget j (ext_pairs e).
Proof.
  intros W. unfold remove_field. destruct (String.eqb k "code") eqn:E1; [|destruct (String.eqb k "service") eqn:E2; [|destruct (String.eqb k "affectedPath") eqn:E3]].
  - apply String.eqb_eq in E1. subst k. split; [repeat split|]. split; [exact W|]. intros j.
    destruct (reserved_cases j) as [[[->| ->]| ->]|R]; [| | |rewrite !pairs_other by exact R].
    + rewrite pairs_code by exact W. reflexivity.
    + rewrite !pairs_service by exact W. reflexivity.
    + rewrite !pairs_affected by exact W. reflexivity.
    + destruct (String.eqb j "code") eqn:E; [|reflexivity]. apply String.eqb_eq in E. subst j. discriminate R.
  - apply String.eqb_eq in E2. subst k. split; [repeat split|]. split; [exact W|]. intros j.
    destruct (reserved_cases j) as [[[->| ->]| ->]|R]; [| | |rewrite !pairs_other by exact R].
    + rewrite !pairs_code by exact W. reflexivity.
    + rewrite pairs_service by exact W. reflexivity.
    + rewrite !pairs_affected by exact W. reflexivity.
    + destruct (String.eqb j "service") eqn:E; [|reflexivity]. apply String.eqb_eq in E. subst j. discriminate R.
  - apply String.eqb_eq in E3. subst k. split; [repeat split|]. split; [exact W|]. intros j.
    destruct (reserved_cases j) as [[[->| ->]| ->]|R]; [| | |rewrite !pairs_other by exact R].
    + rewrite !pairs_code by exact W. reflexivity.
    + rewrite !pairs_service by exact W. reflexivity.
    + rewrite pairs_affected by exact W. reflexivity.
    + destruct (String.eqb j "affectedPath") eqn:E; [|reflexivity]. apply String.eqb_eq in E. subst j. discriminate R.
  - pose proof (filter_wf (fun kv => negb (String.eqb k (fst kv))) e W) as W'. split; [repeat split|]. split; [exact W'|]. intros j.
    assert (Hk : reserved k = false) by (unfold reserved; rewrite E1, E2, E3; reflexivity).
    destruct (reserved_cases j) as [[[->| ->]| ->]|R].
    + rewrite String.eqb_sym, E1. rewrite !pairs_code by assumption. reflexivity.
    + rewrite String.eqb_sym, E2. rewrite !pairs_service by assumption. reflexivity.
    + rewrite String.eqb_sym, E3. rewrite !pairs_affected by assumption. reflexivity.
    + rewrite !pairs_other by exact R. cbn [e_ext with_ext].
      rewrite (aget_filter j (fun x => negb (String.eqb k x))). rewrite String.eqb_sym. destruct (String.eqb j k); reflexivity.
Qed.
Lemma deny_spec l : forall e, wf_error e -> same_frame e (fold_left remove_field l e) /\ wf_error (fold_left remove_field l e) /\
  forall j, aget j (ext_pairs (fold_left remove_field l e)) = if existsb (String.eqb j) l then None else aget j (ext_pairs e).
Proof.
  induction l as [|k l IH]; intros e W; cbn [fold_left existsb]; [repeat split; exact W|].
  destruct (remove_field_spec e k W) as ((F1 & F2 & F3) & W1 & H1). destruct (IH _ W1) as ((G1 & G2 & G3) & W2 & H2).
  split; [repeat split; congruence|]. split; [exact W2|]. intros j. rewrite H2, H1. destruct (String.eqb j k); cbn [orb]; destruct (existsb (String.eqb j) l); reflexivity.
Qed.
Lemma existsb_filter k f l : existsb (String.eqb k) (filter f l) = f k && existsb (String.eqb k) l.
Proof.
  induction l as [|x l IH]; cbn [filter existsb]; [rewrite andb_false_r; reflexivity|].
  destruct (String.eqb k x) eqn:E.
  - apply String.eqb_eq in E. subst x. destruct (f k) eqn:F; cbn [existsb andb]; [rewrite String.eqb_refl; reflexivity|exact IH].
  - destruct (f x); cbn [existsb]; [rewrite E|]; exact IH.
Qed.
Lemma allow_spec l e : wf_error e -> same_frame e (allow_list e l) /\ wf_error (allow_list e l) /\
  forall j, aget j (ext_pairs (allow_list e l)) = if existsb (String.eqb j) l then aget j (ext_pairs e) else None.
Proof.
  intros W.
  assert (F : same_frame e (allow_list e l)).
  { unfold allow_list. cbv zeta. destruct (existsb (String.eqb "code") l), (existsb (String.eqb "service") l), (existsb (String.eqb "affectedPath") l); repeat split. }
  assert (Ex : e_ext (allow_list e l) = filter (fun kv => negb (String.eqb (fst kv) "code") && negb (String.eqb (fst kv) "service") && negb (String.eqb (fst kv) "affectedPath") && existsb (String.eqb (fst kv)) l) (e_ext e)).
  { unfold allow_list. cbv zeta. cbn [e_ext with_ext].
    transitivity (filter (fun kv : string * value => existsb (String.eqb (fst kv)) (filter (fun k => negb (String.eqb k "code") && negb (String.eqb k "service") && negb (String.eqb k "affectedPath")) l)) (e_ext e)).
    - destruct (existsb (String.eqb "code") l), (existsb (String.eqb "service") l), (existsb (String.eqb "affectedPath") l); reflexivity.
    - apply filter_ext. intros [k v]. cbn [fst]. rewrite existsb_filter. reflexivity. }
  assert (W' : wf_error (allow_list e l)). { intros k v H. rewrite Ex in H. apply filter_In in H. apply (W k v), H. }
  split; [exact F|]. split; [exact W'|]. intros j.
  destruct (reserved_cases j) as [[[->| ->]| ->]|R].
  - rewrite !pairs_code by assumption. unfold allow_list. cbv zeta. cbn [e_code with_ext].
    destruct (existsb (String.eqb "code") l), (existsb (String.eqb "service") l), (existsb (String.eqb "affectedPath") l); reflexivity.
  - rewrite !pairs_service by assumption. unfold allow_list. cbv zeta. cbn [e_code with_ext].
    destruct (existsb (String.eqb "code") l), (existsb (String.eqb "service") l), (existsb (String.eqb "affectedPath") l); reflexivity.
  - rewrite !pairs_affected by assumption. unfold allow_list. cbv zeta. cbn [e_code with_ext].
    destruct (existsb (String.eqb "code") l), (existsb (String.eqb "service") l), (existsb (String.eqb "affectedPath") l); reflexivity.
  - rewrite !pairs_other by exact R. rewrite Ex.
    rewrite (aget_filter j (fun k => negb (String.eqb k "code") && negb (String.eqb k "service") && negb (String.eqb k "affectedPath") && existsb (String.eqb k) l)).
    unfold reserved in R. apply orb_false_iff in R. destruct R as [R R3]. apply orb_false_iff in R. destruct R as [R1 R2]. rewrite R1, R2, R3. reflexivity.
Qed.

(** One error, tagged with its subgraph. *)
Lemma mask_as c s e : wf_error e -> e_service e = Some s -> exists e', mask c [e] = [e'] /\ masked_as c s e e' /\ wf_error e'.
Proof.
  intros W Es. unfold mask, compile. unfold masked_as, redacts, allows. destruct (m_enabled c); cbn [andb negb orb].
  2:{ exists e. split; [reflexivity|]. repeat split. exact W. }
  cbn [map]. eexists. split; [reflexivity|]. unfold apply_mask. rewrite Es. cbn [t_per t_default t_message t_per_ext t_default_ext].
  rewrite (aget_map (fun sc => match s_enabled sc with Some b => b | None => m_all c end)), (aget_map s_ext). unfold settings.
  assert (G : forall b : bool, let e1 := if b then with_message (m_message c) e else e in
     wf_error e1 /\ e_message e1 = (if b then m_message c else e_message e) /\ e_locations e1 = e_locations e /\ e_path e1 = e_path e /\ ext_pairs e1 = ext_pairs e).
  { intros []; cbn; repeat split; exact W. }
  assert (P : forall (b : bool) (op : option ext_policy), let e1 := if b then with_message (m_message c) e else e in
     let e' := match op with Some p => apply_policy p e1 | None => e1 end in
     (e_message e' = (if b then m_message c else e_message e) /\ e_locations e' = e_locations e /\ e_path e' = e_path e /\
      forall k, aget k (ext_pairs e') = if match op with Some (Allow l) => existsb (String.eqb k) l | Some (Deny l) => negb (existsb (String.eqb k) l) | None => true end
                                        then aget k (ext_pairs e) else None) /\ wf_error e').
  { intros b op e1. cbv zeta. destruct (G b) as (W1 & M & L & P & X). fold e1 in W1, M, L, P, X. destruct op as [[l|l]|]; cbn [apply_policy].
    - destruct (allow_spec l e1 W1) as ((A & B & C) & W2 & H). split; [|exact W2]. repeat split; try congruence. intros k. rewrite H, X. reflexivity.
    - destruct (deny_spec l e1 W1) as ((A & B & C) & W2 & H). split; [|exact W2]. repeat split; try congruence. intros k. rewrite H, X.
      destruct (existsb (String.eqb k) l); reflexivity.
    - split; [|exact W1]. repeat split; try assumption. intros k. rewrite X. reflexivity. }
  destruct (m_subgraphs c) as [l|].
  - destruct (aget s l) as [[en [p|]]|]; cbn [option_map s_enabled s_ext].
    + destruct en as [b|]; apply (P _ (Some p)).
    + destruct en as [b|]; apply (P _ (m_all_ext c)).
    + apply (P _ (m_all_ext c)).
  - apply (P _ (m_all_ext c)).
Qed.
Lemma mask_cons c e es : mask c (e :: es) = (mask c [e] ++ mask c es)%list.
Proof. unfold mask. destruct (compile c); reflexivity. Qed.
Lemma mask_app c a b : mask c (a ++ b)%list = (mask c a ++ mask c b)%list.
Proof. unfold mask. destruct (compile c); [apply map_app|reflexivity]. Qed.
Lemma masked_in c es e' : In e' (mask c es) -> exists e, In e es /\ mask c [e] = [e'].
Proof.
  unfold mask. destruct (compile c) as [r|].
  - intros H. apply in_map_iff in H. destruct H as (e & <- & H). exists e. auto.
  - intros H. exists e'. auto.
Qed.
Lemma untagged_kept c e : e_service e = None -> mask c [e] = [e].
Proof. intros E. unfold mask. destruct (compile c); [|reflexivity]. cbn [map]. unfold apply_mask. rewrite E. reflexivity. Qed.
Lemma tag_wf s e : wf_error e -> wf_error (add_subgraph_name s e).
Proof. intros W. exact W. Qed.
Lemma tag_honest s e : honest s e -> e_service (add_subgraph_name s e) = Some s.
Proof. intros [E|E]; cbn; rewrite E; reflexivity. Qed.
Lemma normalize_keeps m e x : In x (normalize_entity_error m e) ->
  e_message x = e_message e /\ e_locations x = e_locations e /\ e_service x = e_service e /\ e_ext x = e_ext e.
Proof.
  unfold normalize_entity_error. destruct (entity_index_and_path e) as [[i rest]|]; [destruct (eget i m) as [ps|]|].
  - intros H. apply in_map_iff in H. destruct H as (p & <- & _). repeat split.
  - intros [<-|[]]. repeat split.
  - intros [<-|[]]. repeat split.
Qed.
Lemma handled_tagged s aff es m x : Forall wf_error es -> In x (handle_errors s aff (Some es) m) ->
  wf_error x /\ exists e, In e es /\ e_message x = e_message e /\ e_service x = match e_service e with Some s' => Some s' | None => Some s end.
Proof.
  intros F H. unfold handle_errors in H. apply in_flat_map in H. destruct H as (e & He & H). rewrite Forall_forall in F. specialize (F e He).
  set (e1 := match aff with Some p => add_affected_path p (add_subgraph_name s e) | None => add_subgraph_name s e end) in H.
  assert (K : e_message e1 = e_message e /\ e_ext e1 = e_ext e /\ e_service e1 = match e_service e with Some s' => Some s' | None => Some s end)
    by (unfold e1; destruct aff; repeat split).
  assert (G : e_message x = e_message e1 /\ e_service x = e_service e1 /\ e_ext x = e_ext e1).
  { destruct m as [m|]; [apply normalize_keeps in H; intuition|]. destruct H as [<-|[]]. auto. }
  destruct K as (K1 & K2 & K3), G as (G1 & G2 & G3). split.
  - intros k v Hk. rewrite G3, K2 in Hk. apply (F k v Hk).
  - exists e. split; [exact He|]. split; congruence.
Qed.
Lemma masked_conforms c s e e' : masked_as c s e e' -> (forall k v, In (k, v) (ext_pairs e') -> aget k (ext_pairs e') <> None) -> conforms c s e'.
Proof.
  intros (M & _ & _ & X) N. split; [intros R; rewrite M, R; reflexivity|]. intros k v H. specialize (N k v H). rewrite X in N. destruct (allows c s k); congruence.
Qed.
Lemma aget_some_in {A} k (l : list (string * A)) v : In (k, v) l -> aget k l <> None.
Proof. intros H E. apply (aget_none k l E v H). Qed.
(** Errors of a fetch from [s] conform to the policy of [s]. *)
Lemma fetch_errors_conform c s aff raws es m e' : read_errors raws = Some es -> Forall (honest s) es ->
  In e' (mask c (handle_errors s aff (Some es) m)) -> conforms c s e'.
Proof.
  intros R Ho H. apply masked_in in H. destruct H as (x & Hx & Em). apply handled_tagged in Hx; [|apply (read_errors_wf raws), R].
  destruct Hx as (Wx & e & He & _ & Es). rewrite Forall_forall in Ho. specialize (Ho e He).
  assert (Es' : e_service x = Some s) by (rewrite Es; destruct Ho as [-> | ->]; reflexivity).
  destruct (mask_as c s x Wx Es') as (e1 & E1 & A & _). rewrite E1 in Em. injection Em as <-.
  apply (masked_conforms c s x _ A). intros k v. apply aget_some_in.
Qed.
Lemma failures_conform c msg code s aff e' : In e' (mask c [failure msg code (Some s) aff]) -> conforms c s e'.
Proof.
  intros H. assert (W : wf_error (failure msg code (Some s) aff)) by (unfold failure; destruct aff; intros k v []).
  destruct (mask_as c s (failure msg code (Some s) aff) W) as (e1 & E1 & A & _); [unfold failure; destruct aff; reflexivity|].
  rewrite E1 in H. destruct H as [<-|[]]. apply (masked_conforms c s _ _ A). intros k v. apply aget_some_in.
Qed.
Lemma mask_idem c e : wf_error e -> forall k, exists e1 e2, mask c [e] = [e1] /\ mask c [e1] = [e2] /\
  e_message e2 = e_message e1 /\ e_path e2 = e_path e1 /\ aget k (ext_pairs e2) = aget k (ext_pairs e1).
Proof.
  intros W k. destruct (e_service e) as [s|] eqn:Es.
  - destruct (mask_as c s e W Es) as (e1 & E1 & (M & L & P & X) & W1). exists e1.
    destruct (e_service e1) as [s1|] eqn:Es1.
    + assert (s1 = s). { pose proof (X "service") as Xs. rewrite !pairs_service in Xs by assumption. rewrite Es, Es1 in Xs. cbn [option_map] in Xs. destruct (allows c s "service"); congruence. }
      subst s1. destruct (mask_as c s e1 W1 Es1) as (e2 & E2 & (M2 & L2 & P2 & X2) & _). exists e2. repeat (split; [assumption|]).
      split; [rewrite M2, M; destruct (redacts c s); reflexivity|]. split; [exact P2|]. rewrite X2, X. destruct (allows c s k); reflexivity.
    + exists e1. split; [exact E1|]. split; [apply untagged_kept, Es1|]. auto.
  - exists e, e. rewrite untagged_kept by exact Es. auto.
Qed.

(** ** Witnesses *)
Definition w_cfg := mkcfg true "Unexpected error" true None (Some [("internal", mksub (Some false) None)]).
Definition w_claim := mkraw "password is hunter2" [] None [("service", VStr "internal")].
Definition w_plain := mkraw "password is hunter2" [] None [].
Lemma claimed_service_bypasses : exists c s raws es e', read_errors raws = Some es /\ m_enabled c = true /\ redacts c s = true /\
  In e' (mask c (handle_errors s None (Some es) None)) /\ e_message e' <> m_message c.
Proof.
  exists w_cfg, "products", [w_claim]. eexists. eexists. split; [reflexivity|]. split; [reflexivity|]. split; [reflexivity|].
  split; [left; reflexivity|]. discriminate.
Qed.
Lemma event_errors_bypass : exists c raws es e', read_errors raws = Some es /\ Forall (fun e => e_service e = None) es /\ m_enabled c = true /\
  (forall s, redacts c s = true) /\ In e' (event_errors c [] (Some es) []) /\ e_message e' <> m_message c.
Proof.
  exists (mkcfg true "Unexpected error" true None None), [w_plain]. eexists. eexists. split; [reflexivity|].
  split; [constructor; [reflexivity|constructor]|]. split; [reflexivity|]. split; [reflexivity|]. split; [left; reflexivity|]. discriminate.
Qed.

Lemma mask_each c es : mask c es = flat_map (fun e => mask c [e]) es.
Proof.
  unfold mask. destruct (compile c) as [r|]; induction es as [|e es IH]; cbn; try reflexivity; f_equal; exact IH.
Qed.
Lemma mask_length c es : length (mask c es) = length es.
Proof. unfold mask. destruct (compile c); [apply map_length|reflexivity]. Qed.
Lemma event_errors_parts c initial event fetched : event_errors c initial event fetched =
  (mask c initial ++ match event with Some es => mask c es | None => [] end ++ mask c fetched)%list.
Proof.
  unfold event_errors. rewrite !mask_app, <- app_assoc. destruct event; [reflexivity|].
  f_equal. f_equal. unfold mask. destruct (compile c); reflexivity.
Qed.
