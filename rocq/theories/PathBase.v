(** Paths: what advancing and continuing do to them. *)
From Coq Require Import String List NArith Bool Arith Lia.
From Verif Require Import Ast QplanModel BestModel OverrideModel OverrideSpec OverrideProofs SafeModel PathModel PathSpec PathCycle.
Import ListNotations.
Local Open Scope list_scope.

Lemma edges_from_iff : forall g n i e, In (i, e) (edges_from g n) <-> edge_at g i e /\ g_head e = n.
Proof.
  intros g n i e. unfold edges_from, edge_at. rewrite <- in_rev, filter_In. cbn. rewrite Nat.eqb_eq.
  assert (K : forall (l : list gedge) a, In (i, e) (combine (seq a (length l)) l) <-> a <= i /\ nth_error l (i - a) = Some e).
  { intros l. induction l as [|x l IH]; intros a; cbn [length seq combine].
    - split; [destruct 1|]. intros [_ K]. destruct (i - a); discriminate.
    - cbn [In]. rewrite IH. split.
      + intros [E|[L E]].
        * injection E as -> ->. now rewrite Nat.sub_diag.
        * split; [lia|]. replace (i - a) with (S (i - S a)) by lia. exact E.
      + intros [L E]. destruct (Nat.eq_dec a i) as [->|NE].
        * rewrite Nat.sub_diag in E. left. cbn in E. congruence.
        * right. split; [lia|]. replace (i - a) with (S (i - S a)) in E by lia. exact E. }
  rewrite K, Nat.sub_0_r. split; intros H; repeat split; try tauto; lia.
Qed.
Lemma edge_in : forall g i e, edge_at g i e -> In e (edges g).
Proof. intros g i e E. eapply nth_error_In. exact E. Qed.
Lemma edge_bound : forall g i e, edge_at g i e -> i < length (edges g).
Proof. intros g i e E. apply nth_error_Some. unfold edge_at in E. congruence. Qed.

(** Costs *)
Lemma sum_cons : forall (a : nat) l, list_sum (a :: l) = a + list_sum l.
Proof. reflexivity. Qed.
Lemma selections_weight : forall x, selections x = weight x.
Proof.
  intros x. induction x as [n a args inc skip om sub IH|t inc skip sub IH|n] using sel_ind'; [| |reflexivity].
  - rewrite weight_field. change (S (list_sum (map selections sub)) = S (weights sub)). f_equal.
    induction IH as [|y l E _ IH]; [reflexivity|]. cbn [map]. now rewrite weights_cons, sum_cons, E, IH.
  - rewrite weight_frag. change (S (list_sum (map selections sub)) = S (weights sub)). f_equal.
    induction IH as [|y l E _ IH]; [reflexivity|]. cbn [map]. now rewrite weights_cons, sum_cons, E, IH.
Qed.
Lemma item_cost_weight : forall x, item_cost x = N.of_nat (weight x).
Proof.
  intros x. induction x as [n a args inc skip om sub IH|t inc skip sub IH|n] using sel_ind'; [| |reflexivity].
  - rewrite weight_field, Nat2N.inj_succ. cbn [item_cost]. rewrite <- N.add_1_l. f_equal.
    induction IH as [|y l E _ IH]; [reflexivity|]. rewrite weights_cons, Nat2N.inj_add. now rewrite E, IH.
  - rewrite weight_frag, Nat2N.inj_succ. cbn [item_cost]. rewrite <- N.add_1_l. f_equal.
    induction IH as [|y l E _ IH]; [reflexivity|]. rewrite weights_cons, Nat2N.inj_add. now rewrite E, IH.
Qed.
Lemma set_cost_sum : forall l, set_cost l = N.of_nat (S (list_sum (map selections l))).
Proof.
  intros l. unfold set_cost.
  assert (K : forall l c, fold_left (fun c x => (c + item_cost x)%N) l c = (c + N.of_nat (list_sum (map selections l)))%N).
  { clear l. intros l. induction l as [|x l IH]; intros c; cbn [fold_left map]; [cbn; lia|].
    rewrite IH, item_cost_weight, selections_weight. rewrite sum_cons, Nat2N.inj_add. lia. }
  rewrite K. lia.
Qed.
Lemma edge_cost_ok : forall k, costs k (edge_cost k).
Proof.
  intros k. unfold costs, edge_cost.
  exists (match k with FieldMove _ _ _ => 1 | _ => 1000 end)%N.
  exists (match needs k with Some r => S (list_sum (map selections (ts_sels r))) | None => 0 end).
  repeat split.
  - destruct k; try (right; split; [intros [? [? [? K]]]; discriminate|reflexivity]). left. split; [now do 3 eexists|reflexivity].
  - now destruct (needs k).
  - replace (requirements k) with (needs k) by now destruct k. destruct (needs k); [now rewrite set_cost_sum|reflexivity].
Qed.
Lemma costs_inj : forall k c c', costs k c -> costs k c' -> c = c'.
Proof.
  intros k c c' [b [x [B [X ->]]]] [b' [x' [B' [X' ->]]]]. destruct (needs k); subst x x'.
  all: destruct B as [[B ->]|[B ->]], B' as [[B' ->]|[B' ->]]; tauto || reflexivity.
Qed.
Lemma costs_pos : forall k c, costs k c -> (0 < c)%N.
Proof. intros k c [b [x [B [_ ->]]]]. lia. Qed.

(** Chains *)
Lemma chain_app : forall g n c l m d l' m' d', chain g n c l m d -> chain g m d l' m' d' -> chain g n c (l ++ l') m' d'.
Proof.
  intros g n c l m d l' m' d' H. revert l' m' d'. induction H; intros l' m' d' K; [exact K|]. cbn.
  econstructor; eauto.
Qed.
Lemma chain_tail : forall g n c l m d, chain g n c l m d -> last (map sg_tail l) n = m /\ last (map sg_cost l) c = d.
Proof.
  intros g n c l m d H. induction H as [n c|n c s e d0 l m c' A B C D E H [IH1 IH2]]; [now split|].
  cbn [map]. destruct l as [|x l].
  - inversion H; subst. cbn. now rewrite C.
  - cbn [map] in IH1, IH2 |- *. split.
    + change (last (sg_tail s :: sg_tail x :: map sg_tail l) n) with (last (sg_tail x :: map sg_tail l) n).
      rewrite <- IH1. clear. generalize (sg_tail x). induction (map sg_tail l); intros; [reflexivity|]. cbn in *. destruct l0; [reflexivity|auto].
    + change (last (sg_cost s :: sg_cost x :: map sg_cost l) c) with (last (sg_cost x :: map sg_cost l) c).
      rewrite <- IH2. clear. generalize (sg_cost x). induction (map sg_cost l); intros; [reflexivity|]. cbn in *. destruct l0; [reflexivity|auto].
Qed.
Lemma chain_edges : forall g n c l m d, chain g n c l m d -> Forall (fun s => exists e, edge_at g (sg_edge s) e) l.
Proof. intros g n c l m d H. induction H; constructor; eauto. Qed.
Lemma chain_grows : forall g n c l m d, chain g n c l m d -> (c <= d)%N /\ (l <> [] -> (c < d)%N) /\ Forall (fun s => (c < sg_cost s)%N) l.
Proof.
  intros g n c l m d H. induction H as [n c|n c s e d0 l m c' A B C D E H [IH1 [_ IH2]]].
  - repeat split; [lia|tauto|constructor].
  - apply costs_pos in D. repeat split; [lia|intros _; lia|]. constructor; [lia|].
    eapply Forall_impl; [|exact IH2]. cbn. intros a K. lia.
Qed.
Lemma last_app_cons : forall {A} (l : list A) l' d, last (l ++ l') d = last l' (last l d).
Proof.
  intros A l l' d. induction l as [|x l IH]; [reflexivity|]. destruct l as [|y l].
  - cbn. destruct l' as [|z l']; [reflexivity|]. clear. revert z. induction l' as [|w l' IH]; intros z; [reflexivity|]. cbn in *. apply IH.
  - change (last ((x :: y :: l) ++ l') d) with (last ((y :: l) ++ l') d). rewrite IH. reflexivity.
Qed.

(** Extending *)
Lemma extends_refl : forall g p, extends g p p [].
Proof. intros g p. exists []. rewrite app_nil_r. repeat split. constructor. Qed.
Lemma extends_trans : forall g p q r l l', extends g p q l -> extends g q r l' -> extends g p r (l ++ l').
Proof.
  intros g p q r l l' [a [R [S [M C]]]] [b [R' [S' [M' C']]]]. exists (a ++ b). rewrite S', S, app_assoc, map_app, M, M'.
  repeat split; [congruence|]. eapply chain_app; eassumption.
Qed.
Lemma extends_path : forall g p q l, path_of g p -> extends g p q l -> path_of g q.
Proof.
  intros g p q l [m H] [new [R [S [M C]]]]. exists (tail_of q). rewrite R, S.
  eapply chain_app; [exact H|]. replace m with (tail_of p); [exact C|]. apply chain_tail in H. now destruct H.
Qed.
Lemma tail_advance : forall g p i e tr t, tail_of (advance g p i e tr t) = g_tail e.
Proof. intros. unfold tail_of, advance. cbn. rewrite map_app, last_app_cons. reflexivity. Qed.
Lemma advance_extends : forall g p i e tr t, edge_at g i e -> g_head e = tail_of p -> extends g p (advance g p i e tr t) [i].
Proof.
  intros g p i e tr t E H. eexists. split; [reflexivity|]. split; [reflexivity|]. split; [reflexivity|].
  rewrite tail_advance. cbn. econstructor; [exact E|exact H|reflexivity|apply edge_cost_ok|reflexivity|]. constructor.
Qed.
Lemma advance_scope : forall g p i e tr t,
  scope_after g (st_scope (stand p)) (g_tail e) (g_kind e) (st_scope (stand (advance g p i e tr t))).
Proof.
  intros g p i e tr t. cbn. unfold next_union. destruct (g_kind e) as [s|n r m|n|r|ty|ty|o r].
  - apply scope_entry.
  - destruct (nth_error (nodes g) (g_tail e)) as [x|] eqn:X; [destruct (n_union x) as [d|] eqn:D; [destruct (n_graph x) as [id|] eqn:G|]|];
      try (apply scope_field; intros l [x' [d' [id' [X' [D' [G' _]]]]]]; congruence).
    apply scope_union. now exists x, d, id.
  - apply scope_reentry.
  - apply scope_entity.
  - destruct (o_union p); cbn; [now eapply scope_member|now apply scope_abstract].
  - apply scope_selfie.
  - apply scope_object.
Qed.
Lemma advance_carries : forall g p i e tr t s, In s (o_segs (advance g p i e tr t)) -> In s (o_segs p) \/ carries t s.
Proof.
  intros g p i e tr t s I. cbn in I. apply in_app_iff in I. destruct I as [I|[<-|[]]]; [now left|right].
  unfold carries. cbn. split; [now destruct t|]. destruct t; [|reflexivity]. cbn. unfold cond_of. now destruct (fl_include f), (fl_skip f).
Qed.

(** The continuation of an extension is what was added. *)
Lemma common_prefix : forall a b, common a (a ++ b) = length a.
Proof. intros a b. induction a as [|x a IH]; [now destruct b|]. cbn. now rewrite Nat.eqb_refl, IH. Qed.
Definition lower (d : N) (s : pseg) : pseg := mkpseg (sg_edge s) (sg_tail s) (sg_cost s - d)%N (sg_tree s) (sg_attrs s) (sg_cond s).
Lemma chain_lower : forall g n c l m d k, (k <= c)%N -> chain g n c l m d -> chain g n (c - k) (map (lower k) l) m (d - k).
Proof.
  intros g n c l m d k L H. induction H; [constructor|]. cbn [map].
  econstructor; [exact H|exact H0|exact H1|exact H2|cbn; lia|]. apply IHchain. lia.
Qed.
Lemma continuation_ok : forall g p q l, path_of g p -> extends g p q l ->
  o_root (continuation p q) = tail_of p /\ path_of g (continuation p q) /\ map sg_edge (o_segs (continuation p q)) = l /\
  tail_of (continuation p q) = tail_of q /\ o_union (continuation p q) = o_union q /\
  o_cost (continuation p q) = (o_cost q - o_cost p)%N /\
  exists new, o_segs q = o_segs p ++ new /\ o_segs (continuation p q) = map (lower (o_cost p)) new.
Proof.
  intros g p q l [m HP] [new [R [S [M C]]]]. unfold continuation. rewrite S, common_prefix, skipn_app, skipn_all, Nat.sub_diag.
  rewrite firstn_app, Nat.sub_diag, firstn_all. cbn [skipn firstn app]. rewrite app_nil_r.
  destruct (chain_tail _ _ _ _ _ _ HP) as [HT HC]. rewrite HC.
  change (map (fun s => mkpseg (sg_edge s) (sg_tail s) (sg_cost s - o_cost p)%N (sg_tree s) (sg_attrs s) (sg_cond s)) new) with (map (lower (o_cost p)) new).
  assert (K := chain_lower _ _ _ _ _ _ (o_cost p) (N.le_refl _) C). rewrite N.sub_diag in K.
  destruct (chain_tail _ _ _ _ _ _ K) as [KT KC].
  cbn [o_root o_segs o_union o_cost]. repeat split.
  - exists (tail_of q). cbn. rewrite KC. exact K.
  - rewrite map_map. exact M.
  - exact KT.
  - exact KC.
  - now exists new.
Qed.

(** Overrides *)
Lemma allowed_iff : forall ctx k, allowed ctx k <-> match k with FieldMove _ _ m => satisfies m ctx = true | _ => True end.
Proof.
  intros ctx k. unfold allowed. split.
  - intros K. destruct k as [| n r m| | | | |]; try exact I. specialize (K n r m eq_refl). unfold satisfies.
    destruct (m_overridden_by m) as [[s [l|]]|]; [now apply check_false|destruct K|].
    destruct (m_label m); [now apply check_true|reflexivity].
  - intros K n r m ->. unfold satisfies in K. destruct (m_overridden_by m) as [[s [l|]]|]; [now apply check_false|discriminate|].
    destruct (m_label m); [now apply check_true|exact I].
Qed.
