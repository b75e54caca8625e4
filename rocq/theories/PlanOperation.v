(** Removing redundant guards, and the plan of a whole operation. *)
From Coq Require Import String List Bool Arith Lia.
From Verif Require Import StrOrd JsonModel Ast ProjModel ProjCond TrieModel PlanModel PlanSpec PlanCond PlanMerge PlanMatch PlanBuild.
Import ListNotations.
Local Open Scope string_scope.
Local Open Scope list_scope.

Lemma catalog_In {A B} (f : A -> option B) l y : In y (catalog f l) <-> exists x, In x l /\ f x = Some y.
Proof.
  induction l as [|x l IH]; cbn [catalog]; [split; [intros []|intros (x & [] & _)]|].
  destruct (f x) as [z|] eqn:E.
  - cbn. rewrite IH. split.
    + intros [<-|(w & H1 & H2)]; [exists x; auto|exists w; auto].
    + intros (w & [<-|H1] & H2); [left; congruence|right; exists w; auto].
  - rewrite IH. split; [intros (w & H1 & H2); exists w; cbn; auto|]. intros (w & [<-|H1] & H2); [congruence|exists w; auto].
Qed.
Lemma as_set_In l x : In x (as_set l) <-> In x l.
Proof.
  unfold as_set. assert (G : forall l s, In x (fold_left (fun s x => sinsert x s) l s) <-> In x l \/ In x s).
  { clear l. induction l as [|y l IH]; intros s; cbn [fold_left]; [cbn; tauto|]. rewrite IH, sinsert_In. cbn. intuition congruence. }
  rewrite G. cbn. tauto.
Qed.

Section Operation.
Variable M : meta.
Variable order : sset -> list string.
Hypothesis order_ok : forall s x, In x (order s) <-> In x s.
Hypothesis Sok : schema_ok M.
Variable Nl : string -> string -> nshape -> Prop.
Notation good := (good M order Nl).
Notation objs := (objs M).
Notation typed := (typed M).
Notation output := (output M).

Lemma redundant_open cg outputs o T : shaped M (Some cg) -> redundant cg outputs = true -> In o outputs -> objs o T -> opens (Some cg) T.
Proof.
  intros Hs Hr Hin HT. destruct cg as [ty|ts]; cbn [redundant] in Hr; apply andb_prop in Hr; destruct Hr as [Hl Hm]; apply Nat.eqb_eq in Hl.
  - apply smem_In in Hm. destruct outputs as [|x [|y l]]; try discriminate. destruct Hin as [<-|[]]. destruct Hm as [<-|[]].
    cbn [opens]. destruct Hs as [Ho|Hsc].
    + destruct HT as [_ HT]. rewrite (so_object M Sok x Ho) in HT. destruct HT as [HT|[]]. congruence.
    + exfalso. exact (so_scalar M Sok x T Hsc HT).
  - destruct Hs as (t & ->). cbn [opens]. rewrite forallb_forall in Hm.
    assert (I1 : incl outputs (m_possible M t)).
    { apply NoDup_length_incl; [apply (so_set M Sok)|lia|]. intros x Hx. apply smem_In. apply Hm. exact Hx. }
    exact (so_closed M Sok t o T (I1 o Hin) (proj2 HT)).
Qed.

Definition same_opens (X : string -> Prop) (a b : option tcond) : Prop := forall T, X T -> (opens a T <-> opens b T).
Lemma child_guard_same g f q o T :
  opens g T -> output T f = Some o -> shaped M (p_guard q) -> same_opens (objs o) (child_guard M order g f q) (p_guard q).
Proof.
  intros Ho Hf Hs T' HT'. unfold child_guard. destruct g as [g|]; [|tauto]. destruct (p_guard q) as [cg|] eqn:Eg; [|tauto].
  destruct (redundant cg (as_set (catalog (output_name M f) (names_of order g)))) eqn:Er; [|tauto].
  split; [|intros _; exact I]. intros _. refine (redundant_open cg _ o T' Hs Er _ HT').
  apply as_set_In, catalog_In. exists T. rewrite output_name_eq. split; [|exact Hf].
  destruct g as [t|ts]; cbn [names_of opens] in *; [left; congruence|]. apply order_ok. exact Ho.
Qed.
Lemma child_guard_none f q : child_guard M order None f q = p_guard q.
Proof. reflexivity. Qed.

Lemma prune_field g p : p_field (prune M order g p) = p_field p. Proof. destruct p; reflexivity. Qed.
Lemma prune_key g p : p_key (prune M order g p) = p_key p. Proof. destruct p; reflexivity. Qed.
Lemma prune_guard g p : p_guard (prune M order g p) = g. Proof. destruct p; reflexivity. Qed.
Lemma prune_cond g p : p_cond (prune M order g p) = p_cond p. Proof. destruct p; reflexivity. Qed.

Lemma each_Forall Q l : each_plan Q l <-> Forall Q l.
Proof. induction l as [|x l IH]; cbn; [split; auto|]. rewrite IH. split; [intros [? ?]; auto|intros H; inversion H; auto]. Qed.

Lemma unambiguous_map X (h : plan -> plan) l :
  (forall p, In p l -> p_key (h p) = p_key p /\ same_opens X (p_guard (h p)) (p_guard p)) -> apart X l -> unambiguous X (map h l).
Proof.
  induction l as [|p l IH]; intros Hh Ha; [exact I|]. cbn [apart map unambiguous] in *. destruct Ha as [A1 A2]. split.
  - intros q T Hq Hk HX H1 H2. apply in_map_iff in Hq. destruct Hq as (q0 & <- & Hq0).
    destruct (Hh p (or_introl eq_refl)) as [K1 O1]. destruct (Hh q0 (or_intror Hq0)) as [K2 O2].
    rewrite K1, K2 in Hk. apply (proj2 (A1 q0 Hq0 Hk) T HX); [apply O1|apply O2]; assumption.
  - apply IH; [|exact A2]. intros q Hq. apply Hh. right. exact Hq.
Qed.

Lemma prune_ok p : forall P X C g, good p P X C -> same_opens X g (p_guard p) ->
  tidy M Nl (prune M order g p) X /\
  forall vt path, path <> [] -> typed X path -> (shows vt path [prune M order g p] <-> shows vt path [p]).
Proof.
  induction p as [f k ty nl g0 c v IH] using plan_nested. intros P X C g HG Hs. cbn [p_guard] in Hs.
  pose proof (proj1 (good_unfold M order Nl _ _ _ _) HG) as HG'. cbn [p_guard p_key p_field p_typename p_null p_val p_cond] in HG'.
  assert (Kids : forall T o l, X T -> opens g T -> output T f = Some o -> v = SData (Some l) ->
     kids_good M order Nl o (objs o) (after C (T, k, f)) l ->
     unambiguous (objs o) (map (fun x => prune M order (child_guard M order g f x) x) l) /\
     Forall (fun q => tidy M Nl q (objs o)) (map (fun x => prune M order (child_guard M order g f x) x) l) /\
     forall vt path, path <> [] -> typed (objs o) path ->
       (shows vt path (map (fun x => prune M order (child_guard M order g f x) x) l) <-> shows vt path l)).
  { intros T o l HX Ho Hf Ev [K1 K2]. specialize (IH l Ev).
    assert (Each : forall q, In q l -> same_opens (objs o) (child_guard M order g f q) (p_guard q)).
    { intros q Hq. apply (child_guard_same g f q o T Ho Hf). rewrite Forall_forall in K1. exact (proj1 (K1 q Hq)). }
    assert (Good : forall q, In q l -> tidy M Nl (prune M order (child_guard M order g f q) q) (objs o) /\
       forall vt path, path <> [] -> typed (objs o) path -> (shows vt path [prune M order (child_guard M order g f q) q] <-> shows vt path [q])).
    { intros q Hq. rewrite Forall_forall in IH, K1. apply (IH q Hq o (objs o) (after C (T, k, f))); [exact (proj2 (K1 q Hq))|exact (Each q Hq)]. }
    split; [|split].
    - apply unambiguous_map; [|exact K2]. intros q Hq. rewrite prune_key, prune_guard. split; [reflexivity|exact (Each q Hq)].
    - rewrite Forall_map. apply Forall_forall. intros q Hq. exact (proj1 (Good q Hq)).
    - intros vt path Hne Ht. clear -Good Hne Ht. induction l as [|q l IHl]; [reflexivity|]. cbn [map].
      rewrite (shows_cons vt path (prune M order _ q) _ Hne), (shows_cons vt path q l Hne).
      rewrite (proj2 (Good q (or_introl eq_refl)) vt path Hne Ht). rewrite IHl; [reflexivity|]. intros x Hx. apply Good. right. exact Hx. }
  split.
  - cbn [prune tidy]. intros T HX Ho. destruct (HG' T HX (proj1 (Hs T HX) Ho)) as (_ & (Hty & Hnl) & H).
    split; [rewrite Hty; apply String.eqb_eq|]. split; [exact Hnl|].
    destruct H as [(H1 & H2)|(Hn & o & H1 & _ & H3)]; [left; split; [exact H1|rewrite H2; reflexivity]|]. right.
    exists o. split; [exact H1|]. destruct v as [[l|]|]; [|exact H3|exact H3].
    destruct (Kids T o l HX Ho H1 eq_refl (proj1 H3)) as (A1 & A2 & _). split; [exact A1|]. apply each_Forall. exact A2.
  - intros vt path Hne Ht. destruct path as [|[[T k'] f'] path]; [congruence|]. destruct Ht as [HX Ht].
    rewrite !shows_one, prune_key, prune_field, prune_guard, prune_cond. cbn [p_key p_field p_guard p_cond].
    rewrite (Hs T HX). destruct (opens_dec g0 T) as [Ho|Ho]; [|tauto].
    destruct Ht as [-> |(Hn & o & H1 & Ht)]; [cbn [shows]; tauto|]. destruct path as [|s path]; [cbn [shows]; tauto|].
    destruct (string_dec f f') as [<-|Nf]; [|tauto].
    destruct (HG' T HX Ho) as (_ & _ & H). destruct H as [(Hf & _)|(_ & o' & H1' & _ & H3)]; [contradiction|].
    rewrite H1 in H1'. injection H1' as <-. destruct v as [[l|]|]; [| |destruct H3]; [|cbn [prune kids p_val]; tauto].
    destruct (Kids T o l HX (proj2 (Hs T HX) Ho) H1 eq_refl (proj1 H3)) as (_ & _ & A3).
    cbn [prune kids p_val]. rewrite (A3 vt (s :: path) ltac:(discriminate) Ht). reflexivity.
Qed.
End Operation.

Section Final.
Variable M : meta.
Variable order : sset -> list string.
Hypothesis order_ok : forall s x, In x (order s) <-> In x s.
Hypothesis Sok : schema_ok M.
Variable Nl : string -> string -> nshape -> Prop.
Hypothesis N_typename : forall T, Nl T "__typename" (NLeaf true).
Hypothesis N_declared : forall P T f o nl, In T (m_possible M P) -> field_info M P f = Some (o, nl) -> Nl T f nl.

Lemma plan_correct root sels :
  all (fun s => simple M s root (objs M root)) sels ->
  coherent (fun path => typed M (objs M root) path /\ mentions M path sels) ->
  exists ps, from_operation M order root sels = BOk ps /\
    (forall vt path, typed M (objs M root) path -> (shows vt path ps <-> selects M vt path sels)) /\
    unambiguous (objs M root) ps /\ Forall (fun p => tidy M Nl p (objs M root)) ps.
Proof.
  intros Hall HC. apply all_Forall in Hall. unfold from_operation. set (n := S (deepest sel_depth sels)).
  destruct (from_set_total M order n Nl sels
     (proj2 (Forall_forall _ _) (fun s _ => process_total M order order_ok n Nl N_typename N_declared s)) root (objs M root) root None n Hall) as (r & Er & _);
    [unfold n; lia|lia|].
  assert (Hctx : ctx M root (objs M root) (fun path => typed M (objs M root) path /\ mentions M path sels) None sels).
  { constructor; try assumption.
    - apply objs_within.
    - exact I.
    - intros T _. exact I.
    - left. reflexivity.
    - intros path Hne Ht Hm. split; assumption. }
  destruct (from_set_ok M order Sok n Nl sels
     (proj2 (Forall_forall _ _) (fun s _ => process_correct M order order_ok Sok n Nl N_typename N_declared s)) root (objs M root) _ None r Hctx Er)
    as (F1 & F2 & _ & _ & _ & F6).
  rewrite Er. cbn [bbind].
  assert (El : (match r with None => [] | Some l => map (fun p => prune M order (p_guard p) p) l end) = map (fun p => prune M order (p_guard p) p) (list_of r))
    by (destruct r; reflexivity).
  rewrite El. eexists. split; [reflexivity|].
  assert (Good : forall p, In p (list_of r) -> tidy M Nl (prune M order (p_guard p) p) (objs M root) /\
    forall vt path, path <> [] -> typed M (objs M root) path -> (shows vt path [prune M order (p_guard p) p] <-> shows vt path [p])).
  { intros p Hp. rewrite Forall_forall in F1. apply (prune_ok M order order_ok Sok Nl p root _ _ (p_guard p) (F1 p Hp)). intros T _. reflexivity. }
  split; [|split].
  - intros vt path Ht. destruct path as [|s path]; [cbn; tauto|]. set (q := s :: path) in *. assert (Hne : q <> []) by discriminate.
    assert (S1 : shows vt q (map (fun p => prune M order (p_guard p) p) (list_of r)) <-> shows vt q (list_of r)).
    { clear -Good Hne Ht. induction (list_of r) as [|p l IHl]; [reflexivity|]. cbn [map].
      rewrite (shows_cons vt q (prune M order _ p) _ Hne), (shows_cons vt q p l Hne), (proj2 (Good p (or_introl eq_refl)) vt q Hne Ht).
      rewrite IHl; [reflexivity|]. intros x Hx. apply Good. right. exact Hx. }
    rewrite S1, (F6 vt q Hne Ht). cbn [dirs_opt]. tauto.
  - apply unambiguous_map; [|exact F2]. intros p _. rewrite prune_key, prune_guard. split; [reflexivity|]. intros T _. reflexivity.
  - rewrite Forall_map. apply Forall_forall. intros p Hp. exact (proj1 (Good p Hp)).
Qed.
End Final.

Lemma plan_nullability M order : (forall s x, In x (order s) <-> In x s) -> schema_ok M ->
  (forall P T f o nl fs, In T (m_possible M P) -> m_fields M P = Some fs -> fs f = Some (o, nl) ->
     exists gs, m_fields M T = Some gs /\ gs f = Some (o, nl)) ->
  forall root sels,
  all (fun s => simple M s root (objs M root)) sels ->
  coherent (fun path => typed M (objs M root) path /\ mentions M path sels) ->
  exists ps, from_operation M order root sels = BOk ps /\
    Forall (fun p => tidy M (fun T f nl => f = "__typename" /\ nl = NLeaf true \/
                                           exists fs o, m_fields M T = Some fs /\ fs f = Some (o, nl)) p (objs M root)) ps.
Proof.
  intros HO HS HN root sels H1 H2.
  destruct (plan_correct M order HO HS (fun T f nl => f = "__typename" /\ nl = NLeaf true \/ exists fs o, m_fields M T = Some fs /\ fs f = Some (o, nl)))
    with (root := root) (sels := sels) as (ps & E & _ & _ & Ht); auto; [|exists ps; auto].
  intros P T f o nl Hin E. unfold field_info in E. destruct (m_fields M P) as [fs|] eqn:Ef; [|discriminate].
  destruct (HN P T f o nl fs Hin Ef E) as (gs & G1 & G2). right. exists gs, o. auto.
Qed.
