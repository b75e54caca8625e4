(** Which subgraphs resolve a field, and when fields are resolved from one path: proofs. *)
From Coq Require Import String List NArith Bool Arith Lia.
From Verif Require Import Ast QplanModel BestModel OverrideModel SafeModel PathModel PathSound OpwalkModel OpwalkFieldSpec.
Import ListNotations.
Local Open Scope list_scope.

Lemma resolvable_in_ok : forall joins d id, In id (resolvable_in_graphs joins d) <-> resolves_field joins d id.
Proof.
  intros joins d id. unfold resolvable_in_graphs, resolves_field. rewrite nodup_In. destruct joins as [|j0 joins].
  - split; [now left|]. intros [[_ I]|(j & [] & _)]. exact I.
  - rewrite in_flat_map. split.
    + intros (j & J & I). right. exists j. destruct (j_graph j) as [x|]; [|destruct I]. destruct (j_external j); [destruct I|]. destruct (j_overridden j); [destruct I|]. destruct (j_label j); [destruct I|]. destruct I as [<-|[]]. now repeat split.
    + intros [[E _]|(j & J & G & E & O & L)]; [discriminate|]. exists j. split; [exact J|]. rewrite G, E, O, L. now left.
Qed.
Lemma resolvable_ok : forall defs subgraph_of type field x,
  In x (resolvable defs subgraph_of type field) <-> exists d joins id, lookup type defs = Some d /\ lookup field (sd_fields d) = Some joins /\ resolves_field joins d id /\ subgraph_of id = Some x.
Proof.
  intros defs subgraph_of type field x. unfold resolvable. destruct (lookup type defs) as [d|]; [|split; [intros []|intros (d & j & id & E & _); discriminate]].
  destruct (lookup field (sd_fields d)) as [joins|] eqn:J; [|split; [intros []|intros (d' & j & id & E & E' & _); injection E as <-; congruence]]. rewrite in_flat_map. split.
  - intros (id & I & X). apply resolvable_in_ok in I. exists d, joins, id. destruct (subgraph_of id) as [y|]; [|destruct X]. destruct X as [<-|[]]. now repeat split.
  - intros (d' & joins' & id & E & E' & R & S). injection E as <-. rewrite J in E'. injection E' as <-. exists id. split; [now apply resolvable_in_ok|]. rewrite S. now left.
Qed.

Lemma two_distinct : forall (l : list string), NoDup l -> (1 <? length l = true <-> exists a b, a <> b /\ In a l /\ In b l).
Proof.
  intros l N. rewrite Nat.ltb_lt. split.
  - destruct l as [|a [|b l]]; cbn; intros L; [lia|lia|]. exists a, b. inversion N as [|? ? H _]; subst. split; [intros ->; apply H; now left|]. auto.
  - intros (a & b & NE & A & B). destruct l as [|x [|y l]]; cbn; [destruct A| |lia]. destruct A as [<-|[]]. destruct B as [<-|[]]. congruence.
Qed.
Lemma two_kept : forall {A} (P : A -> bool) l, 1 <? length (filter P l) = true <-> exists l1 x l2 y l3, l = l1 ++ x :: l2 ++ y :: l3 /\ P x = true /\ P y = true.
Proof.
  assert (ONE : forall {A} (P : A -> bool) l, 0 < length (filter P l) -> exists l1 x l2, l = l1 ++ x :: l2 /\ P x = true).
  { intros A P l. induction l as [|x l IH]; cbn; [lia|]. destruct (P x) eqn:E; intros L; [now exists [], x, l|]. destruct (IH L) as (l1 & y & l2 & -> & Y). now exists (x :: l1), y, l2. }
  intros A P l. rewrite Nat.ltb_lt. split.
  - induction l as [|x l IH]; cbn; [lia|]. destruct (P x) eqn:E; intros L.
    + cbn in L. destruct (ONE A P l) as (l2 & y & l3 & -> & Y); [lia|]. now exists [], x, l2, y, l3.
    + destruct (IH L) as (l1 & a & l2 & b & l3 & -> & AA & BB). now exists (x :: l1), a, l2, b, l3.
  - intros (l1 & x & l2 & y & l3 & -> & X & Y). rewrite filter_app. cbn. rewrite X, filter_app. cbn. rewrite Y. rewrite !app_length. cbn. rewrite app_length. cbn. lia.
Qed.

Section Shared.
  Variable g : pgraph.
  Variable defs : list (string * sdef).
  Lemma last_seg_ok : forall p x, last_seg p = Some x <-> exists segs, o_segs p = segs ++ [x].
  Proof.
    intros p x. unfold last_seg. destruct (o_segs p) as [|s segs _] using rev_ind.
    - cbn. split; [discriminate|]. intros [segs E]. now destruct segs.
    - rewrite rev_app_distr. cbn. split; [intros E; injection E as <-; now exists segs|]. intros [segs' E]. apply app_inj_tail in E. destruct E as [_ ->]. reflexivity.
  Qed.
  Definition last_field (p : opath) : res (option gedge) :=
    match last_seg p with
    | None => Ok None
    | Some s => match nth_error (edges g) (sg_edge s) with
                | None => Panic
                | Some e => Ok match g_kind e with FieldMove _ _ _ => Some e | _ => None end
                end
    end.
  Lemma last_field_ok : forall p o, last_field p = Ok o -> forall e, o = Some e <-> by_field g p e.
  Proof.
    intros p o E e. unfold last_field in E. destruct (last_seg p) as [x|] eqn:L.
    - apply last_seg_ok in L. destruct L as [segs L]. destruct (nth_error (edges g) (sg_edge x)) as [e'|] eqn:X; [|discriminate]. injection E as <-. split.
      + intros H. destruct (g_kind e') eqn:K; try discriminate. injection H as <-. split; [exists segs, x; split; [exact L|exact X]|do 3 eexists; exact K].
      + intros [(segs' & x' & L' & X') (n & r & m & K)]. rewrite L in L'. apply app_inj_tail in L'. destruct L' as [_ <-]. rewrite X in X'. injection X' as <-. now rewrite K.
    - injection E as <-. split; [discriminate|]. intros [(segs' & x' & L' & _) _]. assert (last_seg p = Some x') by (apply last_seg_ok; now exists segs'). congruence.
  Qed.
  Lemma first_field : forall next moves, Forall2 (fun p o => last_field p = Ok o) next moves ->
    (keep_some moves = [] /\ forall p e, In p next -> ~ by_field g p e) \/
    exists e rest pre p post, keep_some moves = e :: rest /\ next = pre ++ p :: post /\ by_field g p e /\ forall q x, In q pre -> ~ by_field g q x.
  Proof.
    intros next moves H. induction H as [|p o next moves L _ IH]; [left; split; [reflexivity|intros ? ? []]|]. pose proof (last_field_ok _ _ L) as LO. cbn. destruct o as [e|].
    - right. exists e, (keep_some moves), [], p, next. split; [reflexivity|]. split; [reflexivity|]. split; [now apply LO|intros ? ? []].
    - assert (NO : forall e, ~ by_field g p e) by (intros e X; apply LO in X; discriminate). destruct IH as [[K N]|(e & rest & pre & q & post & K & -> & BF & N)].
      + left. split; [exact K|]. intros q e [<-|I]; [apply NO|now apply N].
      + right. exists e, rest, (p :: pre), q, post. split; [exact K|]. split; [reflexivity|]. split; [exact BF|]. intros r x [<-|I]; [apply NO|now apply N].
  Qed.
  Lemma first_unique : forall pre p post pre' p' post' e e', pre ++ p :: post = pre' ++ p' :: post' -> by_field g p e -> by_field g p' e' ->
    (forall q x, In q pre -> ~ by_field g q x) -> (forall q x, In q pre' -> ~ by_field g q x) -> p = p'.
  Proof.
    induction pre as [|a pre IH]; intros p post [|a' pre'] p' post' e e' E B B' N N'; cbn in E; injection E as E1 E2.
    - exact E1.
    - exfalso. apply (N' a' e); [now left|]. now rewrite <- E1.
    - exfalso. apply (N a e'); [now left|]. now rewrite E1.
    - apply (IH p post pre' p' post' e e' E2 B B'); intros q x I; [apply N|apply N']; now right.
  Qed.
  Lemma by_field_fun : forall p e e', by_field g p e -> by_field g p e' -> e = e'.
  Proof. intros p e e' [(s & x & S & X) _] [(s' & x' & S' & X') _]. rewrite S in S'. apply app_inj_tail in S'. destruct S' as [_ <-]. congruence. Qed.
  Lemma shared_ok : forall name sub next shared, local_fields g defs name sub next = Ok shared ->
    forall f, In f shared <-> exists output, shared_interface g defs name sub next output /\ In f (map fst (sd_fields output)).
  Proof.
    intros name sub next shared E f. unfold local_fields in E. destruct sub as [|x0 sub0]; [injection E as <-; split; [intros []|]; intros (o & (pre & p & post & e & h & t & pa & jo & _ & _ & _ & _ & _ & _ & _ & _ & _ & _ & l1 & x & l2 & y & l3 & Q & _) & _); now destruct l1|].
    remember (x0 :: sub0) as sub eqn:SE. apply bind_ok in E. destruct E as [moves [M E]]. apply each_ok in M. change (Forall2 (fun p o => last_field p = Ok o) next moves) in M.
    destruct (first_field _ _ M) as [[K NO]|(e & rest & pre & p & post & K & EN & BF & NO)]; rewrite K in E.
    - injection E as <-. split; [intros []|]. intros (o & (pre & p & post & e & h & t & pa & jo & -> & BF & _) & _). exfalso. apply (NO p e); [apply in_or_app; right; now left|exact BF].
    - apply bind_ok in E. destruct E as [h [H E]]. apply bind_ok in E. destruct E as [t [T E]]. unfold node_at in H, T. destruct (nth_error (nodes g) (g_head e)) as [h'|] eqn:HN; [|discriminate]. injection H as ->. destruct (nth_error (nodes g) (g_tail e)) as [t'|] eqn:TN; [|discriminate]. injection T as ->.
      destruct (lookup (n_name h) defs) as [parent|] eqn:P; [|discriminate]. destruct (lookup name (sd_fields parent)) as [joins|] eqn:J; [|discriminate]. destruct (lookup (n_name t) defs) as [output|] eqn:O; [|discriminate]. injection E as <-.
      assert (C1 : 1 <? length (resolvable_in_graphs joins parent) = true <-> exists a b, a <> b /\ resolves_field joins parent a /\ resolves_field joins parent b).
      { rewrite two_distinct by apply NoDup_nodup. split; intros (a & b & NE & A & B); exists a, b; (split; [exact NE|split; now apply resolvable_in_ok]). }
      assert (FR : forall x, (match x with SFrag _ _ _ _ => true | _ => false end) = true <-> fragment x) by (intros x; split; [destruct x; try discriminate; now do 4 eexists|intros (? & ? & ? & ? & ->); reflexivity]).
      assert (C2 : 1 <? length (filter (fun x => match x with SFrag _ _ _ _ => true | _ => false end) sub) = true <-> exists l1 x l2 y l3, sub = l1 ++ x :: l2 ++ y :: l3 /\ fragment x /\ fragment y).
      { rewrite two_kept. split; intros (l1 & x & l2 & y & l3 & Q & A & B); exists l1, x, l2, y, l3; (split; [exact Q|split; now apply FR]). }
      split.
      + intros I. destruct (sd_interface output) eqn:IO; [|destruct I]. destruct (1 <? length (resolvable_in_graphs joins parent)) eqn:X1; [|destruct I]. destruct (1 <? length (filter _ sub)) eqn:X2; [|destruct I]. cbn in I.
        exists output. split; [|exact I]. exists pre, p, post, e, h, t, parent, joins. repeat (split; [assumption|]). split; [now apply C1|now apply C2].
      + intros (o & (pre' & p' & post' & e' & h' & t' & pa' & jo' & EN' & BF' & NO' & HN' & TN' & P' & J' & O' & IO' & A' & B') & I). rewrite EN in EN'. pose proof (first_unique _ _ _ _ _ _ _ _ EN' BF BF' NO NO') as <-. pose proof (by_field_fun _ _ _ BF BF') as <-.
        assert (h' = h) by congruence. assert (t' = t) by congruence. subst h' t'. assert (pa' = parent) by congruence. subst pa'. assert (jo' = joins) by congruence. subst jo'. assert (o = output) by congruence. subst o.
        rewrite IO', (proj2 C1 A'), (proj2 C2 B'). exact I.
  Qed.
End Shared.
