(** Merging of query trees: what it reaches, that it stays tidy, and what it costs *)
From Coq Require Import String List NArith ZArith Bool Arith Lia Permutation.
From Verif Require Import Ast QplanModel QplanGroup BestModel BestSpec.
Import ListNotations.
Local Open Scope list_scope.

Lemma option_eqb_ok {A} (eqb : A -> A -> bool) (H : forall x y, eqb x y = true <-> x = y) a b :
  option_eqb eqb a b = true <-> a = b.
Proof.
  destruct a as [x|], b as [y|]; cbn; try (split; discriminate); [|tauto].
  rewrite H. split; [now intros ->|now injection 1].
Qed.
Lemma gvalue_eqb_refl x : gvalue_eqb x x = true.
Proof.
  induction x as [n|z|b|s|b| |s|l IH|o IH] using gvalue_ind'; cbn;
    try apply String.eqb_refl; try apply Z.eqb_refl; try apply N.eqb_refl; try apply eqb_reflx; try reflexivity.
  - induction IH as [|a l Ha _ IHl]; [reflexivity|]. now rewrite Ha.
  - induction IH as [|[k a] o Ha _ IHo]; [reflexivity|]. cbn in Ha. now rewrite String.eqb_refl, Ha.
Qed.
Lemma args_eqb_ok a : forall b, args_eqb a b = true <-> a = b.
Proof.
  induction a as [|[k u] a IH]; intros [|[k' v] b]; cbn; try (split; discriminate); [tauto|].
  rewrite !andb_true_iff, IH, String.eqb_eq. split.
  - intros [[-> E] ->]. apply gvalue_eqb_ok in E. congruence.
  - injection 1 as <- <- <-. auto using gvalue_eqb_refl.
Qed.
Lemma attrs_eqb_ok a b : attrs_eqb a b = true <-> a = b.
Proof.
  destruct a as [a a'], b as [b b']. unfold attrs_eqb. cbn [fst snd].
  rewrite andb_true_iff, (option_eqb_ok String.eqb String.eqb_eq), (option_eqb_ok args_eqb args_eqb_ok).
  split; [now intros [-> ->]|now injection 1].
Qed.
Lemma cond_eqb_ok a b : cond_eqb a b = true <-> a = b.
Proof.
  destruct a, b; cbn; try (split; discriminate); rewrite ?andb_true_iff, ?String.eqb_eq;
    (split; [intuition congruence|injection 1; intros; subst; auto]).
Qed.
Lemma label_eqb_ok a b : label_eqb a b = true <-> a = b.
Proof.
  destruct a as [n e a p c], b as [n' e' a' p' c']. unfold label_eqb. cbn [l_node l_edge l_attrs l_position l_condition].
  rewrite !andb_true_iff, Nat.eqb_eq, !(option_eqb_ok Nat.eqb Nat.eqb_eq),
    (option_eqb_ok attrs_eqb attrs_eqb_ok), (option_eqb_ok cond_eqb cond_eqb_ok).
  split; [now intros [[[[-> ->] ->] ->] ->]|now injection 1 as -> -> -> -> ->].
Qed.

Section TreeInd.
  Variable P : tree -> Prop.
  Hypothesis H : forall l rs cs, Forall P rs -> Forall P cs -> P (Tree l rs cs).
  Fixpoint tree_ind' (t : tree) : P t :=
    let go := fix go (l : list tree) : Forall P l :=
                match l with [] => Forall_nil _ | x :: l' => Forall_cons x (tree_ind' x) (go l') end in
    let 'Tree l rs cs := t in H l rs cs (go rs) (go cs).
End TreeInd.

Lemma labels_map l : labels l = map label_of l.
Proof. unfold labels. apply map_ext. now intros [x r c]. Qed.

(** Merging of lists *)
Definition merge_lists (ss ts : list tree) : list tree := fold_left (fun acc s => place (merge_nodes s) s acc) ss ts.
Lemma merge_unfold l rs cs l' rs' cs' :
  merge_nodes (Tree l rs cs) (Tree l' rs' cs') = Tree l' (merge_lists rs rs') (merge_lists cs cs').
Proof.
  assert (G : forall ss ts, (fix go (sources targets : list tree) : list tree :=
              match sources with
              | [] => targets
              | s :: ss => go ss (place (merge_nodes s) s targets)
              end) ss ts = merge_lists ss ts).
  { induction ss as [|s ss IH]; intros ts; [reflexivity|]. cbn. apply IH. }
  cbn [merge_nodes]. now rewrite !G.
Qed.
Lemma label_merge s t : label_of (merge_nodes s t) = label_of t.
Proof. destruct s, t. reflexivity. Qed.
Lemma place_cases f s ts :
  (exists a t b, ts = a ++ t :: b /\ label_of t = label_of s /\ ~ In (label_of s) (map label_of a)
     /\ place f s ts = a ++ f t :: b)
  \/ (~ In (label_of s) (map label_of ts) /\ place f s ts = ts ++ [s]).
Proof.
  induction ts as [|t ts IH]; [right; split; [easy|reflexivity]|].
  cbn. destruct (label_eqb (label_of t) (label_of s)) eqn:E.
  - apply label_eqb_ok in E. left. exists [], t, ts. repeat split; [exact E|easy].
  - assert (Hn : label_of t <> label_of s) by (intros X; apply label_eqb_ok in X; congruence).
    destruct IH as [(a & t' & b & -> & H1 & H2 & H3)|[H1 H2]].
    + left. exists (t :: a), t', b. repeat split; [exact H1| |cbn; now rewrite H3].
      cbn. intros [X|X]; [congruence|tauto].
    + right. rewrite H2. split; [|reflexivity]. intros [X|X]; [congruence|tauto].
Qed.

(** Places *)
Definition among (l : label) (ts : list tree) (p : list step) : Prop :=
  exists t, In t ts /\ label_of t = l /\ reaches t p.
Lemma reaches_iff l rs cs q :
  reaches (Tree l rs cs) q <->
  match q with [] => True | (Into, l') :: p => among l' cs p | (Needs, l') :: p => among l' rs p end.
Proof.
  split.
  - intros H. inversion H; subst; [easy| |]; eexists; (split; [eassumption|split; [reflexivity|assumption]]).
  - destruct q as [|[[|] l'] p]; [constructor| |]; intros ([x rs' cs'] & H1 & <- & H2); econstructor; eassumption.
Qed.
Lemma among_app l a b p : among l (a ++ b) p <-> among l a p \/ among l b p.
Proof.
  unfold among. split.
  - intros (t & H & E). apply in_app_or in H. destruct H; [left|right]; eauto.
  - intros [(t & H & E)|(t & H & E)]; exists t; (split; [apply in_or_app; tauto|exact E]).
Qed.
Lemma among_cons l t b p : among l (t :: b) p <-> (label_of t = l /\ reaches t p) \/ among l b p.
Proof.
  unfold among. split.
  - intros (t' & [->|H] & E); [now left|right; eauto].
  - intros [E|(t' & H & E)]; [exists t|exists t']; cbn; tauto.
Qed.
Lemma among_nil l p : ~ among l [] p.
Proof. now intros (t & [] & _). Qed.
Lemma merge_reaches s : forall t p, reaches (merge_nodes s t) p <-> reaches s p \/ reaches t p.
Proof.
  induction s as [l rs cs IHr IHc] using tree_ind'. intros [l' rs' cs'] p. rewrite merge_unfold.
  assert (G : forall ss, Forall (fun s => forall t p, reaches (merge_nodes s t) p <-> reaches s p \/ reaches t p) ss ->
                forall ts x q, among x (merge_lists ss ts) q <-> among x ss q \/ among x ts q).
  { intros ss H. induction H as [|s ss Hs _ IH]; intros ts x q; cbn.
    - split; [tauto|]. intros [H|H]; [now apply among_nil in H|exact H].
    - rewrite IH, among_cons. destruct (place_cases (merge_nodes s) s ts) as [(a & t & b & -> & H1 & H2 & ->)|[H1 ->]].
      + rewrite !among_app, !among_cons, label_merge, Hs, H1. tauto.
      + rewrite among_app, among_cons. pose proof (among_nil x q). tauto. }
  rewrite !reaches_iff. destruct p as [|[[|] x] p]; [tauto| |]; apply G; assumption.
Qed.

(** Tidiness *)
Lemma tidy_iff l rs cs :
  tidy (Tree l rs cs) <->
  NoDup (map label_of rs) /\ NoDup (map label_of cs) /\ Forall tidy rs /\ Forall tidy cs.
Proof.
  rewrite <- !labels_map. split; [inversion 1; auto|]. intros (A & B & C & D). now constructor.
Qed.
Lemma NoDup_add {A} (l : list A) x : NoDup l -> ~ In x l -> NoDup (l ++ [x]).
Proof.
  intros H Hx. induction H as [|y l Hy H IH]; cbn.
  - constructor; [easy|constructor].
  - constructor; [|apply IH; cbn in Hx; tauto]. rewrite in_app_iff. cbn in *. intuition congruence.
Qed.
Lemma merge_tidy s : forall t, tidy s -> tidy t -> tidy (merge_nodes s t).
Proof.
  induction s as [l rs cs IHr IHc] using tree_ind'. intros [l' rs' cs'] Hs Ht. rewrite merge_unfold.
  apply tidy_iff in Hs, Ht. apply tidy_iff.
  assert (G : forall ss, Forall (fun s => forall t, tidy s -> tidy t -> tidy (merge_nodes s t)) ss -> Forall tidy ss ->
                forall ts, NoDup (map label_of ts) -> Forall tidy ts ->
                NoDup (map label_of (merge_lists ss ts)) /\ Forall tidy (merge_lists ss ts)).
  { intros ss H. induction H as [|s ss Hs' _ IH]; intros Hss ts Hn Hts; [cbn; auto|].
    inversion Hss; subst. cbn. apply IH; [assumption| |].
    - destruct (place_cases (merge_nodes s) s ts) as [(a & t & b & -> & E1 & E2 & ->)|[E1 ->]].
      + rewrite map_app in *. cbn in *. now rewrite label_merge.
      + rewrite map_app. cbn. now apply NoDup_add.
    - destruct (place_cases (merge_nodes s) s ts) as [(a & t & b & -> & E1 & E2 & ->)|[E1 ->]].
      + apply Forall_app in Hts. destruct Hts as [A B]. inversion B; subst. apply Forall_app. split; [assumption|].
        constructor; [|assumption]. now apply Hs'.
      + apply Forall_app. split; [assumption|]. now constructor. }
  destruct Hs as (A & B & C & D), Ht as (A' & B' & C' & D').
  destruct (G rs IHr C rs' A' C'), (G cs IHc D cs' B' D'). auto.
Qed.

(** Edges of the graph *)
Definition edge_known (g : graph) (l : label) : Prop := forall e, l_edge l = Some e -> nth_error g e <> None.
Lemma drawn_iff g l rs cs :
  drawn g (Tree l rs cs) <-> Forall (fun c => edge_known g (label_of c)) cs /\ Forall (drawn g) rs /\ Forall (drawn g) cs.
Proof.
  split.
  - inversion 1; subst. rewrite labels_map, Forall_map in *. auto.
  - intros (A & B & C). constructor; [rewrite labels_map; apply Forall_map; exact A|assumption|assumption].
Qed.
Lemma merge_drawn g s : forall t, drawn g s -> drawn g t -> drawn g (merge_nodes s t).
Proof.
  induction s as [l rs cs IHr IHc] using tree_ind'. intros [l' rs' cs'] Hs Ht. rewrite merge_unfold.
  apply drawn_iff in Hs, Ht. apply drawn_iff.
  assert (G : forall (K : label -> Prop) ss, Forall (fun s => forall t, drawn g s -> drawn g t -> drawn g (merge_nodes s t)) ss ->
                Forall (fun c => K (label_of c)) ss -> Forall (drawn g) ss ->
                forall ts, Forall (fun c => K (label_of c)) ts -> Forall (drawn g) ts ->
                Forall (fun c => K (label_of c)) (merge_lists ss ts) /\ Forall (drawn g) (merge_lists ss ts)).
  { intros K ss H. induction H as [|s ss Hs' _ IH]; intros Hk Hss ts Hn Hts; [cbn; auto|].
    inversion Hss; inversion Hk; subst. cbn. apply IH; try assumption.
    - destruct (place_cases (merge_nodes s) s ts) as [(a & t & b & -> & E1 & E2 & ->)|[E1 ->]].
      + apply Forall_app in Hn. destruct Hn as [A B]. inversion B; subst. apply Forall_app. split; [assumption|].
        constructor; [now rewrite label_merge|assumption].
      + apply Forall_app. split; [assumption|]. now constructor.
    - destruct (place_cases (merge_nodes s) s ts) as [(a & t & b & -> & E1 & E2 & ->)|[E1 ->]].
      + apply Forall_app in Hts. destruct Hts as [A B]. inversion B; subst. apply Forall_app. split; [assumption|].
        constructor; [|assumption]. now apply Hs'.
      + apply Forall_app. split; [assumption|]. now constructor. }
  destruct Hs as (A & B & C), Ht as (A' & B' & C').
  assert (Z : forall l, Forall (fun c : tree => (fun _ : label => True) (label_of c)) l) by (intros z; apply Forall_forall; auto).
  destruct (G (fun _ => True) rs IHr (Z rs) B rs' (Z rs') B'), (G (edge_known g) cs IHc A C cs' A' C'). auto.
Qed.

(** Weight *)
Definition sum_by {A} (f : A -> N) (l : list A) : N := fold_right (fun x n => (f x + n)%N) 0%N l.
Lemma sum_by_app {A} (f : A -> N) a b : sum_by f (a ++ b) = (sum_by f a + sum_by f b)%N.
Proof. unfold sum_by. induction a as [|x a IH]; cbn; [reflexivity|]. rewrite IH. lia. Qed.
Lemma sum_by_perm {A} (f : A -> N) a b : Permutation a b -> sum_by f a = sum_by f b.
Proof. unfold sum_by. induction 1; cbn; lia. Qed.
Lemma sum_by_cons {A} (f : A -> N) x l : sum_by f (x :: l) = (f x + sum_by f l)%N.
Proof. reflexivity. Qed.
Lemma sum_by_nil {A} (f : A -> N) : sum_by f [] = 0%N.
Proof. reflexivity. Qed.
Arguments sum_by : simpl never.
Fixpoint weight (g : graph) (t : tree) : N :=
  let 'Tree _ rs cs := t in
  (1 + sum_by (fun c => entering g (label_of c) + weight g c)%N cs + sum_by (fun r => 1000 + weight g r)%N rs)%N.
Lemma cost_weight g t : drawn g t -> cost_of g t = Some (weight g t).
Proof.
  induction t as [l rs cs IHr IHc] using tree_ind'. intros H. apply drawn_iff in H. destruct H as (K & Hr & Hc).
  cbn [cost_of].
  assert (G1 : (fix go (l : list tree) : option N :=
                     match l with
                     | [] => Some 0%N
                     | c :: l' => plus (plus (crosses g (label_of c)) (cost_of g c)) (go l')
                     end) cs = Some (sum_by (fun c => entering g (label_of c) + weight g c)%N cs)).
  { clear - K Hc IHc. induction cs as [|c cs IH]; [reflexivity|].
    inversion K; inversion Hc; inversion IHc; subst. rewrite IH by assumption. rewrite H9 by assumption.
    assert (X : crosses g (label_of c) = Some (entering g (label_of c))).
    { unfold crosses, entering. destruct (l_edge (label_of c)) as [e|] eqn:E; [|reflexivity].
      destruct (nth_error g e) eqn:E'; [reflexivity|]. exfalso. eapply H1; eassumption. }
    rewrite X. reflexivity. }
  assert (G2 : (fix go (l : list tree) : option N :=
                         match l with
                         | [] => Some 0%N
                         | r :: l' => plus (plus (Some 1000%N) (cost_of g r)) (go l')
                         end) rs = Some (sum_by (fun r => 1000 + weight g r)%N rs)).
  { clear - Hr IHr. induction rs as [|c cs IH]; [reflexivity|].
    inversion Hr; inversion IHr; subst. rewrite IH by assumption. rewrite H5 by assumption. reflexivity. }
  rewrite G1, G2. reflexivity.
Qed.
Lemma merge_weight g s : forall t, (weight g (merge_nodes s t) + 1 <= weight g s + weight g t)%N.
Proof.
  induction s as [l rs cs IHr IHc] using tree_ind'. intros [l' rs' cs']. rewrite merge_unfold. cbn [weight].
  assert (G : forall (k : label -> N) ss, Forall (fun s => forall t, (weight g (merge_nodes s t) + 1 <= weight g s + weight g t)%N) ss ->
                forall ts, (sum_by (fun c => k (label_of c) + weight g c)%N (merge_lists ss ts)
                       <= sum_by (fun c => k (label_of c) + weight g c)%N ss + sum_by (fun c => k (label_of c) + weight g c)%N ts)%N).
  { intros k ss H. induction H as [|s ss Hs _ IH]; intros ts; cbn [merge_lists fold_left]; [rewrite sum_by_nil; lia|].
    fold (merge_lists ss (place (merge_nodes s) s ts)). rewrite sum_by_cons. etransitivity; [apply IH|]. enough (sum_by (fun c => k (label_of c) + weight g c)%N (place (merge_nodes s) s ts)
       <= k (label_of s) + weight g s + sum_by (fun c => k (label_of c) + weight g c)%N ts)%N by lia.
    destruct (place_cases (merge_nodes s) s ts) as [(a & t & b & -> & E1 & E2 & ->)|[E1 ->]]; rewrite !sum_by_app, ?sum_by_cons, ?sum_by_nil; [|lia].
    rewrite label_merge. specialize (Hs t). lia. }
  pose proof (G (entering g) cs IHc cs'). pose proof (G (fun _ => 1000%N) rs IHr rs'). cbn beta in *. lia.
Qed.

(** The weight of a tidy tree is the price of its places *)
Fixpoint places (t : tree) : list (list step) :=
  let 'Tree _ rs cs := t in
  [] :: flat_map (fun c => map (cons (Into, label_of c)) (places c)) cs
     ++ flat_map (fun r => map (cons (Needs, label_of r)) (places r)) rs.
Lemma places_ok t : forall p, In p (places t) <-> reaches t p.
Proof.
  induction t as [l rs cs IHr IHc] using tree_ind'. intros p. rewrite reaches_iff. cbn [places In].
  assert (G : forall w ts, Forall (fun t => forall p, In p (places t) <-> reaches t p) ts ->
                (In p (flat_map (fun c => map (cons (w, label_of c)) (places c)) ts)
                 <-> exists x q, p = (w, x) :: q /\ among x ts q)).
  { intros w ts H. rewrite in_flat_map. split.
    - intros (t & Ht & Hp). apply in_map_iff in Hp. destruct Hp as (q & <- & Hq). exists (label_of t), q. split; [reflexivity|].
      exists t. repeat split; [exact Ht|]. rewrite Forall_forall in H. now apply H.
    - intros (x & q & -> & t & Ht & <- & Hq). exists t. split; [exact Ht|]. apply in_map. rewrite Forall_forall in H. now apply H. }
  rewrite in_app_iff, (G Into cs IHc), (G Needs rs IHr). destruct p as [|[[|] x] q]; [tauto| |].
  - split.
    + intros [X|[(y & z & E & H)|(y & z & E & H)]]; [discriminate X| |discriminate E]. injection E as -> ->. exact H.
    + intros H. right. left. eauto.
  - split.
    + intros [X|[(y & z & E & H)|(y & z & E & H)]]; [discriminate X|discriminate E|]. injection E as -> ->. exact H.
    + intros H. right. right. eauto.
Qed.
Lemma nodup_flat_map {A B} (f : A -> list B) l :
  (forall x, In x l -> NoDup (f x)) -> (forall x y z, In x l -> In y l -> In z (f x) -> In z (f y) -> x = y) ->
  NoDup l -> NoDup (flat_map f l).
Proof.
  intros H1 H2 Hl. induction Hl as [|x l Hx Hl IH]; [constructor|]. cbn.
  assert (G : forall a b : list B, NoDup a -> NoDup b -> (forall z, In z a -> ~ In z b) -> NoDup (a ++ b)).
  { clear. intros a b Ha Hb H. induction Ha as [|x a Hx Ha IH]; [exact Hb|]. cbn. constructor.
    - rewrite in_app_iff. intros [X|X]; [tauto|]. eapply H; [now left|exact X].
    - apply IH. intros z Hz. apply H. now right. }
  apply G.
  - apply H1. now left.
  - apply IH; [intros y Hy; apply H1; now right|]. intros y z w Hy Hz. apply H2; now right.
  - intros z Hz Hz'. apply in_flat_map in Hz'. destruct Hz' as (y & Hy & Hz').
    assert (x = y) by (eapply H2; [now left|right; exact Hy|exact Hz|exact Hz']). now subst.
Qed.
Lemma nodup_of_map {A B} (f : A -> B) l : NoDup (map f l) -> NoDup l.
Proof.
  induction l as [|x l IH]; intros H; [constructor|]. cbn in H. inversion H; subst. constructor; [|now apply IH].
  intros X. apply H2. now apply in_map.
Qed.
Lemma nodup_inj {A B} (f : A -> B) l x y : NoDup (map f l) -> In x l -> In y l -> f x = f y -> x = y.
Proof.
  induction l as [|z l IH]; intros H; [easy|]. cbn in H. inversion H; subst. intros [->|Hx] [->|Hy] E; [reflexivity| | |now apply IH].
  - exfalso. apply H2. rewrite E. now apply in_map.
  - exfalso. apply H2. rewrite <- E. now apply in_map.
Qed.
Lemma nodup_map_cons {A} (x : A) l : NoDup l -> NoDup (map (cons x) l).
Proof.
  induction 1 as [|y l Hy _ IH]; [constructor|]. cbn. constructor; [|exact IH].
  intros X. apply in_map_iff in X. destruct X as (z & E & Hz). injection E as ->. tauto.
Qed.
Lemma places_nodup t : tidy t -> NoDup (places t).
Proof.
  induction t as [l rs cs IHr IHc] using tree_ind'. intros H. apply tidy_iff in H. destruct H as (A & B & C & D).
  cbn [places]. constructor.
  - rewrite in_app_iff, !in_flat_map. intros [(t & _ & X)|(t & _ & X)]; apply in_map_iff in X; destruct X as (q & E & _); discriminate E.
  - assert (G : forall w ts, Forall (fun t => tidy t -> NoDup (places t)) ts -> NoDup (map label_of ts) -> Forall tidy ts ->
                  NoDup (flat_map (fun c => map (cons (w, label_of c)) (places c)) ts)).
    { intros w ts H1 H2 H3. rewrite Forall_forall in *. apply nodup_flat_map.
      - intros t Ht. apply nodup_map_cons. auto.
      - intros t t' z Ht Ht' Hz Hz'. apply in_map_iff in Hz, Hz'. destruct Hz as (q & <- & _), Hz' as (q' & E & _).
        injection E as E _. symmetry in E. now apply (nodup_inj label_of ts).
      - now apply (nodup_of_map label_of). }
    assert (G' : forall a b : list (list step), NoDup a -> NoDup b -> (forall z, In z a -> ~ In z b) -> NoDup (a ++ b)).
    { clear. intros a b Ha Hb H. induction Ha as [|x a Hx Ha IH]; [exact Hb|]. cbn. constructor.
      - rewrite in_app_iff. intros [X|X]; [tauto|]. eapply H; [now left|exact X].
      - apply IH. intros z Hz. apply H. now right. }
    apply G'; [now apply G|now apply G|]. intros z Hz Hz'. apply in_flat_map in Hz, Hz'.
    destruct Hz as (t & _ & Hz), Hz' as (t' & _ & Hz'). apply in_map_iff in Hz, Hz'.
    destruct Hz as (q & <- & _), Hz' as (q' & E & _). discriminate E.
Qed.
Lemma price_cons g s p : p <> [] -> price g (s :: p) = price g p.
Proof. destruct p as [|s' p]; [congruence|]. intros _. destruct s as [[|] l]; destruct s' as [[|] l']; reflexivity. Qed.
Lemma places_shape t : exists ps, places t = [] :: ps /\ Forall (fun p => p <> []) ps.
Proof.
  destruct t as [l rs cs]. eexists. split; [reflexivity|]. apply Forall_app. split; apply Forall_forall; intros p H;
    apply in_flat_map in H; destruct H as (t & _ & H); apply in_map_iff in H; destruct H as (q & <- & _); discriminate.
Qed.
Lemma sum_cons g s t : sum_by (price g) (map (cons s) (places t)) = (price g [s] - 1 + sum_by (price g) (places t))%N.
Proof.
  destruct (places_shape t) as (ps & -> & H).
  assert (G : sum_by (price g) (map (cons s) ps) = sum_by (price g) ps).
  { induction H as [|p ps Hp _ IH]; [reflexivity|]. cbn [map]. rewrite !sum_by_cons, price_cons by exact Hp. now rewrite IH. }
  cbn [map]. rewrite !sum_by_cons, G. destruct s as [[|] l]; cbn [price]; lia.
Qed.
Lemma places_weight g t : sum_by (price g) (places t) = weight g t.
Proof.
  induction t as [l rs cs IHr IHc] using tree_ind'. cbn [places weight].
  rewrite sum_by_cons, sum_by_app. cbn [price].
  assert (G : forall w ts, Forall (fun t => sum_by (price g) (places t) = weight g t) ts ->
                sum_by (price g) (flat_map (fun c => map (cons (w, label_of c)) (places c)) ts)
                = sum_by (fun c => price g [(w, label_of c)] - 1 + weight g c)%N ts).
  { intros w ts H. induction H as [|t ts Ht _ IH]; [reflexivity|]. cbn [flat_map]. rewrite sum_by_app, sum_cons, IH, Ht.
    reflexivity. }
  rewrite (G Into cs IHc), (G Needs rs IHr).
  assert (E : forall (f h : tree -> N) ts, (forall t, f t = h t) -> sum_by f ts = sum_by h ts).
  { intros f h ts H. induction ts as [|t ts IH]; [reflexivity|]. now rewrite !sum_by_cons, H, IH. }
  rewrite (E _ (fun c => entering g (label_of c) + weight g c)%N cs) by (intros t; cbn [price]; lia).
  rewrite (E _ (fun r => 1000 + weight g r)%N rs) by (intros t; cbn [price]; lia). lia.
Qed.
