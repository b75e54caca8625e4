(** Proofs about grouping fetches and building batches. *)
From Coq Require Import String Ascii List NArith ZArith Bool Arith Lia Permutation DecimalString DecimalN.
From Verif Require Import StrOrd StrUtil Ast AstHashModel TraverseModel RewriteModel EntityModel EntityBatch ExecModel QplanModel QplanSpec.
Import ListNotations.
Local Open Scope nat_scope.
Local Open Scope list_scope.

(** ** Equality tests *)
Lemma list_eqb_ok {A} (eqb : A -> A -> bool) : (forall a b, eqb a b = true <-> a = b) ->
  forall l l', list_eqb eqb l l' = true <-> l = l'.
Proof.
  intros H. induction l as [|a l IH]; intros [|b l']; cbn; try (split; [reflexivity|reflexivity] || (split; discriminate)).
  - rewrite andb_true_iff, H, IH. split; [intros [-> ->]; reflexivity|]. intros E. injection E as -> ->. auto.
Qed.
Lemma rseg_eqb_ok a b : rseg_eqb a b = true <-> a = b.
Proof.
  destruct a, b; cbn; try (split; discriminate).
  - rewrite String.eqb_eq. split; congruence.
  - rewrite (list_eqb_ok String.eqb String.eqb_eq). split; congruence.
Qed.
Lemma rewrite_eqb_ok a b : rewrite_eqb a b = true <-> a = b.
Proof.
  destruct a, b; cbn; try (split; discriminate); rewrite andb_true_iff, (list_eqb_ok rseg_eqb rseg_eqb_ok), String.eqb_eq;
    (split; [intros [-> ->]; reflexivity|]; intros E; injection E as -> ->; auto).
Qed.
Lemma paths_eqb_ok l l' : list_eqb path_eqb l l' = true <-> l = l'.
Proof. apply list_eqb_ok. intros a b. apply path_eqb_ok. Qed.
Lemma gvalue_eqb_ok x : forall y, gvalue_eqb x y = true -> x = y.
Proof.
  induction x as [n|z|b|s|b| |s|l IH|o IH] using gvalue_ind'; intros [n'|z'|b'|s'|b'| |s'|l'|o'] E; cbn in E; try discriminate E;
    try (apply String.eqb_eq in E; congruence).
  - apply Z.eqb_eq in E. congruence.
  - apply N.eqb_eq in E. congruence.
  - apply eqb_prop in E. congruence.
  - reflexivity.
  - f_equal. revert l' E. induction IH as [|a l Ha _ IHl]; intros [|b l'] E; try discriminate E; [reflexivity|].
    apply andb_prop in E. destruct E as [E1 E2]. f_equal; [apply Ha, E1|apply IHl, E2].
  - f_equal. revert o' E. induction IH as [|[k a] o Ha _ IHo]; intros [|[k' b] o'] E; try discriminate E; [reflexivity|].
    apply andb_prop in E. destruct E as [E1 E2]. apply andb_prop in E1. destruct E1 as [E0 E1]. apply String.eqb_eq in E0.
    f_equal; [|apply IHo, E2]. f_equal; [exact E0|]. apply Ha, E1.
Qed.
Lemma tnode_eqb_ok x : forall y, tnode_eqb x y = true -> x = y.
Proof.
  induction x as [n|x IH|x IH]; intros [m|y|y] E; cbn in E; try discriminate E.
  - apply String.eqb_eq in E. congruence.
  - f_equal. apply IH, E.
  - f_equal. apply IH, E.
Qed.
Lemma can_merge_var_ok a b : can_merge_var a b = true -> a = b.
Proof.
  destruct a as [n t d], b as [n' t' d']. unfold can_merge_var. cbn [vd_name vd_type vd_default]. intros E.
  apply andb_prop in E. destruct E as [E1 E2]. apply andb_prop in E1. destruct E1 as [E0 E1].
  apply String.eqb_eq in E0. apply tnode_eqb_ok in E1. subst.
  destruct d as [x|], d' as [y|]; try discriminate E2; [|reflexivity]. apply gvalue_eqb_ok in E2. congruence.
Qed.
Lemma sels_eqb_fix l : forall l', (fix go (l l' : list sel) : bool :=
         match l, l' with
         | [], [] => true
         | a :: l, b :: l' => sel_eqb a b && go l l'
         | _, _ => false
         end) l l' = sels_eqb l l'.
Proof. intros l'. reflexivity. Qed.
Lemma bare_eqb : forall x, bare x = true -> forall y, bare y = true -> sel_eqb x y = true -> x = y.
Proof.
  assert (L : forall sub, Forall (fun x => bare x = true -> forall y, bare y = true -> sel_eqb x y = true -> x = y) sub ->
            forallb bare sub = true -> forall sub', forallb bare sub' = true -> sels_eqb sub sub' = true -> sub = sub').
  { induction 1 as [|x sub Hx _ IH]; intros B [|y sub'] B' E; cbn in *; try discriminate E; [reflexivity|].
    apply andb_prop in B, B', E. f_equal; [apply Hx; tauto|apply IH; tauto]. }
  induction x as [n a args inc skip om sub IH|t inc skip sub IH|n] using sel_ind'; intros B y B' E; [| |discriminate B].
  - destruct a, args, inc, skip, om; try discriminate B. destruct y as [n' a args inc skip om sub'| |]; try discriminate E.
    destruct a, args, inc, skip, om; try discriminate B'. cbn [sel_eqb] in E. rewrite sels_eqb_fix in E. apply andb_prop in E.
    destruct E as [E1 E2]. apply String.eqb_eq in E1. rewrite (L sub IH B sub' B' E2), E1. reflexivity.
  - destruct inc, skip; try discriminate B. destruct y as [|t' inc skip sub'|]; try discriminate E.
    destruct inc, skip; try discriminate B'. cbn [sel_eqb] in E. rewrite sels_eqb_fix in E. apply andb_prop in E.
    destruct E as [E1 E2]. apply String.eqb_eq in E1. rewrite (L sub IH B sub' B' E2), E1. reflexivity.
Qed.
Lemma bare_sels_eqb l : forallb bare l = true -> forall l', forallb bare l' = true -> sels_eqb l l' = true -> l = l'.
Proof.
  induction l as [|x l IH]; intros B [|y l'] B' E; cbn in *; try discriminate E; [reflexivity|].
  apply andb_prop in B, B', E. f_equal; [apply bare_eqb; tauto|apply IH; tauto].
Qed.
Lemma bare_discerning HF HX alike cs :
  (forall c, In c cs -> forallb bare (k_requires c) = true /\ forallb bare (k_selection c) = true) ->
  discerning HF HX alike cs.
Proof.
  intros H a b Ia Ib. destruct (H a Ia) as [Ra Sa], (H b Ib) as [Rb Sb]. split.
  - intros E. apply andb_prop in E. apply bare_sels_eqb; tauto.
  - unfold eq_shape. intros E. repeat (apply andb_prop in E; destruct E as [E ?]).
    split; apply bare_sels_eqb; assumption.
Qed.

(** ** Numbers in names *)
Lemma N_to_dec_inj a b : N_to_dec a = N_to_dec b -> a = b.
Proof.
  unfold N_to_dec. intros E. apply (f_equal NilZero.uint_of_string) in E.
  assert (U : forall n, NilZero.uint_of_string (NilZero.string_of_uint (N.to_uint n)) = Some (N.to_uint n)).
  { intros n. apply NilZero.usu. intros H. pose proof (DecimalN.Unsigned.of_to n) as O. rewrite H in O.
    cbn in O. subst n. discriminate H. }
  rewrite !U in E. injection E as E. apply DecimalN.Unsigned.to_uint_inj. exact E.
Qed.
Lemma append_inj a : forall b c, (a ++ b = a ++ c)%string -> b = c.
Proof. induction a as [|x a IH]; cbn; intros b c E; [exact E|]. injection E as E. apply IH, E. Qed.
Lemma rep_name_inj i j : rep_name i = rep_name j -> i = j.
Proof. unfold rep_name. intros E. apply append_inj, N_to_dec_inj in E. lia. Qed.
Lemma alias_name_inj i j : alias_name i = alias_name j -> i = j.
Proof. unfold alias_name. intros E. apply append_inj, N_to_dec_inj in E. lia. Qed.

Lemma existsb_eqb x l : existsb (String.eqb x) l = true <-> In x l.
Proof.
  rewrite existsb_exists. split.
  - intros (y & I & E). apply String.eqb_eq in E. congruence.
  - intros I. exists x. split; [exact I|apply String.eqb_refl].
Qed.
Lemma next_name_ok fuel : forall used i x j, next_name fuel used i = Some (x, j) -> ~ In x used.
Proof.
  induction fuel as [|fuel IH]; intros used i x j E; [discriminate E|]. cbn [next_name] in E.
  destruct (existsb (String.eqb (rep_name i)) used) eqn:X.
  - eapply IH, E.
  - injection E as <- <-. intros I. apply existsb_eqb in I. congruence.
Qed.
Lemma next_name_none fuel : forall used i, next_name fuel used i = None -> incl (map rep_name (seq i fuel)) used.
Proof.
  induction fuel as [|fuel IH]; intros used i E; [intros x []|]. cbn [next_name] in E.
  destruct (existsb (String.eqb (rep_name i)) used) eqn:X; [|discriminate E].
  cbn [seq map]. intros x [<-|I]; [apply existsb_eqb, X|]. exact (IH _ _ E x I).
Qed.
Lemma map_inj_NoDup {A B} (f : A -> B) l : (forall a b, f a = f b -> a = b) -> NoDup l -> NoDup (map f l).
Proof.
  intros H. induction 1 as [|a l N _ IH]; [constructor|]. cbn. constructor; [|exact IH].
  intros I. apply in_map_iff in I. destruct I as (b & E & I). apply H in E. congruence.
Qed.
(** the search for a name always succeeds *)
Lemma next_name_total used i : exists x j, next_name (S (length used)) used i = Some (x, j).
Proof.
  destruct (next_name (S (length used)) used i) as [[x j]|] eqn:E; [eauto|exfalso].
  apply next_name_none in E. apply NoDup_incl_length in E; [rewrite map_length, seq_length in E; lia|].
  apply map_inj_NoDup; [exact rep_name_inj|apply seq_NoDup].
Qed.

(** ** Candidates *)
Lemma enumerate_fst {A} (l : list A) : forall k, map fst (enumerate k l) = seq k (length l).
Proof. induction l as [|a l IH]; intros k; [reflexivity|]. cbn. f_equal. apply IH. Qed.
Lemma enumerate_snd {A} (l : list A) : forall k, map snd (enumerate k l) = l.
Proof. induction l as [|a l IH]; intros k; [reflexivity|]. cbn. f_equal. apply IH. Qed.

Section G.
  Variables HF HX : list token -> N.
  Variable info : nat -> option (list sel * list vardef * list string).
  Variable alike : list sel -> list sel -> bool.

  Lemma from_node_ok i n c : from_node info i n = Some c -> n = node_of c /\ k_index c = i.
  Proof.
    destruct n as [f|b|p n|l|l|v a e|]; cbn; try discriminate. destruct n as [f|b|p' n|l|l|v a e|]; try discriminate.
    destruct (info (f_id f)) as [[[s vs] us]|]; [|discriminate]. destruct f as [id sv [req|] fi fo]; cbn; [|discriminate].
    intros E. injection E as <-. split; reflexivity.
  Qed.
  Lemma candidates_from k nodes c : In c (flat_map (fun t => match from_node info (fst t) (snd t) with Some c => [c] | None => [] end) (enumerate k nodes)) ->
    In (k_index c, node_of c) (enumerate k nodes).
  Proof.
    intros H. apply in_flat_map in H. destruct H as ([i n] & I & H). cbn [fst snd] in H.
    destruct (from_node info i n) as [c'|] eqn:E; [|destruct H]. destruct H as [<-|[]].
    apply from_node_ok in E. destruct E as [-> <-]. exact I.
  Qed.
  Lemma candidates_in nodes c : In c (candidates info nodes) -> In (k_index c, node_of c) (enumerate 0 nodes).
  Proof. apply candidates_from. Qed.
  Lemma candidates_nodup nodes : NoDup (map k_index (candidates info nodes)).
  Proof.
    unfold candidates. generalize 0. induction nodes as [|n nodes IH]; intros k; [constructor|]. cbn [enumerate flat_map fst snd].
    destruct (from_node info k n) as [c|] eqn:E; [|apply IH]. cbn [app map]. constructor; [|apply IH].
    apply from_node_ok in E. destruct E as [_ ->]. intros I. apply in_map_iff in I. destruct I as (c' & E' & I).
    apply candidates_from in I. apply (in_map fst) in I. rewrite enumerate_fst in I. apply in_seq in I. cbn [fst] in I. lia.
  Qed.

  (** ** By subgraph *)
  Lemma put_by_perm c m : Permutation (flat_map snd (put_by c m)) (c :: flat_map snd m).
  Proof.
    induction m as [|[s l] m IH]; cbn; [apply Permutation_refl|]. destruct (String.eqb s (k_service c)); cbn [flat_map snd].
    - rewrite <- app_assoc. cbn [app]. symmetry. apply Permutation_middle.
    - etransitivity; [apply Permutation_app_head, IH|]. symmetry. apply Permutation_middle.
  Qed.
  Lemma by_subgraph_perm_from l : forall m, Permutation (flat_map snd (fold_left (fun m c => put_by c m) l m)) (flat_map snd m ++ l).
  Proof.
    induction l as [|c l IH]; intros m; cbn [fold_left]; [rewrite app_nil_r; apply Permutation_refl|].
    etransitivity; [apply IH|]. etransitivity; [apply Permutation_app_tail, put_by_perm|]. cbn [app]. apply Permutation_middle.
  Qed.
  Lemma by_subgraph_perm l : Permutation (flat_map snd (by_subgraph l)) l.
  Proof. apply (by_subgraph_perm_from l []). Qed.
  Lemma by_subgraph_service l : Forall (fun sl => forall c, In c (snd sl) -> k_service c = fst sl) (by_subgraph l).
  Proof.
    unfold by_subgraph. assert (H : Forall (fun sl : string * list cand => forall c, In c (snd sl) -> k_service c = fst sl) []) by constructor.
    revert H. generalize (@nil (string * list cand)). induction l as [|c l IH]; intros m H; [exact H|]. cbn [fold_left]. apply IH.
    induction H as [|[s g] m Hg Hm IHm]; cbn [put_by].
    - constructor; [|constructor]. intros c' [<-|[]]. reflexivity.
    - destruct (String.eqb s (k_service c)) eqn:E; constructor; try assumption. cbn [fst snd] in *. intros c' I. apply in_app_iff in I.
      destruct I as [I|[<-|[]]]; [apply Hg, I|]. apply String.eqb_eq in E. congruence.
  Qed.

  (** ** By variables *)
  Definition named (vs : list vardef) (n : string) : Prop := exists v, In v vs /\ vd_name v = n.
  Lemma merge_vars_in other : forall merged v, In v (merge_vars merged other) -> In v merged \/ In v other.
  Proof.
    unfold merge_vars. induction other as [|w other IH]; intros merged v I; [left; exact I|]. cbn [fold_left] in I. apply IH in I.
    destruct I as [I|I]; [|right; right; exact I]. destruct (existsb _ merged); [left; exact I|]. apply in_app_iff in I.
    destruct I as [I|[<-|[]]]; [left; exact I|right; left; reflexivity].
  Qed.
  Lemma merge_vars_keep other : forall merged v, In v merged -> In v (merge_vars merged other).
  Proof.
    unfold merge_vars. induction other as [|w other IH]; intros merged v I; [exact I|]. cbn [fold_left]. apply IH.
    destruct (existsb _ merged); [exact I|]. apply in_or_app. left. exact I.
  Qed.
  Lemma merge_vars_new other : forall merged v, NoDup (map vd_name other) -> In v other ->
    (forall x, In x merged -> vd_name x = vd_name v -> x = v) -> In v (merge_vars merged other).
  Proof.
    induction other as [|w other IH]; intros merged v N I H; [destruct I|]. cbn [map] in N. inversion N as [|? ? N1 N2]; subst.
    unfold merge_vars. cbn [fold_left]. fold (merge_vars (if existsb (fun x => String.eqb (vd_name x) (vd_name w)) merged then merged else merged ++ [w]) other).
    destruct I as [<-|I].
    - apply merge_vars_keep. destruct (existsb _ merged) eqn:X.
      + apply existsb_exists in X. destruct X as (x & Ix & E). apply String.eqb_eq in E. rewrite <- (H x Ix E). exact Ix.
      + apply in_or_app. right. left. reflexivity.
    - apply IH; [exact N2|exact I|]. intros x Ix E. destruct (existsb _ merged); [apply H; assumption|].
      apply in_app_iff in Ix. destruct Ix as [Ix|[<-|[]]]; [apply H; assumption|]. exfalso. apply N1. rewrite E. apply in_map. exact I.
  Qed.
  Lemma find_name vs n : (forall a b, In a vs -> In b vs -> vd_name a = vd_name b -> a = b) ->
    forall v, In v vs -> vd_name v = n -> find (fun v => String.eqb (vd_name v) n) vs = Some v.
  Proof.
    intros U v I E. destruct (find (fun v => String.eqb (vd_name v) n) vs) as [x|] eqn:F.
    - apply find_some in F. destruct F as [Ix Ex]. apply String.eqb_eq in Ex. f_equal. apply U; congruence.
    - pose proof (find_none _ _ F v I) as Z. cbn in Z. rewrite E, String.eqb_refl in Z. discriminate Z.
  Qed.
  Definition vars_ok (g : list cand * list vardef) : Prop :=
    (forall v, (exists c, In c (fst g) /\ In v (k_vars c)) <-> In v (snd g)) /\
    (forall a b, In a (snd g) -> In b (snd g) -> vd_name a = vd_name b -> a = b).
  Lemma nodup_names_eq vs : NoDup (map vd_name vs) -> forall a b, In a vs -> In b vs -> vd_name a = vd_name b -> a = b.
  Proof.
    induction vs as [|v vs IH]; intros N a b Ia Ib E; [destruct Ia|]. cbn [map] in N. inversion N as [|? ? N1 N2]; subst.
    destruct Ia as [<-|Ia], Ib as [<-|Ib]; [reflexivity| | |apply IH; assumption].
    - exfalso. apply N1. rewrite E. apply in_map. exact Ib.
    - exfalso. apply N1. rewrite <- E. apply in_map. exact Ia.
  Qed.
  Lemma put_vars_ok c gs : own_vars c -> Forall vars_ok gs -> Forall vars_ok (put_vars c gs).
  Proof.
    intros N. induction 1 as [|[l vs] gs [H1 H2] Hg IH]; cbn [put_vars].
    - constructor; [|constructor]. split; cbn [fst snd].
      + intros v. split; [intros (c' & [<-|[]] & I); exact I|intros I; exists c; split; [left; reflexivity|exact I]].
      + apply nodup_names_eq. exact N.
    - destruct (can_merge_vars vs (k_vars c)) eqn:E; constructor; try assumption; [|split; assumption]. cbn [fst snd] in *.
      assert (Same : forall x v, In x vs -> In v (k_vars c) -> vd_name x = vd_name v -> x = v).
      { intros x v Ix Iv En. unfold can_merge_vars in E. rewrite forallb_forall in E. specialize (E v Iv).
        rewrite (find_name vs (vd_name v) H2 x Ix En) in E. apply can_merge_var_ok in E. exact E. }
      split; cbn [fst snd].
      + intros v. split.
        * intros (c' & I & Iv). apply in_app_iff in I. destruct I as [I|[<-|[]]].
          -- apply merge_vars_keep. apply H1. exists c'. auto.
          -- apply merge_vars_new; [exact N|exact Iv|]. intros x Ix. apply Same; assumption.
        * intros I. apply merge_vars_in in I. destruct I as [I|I].
          -- apply H1 in I. destruct I as (c' & I & Iv). exists c'. split; [apply in_or_app; left; exact I|exact Iv].
          -- exists c. split; [apply in_or_app; right; left; reflexivity|exact I].
      + intros a b Ia Ib En. apply merge_vars_in in Ia, Ib. destruct Ia as [Ia|Ia], Ib as [Ib|Ib].
        * apply H2; assumption.
        * apply Same; assumption.
        * symmetry. apply Same; auto.
        * apply (nodup_names_eq (k_vars c)); assumption.
  Qed.
  Lemma by_variables_ok l : Forall own_vars l -> Forall vars_ok (by_variables l).
  Proof.
    unfold by_variables. assert (H : Forall vars_ok []) by constructor. revert H. generalize (@nil (list cand * list vardef)).
    induction l as [|c l IH]; intros gs H N; [exact H|]. inversion N; subst. cbn [fold_left]. apply IH; [|assumption].
    apply put_vars_ok; assumption.
  Qed.
  Lemma put_vars_perm c gs : Permutation (flat_map fst (put_vars c gs)) (c :: flat_map fst gs).
  Proof.
    induction gs as [|[l vs] gs IH]; cbn [put_vars]; [apply Permutation_refl|]. destruct (can_merge_vars vs (k_vars c)); cbn [flat_map fst].
    - rewrite <- app_assoc. cbn [app]. symmetry. apply Permutation_middle.
    - etransitivity; [apply Permutation_app_head, IH|]. symmetry. apply Permutation_middle.
  Qed.
  Lemma by_variables_perm_from l : forall gs, Permutation (flat_map fst (fold_left (fun gs c => put_vars c gs) l gs)) (flat_map fst gs ++ l).
  Proof.
    induction l as [|c l IH]; intros gs; cbn [fold_left]; [rewrite app_nil_r; apply Permutation_refl|].
    etransitivity; [apply IH|]. etransitivity; [apply Permutation_app_tail, put_vars_perm|]. cbn [app]. apply Permutation_middle.
  Qed.
  Lemma by_variables_perm l : Permutation (flat_map fst (by_variables l)) l.
  Proof. apply (by_variables_perm_from l []). Qed.

  (** ** By shape *)
  Notation put_shape := (put_shape HF HX).
  Notation by_shape := (by_shape HF HX).
  Lemma put_shape_perm c gs : Permutation (concat (put_shape c gs)) (c :: concat gs).
  Proof.
    induction gs as [|[|d l] gs IH]; cbn [QplanModel.put_shape]; [apply Permutation_refl|exact IH|].
    destruct (eq_shape HF HX d c); cbn [concat].
    - cbn [app]. rewrite <- app_assoc. cbn [app]. etransitivity; [apply perm_skip; symmetry; apply Permutation_middle|]. apply perm_swap.
    - etransitivity; [apply Permutation_app_head, IH|]. symmetry. apply Permutation_middle.
  Qed.
  Lemma by_shape_perm_from l : forall gs, Permutation (concat (fold_left (fun gs c => put_shape c gs) l gs)) (concat gs ++ l).
  Proof.
    induction l as [|c l IH]; intros gs; cbn [fold_left]; [rewrite app_nil_r; apply Permutation_refl|].
    etransitivity; [apply IH|]. etransitivity; [apply Permutation_app_tail, put_shape_perm|]. cbn [app]. apply Permutation_middle.
  Qed.
  Lemma by_shape_perm l : Permutation (concat (by_shape l)) l.
  Proof. apply (by_shape_perm_from l []). Qed.
  Definition shape_ok (g : list cand) : Prop :=
    match g with [] => False | d :: l => forall c, In c l -> eq_shape HF HX d c = true end.
  Lemma by_shape_ok l : Forall shape_ok (by_shape l).
  Proof.
    unfold QplanModel.by_shape. assert (H : Forall shape_ok []) by constructor. revert H. generalize (@nil (list cand)).
    induction l as [|c l IH]; intros gs H; [exact H|]. cbn [fold_left]. apply IH.
    induction H as [|[|d g] gs Hg Hgs IHg]; cbn [QplanModel.put_shape].
    - constructor; [|constructor]. intros c' [].
    - destruct Hg.
    - destruct (eq_shape HF HX d c) eqn:E; constructor; try assumption. intros c' I. apply in_app_iff in I.
      destruct I as [I|[<-|[]]]; [apply Hg, I|exact E].
  Qed.

  (** ** Building *)
  Notation add_group := (add_group alike).
  Notation add_groups := (add_groups alike).
  Definition key_of (a : alias) : key := (a_requires a, a_in a, a_paths a).
  Definition made (g : list cand) (ai : alias * (string * string * list sel)) : Prop :=
    exists r l, g = r :: l /\ a_paths (fst ai) = merge_paths g /\ a_requires (fst ai) = k_requires r /\ a_in (fst ai) = k_in r /\
                a_out (fst ai) = k_out r /\ snd (snd ai) = k_selection r.
  Record binv (names : list string) (done : list (list cand)) (b : builder) : Prop := {
    v_used : forall x, In x (bd_used b) <-> In x names \/ In x (bd_rep_vars b);
    v_pairs : map (fun a => (a_alias a, a_var a)) (bd_aliases b) = map fst (bd_items b);
    v_names : map a_alias (bd_aliases b) = map alias_name (seq 0 (length done));
    v_var : forall a, In a (bd_aliases b) -> In (a_var a) (bd_rep_vars b);
    v_nodup : NoDup (bd_rep_vars b);
    v_clash : forall v, In v (bd_rep_vars b) -> ~ In v names;
    v_keys : map snd (bd_keys b) = bd_rep_vars b;
    v_key : forall a, In a (bd_aliases b) -> exists k, In (k, a_var a) (bd_keys b) /\ (k = key_of a \/ key_eqb alike (key_of a) k = true);
    v_from : forall k x, In (k, x) (bd_keys b) -> exists c, In c (concat done) /\ fst (fst k) = k_requires c;
    v_made : Forall2 made done (combine (bd_aliases b) (bd_items b));
    v_usages : forall u, (exists c, In c (concat done) /\ In u (k_usages c)) <-> In u (bd_usages b);
    v_paths : Forall (fun a => exists p ps, a_paths a = p :: ps) (bd_aliases b) }.

  Lemma combine_app {A B} (l1 : list A) : forall (m1 : list B) l2 m2, length l1 = length m1 ->
    combine (l1 ++ l2) (m1 ++ m2) = combine l1 m1 ++ combine l2 m2.
  Proof. induction l1 as [|a l1 IH]; intros [|b m1] l2 m2 E; try discriminate E; [reflexivity|]. cbn. f_equal. apply IH. cbn in E. lia. Qed.
  Lemma forall2_snoc {A B} (R : A -> B -> Prop) l1 l2 a b : Forall2 R l1 l2 -> R a b -> Forall2 R (l1 ++ [a]) (l2 ++ [b]).
  Proof. induction 1 as [|x y l1 l2 Hxy _ IH]; intros Hab; cbn; constructor; auto. Qed.

  Lemma add_group_ok names done b g : binv names done b -> g <> [] ->
    exists b', add_group b (length done) g = Some b' /\ binv names (done ++ [g]) b'.
  Proof.
    intros [U P NA V ND CL K KE FR MA US VP] G. destruct g as [|r l]; [contradiction|]. clear G.
    cbn [QplanModel.add_group]. set (g := r :: l). set (k := (k_requires r, k_in r, merge_paths g) : key).
    assert (Len : length (bd_aliases b) = length (bd_items b)) by (apply (f_equal (@length _)) in P; rewrite !map_length in P; exact P).
    assert (Us : forall u, (exists c, In c (concat (done ++ [g])) /\ In u (k_usages c)) <-> In u (bd_usages b ++ flat_map k_usages g)).
    { intros u. rewrite concat_app, in_app_iff, <- US, in_flat_map. cbn [concat]. rewrite app_nil_r. split.
      - intros (c & I & J). apply in_app_iff in I. destruct I as [I|I]; [left|right]; exists c; auto.
      - intros [(c & I & J)|(c & I & J)]; exists c; (split; [apply in_or_app|exact J]); [left|right]; exact I. }
    assert (Na : forall name, map a_alias (bd_aliases b ++ [mkalias (alias_name (length done)) name (merge_paths g) (k_requires r) (k_in r) (k_out r)])
      = map alias_name (seq 0 (length (done ++ [g])))).
    { intros name. rewrite map_app, NA, app_length. cbn [length map a_alias]. rewrite Nat.add_1_r, seq_S, map_app. reflexivity. }
    assert (Pa : forall name, map (fun a => (a_alias a, a_var a)) (bd_aliases b ++ [mkalias (alias_name (length done)) name (merge_paths g) (k_requires r) (k_in r) (k_out r)])
      = map fst (bd_items b ++ [(alias_name (length done), name, k_selection r)])).
    { intros name. rewrite !map_app, P. reflexivity. }
    assert (Ma : forall name, Forall2 made (done ++ [g]) (combine (bd_aliases b ++ [mkalias (alias_name (length done)) name (merge_paths g) (k_requires r) (k_in r) (k_out r)])
                 (bd_items b ++ [(alias_name (length done), name, k_selection r)]))).
    { intros name. rewrite combine_app by exact Len. cbn [combine]. apply forall2_snoc; [exact MA|]. exists r, l. cbn [fst snd a_paths a_requires a_in a_out]. repeat split. }
    assert (Fr : forall k' x, In (k', x) (bd_keys b) -> exists c, In c (concat (done ++ [g])) /\ fst (fst k') = k_requires c).
    { intros k' x I. destruct (FR k' x I) as (c & I1 & I2). exists c. split; [|exact I2]. rewrite concat_app. apply in_or_app. left. exact I1. }
    assert (Vp : forall name, Forall (fun a => exists p ps, a_paths a = p :: ps) (bd_aliases b ++ [mkalias (alias_name (length done)) name (merge_paths g) (k_requires r) (k_in r) (k_out r)])).
    { intros name. apply Forall_app. split; [exact VP|]. constructor; [|constructor]. exists (k_path r). eexists. reflexivity. }
    destruct (find (fun e => key_eqb alike k (fst e)) (bd_keys b)) as [[k0 name]|] eqn:F.
    - eexists. split; [reflexivity|]. apply find_some in F. destruct F as [Ik Ek]. cbn [fst] in Ek.
      constructor; cbn [bd_used bd_next bd_keys bd_items bd_aliases bd_rep_vars bd_usages]; auto.
      + intros a I. apply in_app_iff in I. destruct I as [I|[<-|[]]]; [apply V, I|]. cbn [a_var]. rewrite <- K.
        apply (in_map snd) in Ik. exact Ik.
      + intros a I. apply in_app_iff in I. destruct I as [I|[<-|[]]]; [apply KE, I|]. cbn [a_var]. exists k0. split; [exact Ik|right; exact Ek].
    - destruct (next_name_total (bd_used b) (bd_next b)) as (name & j & Ej). rewrite Ej. eexists. split; [reflexivity|].
      assert (Fresh : ~ In name (bd_used b)) by (eapply next_name_ok; exact Ej).
      constructor; cbn [bd_used bd_next bd_keys bd_items bd_aliases bd_rep_vars bd_usages]; auto.
      + intros x. rewrite in_app_iff. cbn [In]. rewrite U. intuition.
      + intros a I. apply in_or_app. apply in_app_iff in I. destruct I as [I|[<-|[]]]; [left; apply V, I|right; left; reflexivity].
      + apply (Permutation_NoDup (l := name :: bd_rep_vars b)); [apply Permutation_cons_append|]. constructor; [|exact ND].
        intros I. apply Fresh, U. right. exact I.
      + intros v I. apply in_app_iff in I. destruct I as [I|[<-|[]]]; [apply CL, I|]. intros I. apply Fresh, U. left. exact I.
      + rewrite map_app, K. reflexivity.
      + intros a I. apply in_app_iff in I. destruct I as [I|[<-|[]]].
        * destruct (KE a I) as (k' & I1 & I2). exists k'. split; [apply in_or_app; left; exact I1|exact I2].
        * exists k. split; [apply in_or_app; right; left; reflexivity|left; reflexivity].
      + intros k' x I. apply in_app_iff in I. destruct I as [I|[E|[]]]; [apply (Fr k' x), I|]. injection E as <- <-.
        exists r. split; [|reflexivity]. rewrite concat_app. apply in_or_app. right. left. reflexivity.
  Qed.
  Lemma add_groups_ok names gs : forall done b, binv names done b -> Forall (fun g => g <> []) gs ->
    exists b', add_groups b (length done) gs = Some b' /\ binv names (done ++ gs) b'.
  Proof.
    induction gs as [|g gs IH]; intros done b I F; cbn [QplanModel.add_groups].
    - exists b. rewrite app_nil_r. auto.
    - inversion F as [|? ? G F']; subst. destruct (add_group_ok names done b g I G) as (b1 & E1 & I1). rewrite E1.
      destruct (IH (done ++ [g]) b1 I1 F') as (b2 & E2 & I2). rewrite app_length in E2. cbn [length] in E2. rewrite Nat.add_1_r in E2.
      exists b2. split; [exact E2|]. rewrite <- app_assoc in I2. exact I2.
  Qed.

  Lemma groups_iff ps p : In p (groups ps []) <-> In p ps.
  Proof. split; [apply groups_in|]. intros I. destruct (groups_all ps [] p I) as [H|[]]. exact H. Qed.

  Lemma build_ok gs vars : Forall shape_ok gs -> gs <> [] -> vars_ok (concat gs, vars) ->
    (forall c c', In c (concat gs) -> In c' (concat gs) -> k_service c = k_service c') ->
    exists b, build alike gs vars = Some b /\ well_built (concat gs) b /\
      (discerning HF HX alike (concat gs) -> same_work (concat gs) b).
  Proof.
    intros Sh Ne [Hv Uv] Sv. destruct gs as [|[|c0 g0] gs0] eqn:Eg; [contradiction|inversion Sh as [|? ? F]; destruct F|].
    rewrite <- Eg in *. assert (Eb : build alike gs vars = match add_groups (mkbuilder (map vd_name vars) 0 [] [] [] [] []) 0 gs with
        | None => None
        | Some b => Some (mkbuilt (mkbatch (k_id c0) (k_service c0) (bd_aliases b)) (bd_items b) (bd_rep_vars b) vars (bd_usages b))
        end) by (rewrite Eg; reflexivity).
    destruct (add_groups_ok (map vd_name vars) gs [] (mkbuilder (map vd_name vars) 0 [] [] [] [] [])) as (b & E & I).
    { constructor; cbn [bd_used bd_next bd_keys bd_items bd_aliases bd_rep_vars bd_usages map seq length combine concat]; try reflexivity;
        try (constructor; fail); try (intros ? ? []; fail); try (intros ? []; fail).
      - intros x. cbn [In]. tauto.
      - intros u. split; [intros (c & [] & _)|intros []]. }
    { rewrite Forall_forall in *. intros g Ig E. specialize (Sh g Ig). subst g. destruct Sh. }
    cbn [length app] in E, I. rewrite E in Eb. rewrite Eb. eexists. split; [reflexivity|].
    destruct I as [U P NA V ND CL K KE FR MA US VP].
    assert (I0 : In c0 (concat gs)) by (rewrite Eg; left; reflexivity).
    split.
    - unfold well_built. cbn [bt_node bt_items bt_reps bt_vars bt_usages b_service b_aliases].
      split; [intros c I; apply Sv; assumption|]. split; [exact P|]. split; [rewrite NA; apply map_inj_NoDup; [exact alias_name_inj|apply seq_NoDup]|].
      split; [exact V|]. split; [exact ND|]. split; [|split; [exact Hv|split; [exact US|exact VP]]].
      intros v d I J E'. apply (CL v I). rewrite E'. apply in_map. exact J.
    - intros Di. split; cbn [bt_node bt_items b_service b_aliases].
      + intros t. unfold batch_tasks. cbn [bt_node bt_items b_service b_aliases]. rewrite in_map_iff, in_flat_map.
        assert (Half : forall g ai, In g gs -> made g ai -> forall t,
          (exists c, task_of c = t /\ In c g) <->
          In t (map (fun p => mktask (k_service c0) p (a_requires (fst ai)) (a_in (fst ai)) (snd (snd ai)) (a_out (fst ai))) (a_paths (fst ai)))).
        { intros g ai Ig (r & l & -> & Ep & Er & Ei & Eo & Es) t0. rewrite in_map_iff, Ep, Er, Ei, Eo, Es.
          rewrite Forall_forall in Sh. specialize (Sh _ Ig). cbn in Sh.
          assert (Same : forall c, In c (r :: l) -> k_requires c = k_requires r /\ k_selection c = k_selection r /\ k_in c = k_in r /\ k_out c = k_out r /\ k_service c = k_service c0).
          { assert (Big : forall c, In c (r :: l) -> In c (concat gs)) by (intros c Ic; apply in_concat; eauto).
            intros c Ic. split; [|split; [|split; [|split]]]; try (apply Sv; [apply Big, Ic|exact I0]);
              destruct Ic as [<-|Ic]; try reflexivity; specialize (Sh c Ic);
              destruct (Di r c (Big r (or_introl eq_refl)) (Big c (or_intror Ic))) as [_ D2]; specialize (D2 Sh); destruct D2 as [D2 D3]; try congruence;
              unfold eq_shape in Sh; repeat (apply andb_prop in Sh; destruct Sh as [Sh ?]);
              match goal with H : list_eqb rewrite_eqb ?x _ = true |- _ = ?x => apply (list_eqb_ok rewrite_eqb rewrite_eqb_ok) in H; congruence end. }
          split.
          - intros (c & <- & Ic). exists (k_path c). destruct (Same c Ic) as (E1 & E2 & E3 & E4 & E5).
            split; [|apply groups_iff, in_map, Ic]. unfold task_of. congruence.
          - intros (p & <- & Ip). unfold merge_paths in Ip. apply (proj1 (groups_iff _ _)) in Ip. apply in_map_iff in Ip. destruct Ip as (c & <- & Ic).
            exists c. split; [|exact Ic]. unfold task_of. destruct (Same c Ic) as (E1 & E2 & E3 & E4 & E5). congruence. }
        clear - MA Half. assert (Sub : incl gs gs) by apply incl_refl. revert Half Sub. generalize gs at 1 3. intros all Half Sub.
        revert Sub. induction MA as [|g ai gs' ais Hm MA IH]; intros Sub; cbn [concat].
        * split; [intros (c & _ & [])|intros (x & [] & _)].
        * assert (Sub' : incl gs' all) by (intros z Iz; apply Sub; right; exact Iz). specialize (IH Sub').
          pose proof (Half g ai (Sub g (or_introl eq_refl)) Hm t) as Hh. split.
          -- intros (c & Et & Ic). apply in_app_iff in Ic. destruct Ic as [Ic|Ic].
             ++ exists ai. split; [left; reflexivity|]. apply Hh. eauto.
             ++ destruct (proj1 IH) as (x & Ix & It); [eauto|]. exists x. split; [right; exact Ix|exact It].
          -- intros (x & [<-|Ix] & It).
             ++ apply Hh in It. destruct It as (c & Et & Ic). exists c. split; [exact Et|apply in_or_app; left; exact Ic].
             ++ destruct (proj2 IH) as (c & Et & Ic); [eauto|]. exists c. split; [exact Et|apply in_or_app; right; exact Ic].
      + intros a a' Ia Ia' Ev.
        assert (Rq : forall x, In x (bd_aliases b) -> exists c, In c (concat gs) /\ a_requires x = k_requires c).
        { clear - MA P. intros x Ix. assert (Len : length (bd_aliases b) = length (bd_items b)) by (apply (f_equal (@length _)) in P; rewrite !map_length in P; exact P).
          assert (Hx : exists i, In (x, i) (combine (bd_aliases b) (bd_items b))).
          { clear MA P. revert Ix Len. generalize (bd_items b). induction (bd_aliases b) as [|y l IH]; intros [|i m] Ix Len; try discriminate Len; [destruct Ix|].
            destruct Ix as [<-|Ix]; [exists i; left; reflexivity|]. destruct (IH m Ix) as [j Hj]; [cbn in Len; lia|]. exists j. right. exact Hj. }
          destruct Hx as [i Hx]. clear P Len Ix. revert MA Hx. generalize (combine (bd_aliases b) (bd_items b)). intros ais MA. induction MA as [|g ai gs' ais Hm MA IH]; intros Hx; [destruct Hx|].
          destruct Hx as [->|Hx].
          - destruct Hm as (r & l & -> & _ & Er & _). exists r. split; [left; reflexivity|exact Er].
          - destruct (IH Hx) as (c & Ic & Ec). exists c. split; [cbn [concat]; apply in_or_app; right; exact Ic|exact Ec]. }
        assert (Exact : forall x, In x (bd_aliases b) -> In (key_of x, a_var x) (bd_keys b)).
        { intros x Ix. destruct (KE x Ix) as (k & Ik & [Ek|Ek]); [rewrite <- Ek; exact Ik|]. destruct k as [[rq inn] ps].
          unfold key_of in *. cbn [key_eqb] in Ek. apply andb_prop in Ek. destruct Ek as [Ek E3]. apply andb_prop in Ek. destruct Ek as [Ek E2].
          apply paths_eqb_ok in E3. apply (list_eqb_ok rewrite_eqb rewrite_eqb_ok) in E2.
          destruct (FR _ _ Ik) as (c & Ic & Ec). cbn [fst] in Ec. destruct (Rq x Ix) as (c' & Ic' & Ec').
          rewrite Ec, Ec' in Ek. destruct (Di c' c Ic' Ic) as [D1 _]. specialize (D1 Ek). congruence. }
        pose proof (Exact a Ia) as H1. pose proof (Exact a' Ia') as H2. rewrite <- Ev in H2.
        assert (Ek : key_of a = key_of a').
        { rewrite <- K in ND. clear - ND H1 H2. revert H1 H2. induction (bd_keys b) as [|[k x] l IH]; intros H1 H2; [destruct H1|].
          cbn [map snd] in ND. inversion ND as [|? ? N1 N2]; subst. destruct H1 as [E1|H1], H2 as [E2|H2].
          - congruence.
          - exfalso. apply N1. injection E1 as _ ->. apply (in_map snd) in H2. exact H2.
          - exfalso. apply N1. injection E2 as _ ->. apply (in_map snd) in H1. exact H1.
          - apply IH; assumption. }
        unfold key_of in Ek. injection Ek as E1 E2 E3. auto.
  Qed.
End G.
