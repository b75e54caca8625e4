(** Proofs that restructuring sequences and conditions changes no run. *)
From Coq Require Import String List NArith Bool Arith Lia Permutation.
From Verif Require Import StrOrd StrUtil JsonModel Ast AstHashModel TraverseModel RewriteModel ProjModel EntityModel ExecModel ExecSpec ExecRun
  QplanModel QplanSpec QplanGroup QplanParallel.
Import ListNotations.
Local Open Scope nat_scope.
Local Open Scope list_scope.

Lemma forallb_app' {A} (f : A -> bool) l1 l2 : forallb f (l1 ++ l2) = true <-> forallb f l1 = true /\ forallb f l2 = true.
Proof. rewrite forallb_app, andb_true_iff. reflexivity. Qed.
Lemma simple_proper n : simple n = true -> proper n = true.
Proof. destruct n as [f|b|p n|l|l|v [i|] [e|]|]; cbn; try reflexivity; discriminate. Qed.
Lemma leaf_shaped n : leaf n = true -> shaped n = true.
Proof.
  induction n as [f|b|p n IH|l IH|l IH|v i e IHi IHe|] using node_ind'; cbn [leaf shaped]; intros H; try discriminate H; try reflexivity.
  - destruct n; try discriminate H; reflexivity.
  - apply andb_prop in H. destruct H as [Hi He]. destruct i as [i|], e as [e|]; cbn [opt_all] in *; rewrite ?IHi, ?IHe by assumption; reflexivity.
Qed.
Lemma simple_shaped n : simple n = true -> shaped n = true.
Proof.
  induction n as [f|b|p n IH|l IH|l IH|v i e IHi IHe|] using node_ind'; cbn [simple shaped]; intros H; try discriminate H; try reflexivity.
  - destruct n; try discriminate H; reflexivity.
  - rewrite Forall_forall in IH. rewrite forallb_forall in *. intros x I. apply IH; [exact I|apply H, I].
  - destruct i as [i|], e as [e|]; cbn [opt_all] in *; try discriminate H; apply andb_prop in H; destruct H as [Hi He];
      rewrite ?IHi, ?IHe by assumption; reflexivity.
Qed.

(** ** Structure *)
Section Shapes.
  Variable P : node -> bool.
  Hypothesis Pseq : forall l, P (NSequence l) = forallb P l.
  Hypothesis Pif : forall v i e, P (NCondition v i e) = true ->
    match i with Some n => P n = true | None => True end /\ match e with Some n => P n = true | None => True end.
  Hypothesis Pthen : forall v n, P n = true -> P (NCondition v (Some n) None) = true /\ P (NCondition v None (Some n)) = true.

  Lemma flatten_sequence_all n : P n = true -> forallb P (flatten_sequence n) = true.
  Proof. destruct n as [f|b|p n|l|l|v i e|]; cbn [flatten_sequence forallb]; intros H; rewrite ?H; try reflexivity. rewrite <- Pseq. exact H. Qed.
  Lemma sequence_all l : forallb P l = true -> P (sequence l) = true.
  Proof.
    destruct l as [|n [|m l]]; cbn [sequence]; intros H.
    - rewrite Pseq. reflexivity.
    - cbn [forallb] in H. rewrite andb_true_r in H. exact H.
    - rewrite Pseq. exact H.
  Qed.
  Lemma inner_all v i e : P (NCondition v i e) = true -> forallb P (inner_nodes i e) = true.
  Proof.
    intros H. apply Pif in H. destruct H as [Hi He]. destruct i as [i|]; cbn [inner_nodes]; [apply flatten_sequence_all, Hi|].
    destruct e as [e|]; [apply flatten_sequence_all, He|reflexivity].
  Qed.
  Lemma merge_all_ok v i e v' i' e' : can_merge_with v i e v' i' e' = true -> proper (NCondition v i e) = true ->
    P (NCondition v i e) = true -> P (NCondition v' i' e') = true -> P (merge_conditions v i e i' e') = true.
  Proof.
    intros Cm Pr H H'. assert (B : P (sequence (inner_nodes i e ++ inner_nodes i' e')) = true).
    { apply sequence_all, forallb_app'. split; eapply inner_all; eassumption. }
    unfold merge_conditions. destruct i as [i|]; [|apply Pthen, B]. destruct e as [e|]; [|apply Pthen, B].
    exfalso. unfold can_merge_with in Cm. cbn [none andb orb] in Cm. rewrite andb_false_r in Cm. discriminate Cm.
  Qed.
  Lemma merge_proper v i e i' e' : proper (merge_conditions v i e i' e') = true.
  Proof. unfold merge_conditions. destruct i; reflexivity. Qed.
  Lemma fold_all l : forall acc, forallb P l = true -> forallb proper l = true -> forallb P acc = true -> forallb proper acc = true ->
    forallb P (fold_left fold_step l acc) = true /\ forallb proper (fold_left fold_step l acc) = true.
  Proof.
    induction l as [|n l IH]; intros acc Hl Rl Ha Ra; [auto|]. cbn [fold_left forallb] in *. apply andb_prop in Hl, Rl.
    destruct Hl as [Hn Hl], Rl as [Rn Rl]. assert (D : forallb P (n :: acc) = true /\ forallb proper (n :: acc) = true).
    { cbn [forallb]. rewrite Hn, Rn, Ha, Ra. auto. }
    assert (G : forallb P (fold_step acc n) = true /\ forallb proper (fold_step acc n) = true); [|apply IH; tauto].
    unfold fold_step. destruct acc as [|m acc]; [exact D|]. destruct m as [f|b|p m|l0|l0|v i e|]; try exact D.
    destruct n as [f|b|p n|l0|l0|v' i' e'|]; try exact D. destruct (can_merge_with v i e v' i' e') eqn:Cm; [|exact D].
    cbn [forallb] in Ha, Ra |- *. apply andb_prop in Ha, Ra. destruct Ha as [Hm Ha], Ra as [Rm Ra].
    rewrite (merge_all_ok v i e v' i' e' Cm Rm Hm Hn), merge_proper, Ha, Ra. auto.
  Qed.
  Lemma ops_all l : forallb P l = true -> forallb proper (flat_map (fun n => match n with NSequence l' => l' | _ => [n] end) l) = true ->
    forallb P (optimize_plan_sequence l) = true /\ forallb proper (optimize_plan_sequence l) = true.
  Proof.
    intros H R. unfold optimize_plan_sequence.
    assert (F : forallb P (flat_map (fun n => match n with NSequence l' => l' | _ => [n] end) l) = true).
    { clear R. induction l as [|n l IH]; [reflexivity|]. cbn [forallb] in H. apply andb_prop in H. destruct H as [Hn Hl]. cbn [flat_map].
      apply forallb_app'. split; [|apply IH, Hl]. exact (flatten_sequence_all n Hn). }
    destruct (fold_all _ [] F R eq_refl eq_refl) as [A B]. split; rewrite forallb_forall in *; intros x I; apply in_rev in I; auto.
  Qed.
End Shapes.

Section R.
  Variable ryu : N -> string.
  Variable pt : ptypes.
  Variable xxh : list N -> N.
  Variable show : list fseg -> string.
  Variable vars : option (list (string * value)).
  Variable answer : job_kind -> outcome.
  Notation run := (run ryu pt xxh show vars answer).
  Notation run_list := (run_list ryu pt xxh show vars answer).
  Definition same (l1 l2 : list node) : Prop := forall c tr c', run_list l1 c tr c' <-> run_list l2 c tr c'.

  Lemma same_refl l : same l l.
  Proof. intros c tr c'. reflexivity. Qed.
  Lemma same_sym l1 l2 : same l1 l2 -> same l2 l1.
  Proof. intros H c tr c'. symmetry. apply H. Qed.
  Lemma same_trans l1 l2 l3 : same l1 l2 -> same l2 l3 -> same l1 l3.
  Proof. intros H G c tr c'. rewrite (H c tr c'). apply G. Qed.
  Lemma list_app_back l1 : forall l2 c tr1 c1 tr2 c', run_list l1 c tr1 c1 -> run_list l2 c1 tr2 c' -> run_list (l1 ++ l2) c (tr1 ++ tr2) c'.
  Proof.
    induction l1 as [|n l1 IH]; intros l2 c tr1 c1 tr2 c' R1 R2.
    - inversion R1; subst. exact R2.
    - inversion R1 as [|? ? ? trA cA trB ? E1 E2]; subst. rewrite <- app_assoc. cbn. econstructor; [exact E1|]. eapply IH; eassumption.
  Qed.
  Lemma same_app l1 l2 m1 m2 : same l1 m1 -> same l2 m2 -> same (l1 ++ l2) (m1 ++ m2).
  Proof.
    intros H G c tr c'. split; intros R; apply run_list_app in R; destruct R as (tr1 & c1 & tr2 & R1 & R2 & ->);
      eapply list_app_back; try (apply H; exact R1); apply G; exact R2.
  Qed.
  Lemma run_one n c tr c' : run_list [n] c tr c' <-> run n c tr c'.
  Proof.
    split; intros R.
    - inversion R as [|? ? ? tr1 c1 tr2 ? E1 E2]; subst. inversion E2; subst. rewrite app_nil_r. exact E1.
    - rewrite <- (app_nil_r tr). econstructor; [exact R|constructor].
  Qed.
  Lemma run_seq l c tr c' : run (NSequence l) c tr c' <-> run_list l c tr c'.
  Proof.
    split; intros R; [|constructor; exact R].
    inversion R as [|? ? ? ? E'| | |? ? ? ? F|? ? F]; subst; [exact E'|destruct F|destruct F].
  Qed.
  Lemma run_sequence' l c tr c' : run (sequence l) c tr c' <-> run_list l c tr c'.
  Proof. destruct l as [|n [|m l]]; cbn [sequence]; [apply run_seq|symmetry; apply run_one|apply run_seq]. Qed.
  Lemma same_flatten n : same (flatten_sequence n) [n].
  Proof. intros c tr c'. rewrite run_one. destruct n; cbn [flatten_sequence]; try apply run_one. symmetry. apply run_seq. Qed.
  Lemma run_cond v i e c tr c' : run (NCondition v i e) c tr c' <->
    match condition_branch vars v i e with Some n => run n c tr c' | None => tr = [] /\ c' = c end.
  Proof.
    split; intros R.
    - inversion R as [| |? ? ? n ? ? ? B E|? ? ? ? B|? ? ? ? F|? ? F]; subst; try destruct F; rewrite B; auto.
    - destruct (condition_branch vars v i e) as [n|] eqn:B; [eapply run_branch; eassumption|]. destruct R as [-> ->]. apply run_no_branch, B.
  Qed.
  Lemma nothing c tr c' : run_list [] c tr c' <-> tr = [] /\ c' = c.
  Proof. split; [intros R; inversion R; auto|intros [-> ->]; constructor]. Qed.

  (** what a condition runs, as a list *)
  Definition body (v : string) (i e : option node) : list node :=
    match condition_branch vars v i e with Some n => [n] | None => [] end.
  Lemma same_cond v i e : same [NCondition v i e] (body v i e).
  Proof.
    intros c tr c'. rewrite run_one, run_cond. unfold body. destruct (condition_branch vars v i e) as [n|]; [symmetry; apply run_one|].
    symmetry. apply nothing.
  Qed.
  Lemma merge_same v i e v' i' e' : can_merge_with v i e v' i' e' = true -> proper (NCondition v i e) = true ->
    same [merge_conditions v i e i' e'] [NCondition v i e; NCondition v' i' e'].
  Proof.
    intros Cm Pr. unfold can_merge_with in Cm. apply andb_prop in Cm. destruct Cm as [Ev Cm]. apply String.eqb_eq in Ev. subst v'.
    apply same_sym. eapply same_trans; [apply (same_app [_] [_] _ _ (same_cond v i e) (same_cond v i' e'))|].
    apply same_sym. unfold merge_conditions.
    assert (Seq : forall l, same [sequence l] l) by (intros l c tr c'; rewrite run_one; apply run_sequence').
    assert (Inner : forall i e : option node, i = None \/ e = None ->
              same (inner_nodes i e) (match i with Some n => [n] | None => match e with Some n => [n] | None => [] end end)).
    { intros [a|] [b|] H; cbn [inner_nodes]; try apply same_flatten; apply same_refl. }
    destruct i as [i|].
    - destruct e as [e|]; [cbn [none andb orb] in Cm; discriminate Cm|]. destruct e' as [e'|]; [cbn [none andb orb] in Cm; discriminate Cm|].
      eapply same_trans; [apply same_cond|]. unfold body, condition_branch. destruct vars as [vs|]; [|apply same_refl].
      destruct (get v vs) as [x|]; [|apply same_refl].
      assert (T : same [sequence (inner_nodes (Some i) None ++ inner_nodes i' None)]
        ([i] ++ match i' with Some n => [n] | None => [] end)).
      { eapply same_trans; [apply Seq|]. apply same_app; apply Inner; right; reflexivity. }
      destruct x as [|fb|iz|u|[|]|s|r|l|o]; try apply same_refl. exact T.
    - destruct e as [e|]; [|discriminate Pr]. destruct i' as [i'|]; [cbn [none andb orb] in Cm; discriminate Cm|].
      eapply same_trans; [apply same_cond|]. unfold body, condition_branch. destruct vars as [vs|]; [|apply same_refl].
      destruct (get v vs) as [x|]; [|apply same_refl].
      assert (T : same [sequence (inner_nodes None (Some e) ++ inner_nodes None e')]
        ([e] ++ match e' with Some n => [n] | None => [] end)).
      { eapply same_trans; [apply Seq|]. apply same_app; apply Inner; left; reflexivity. }
      destruct x as [|fb|iz|u|[|]|s|r|l|o]; try exact T. apply same_refl.
  Qed.

  (** folding under a transformation of the nodes *)
  Section T.
    Variable T : node -> node.
    Variable good : node -> bool.
    Hypothesis HT : forall v i e v' i' e', can_merge_with v i e v' i' e' = true ->
      good (NCondition v i e) = true -> good (NCondition v' i' e') = true ->
      good (merge_conditions v i e i' e') = true /\
      same [T (merge_conditions v i e i' e')] [T (NCondition v i e); T (NCondition v' i' e')].
    Lemma fold_same l : forall acc, forallb good l = true -> forallb good acc = true ->
      same (map T (rev (fold_left fold_step l acc))) (map T (rev acc ++ l)).
    Proof.
      induction l as [|n l IH]; intros acc Hl Ha; [cbn; rewrite app_nil_r; apply same_refl|].
      cbn [forallb] in Hl. apply andb_prop in Hl. destruct Hl as [Hn Hl]. cbn [fold_left].
      assert (D : fold_step acc n = n :: acc -> same (map T (rev (fold_left fold_step l (fold_step acc n)))) (map T (rev acc ++ n :: l))).
      { intros E. rewrite E. eapply same_trans; [apply IH; [exact Hl|cbn [forallb]; rewrite Hn, Ha; reflexivity]|].
        cbn [rev]. rewrite <- app_assoc. apply same_refl. }
      destruct acc as [|m acc]; [apply D; reflexivity|]. destruct m as [f|b|p m|l0|l0|v i e|]; try (apply D; reflexivity).
      destruct n as [f|b|p n|l0|l0|v' i' e'|]; try (apply D; reflexivity).
      cbn [fold_step] in *. destruct (can_merge_with v i e v' i' e') eqn:Cm; [|apply D; reflexivity]. clear D.
      cbn [forallb] in Ha. apply andb_prop in Ha. destruct Ha as [Hm Ha]. destruct (HT v i e v' i' e' Cm Hm Hn) as [G S].
      eapply same_trans; [apply IH; [exact Hl|cbn [forallb]; rewrite G, Ha; reflexivity]|].
      cbn [rev]. rewrite <- !app_assoc. rewrite !map_app. apply same_app; [apply same_refl|]. cbn [map app].
      exact (same_app [_] (map T l) [_; _] (map T l) S (same_refl _)).
    Qed.
  End T.

  Lemma map_id' {A} (l : list A) : map (fun x => x) l = l.
  Proof. induction l as [|a l IH]; [reflexivity|]. cbn. f_equal. exact IH. Qed.
  Lemma ops_same l : forallb proper (flat_map (fun n => match n with NSequence l' => l' | _ => [n] end) l) = true ->
    same (optimize_plan_sequence l) l.
  Proof.
    intros Pr. unfold optimize_plan_sequence. set (fl := flat_map _ l) in *.
    assert (Fl : same fl l).
    { unfold fl. clear. induction l as [|n l IH]; [apply same_refl|]. cbn [flat_map].
      apply (same_app _ _ [n] l); [|exact IH]. exact (same_flatten n). }
    eapply same_trans; [|exact Fl]. pose proof (fold_same (fun x => x) proper) as F.
    specialize (F (fun v i e v' i' e' Cm G _ => conj (merge_proper v i e i' e') (merge_same v i e v' i' e' Cm G)) fl [] Pr eq_refl).
    rewrite !map_id' in F. exact F.
  Qed.

  (** ** Optimising nodes *)
  Variables HF HX : list token -> N.
  Variable info : nat -> option (list sel * list vardef * list string).
  Variable alike : list sel -> list sel -> bool.
  Notation optimize_node := (optimize_node HF HX info alike).
  Notation optimize_parallel := (optimize_parallel HF HX info alike).

  Definition each (l : list node) : option (list node) := all_some (map optimize_node l).
  Lemma each_fix l : (fix go (l : list node) : option (list node) :=
                 match l with
                 | [] => Some []
                 | x :: l' => match optimize_node x, go l' with Some y, Some r => Some (y :: r) | _, _ => None end
                 end) l = each l.
  Proof.
    induction l as [|x l IH]; [reflexivity|]. unfold each in *. cbn [map all_some]. rewrite IH. destruct (optimize_node x); reflexivity.
  Qed.
  Lemma leaf_opt n : leaf n = true -> optimize_node n = Some n.
  Proof.
    induction n as [f|b|p n IH|l IH|l IH|v i e IHi IHe|] using node_ind'; cbn [leaf]; intros H; try discriminate H; try reflexivity.
    - destruct n; try discriminate H; reflexivity.
    - apply andb_prop in H. destruct H as [Hi He]. cbn [QplanModel.optimize_node].
      destruct i as [i|], e as [e|]; cbn [opt_all] in *; rewrite ?IHi, ?IHe by assumption; reflexivity.
  Qed.
  Lemma leaves_each l : forallb leaf l = true -> each l = Some l.
  Proof.
    intros H. unfold each. induction l as [|n l IH]; [reflexivity|]. cbn [forallb] in H. apply andb_prop in H. destruct H as [Hn Hl].
    cbn [map all_some]. rewrite (leaf_opt n Hn), IH by exact Hl. reflexivity.
  Qed.
  Lemma flatten_parallel_leaves l : forallb leaf l = true -> flatten_parallel l = l.
  Proof.
    unfold flatten_parallel. induction l as [|n l IH]; intros H; [reflexivity|]. cbn [forallb] in H. apply andb_prop in H. destruct H as [Hn Hl].
    cbn [flat_map]. rewrite IH by exact Hl. destruct n; try reflexivity. discriminate Hn.
  Qed.
  Lemma parallel_opt l : forallb leaf l = true -> optimize_node (NParallel l) = option_map parallel (optimize_parallel l).
  Proof.
    intros H. cbn [QplanModel.optimize_node]. rewrite each_fix, leaves_each by exact H.
    replace (if forallb is_fetching l then Some l else Some l) with (Some l) by (destruct (forallb is_fetching l); reflexivity).
    rewrite flatten_parallel_leaves by exact H. destruct (optimize_parallel l); reflexivity.
  Qed.

  Lemma simple_if v i e : simple (NCondition v i e) = true ->
    match i with Some n => simple n = true | None => True end /\ match e with Some n => simple n = true | None => True end.
  Proof. cbn [simple]. destruct i as [i|], e as [e|]; intros H; try discriminate H; apply andb_prop in H; tauto. Qed.
  Lemma simple_then v n : simple n = true -> simple (NCondition v (Some n) None) = true /\ simple (NCondition v None (Some n)) = true.
  Proof. cbn [simple]. intros ->. auto. Qed.
  Lemma simple_all_proper l : forallb simple l = true -> forallb proper (flat_map (fun n => match n with NSequence l' => l' | _ => [n] end) l) = true.
  Proof.
    induction l as [|n l IH]; intros H; [reflexivity|]. cbn [forallb] in H. apply andb_prop in H. destruct H as [Hn Hl].
    cbn [flat_map]. apply forallb_app'. split; [|apply IH, Hl].
    assert (S : forallb simple (flatten_sequence n) = true) by (apply (flatten_sequence_all simple (fun l => eq_refl)); exact Hn).
    change (match n with NSequence l' => l' | _ => [n] end) with (flatten_sequence n).
    rewrite forallb_forall in *. intros x I. apply simple_proper, S, I.
  Qed.

  Lemma simple_opt n : simple n = true ->
    exists n', optimize_node n = Some n' /\ simple n' = true /\ same [n'] [n].
  Proof.
    induction n as [f|b|p n IH|l IH|l IH|v i e IHi IHe|] using node_ind'; intros H; try discriminate H;
      try (eexists; split; [reflexivity|split; [exact H|apply same_refl]]).
    - cbn [simple] in H. destruct n; try discriminate H. eexists. split; [reflexivity|]. split; [reflexivity|apply same_refl].
    - cbn [QplanModel.optimize_node]. rewrite each_fix. cbn [simple] in H.
      assert (E : exists l', each l = Some l' /\ forallb simple l' = true /\ same l' l).
      { clear -IH H. unfold each. induction IH as [|n l Hn _ IHl]; [exists []; split; [reflexivity|split; [reflexivity|apply same_refl]]|].
        cbn [forallb] in H. apply andb_prop in H. destruct H as [Sn Sl]. destruct (Hn Sn) as (n' & E1 & E2 & E3).
        destruct (IHl Sl) as (l' & F1 & F2 & F3). exists (n' :: l'). cbn [map all_some]. rewrite E1, F1. split; [reflexivity|].
        split; [cbn [forallb]; rewrite E2, F2; reflexivity|]. exact (same_app [n'] l' [n] l E3 F3). }
      destruct E as (l' & E1 & E2 & E3). rewrite E1. eexists. split; [reflexivity|]. split.
      + apply (sequence_all simple (fun l => eq_refl)). apply (ops_all simple (fun l => eq_refl) simple_if simple_then); [exact E2|].
        apply simple_all_proper, E2.
      + intros c tr c'. rewrite !run_one, run_seq, run_sequence'. rewrite (ops_same l' (simple_all_proper l' E2) c tr c'). apply E3.
    - cbn [QplanModel.optimize_node]. pose proof (simple_if v i e H) as [Hi He].
      assert (Ei : exists i', (match i with None => Some None | Some x => match optimize_node x with Some y => Some (Some y) | None => None end end) = Some i' /\
                 (match i', i with Some a, Some b => simple a = true /\ same [a] [b] | None, None => True | _, _ => False end)).
      { destruct i as [n|]; [|exists None; auto]. destruct (IHi Hi) as (n' & E1 & E2 & E3). rewrite E1. exists (Some n'). auto. }
      assert (Ee : exists i', (match e with None => Some None | Some x => match optimize_node x with Some y => Some (Some y) | None => None end end) = Some i' /\
                 (match i', e with Some a, Some b => simple a = true /\ same [a] [b] | None, None => True | _, _ => False end)).
      { destruct e as [n|]; [|exists None; auto]. destruct (IHe He) as (n' & E1 & E2 & E3). rewrite E1. exists (Some n'). auto. }
      destruct Ei as (i' & E1 & Si). destruct Ee as (e' & E2 & Se). rewrite E1, E2. eexists. split; [reflexivity|]. split.
      + destruct i as [i|], i' as [i'|], e as [e|], e' as [e'|]; try contradiction; try discriminate H; cbn [simple];
          rewrite ?(proj1 Si), ?(proj1 Se); reflexivity.
      + assert (Sb : same (body v i' e') (body v i e)).
        { unfold body, condition_branch. destruct vars as [vs|]; [|apply same_refl]. destruct (get v vs) as [x|]; [|apply same_refl].
          assert (Bi : same (match i' with Some n => [n] | None => [] end) (match i with Some n => [n] | None => [] end))
            by (destruct i, i'; try contradiction; [apply (proj2 Si)|apply same_refl]).
          assert (Be : same (match e' with Some n => [n] | None => [] end) (match e with Some n => [n] | None => [] end))
            by (destruct e, e'; try contradiction; [apply (proj2 Se)|apply same_refl]).
          destruct x as [|fb|iz|u|[|]|s|r|l|o]; assumption. }
        eapply same_trans; [apply same_cond|]. eapply same_trans; [exact Sb|]. apply same_sym, same_cond.
  Qed.

  (** a leaf alone or in a parallel node *)
  Lemma run_leaf_alone n : leaf n = true -> forall c tr c', run n c tr c' <->
    match prepare_job ryu pt xxh vars n (c_data c) with
    | PPanic => False
    | PNone => tr = [] /\ c' = c
    | PJob k => tr = [Sent k; Done k] /\ process_job pt show k (answer k) c = Some c'
    end.
  Proof.
    induction n as [f|b|p n IH|l IH|l IH|v i e IHi IHe|] using node_ind'; cbn [leaf]; intros H c tr c'; try discriminate H.
    1,2: split; intros R; [inversion R as [| | | |? ? k ? _ P E|? ? _ P]; subst; rewrite P; auto|
         match type of R with match ?x with _ => _ end => destruct x as [| |k] eqn:P end;
         [destruct R|destruct R as [-> ->]; apply run_idle; [exact Logic.I|exact P]|destruct R as [-> R]; apply run_leaf; [exact Logic.I|exact P|exact R]]].
    - split; intros R; [inversion R as [| | | |? ? k ? _ P E|? ? _ P]; subst; rewrite P; auto|
         match type of R with match ?x with _ => _ end => destruct x as [| |k] eqn:P end;
         [destruct R|destruct R as [-> ->]; apply run_idle; [exact Logic.I|exact P]|destruct R as [-> R]; apply run_leaf; [exact Logic.I|exact P|exact R]]].
    - apply andb_prop in H. destruct H as [Hi He].
      assert (Bi : match i with Some n => run n c tr c' | None => tr = [] /\ c' = c end <->
        match (match i with Some n' => prepare_job ryu pt xxh vars n' (c_data c) | None => PNone end) with
        | PPanic => False | PNone => tr = [] /\ c' = c | PJob k => tr = [Sent k; Done k] /\ process_job pt show k (answer k) c = Some c' end).
      { destruct i as [n|]; [|reflexivity]. apply (IHi Hi). }
      assert (Be : match e with Some n => run n c tr c' | None => tr = [] /\ c' = c end <->
        match (match e with Some n' => prepare_job ryu pt xxh vars n' (c_data c) | None => PNone end) with
        | PPanic => False | PNone => tr = [] /\ c' = c | PJob k => tr = [Sent k; Done k] /\ process_job pt show k (answer k) c = Some c' end).
      { destruct e as [n|]; [|reflexivity]. apply (IHe He). }
      rewrite run_cond. unfold condition_branch. cbn [prepare_job]. clear IHi IHe.
      destruct vars as [vs|]; [|reflexivity]. destruct (get v vs) as [x|]; [|reflexivity].
      destruct x as [|fb|iz|u|[|]|s|r|l|o]; assumption.
  Qed.
  Lemma run_parallel' l c tr c' : run (NParallel l) c tr c' <->
    exists ks ks', prepare_all ryu pt xxh vars l (c_data c) = Some ks /\ Permutation ks ks' /\
      process_all pt show answer ks' c = Some c' /\ tr = map Sent ks ++ map Done ks'.
  Proof.
    split.
    - intros R. inversion R as [? ? ks ks' ? P Pm E| | | |? ? ? ? F|? ? F]; subst; [|destruct F|destruct F]. exists ks, ks'. auto.
    - intros (ks & ks' & P & Pm & E & ->). econstructor; eassumption.
  Qed.
  Lemma parallel_same l : forallb leaf l = true -> same [parallel l] [NParallel l].
  Proof.
    destruct l as [|n [|m l]]; intros H; try apply same_refl. cbn [parallel]. cbn [forallb] in H. rewrite andb_true_r in H.
    intros c tr c'. rewrite !run_one, (run_leaf_alone n H), run_parallel'. cbn [prepare_all].
    destruct (prepare_job ryu pt xxh vars n (c_data c)) as [| |k].
    - split; [intros []|]. intros (ks & ks' & P & _). discriminate P.
    - split.
      + intros [-> ->]. exists [], []. repeat split. constructor.
      + intros (ks & ks' & P & Pm & E & ->). injection P as <-. apply Permutation_nil in Pm. subst ks'. injection E as <-. auto.
    - split.
      + intros [-> E]. exists [k], [k]. split; [reflexivity|]. split; [apply Permutation_refl|]. split; [|reflexivity]. cbn. rewrite E. reflexivity.
      + intros (ks & ks' & P & Pm & E & ->). injection P as <-. apply Permutation_length_1_inv in Pm. subst ks'. split; [reflexivity|].
        cbn in E. destruct (process_job pt show k (answer k) c); [exact E|discriminate E].
  Qed.

  (** ** A plan of waves *)
  Definition opt_wave (w : list node) : node :=
    match optimize_parallel w with Some r => parallel r | None => NParallel w end.
  Definition opt (n : node) : node := match optimize_node n with Some m => m | None => n end.
  Lemma enumerate_kept l : forall k, flat_map (fun t : nat * node => [snd t]) (enumerate k l) = l.
  Proof. induction l as [|n l IH]; intros k; [reflexivity|]. cbn. f_equal. apply IH. Qed.
  Lemma single_parallel n : optimize_parallel [n] = Some [n].
  Proof.
    unfold QplanModel.optimize_parallel, candidates. cbn [enumerate flat_map fst snd]. destruct (from_node info 0 n) as [c|]; reflexivity.
  Qed.
  Lemma empty_parallel : optimize_parallel [] = Some [].
  Proof. reflexivity. Qed.
  Lemma wave_opt w : forallb leaf w = true -> Forall own_vars (candidates info w) -> optimize_node (parallel w) = Some (opt_wave w).
  Proof.
    intros H Ow. unfold opt_wave. destruct w as [|n [|m w]].
    - reflexivity.
    - rewrite single_parallel. cbn [parallel]. apply leaf_opt. cbn [forallb] in H. rewrite andb_true_r in H. exact H.
    - change (parallel (n :: m :: w)) with (NParallel (n :: m :: w)). rewrite parallel_opt by exact H.
      destruct (optimize_parallel_ok HF HX info alike _ Ow) as (rs & bs & _ & -> & _). reflexivity.
  Qed.

  Definition top_ok (n : node) : bool :=
    match n with NParallel l => forallb step_node l | NSequence _ => false | _ => simple n end.
  Definition owned (n : node) : Prop := match n with NParallel l => Forall own_vars (candidates info l) | _ => True end.
  Lemma step_leaves w : forallb step_node w = true -> forallb leaf w = true.
  Proof. intros H. rewrite forallb_forall in *. intros x I. specialize (H x I). apply andb_prop in H. tauto. Qed.
  Lemma kept_steps w r : forallb step_node w = true -> optimize_parallel w = Some r -> Forall own_vars (candidates info w) -> forallb step_node r = true.
  Proof.
    intros H E Ow. destruct (optimize_parallel_ok HF HX info alike _ Ow) as (rs & bs & _ & E' & _ & _ & _ & (kept & P1 & P2 & _)).
    rewrite E in E'. injection E' as ->. rewrite forallb_forall in *. intros x I. apply (Permutation_in _ P2) in I. apply in_app_iff in I.
    destruct I as [I|I].
    - apply H. eapply Permutation_in; [symmetry; exact P1|]. apply in_or_app. left. exact I.
    - apply in_map_iff in I. destruct I as (gb & <- & _). reflexivity.
  Qed.
  Lemma wave_top w : forallb step_node w = true -> top_ok (parallel w) = true.
  Proof.
    intros H. destruct w as [|n [|m w]]; try exact H. cbn [forallb] in H. rewrite andb_true_r in H. apply andb_prop in H. destruct H as [H1 H2].
    cbn [parallel top_ok]. destruct n; try exact H2; discriminate H1.
  Qed.
  Lemma opt_simple n : simple n = true -> same [opt n] [n].
  Proof. intros H. unfold opt. destruct (simple_opt n H) as (m & -> & _ & S). exact S. Qed.
  Lemma opt_of n : top_ok n = true -> owned n -> optimize_node n = Some (opt n) /\ top_ok (opt n) = true.
  Proof.
    intros H O. assert (G : exists m, optimize_node n = Some m /\ top_ok m = true).
    { destruct n as [f|b|p n|l|l|v i e|]; cbn [top_ok] in H; try discriminate H; try (eexists; split; [reflexivity|exact H]).
      - destruct (simple_opt _ H) as (m & E & Sm & _). exists m. split; [exact E|]. cbn [QplanModel.optimize_node] in E.
        cbn [simple] in H. destruct n; try discriminate H. injection E as <-. reflexivity.
      - rewrite parallel_opt by (apply step_leaves, H). cbn [owned] in O.
        destruct (optimize_parallel_ok HF HX info alike _ O) as (rs & bs & _ & E & _). rewrite E. eexists. split; [reflexivity|].
        apply wave_top. eapply kept_steps; eassumption.
      - destruct (simple_opt _ H) as (m & E & Sm & _). exists m. split; [exact E|]. cbn [QplanModel.optimize_node] in E.
        match type of E with match ?a with _ => _ end = _ => destruct a as [i'|]; [|discriminate E] end.
        match type of E with match ?a with _ => _ end = _ => destruct a as [e'|]; [|discriminate E] end.
        injection E as <-. exact Sm. }
    destruct G as (m & E & T). unfold opt. rewrite E. auto.
  Qed.
  Lemma each_opt l : (forall n, In n l -> top_ok n = true) -> (forall n, In n l -> owned n) -> each l = Some (map opt l).
  Proof.
    unfold each. induction l as [|n l IH]; intros H O; [reflexivity|]. cbn [map all_some].
    destruct (opt_of n (H n (or_introl eq_refl)) (O n (or_introl eq_refl))) as [E _].
    rewrite IH by (intros x I; (apply H || apply O); right; exact I). rewrite E. reflexivity.
  Qed.
  Lemma top_merge v i e v' i' e' : can_merge_with v i e v' i' e' = true -> top_ok (NCondition v i e) = true -> top_ok (NCondition v' i' e') = true ->
    top_ok (merge_conditions v i e i' e') = true /\
    same [opt (merge_conditions v i e i' e')] [opt (NCondition v i e); opt (NCondition v' i' e')].
  Proof.
    cbn [top_ok]. intros Cm H H'.
    assert (S : simple (merge_conditions v i e i' e') = true).
    { apply (merge_all_ok simple (fun l => eq_refl) simple_if simple_then v i e v' i' e' Cm (simple_proper _ H) H H'). }
    split.
    - revert S. unfold merge_conditions. destruct i; intros S; exact S.
    - eapply same_trans; [apply opt_simple, S|]. eapply same_trans; [apply (merge_same v i e v' i' e' Cm (simple_proper _ H))|].
      exact (same_app [_] [_] [_] [_] (same_sym _ _ (opt_simple _ H)) (same_sym _ _ (opt_simple _ H'))).
  Qed.
  Lemma fold_parts (Q : node -> Prop) l : (forall v i e, Q (NCondition v i e)) -> forall acc, Forall Q acc -> Forall Q l -> Forall Q (fold_left fold_step l acc).
  Proof.
    intros Qc. induction l as [|m l IH]; intros acc Ha Hl; [exact Ha|]. inversion Hl; subst. cbn [fold_left]. apply IH; [|assumption].
    assert (D : Forall Q (m :: acc)) by (constructor; assumption).
    unfold fold_step. destruct acc as [|a acc]; [exact D|]. destruct a as [f|b|p a|l0|l0|v i e|]; try exact D.
    destruct m as [f|b|p m|l0|l0|v' i' e'|]; try exact D. destruct (can_merge_with v i e v' i' e'); [|exact D].
    inversion Ha; subst. constructor; [|assumption]. unfold merge_conditions. destruct i; apply Qc.
  Qed.
  Lemma fold_top l : forall acc, forallb top_ok l = true -> forallb top_ok acc = true -> forallb top_ok (fold_left fold_step l acc) = true.
  Proof.
    induction l as [|m l IH]; intros acc Hl Ha; [exact Ha|]. cbn [forallb] in Hl. apply andb_prop in Hl. destruct Hl as [Hm Hl].
    cbn [fold_left]. apply IH; [exact Hl|]. assert (D : forallb top_ok (m :: acc) = true) by (cbn [forallb]; rewrite Hm, Ha; reflexivity).
    unfold fold_step. destruct acc as [|a acc]; [exact D|]. destruct a as [f|b|p a|l0|l0|v i e|]; try exact D.
    destruct m as [f|b|p m|l0|l0|v' i' e'|]; try exact D. destruct (can_merge_with v i e v' i' e') eqn:Cm; [|exact D].
    cbn [forallb] in Ha |- *. apply andb_prop in Ha. destruct Ha as [Hc Ha]. rewrite (proj1 (top_merge _ _ _ _ _ _ Cm Hc Hm)), Ha. reflexivity.
  Qed.
  Lemma no_sequences l : forallb top_ok l = true -> flat_map (fun n => match n with NSequence l' => l' | _ => [n] end) l = l.
  Proof.
    induction l as [|n l IH]; intros H; [reflexivity|]. cbn [forallb] in H. apply andb_prop in H. destruct H as [Hn Hl].
    cbn [flat_map]. rewrite IH by exact Hl. destruct n; try reflexivity. discriminate Hn.
  Qed.
  Lemma top_proper n : top_ok n = true -> proper n = true.
  Proof. destruct n; intros H; try reflexivity. apply simple_proper, H. Qed.
  Lemma top_shaped n : top_ok n = true -> shaped n = true.
  Proof. destruct n; intros H; try (apply simple_shaped, H); [discriminate H|]. apply step_leaves, H. Qed.
  Lemma forallb_rev {A} (f : A -> bool) l : forallb f l = true -> forallb f (rev l) = true.
  Proof. rewrite !forallb_forall. intros H x I. apply H. rewrite in_rev. exact I. Qed.
  Lemma ops_top l : forallb top_ok l = true -> forallb top_ok (optimize_plan_sequence l) = true.
  Proof. intros H. unfold optimize_plan_sequence. rewrite no_sequences by exact H. apply forallb_rev, fold_top; [exact H|reflexivity]. Qed.
  Lemma tops_proper l : forallb top_ok l = true -> forallb proper (flat_map (fun n => match n with NSequence l' => l' | _ => [n] end) l) = true.
  Proof. intros H. rewrite no_sequences by exact H. rewrite forallb_forall in *. intros x I. apply top_proper, H, I. Qed.
  Lemma sequence_shaped l : forallb top_ok l = true -> shaped (sequence l) = true.
  Proof.
    intros H. apply (sequence_all shaped (fun l => eq_refl)). rewrite forallb_forall in *. intros x I. apply top_shaped, H, I.
  Qed.

  Lemma plan_same waves : waves_ok info waves ->
    exists n', plan_of_waves HF HX info alike waves = Some n' /\ shaped n' = true /\ same [n'] (map opt_wave waves).
  Proof.
    intros W. unfold plan_of_waves. set (L := map wave_node waves).
    assert (TL : forallb top_ok L = true).
    { rewrite forallb_forall. intros n I. apply in_map_iff in I. destruct I as (w & <- & I). unfold waves_ok in W. rewrite Forall_forall in W.
      apply wave_top, (W w I). }
    assert (OL : Forall owned L).
    { rewrite Forall_forall. intros n I. apply in_map_iff in I. destruct I as (w & <- & I). unfold waves_ok in W. rewrite Forall_forall in W.
      destruct (W w I) as [Sw Ow]. destruct w as [|a [|b w]]; try exact Ow. cbn [forallb] in Sw. rewrite andb_true_r in Sw.
      unfold wave_node. cbn [parallel]. destruct a; try exact Logic.I. discriminate Sw. }
    assert (M : map opt L = map opt_wave waves).
    { unfold L. rewrite map_map. apply map_ext_in. intros w I. unfold waves_ok in W. rewrite Forall_forall in W. destruct (W w I) as [Sw Ow].
      unfold opt, wave_node. rewrite wave_opt by (try apply step_leaves; assumption). reflexivity. }
    set (A := optimize_plan_sequence L).
    assert (TA : forallb top_ok A = true) by (apply ops_top, TL).
    assert (OA : Forall owned A).
    { unfold A, optimize_plan_sequence. rewrite no_sequences by exact TL. apply Forall_rev, fold_parts; [intros; exact Logic.I|constructor|exact OL]. }
    assert (SA : same (map opt A) (map opt_wave waves)).
    { rewrite <- M. unfold A, optimize_plan_sequence. rewrite no_sequences by exact TL.
      apply (fold_same opt top_ok top_merge L [] TL eq_refl). }
    rewrite Forall_forall in OA. pose proof TA as TA'. rewrite forallb_forall in TA'.
    assert (TO : forallb top_ok (map opt A) = true).
    { rewrite forallb_forall. intros n I. apply in_map_iff in I. destruct I as (m & <- & I). apply opt_of; [apply TA', I|apply OA, I]. }
    assert (K : optimize_node (NSequence A) = Some (sequence (optimize_plan_sequence (map opt A)))).
    { cbn [QplanModel.optimize_node]. rewrite each_fix, each_opt; [reflexivity|exact TA'|exact OA]. }
    assert (G : shaped (sequence (optimize_plan_sequence (map opt A))) = true /\
                same [sequence (optimize_plan_sequence (map opt A))] (map opt_wave waves)).
    { split; [apply sequence_shaped, ops_top, TO|]. intros c tr c'. rewrite run_one, run_sequence'.
      rewrite (ops_same _ (tops_proper _ TO) c tr c'). apply SA. }
    destruct A as [|n [|m A0]] eqn:EA; cbn [sequence].
    - eexists. split; [exact K|exact G].
    - destruct (opt_of n (TA' n (or_introl eq_refl)) (OA n (or_introl eq_refl))) as [E T]. exists (opt n). split; [exact E|].
      split; [apply top_shaped, T|exact SA].
    - eexists. split; [exact K|exact G].
  Qed.

  (** the waves that the optimised plan runs *)
  Definition new_wave (w : list node) : list node := match optimize_parallel w with Some r => r | None => w end.
  Lemma plan_runs waves : waves_ok info waves ->
    exists n', plan_of_waves HF HX info alike waves = Some n' /\ shaped n' = true /\
      forall c tr c', run n' c tr c' <-> run_list (map (fun w => NParallel (new_wave w)) waves) c tr c'.
  Proof.
    intros W. destruct (plan_same waves W) as (n' & E & Sh & S). exists n'. split; [exact E|]. split; [exact Sh|].
    intros c tr c'. rewrite <- run_one, (S c tr c'). revert c tr c'. change (same (map opt_wave waves) (map (fun w => NParallel (new_wave w)) waves)).
    clear E Sh S. induction W as [|w ws [Sw Ow] _ IH]; [apply same_refl|]. cbn [map]. apply (same_app [_] _ [_] _); [|exact IH].
    unfold opt_wave, new_wave. destruct (optimize_parallel_ok HF HX info alike _ Ow) as (rs & bs & _ & E & _). rewrite E.
    apply parallel_same, step_leaves. eapply kept_steps; eassumption.
  Qed.
End R.
