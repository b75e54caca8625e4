From Coq Require Import String List NArith Bool Arith Lia Sorted.
From Verif Require Import StrOrd JsonModel MergeModel MergeSpec Ast TraverseModel TraverseSpec TraverseProofs RewriteModel
  ProjModel ProjSpec RequiresModel RequiresSpec RequiresProofs EntityModel EntitySpec EntityProofs EntityBatch.
Import ListNotations.
Local Open Scope string_scope.

Lemma answered_means pt own ents p d d1 : answered pt own ents p d d1 ->
  (forall q e, selects pt p d q e -> at_path q d1 = Some (merge_opt e (pick (own q) ents))) /\
  (forall q, off_path pt p d q -> at_path q d1 = at_path q d).
Proof.
  intros (ts & M & S & ->). split.
  - intros q e H.
    set (us := map (fun t : list seg * value => (fst t, merge_opt (snd t) (pick (own (fst t)) ents))) ts).
    assert (R : Forall (fun u => at_path (fst u) (replace_all us d) = Some (snd u)) us).
    { apply replace_all_at.
      - unfold us. rewrite map_map. cbn [fst]. exact S.
      - apply Forall_forall. intros u Hu. unfold us in Hu. apply in_map_iff in Hu. destruct Hu as ([q' x] & <- & Hx).
        cbn [fst]. apply M, selects_at_path in Hx. rewrite Hx. discriminate. }
    rewrite Forall_forall in R. apply (R (q, merge_opt e (pick (own q) ents))). unfold us. apply in_map_iff.
    exists (q, e). split; [reflexivity|]. apply M, H.
  - intros q H. apply replace_all_other. apply Forall_forall. intros u Hu. apply in_map_iff in Hu.
    destruct Hu as ([t x] & <- & Hx). cbn [fst]. apply M in Hx. destruct (H t x Hx) as [A B]. split; assumption.
Qed.

(** what [relocated] keeps of an error *)
Definition same_report (e e' : gerror) : Prop :=
  e_message e' = e_message e /\ e_locations e' = e_locations e /\ e_code e' = e_code e /\ e_service e' = e_service e /\
  e_affected e' = e_affected e /\ e_ext e' = e_ext e.
Lemma relocated_kept pos e : relocated pos e <> [] /\ Forall (same_report e) (relocated pos e).
Proof.
  assert (K : [e] <> [] /\ Forall (same_report e) [e]).
  { split; [discriminate|]. constructor; [|constructor]. repeat split. }
  unfold relocated. destruct (e_path e) as [[|[s|i] [|[t|j] rest]]|]; try exact K.
  destruct (String.eqb s "_entities"); [|exact K]. destruct (pos j) as [|q l]; [exact K|].
  split; [discriminate|]. apply Forall_forall. intros x Hx. apply in_map_iff in Hx. destruct Hx as (q0 & <- & _). repeat split.
Qed.

Lemma process_no_entities pt name aff p j out r data : take_entities_by_key "_entities" (r_data r) = None ->
  process_flatten pt name aff p j out r data
  = Some (data, map (tagged name (Some aff)) (match r_errors r with Some es => es | None => [] end)).
Proof.
  intros T. unfold process_flatten. rewrite T. destruct (r_errors r) as [es|]; [|reflexivity]. rewrite handle_errors_none. reflexivity.
Qed.
